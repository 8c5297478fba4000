(** C65: the pseudo-inverse of an operator is its Moore-Penrose inverse.
    [pinv sinv pi_name pi_of K e] is [e.pseudo_inverse()] with the simplifier [K]; [code] is
    the simplifier as it is, [checked] the same, undefined where the sorting of the factors
    of a product moves an operator past one that shares a local space with it. [sinv c] is
    1/c; [pi_obj pi_name x] the unevaluated object PseudoInverse(x). [pseudo_inverse],
    [unitary], [objects_ok], [products_ok], [reversible]: PinvSpec. *)
From Coq Require Import QArith Qcanon Ring.
From Verif Require Import Prelude ListFacts BinModel AlgSpec CAlg OpModel OpSpec OpForm OpProofs1 OpProofs2 OpProofs3 OpFuel OpOrder OpSx OpRun.
From Verif Require Import PinvModel PinvSpec PinvProofs DiffInst LvlInst ConvModel ConvSpec Properties_Op1 Properties_Op2 Properties_Conv.
Local Open Scope nat_scope.

(** ** The equations *)
Section Equations.
  Context (M : calgebra).
  Implicit Types x y z b : A M.
  (** there is at most one *)
  Theorem C65_unique x y z : pseudo_inverse (M:=M) x y -> pseudo_inverse (M:=M) x z -> y = z.
  Proof. apply mp_unique. Qed.
  (** the inverse, when there is one *)
  Theorem C65_of_invertible x y z : amul x z = a1 -> amul z x = a1 -> pseudo_inverse (M:=M) x y -> y = z.
  Proof. intros H G P. apply (mp_unique M x); [exact P|now apply mp_inverse]. Qed.
  (** it solves the equations x z = b that have a solution *)
  Theorem C65_solves x y z b : pseudo_inverse (M:=M) x y -> amul x z = b -> amul x (amul y b) = b.
  Proof. intros P <-. rewrite !amul_assoc. now rewrite (mp_xyx _ _ P). Qed.
  (** projectors are their own *)
  Theorem C65_of_projector x y : star x = x -> amul x x = x -> pseudo_inverse (M:=M) x y -> y = x.
  Proof. intros H G P. apply (mp_unique M x); [exact P|]. constructor; rewrite ?G; auto. Qed.
End Equations.

Section Pinv.
  Context {S : scalars} {dim : nat -> option nat} (I : interp S dim).
  Context (olt : op S -> op S -> bool) (slt : list nat -> list nat -> bool).
  Context (sinv : S -> S) (pi_name : op S -> nat) (pi_of : nat -> option (op S)).
  Context (names_ok : forall n x, pi_of n = Some x -> pi_name x = n).
  Context (squeeze_ok : forall u l, boson (i:=I) l -> unitary (M:=I) (isqueeze (i:=I) u l)).
  Local Notation code := (code dim olt slt).
  Local Notation checked := (checked dim olt slt).
  Local Notation pinv := (pinv sinv pi_name pi_of).
  Local Notation pinv_create := (pinv_create sinv pi_name pi_of).
  Local Notation mp := (pseudo_inverse (M:=I)).
  Local Notation objects_ok := (objects_ok I pi_name pi_of).
  Local Notation products_ok := (products_ok I sinv).
  Local Notation good n e := (legal I e /\ objects_ok (checked n) e /\ products_ok e).

  (** the value of the result is the pseudo-inverse of the value *)
  Theorem C65_value n e e' :
    legal I e -> objects_ok (checked n) e -> products_ok e -> pinv (checked n) e = Ok e' ->
    pinv (code n) e = Ok e' /\ legal I e' /\ mp (value I e) (value I e').
  Proof.
    intros L O P H. split.
    - exact (le_ok _ _ _ (pinv_mono sinv pi_name pi_of _ _ (checked_le olt slt n) e) H).
    - exact (pinv_sound I sinv pi_name pi_of names_ok squeeze_ok _ (checked_sound I olt slt n) e e' L O P H).
  Qed.
  (** it does not depend on the form of the operator *)
  Theorem C65_form_irrelevant n n' e1 e2 p1 p2 : good n e1 -> good n' e2 ->
    pinv (checked n) e1 = Ok p1 -> pinv (checked n') e2 = Ok p2 -> value I e1 = value I e2 -> value I p1 = value I p2.
  Proof.
    intros (L1 & O1 & P1) (L2 & O2 & P2) H1 H2 E. destruct (C65_value n e1 p1 L1 O1 P1 H1) as (_ & _ & M1). destruct (C65_value n' e2 p2 L2 O2 P2 H2) as (_ & _ & M2).
    rewrite <- E in M2. exact (mp_unique I _ _ _ M1 M2).
  Qed.
  (** twice: the original operator *)
  Theorem C65_twice n n' e e' e'' : good n e -> pinv (checked n) e = Ok e' -> objects_ok (checked n') e' -> products_ok e' ->
    pinv (checked n') e' = Ok e'' -> value I e'' = value I e.
  Proof.
    intros (L & O & P) H O' P' H'. destruct (C65_value n e e' L O P H) as (_ & L' & M1). destruct (C65_value n' e' e'' L' O' P' H') as (_ & _ & M2).
    exact (mp_unique I _ _ _ M2 (mp_sym I _ _ M1)).
  Qed.
  (** the adjoint of the pseudo-inverse is the pseudo-inverse of the adjoint *)
  Theorem C65_adjoint n n' e a p q : good n e -> good n' a -> value I a = star (value I e) ->
    pinv (checked n) e = Ok p -> pinv (checked n') a = Ok q -> value I q = star (value I p).
  Proof.
    intros (L & O & P) (L' & O' & P') E H H'. destruct (C65_value n e p L O P H) as (_ & _ & M1). destruct (C65_value n' a q L' O' P' H') as (_ & _ & M2).
    rewrite E in M2. exact (mp_unique I _ _ _ M2 (mp_star I _ _ M1)).
  Qed.
  (** unitary operators: the adjoint; phases, displacements *)
  Theorem C65_unitary n e p : good n e -> unitary (M:=I) (value I e) -> pinv (checked n) e = Ok p -> value I p = star (value I e).
  Proof.
    intros (L & O & P) U H. destruct (C65_value n e p L O P H) as (_ & _ & M1). exact (mp_unique I _ _ _ M1 (mp_unitary I _ U)).
  Qed.
  Theorem C65_multiple n n' c e f p q : good n e -> good n' f -> value I f = smul (ev (r:=I) c) (value I e) -> kmul (ev (r:=I) (sinv c)) (ev (r:=I) c) = k1 ->
    pinv (checked n) e = Ok p -> pinv (checked n') f = Ok q -> value I q = smul (ev (r:=I) (sinv c)) (value I p).
  Proof.
    intros (L & O & P) (L' & O' & P') E Ec H H'. destruct (C65_value n e p L O P H) as (_ & _ & M1). destruct (C65_value n' f q L' O' P' H') as (_ & _ & M2).
    rewrite E in M2. exact (mp_unique I _ _ _ M2 (mp_smul I _ _ _ _ Ec M1)).
  Qed.
  (** PseudoInverse.create of a scalar *)
  Theorem C65_scalar n c e : kmul (ev (r:=I) (sinv c)) (ev (r:=I) c) = k1 -> pinv_create (checked n) (inr c) = Ok e ->
    pinv_create (code n) (inr c) = Ok e /\ legal I e /\ value I e = smul (ev (r:=I) (sinv c)) a1.
  Proof.
    intros Ec H. split; [exact (le_ok _ _ _ (pinv_create_mono sinv pi_name pi_of _ _ (checked_le olt slt n) (inr c)) H)|].
    cbn [PinvModel.pinv_create] in H. destruct (k_scal (checked n) c OOne) as [e'|] eqn:E; [|discriminate H]. cbn [bind] in H.
    destruct (s_scal I _ (checked_sound I olt slt n) c OOne e' Logic.I E) as [L' V'].
    assert (objects_ok (checked n) e' /\ products_ok e') as [O' P'].
    { destruct n as [|n]; [discriminate E|]. cbn in E. unfold scal_step in E. destruct (seqb c s1); [injection E as <-; split; [intros x []|exact Logic.I]|].
      destruct (seqb c s0); injection E as <-; (split; [intros x []|]); [exact Logic.I|]. split; [exact Ec|exact Logic.I]. }
    destruct (C65_value n e' e L' O' P' H) as (_ & L & M1). split; [exact L|]. rewrite V' in M1. apply (mp_unique I _ _ _ M1). cbn [value].
    apply (mp_smul I); [exact Ec|apply mp_1].
  Qed.
  (** unevaluated objects: PseudoInverse(PseudoInverse(x)) is x *)
  Theorem C65_object K x : pi_of (pi_name x) = Some x -> pinv K (pi_obj pi_name x) = Ok x.
  Proof. intros E. cbn. rewrite E. destruct (list_eq_dec Nat.eq_dec (space x) (space x)); [reflexivity|congruence]. Qed.
  (** products of operators on different spaces, and of unitary operators *)
  Theorem C65_apart_factors l : ForallOrdPairs (fun x y => apart (space x) (space y)) l -> reversible I l.
  Proof.
    induction 1 as [|x l Hx Hl IH]; [constructor|]. apply (rv_apart I [x] l); [constructor|exact IH|].
    intros y z [<-|[]] Hz. rewrite Forall_forall in Hx. now apply Hx.
  Qed.
  Theorem C65_unitary_factors l : Forall (fun x => unitary (M:=I) (value I x)) l -> reversible I l.
  Proof.
    induction 1 as [|x l Hx Hl IH]; [constructor|]. apply (rv_left I [x] l); [constructor|exact IH|].
    cbn. now rewrite amul_1r.
  Qed.
  Theorem C65_unitary_atoms u l : (boson (i:=I) l -> kconj (ev (r:=I) u) = ev u -> unitary (M:=I) (value I (OAtom (APhase u l))))
    /\ (displ (i:=I) l -> unitary (M:=I) (value I (OAtom (ADisp u l)))) /\ (boson (i:=I) l -> unitary (M:=I) (value I (OAtom (ASqueeze u l)))).
  Proof.
    split; [|split]; cbn [value atom_val].
    - apply unitary_phase.
    - apply unitary_disp.
    - apply squeeze_ok.
  Qed.
End Pinv.

(** ** A product whose pseudo-inverse is not the reversed product of the pseudo-inverses *)
Section Two.
  Context {S : scalars} {dim : nat -> option nat} (I : interp S dim) (l : nat) (Hl : exists n, dim l = Some n /\ 2 <= n).
  Local Notation s j k := (isigma (i:=I) j k l).
  Lemma ss a b c d : a < 2 -> b < 2 -> c < 2 -> d < 2 -> amul (s a b) (s c d) = if b =? c then s a d else a0.
  Proof. intros. apply (sigma_sigma _ _ I). destruct Hl as (n & E & Hn). rewrite E. intros m Em. injection Em as <-. lia. Qed.
  Definition half_sum : A I := smul khalf (aadd (s 0 0) (s 1 0)).
  Lemma half_twice (x : A I) : smul khalf (aadd x x) = x.
  Proof. rewrite smul_addr, <- smul_addl, khalf_2. apply smul_1. Qed.
  Lemma two_level_mp : pseudo_inverse (M:=I) (aadd (s 0 0) (s 0 1)) half_sum.
  Proof.
    unfold half_sum. set (A := aadd (s 0 0) (s 0 1)).
    assert (amul A (smul khalf (aadd (s 0 0) (s 1 0))) = s 0 0) as P.
    { unfold A. rewrite smul_amul_r, amul_addl, !amul_addr, !ss by lia. cbn [Nat.eqb]. rewrite aadd_0r, aadd_0. apply half_twice. }
    constructor.
    - rewrite P. unfold A. rewrite amul_addr, !ss by lia. reflexivity.
    - rewrite <- amul_assoc, P, smul_amul_l, amul_addl, !ss by lia. reflexivity.
    - unfold A. rewrite smul_amul_l, amul_addl, !amul_addr, !ss by lia. cbn [Nat.eqb]. rewrite star_smul, khalf_conj, !star_add, !(sigma_star _ _ I). f_equal.
      rewrite !aadd_assoc. f_equal. rewrite <- !aadd_assoc. f_equal. apply aadd_comm.
    - rewrite P. apply sigma_star.
  Qed.
End Two.

(** ** A two- and a three-level system; the symbol 7 on the first is the pseudo-inverse of |0><0| + |0><1| *)
Definition two_sites : NoDup [0; 1].
Proof. repeat constructor; cbn; intros H; intuition lia. Qed.
Definition J0 : interp Sx cdim := lvl_interp xr cdim [0; 1] two_sites.
Definition Jsym (n : nat) (h : list nat) : A J0 := match h with [0] => if n =? 7 then half_sum J0 0 else a0 | _ => a0 end.
Lemma Jsym_lives n h : lives (i:=J0) h (Jsym n h).
Proof.
  destruct h as [|[|p] [|q h]]; try (eapply lives_incl; [|apply lives_0]; intros x []). unfold Jsym. destruct (n =? 7).
  - apply lives_smul, lives_add; apply lives_sigma.
  - eapply lives_incl; [|apply lives_0]. intros x [].
Qed.
Definition J : interp Sx cdim := with_syms J0 Jsym Jsym_lives.
Definition lv (j k l : nat) : op Sx := OAtom (ASigma j k l).
Definition xA : op Sx := OPlus [lv 0 0 0; lv 0 1 0].
Definition xpi_name (x : op Sx) : nat := if oeqb x xA then 7 else 8.
Definition xpi_of (n : nat) : option (op Sx) := if n =? 7 then Some xA else None.
Definition xinv (c : Sx) : Sx := match c with XQ q => XQ (/ q)%Qc | _ => c end.
Notation xpinv := (pinv xinv xpi_name xpi_of (checked cdim xolt xslt 8)).
Lemma xnames n x : xpi_of n = Some x -> xpi_name x = n.
Proof. unfold xpi_of. destruct (Nat.eqb_spec n 7) as [-> |]; [|discriminate]. intros E. injection E as <-. vm_compute. reflexivity. Qed.
Lemma xA_mp : legal J xA /\ pseudo_inverse (M:=J) (value J xA) (isym (i:=J) (xpi_name xA) (space xA)).
Proof.
  split; [cbn; repeat split; lia|]. change (xpi_name xA) with 7. change (space xA) with [0]. cbn [value map msum fold_right xA lv atom_val].
  change (pseudo_inverse (M:=J0) (aadd (isigma (i:=J0) 0 0 0) (aadd (isigma (i:=J0) 0 1 0) a0)) (half_sum J0 0)). rewrite aadd_0r.
  apply two_level_mp. exists 2. split; [reflexivity|lia].
Qed.
Definition xe : op Sx := OScal (num 2) (OTimes [xA; lv 0 1 1]).
Example C65_ex : legal J xe /\ objects_ok J xpi_name xpi_of (checked cdim xolt xslt 8) xe /\ products_ok J xinv xe
  /\ is_ok (xpinv xe) (OScal (XQ (/ qn 2)%Qc) (OTimes [pi_obj xpi_name xA; lv 1 0 1])) = true.
Proof.
  split; [cbn; repeat split; lia|]. split; [|split].
  - intros x [<-|[]]. exact xA_mp.
  - split.
    + change (kmul (kQ (r:=J) (/ qn 2)%Qc) (kQ (r:=J) (qn 2)) = k1). rewrite <- (kQ_mul _ J). replace (/ qn 2 * qn 2)%Qc with 1%Qc by (apply Qc_is_canon; reflexivity). apply kQ_1.
    + split; [|cbn; tauto]. apply (C65_apart_factors J). repeat constructor. cbn. intros p [<-|[]] [H|[]]. discriminate H.
  - vm_compute. reflexivity.
Qed.
Example C65_ex_twice : is_ok (xpinv (OTimes [pi_obj xpi_name xA; lv 1 0 1])) (OTimes [xA; lv 0 1 1]) = true.
Proof. vm_compute. reflexivity. Qed.

Lemma s00_nonzero : isigma (i:=J) 0 0 0 <> a0.
Proof.
  intros H. change (lsigma xr cdim [0; 1] 0 0 0 = of_mat xr cdim [0; 1] (mzero xr)) in H. unfold lsigma in H. cbn [sp_mem existsb Nat.eqb orb] in H.
  apply of_mat_inj in H. specialize (H 0 0 ltac:(cbn; lia) ltac:(cbn; lia)). unfold at_site in H. cbn [forallb Nat.eqb orb andb] in H.
  rewrite !Nat.eqb_refl in H. cbn [andb] in H. change (digit cdim [0; 1] 0 0) with 0 in H. 
  exact (c1_c0 H).
Qed.
(** (|0><0| + |0><1|) |0><0| is |0><0|, but the result is half of it *)
Definition xbad : op Sx := OTimes [xA; lv 0 0 0].
Theorem C65_product_refuted : exists e', legal J xbad /\ objects_ok J xpi_name xpi_of (checked cdim xolt xslt 8) xbad
  /\ xpinv xbad = Ok e' /\ pinv xinv xpi_name xpi_of (code cdim xolt xslt 8) xbad = Ok e' /\ ~ pseudo_inverse (M:=J) (value J xbad) (value J e').
Proof.
  exists (OTimes [lv 0 0 0; pi_obj xpi_name xA]). split; [cbn; repeat split; lia|]. split; [|split; [|split]].
  - intros x [<-|[]]. exact xA_mp.
  - vm_compute. reflexivity.
  - vm_compute. reflexivity.
  - intros H. cbn [xbad value map mprod msum fold_right xA lv atom_val pi_obj] in H. rewrite !amul_1r, aadd_0r in H.
    change (isym (i:=J) (xpi_name xA) (space xA)) with (half_sum J 0) in H.
    assert (exists n, cdim 0 = Some n /\ 2 <= n) as Hl by (exists 2; split; [reflexivity|lia]).
    unfold half_sum in H. rewrite amul_addl, smul_amul_r, amul_addr, !(ss J 0 Hl) in H by lia. cbn [Nat.eqb] in H. rewrite !aadd_0r in H.
    assert (pseudo_inverse (M:=J) (isigma (i:=J) 0 0 0) (isigma (i:=J) 0 0 0)) as G by (constructor; rewrite ?(ss J 0 Hl), ?(sigma_star _ _ J) by lia; cbn [Nat.eqb]; rewrite ?(ss J 0 Hl), ?(sigma_star _ _ J) by lia; reflexivity).
    pose proof (mp_unique J _ _ _ H G) as E. apply s00_nonzero. pose proof (half_twice J (isigma (i:=J) 0 0 0)) as F. rewrite smul_addr, E in F.
    transitivity (aadd (aadd (isigma (i:=J) 0 0 0) (isigma (i:=J) 0 0 0)) (smul (kopp k1) (isigma (i:=J) 0 0 0))); [|rewrite F; apply aadd_opp].
    rewrite <- aadd_assoc, aadd_opp, aadd_0r. reflexivity.
Qed.

(** displacements and phases on an oscillator *)
Lemma jet_squeeze u l : boson (i:=xjet) l -> unitary (M:=xjet) (isqueeze (i:=xjet) u l).
Proof.
  intros Hb. change (isqueeze (i:=xjet) u l) with (isqueeze (i:=xjet) k0 l). rewrite (squeeze_0 _ _ xjet) by exact Hb. split; rewrite star_1; apply amul_1l.
Qed.
Definition xu : op Sx := OScal (num 2) (OTimes [OAtom (ADisp (num 3) 0); OAtom (APhase (num 1) 0); lv 0 1 6]).
Example C65_ex_unitary : legal xjet xu /\ objects_ok xjet xpi_name xpi_of (xchecked 8) xu /\ products_ok xjet xinv xu
  /\ is_ok (pinv xinv xpi_name xpi_of (xchecked 8) xu) (OScal (XQ (/ qn 2)%Qc) (OTimes [OAtom (APhase (num (-1)) 0); OAtom (ADisp (num (-3)) 0); lv 1 0 6])) = true.
Proof.
  split; [cbn; unfold level; cbn; repeat split; try reflexivity; lia|]. split; [intros x []|]. split; [|vm_compute; reflexivity].
  split.
  - change (kmul (kQ (r:=xjet) (/ qn 2)%Qc) (kQ (r:=xjet) (qn 2)) = k1). rewrite <- (kQ_mul _ xjet). replace (/ qn 2 * qn 2)%Qc with 1%Qc by (apply Qc_is_canon; reflexivity). apply kQ_1.
  - split; [|cbn; tauto]. apply (rv_apart xjet [OAtom (ADisp (num 3) 0); OAtom (APhase (num 1) 0)] [lv 0 1 6]); [| constructor|].
    + apply (C65_unitary_factors xjet). apply Forall_cons; [|apply Forall_cons; [|apply Forall_nil]].
      * apply (unitary_disp xjet). reflexivity.
      * apply (unitary_phase xjet); [reflexivity|exact (kQ_real _ xjet (qz 1))].
    + intros x y [<-|[<-|[]]] [<-|[]] p [<-|[]] [H|[]]; discriminate H.
Qed.
Example C65_ex_scalar : is_ok (pinv_create xinv xpi_name xpi_of (xchecked 8) (inr (num 2))) (OScal (XQ (/ qn 2)%Qc) OOne) = true.
Proof. vm_compute. reflexivity. Qed.

Print Assumptions C65_unique.
Print Assumptions C65_of_invertible.
Print Assumptions C65_solves.
Print Assumptions C65_of_projector.
Print Assumptions C65_value.
Print Assumptions C65_form_irrelevant.
Print Assumptions C65_twice.
Print Assumptions C65_adjoint.
Print Assumptions C65_unitary.
Print Assumptions C65_multiple.
Print Assumptions C65_scalar.
Print Assumptions C65_object.
Print Assumptions C65_apart_factors.
Print Assumptions C65_unitary_factors.
Print Assumptions C65_unitary_atoms.
Print Assumptions C65_product_refuted.
