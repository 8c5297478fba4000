(** C64 writing an operator in a basis: Operator.expand_in_basis and
    HilbertSpace.basis_states. Kets, operators and their products as in C43: [kcode] is the
    simplifier as it is, [kchecked] is undefined where the sorting of the factors of a
    product moves one past another that shares a local space with it (and in the two other
    cases named in Properties_Ket); [kb a b] is the object KetBra(a, b), [sexpand] the
    expansion of a scalar, of which only is assumed that it keeps the value. *)
From Coq Require Import Reals QArith Qcanon.
From Verif Require Import Prelude ListFacts SortModel BinModel AlgSpec CAlg Cplx OpModel OpSpec OpForms OpProofs1 OpProofs2 OpProofs3 OpFuel OpOrder OpLocal OpSx OpSites OpRun.
From Verif Require Import Properties_Op1 TrInst KetModel KetSpec KetProofs1 KetProofs2 KetFuel KetInst KetInst2 Properties_Ket XbModel XbProofs XbProofs2.
Local Open Scope nat_scope.

Section Xb.
  Context {S : scalars} {dim : nat -> option nat} {I : interp S dim} (W : kets I).
  Context (olt : op S -> op S -> bool) (slt : list nat -> list nat -> bool) (klt : ket S -> ket S -> bool).
  Context (bk : ket S -> ket S -> S) (kb : ket S -> ket S -> op S) (Hbk : bk_ok W bk) (Hkb : kb_ok W kb).
  Context (real : S -> bool) (Hreal : forall u, real u = true -> kconj (ev (r:=I) u) = ev u).
  Context (sexpand : S -> res S) (Hexp : forall c c', sexpand c = Ok c' -> ev (r:=I) c' = ev c).
  Local Notation code := (code dim olt slt).
  Local Notation checked := (checked dim olt slt).
  Local Notation kcode := (kcode dim olt slt klt bk kb).
  Local Notation kchecked := (kchecked dim olt slt klt bk kb real).
  Local Notation klegal := (klegal (I:=I)).
  Local Notation kvalue := (kvalue W).
  Local Notation run n m a given herm := (expand_in_basis (code n) (kcode n m) kb sexpand dim a given herm).
  Local Notation run_checked n m a given herm := (expand_in_basis (checked n) (kchecked n m) kb sexpand dim a given herm).
  (** [|k><k|] summed over [states] *)
  Definition projector (h : list nat) (states : list (ket S)) : A I := msum I (map (fun k => outer (w:=W) h (kvalue k) (kvalue k)) states).
  (** the levels of each local space in [h] resolve the identity: the sum of |j><j| is 1 *)
  Definition complete_levels (h : list nat) : Prop := forall l d, In l h -> dim l = Some d -> msum I (map (fun j => isigma j j l) (seq 0 d)) = a1.

  Lemma le_rmap {X Y} (f : X -> Y) (r r' : res X) : le r r' -> le (rmap f r) (rmap f r').
  Proof. intros [[-> | ->] | ->]; [left; now left|left; now right|apply le_refl]. Qed.
  Lemma xb_le n m a given herm : le (run_checked n m a given herm) (run n m a given herm).
  Proof.
    pose proof (checked_le (dim:=dim) olt slt n) as HK. pose proof (kle (dim:=dim) olt slt klt bk kb real n m) as HQ.
    assert (forall ki kj, le (xterm (checked n) (kchecked n m) kb sexpand a ki kj) (xterm (code n) (kcode n m) kb sexpand a ki kj)) as Ht.
    { intros ki kj. unfold xterm. apply le_bind.
      - unfold matrix_element. apply le_bind.
        + cbn [mul_op]. apply le_bind; [apply (oadj_mono _ _ HK)|]. intros a'. apply le_rmap. apply (l_op _ _ HQ).
        + intros b. apply le_bind; [|intros p; apply le_refl]. destruct b as [k|k]; cbn [state_mul]; apply le_rmap; [apply (l_tens _ _ HQ)|apply (l_bk _ _ HQ)].
      - intros c. apply le_bind; [apply le_refl|]. intros e. apply (m_scal _ _ HK). }
    unfold expand_in_basis. apply le_bind; [apply le_refl|]. intros states. apply le_bind.
    - apply le_mapM. intros [i k]. apply le_mapM. intros [j k']. apply le_bind; [apply Ht|]. intros; apply le_refl.
    - intros rows. cbn zeta. destruct herm.
      + apply le_bind; [apply (m_plus _ _ HK)|]. intros r. destruct (map snd _) as [|t ts]; [apply le_refl|]. apply le_bind; [apply (m_plus _ _ HK)|]. intros t'. apply (m_plus _ _ HK).
      + apply le_bind; [apply (m_plus _ _ HK)|]. intros r. apply le_bind; [apply (m_plus _ _ HK)|]. intros t'. apply (m_plus _ _ HK).
  Qed.
  Lemma span_projector h states : span W h states = projector h states.
  Proof. unfold span, projector. rewrite msum_map. reflexivity. Qed.

  (** ** Given states on a space that contains the space of the operator *)
  Theorem C64_given_value n m a h states r : legal I a -> incl (space a) h ->
    Forall klegal states -> same_kets h states -> run_checked n m a (Some states) false = Ok r ->
    run n m a (Some states) false = Ok r
    /\ legal I r /\ value I r = amul (projector h states) (amul (value I a) (projector h states)).
  Proof.
    intros La Hi Hk Hs H. split; [exact (le_ok _ _ _ (xb_le n m a _ _) H)|]. rewrite <- !span_projector.
    apply (given_value W _ _ (checked_sound I olt slt n) (ksound W olt slt klt bk kb Hbk Hkb real Hreal n m) kb Hkb sexpand Hexp h a states false r La Hi); [|discriminate|exact H].
    rewrite Forall_forall in *. intros k Hin. split; [now apply Hk|]. destruct (zero_dec k) as [->|Hz]; [now left|right; now apply Hs].
  Qed.
  (** states that resolve the identity: the operator itself *)
  Theorem C64_complete_value n m a h states r : legal I a -> incl (space a) h ->
    Forall klegal states -> same_kets h states -> projector h states = a1 -> run_checked n m a (Some states) false = Ok r ->
    run n m a (Some states) false = Ok r /\ legal I r /\ value I r = value I a.
  Proof.
    intros La Hi Hk Hs Hp H. destruct (C64_given_value n m a h states r La Hi Hk Hs H) as (E & L & V). split; [exact E|]. split; [exact L|]. now rewrite V, Hp, amul_1l, amul_1r.
  Qed.
  (** [hermitian=True], for an operator that is Hermitian *)
  Theorem C64_hermitian_value n m a h states r : legal I a -> incl (space a) h -> star (value I a) = value I a ->
    Forall klegal states -> same_kets h states -> run_checked n m a (Some states) true = Ok r ->
    run n m a (Some states) true = Ok r
    /\ legal I r /\ value I r = amul (projector h states) (amul (value I a) (projector h states)).
  Proof.
    intros La Hi Ha Hk Hs H. split; [exact (le_ok _ _ _ (xb_le n m a _ _) H)|]. rewrite <- !span_projector.
    apply (given_value W _ _ (checked_sound I olt slt n) (ksound W olt slt klt bk kb Hbk Hkb real Hreal n m) kb Hkb sexpand Hexp h a states true r La Hi); [|intros _; exact Ha|exact H].
    rewrite Forall_forall in *. intros k Hin. split; [now apply Hk|]. destruct (zero_dec k) as [->|Hz]; [now left|right; now apply Hs].
  Qed.
  (** both forms agree on Hermitian operators *)
  Theorem C64_forms_agree n m n' m' a h states r r' : legal I a -> incl (space a) h -> star (value I a) = value I a ->
    Forall klegal states -> same_kets h states -> run_checked n m a (Some states) false = Ok r -> run_checked n' m' a (Some states) true = Ok r' -> value I r = value I r'.
  Proof.
    intros La Hi Ha Hk Hs H H'. destruct (C64_given_value n m a h states r La Hi Hk Hs H) as (_ & _ & ->). now destruct (C64_hermitian_value n' m' a h states r' La Hi Ha Hk Hs H') as (_ & _ & ->).
  Qed.

  (** ** The canonical basis *)
  Lemma complete_forall h : complete_levels h -> Forall (complete_level (I:=I)) h.
  Proof. intros H. apply Forall_forall. intros l Hl d Hd. now apply (H l d). Qed.
  Theorem C64_basis_legal h l : NoDup h -> basis_states dim h = Ok l -> Forall klegal l /\ forall k, In k l -> same_set (kspace k) h.
  Proof.
    intros Hn H. pose proof (states_kat W h l Hn H) as HK. rewrite Forall_forall in *. split; [intros k Hk; exact (proj1 (HK k Hk))|].
    intros k Hk. destruct (proj2 (HK k Hk)) as [->|G]; [|exact G]. exfalso. clear HK. destruct h as [|x [|y h]].
    - injection H as <-. destruct Hk as [Q|[]]. discriminate Q.
    - unfold basis_states, local_states in H. destruct (dim x); [|discriminate H]. injection H as <-. apply in_map_iff in Hk. destruct Hk as (j & Q & _). discriminate Q.
    - unfold basis_states in H. destruct (mapM _ _) as [ls|]; [|discriminate H]. injection H as <-. apply in_map_iff in Hk. destruct Hk as (t & Q & _). discriminate Q.
  Qed.
  (** orthonormal, of the dimension of the space, and complete *)
  Theorem C64_basis_orthonormal h l i j k k' : h <> [] -> NoDup h -> basis_states dim h = Ok l -> nth_error l i = Some k -> nth_error l j = Some k' ->
    inner (w:=W) h (kvalue k) (kvalue k') = if i =? j then k1 else k0.
  Proof. exact (states_orthonormal W h l i j k k'). Qed.
  Theorem C64_basis_complete h l : h <> [] -> NoDup h -> complete_levels h -> basis_states dim h = Ok l -> projector h l = a1.
  Proof. intros Hne Hn Hc H. rewrite <- span_projector. now apply (states_span W h l Hne Hn (complete_forall h Hc)). Qed.
  (** the default: the basis of the operator's space *)
  Theorem C64_default_value n m a r : legal I a -> space a <> [] -> NoDup (space a) -> complete_levels (space a) ->
    run_checked n m a None false = Ok r -> run n m a None false = Ok r /\ legal I r /\ value I r = value I a.
  Proof.
    intros La Hne Hn Hc H. destruct (basis_states (S:=S) dim (space a)) as [l|] eqn:E; [|unfold expand_in_basis in H; rewrite E in H; discriminate H].
    assert (forall Q Q' herm, expand_in_basis Q Q' kb sexpand dim a None herm = expand_in_basis Q Q' kb sexpand dim a (Some l) herm) as Q by (intros; unfold expand_in_basis; rewrite E; reflexivity).
    rewrite Q in H |- *. destruct (C64_basis_legal _ l Hn E) as [Hk Hs]. apply (C64_complete_value n m a (space a) l r La (incl_refl _) Hk); [intros k Hin _; now apply Hs| |exact H].
    now apply C64_basis_complete.
  Qed.
  Theorem C64_default_hermitian n m a r : legal I a -> space a <> [] -> NoDup (space a) -> complete_levels (space a) -> star (value I a) = value I a ->
    run_checked n m a None true = Ok r -> run n m a None true = Ok r /\ legal I r /\ value I r = value I a.
  Proof.
    intros La Hne Hn Hc Ha H. destruct (basis_states (S:=S) dim (space a)) as [l|] eqn:E; [|unfold expand_in_basis in H; rewrite E in H; discriminate H].
    assert (forall Q Q' herm, expand_in_basis Q Q' kb sexpand dim a None herm = expand_in_basis Q Q' kb sexpand dim a (Some l) herm) as Q by (intros; unfold expand_in_basis; rewrite E; reflexivity).
    rewrite Q in H |- *. destruct (C64_basis_legal _ l Hn E) as [Hk Hs]. destruct (C64_hermitian_value n m a (space a) l r La (incl_refl _) Ha Hk) as (G1 & G2 & G3); [intros k Hin _; now apply Hs|exact H|].
    split; [exact G1|]. split; [exact G2|]. rewrite G3. rewrite (C64_basis_complete _ l Hne Hn Hc E). now rewrite amul_1l, amul_1r.
  Qed.
End Xb.

Section Free.
  Context {S : scalars} (dim : nat -> option nat).
  (** the number of basis states is the dimension of the space *)
  Theorem C64_basis_size h l : basis_states (S:=S) dim h = Ok l -> length l = fold_right (fun x n => match dim x with Some d => d * n | None => 0 end) 1 h.
  Proof. exact (states_length dim h l). Qed.
  (** basis_states is defined exactly if all local spaces have a basis; an operator on a
      space without one cannot be expanded in the canonical basis *)
  Theorem C64_no_basis h : (exists l, basis_states (S:=S) dim h = Ok l) <-> forall x, In x h -> dim x <> None.
  Proof.
    assert (forall g, (exists ls, mapM (local_states (S:=S) dim) g = Ok ls) <-> forall x, In x g -> dim x <> None) as G.
    { induction g as [|x g IH]; [split; [intros _ y []|intros _; now exists []]|]. cbn [mapM]. unfold local_states at 1. split.
      - destruct (dim x) as [d|] eqn:E; [|intros (ls & Q); discriminate Q]. cbn [bind]. intros (ls & Q). destruct (mapM _ g) as [r|]; [|discriminate Q].
        intros y [<-|Hy]; [now rewrite E|]. apply (proj1 IH); [now exists r|exact Hy].
      - intros H. destruct (dim x) as [d|] eqn:E; [|now elim (H x (or_introl eq_refl))]. cbn [bind]. destruct (proj2 IH) as (r & ->); [intros y Hy; apply H; now right|]. cbn [bind]. now eexists. }
    destruct h as [|x [|y h]].
    - split; [intros _ z []|intros _; now exists [KTriv]].
    - specialize (G [x]). rewrite <- G. unfold basis_states. cbn [mapM]. destruct (local_states dim x) as [s|e]; cbn [bind]; split; intros (l & Q); try discriminate Q; now eexists.
    - rewrite <- (G (x :: y :: h)). unfold basis_states. destruct (mapM _ _) as [ls|e]; cbn [bind]; split; intros (l & Q); try discriminate Q; now eexists.
  Qed.
  Theorem C64_no_basis_error (K : ocreators S) Q kb sexpand a herm x : In x (space a) -> dim x = None ->
    expand_in_basis K Q kb sexpand dim a None herm = Err BasisNotSetError.
  Proof.
    intros Hx Hd. unfold expand_in_basis.
    assert (forall g, In x g -> mapM (local_states (S:=S) dim) g = Err BasisNotSetError) as G.
    { induction g as [|y g IH]; intros Hin; [destruct Hin|]. cbn [mapM]. unfold local_states at 1. destruct (dim y) as [d|] eqn:E; [|reflexivity]. cbn [bind].
      destruct Hin as [->|Hin]; [rewrite Hd in E; discriminate E|]. now rewrite (IH Hin). }
    assert (basis_states (S:=S) dim (space a) = Err BasisNotSetError) as ->; [|reflexivity].
    destruct (space a) as [|y [|z h]]; [destruct Hx| |].
    - destruct Hx as [->|[]]. unfold basis_states, local_states. now rewrite Hd.
    - unfold basis_states. now rewrite (G _ Hx).
  Qed.
End Free.

(** ** Examples *)
Definition xb_dim (l : nat) : option nat := Some 2.
(** here KetBra of two basis states is told apart from other objects by its symbol *)
Definition xb_kb (a b : ket Sx) : op Sx := sym (match a, b with KBasis i _, KBasis j _ => 10 * i + j | _, _ => 99 end) (kspace a).
Definition xb_run (a : op Sx) (given : option (list (ket Sx))) (herm : bool) : res (op Sx) :=
  expand_in_basis (checked xb_dim xolt xslt 9) (kchecked xb_dim xolt xslt klt0 bk0 xb_kb (fun _ => false) 9 9) xb_kb Ok xb_dim a given herm.
Definition xb_is (r : res (op Sx)) (e : op Sx) : bool := match r with Ok x => oeqb x e | Err _ => false end.
(** products of matrix units of one and two local systems. In the sum below the matrix
    elements are objects BraKet(.), here the number 7 ([bk0]). *)
Example C64_expand_example :
  xb_is (xb_run (OAtom (ASigma 0 1 0)) None false) (sym 1 [0]) = true
  /\ xb_is (xb_run (OScal (OpRun.num 3) (OAtom (ASigma 0 0 0))) None true) (OScal (OpRun.num 3) (sym 0 [0])) = true
  /\ xb_is (xb_run (OTimes [OAtom (ASigma 0 1 0); OAtom (ASigma 1 1 1)]) (Some [KTensor [KBasis 0 0; KBasis 1 1]; KTensor [KBasis 1 0; KBasis 1 1]]) false) (sym 99 [0; 1]) = true
  /\ xb_is (xb_run (OPlus [OAtom (ASigma 0 1 0); OAtom (ASigma 1 0 0)]) None true)
       (OPlus [OScal (OpRun.num 7) (sym 0 [0]); OScal (OpRun.num 7) (sym 11 [0]); OPM true (OScal (OpRun.num 7) (sym 1 [0]))]) = true
  /\ match basis_states (S:=Sx) xb_dim [0; 1] with Ok l => length l =? 4 | Err _ => false end = true.
Proof. vm_compute. repeat split; reflexivity. Qed.
(** [hermitian=True] on an operator that is not Hermitian: nothing remains of |1><0|, while
    |0><1| gains its adjoint *)
Theorem C64_hermitian_needed :
  xb_is (xb_run (OAtom (ASigma 1 0 0)) None true) OZero = true
  /\ xb_is (xb_run (OAtom (ASigma 0 1 0)) None true) (OPM true (sym 1 [0])) = true.
Proof. vm_compute. split; reflexivity. Qed.
(** registers of two-level systems meet the hypotheses *)
Example C64_register_example : complete_levels (I:=register 2 cs_reading F1 F1_reg) [0; 1]
  /\ space (OTimes (S:=Cs) [OAtom (ASigma 0 1 0); OAtom (ASigma 1 1 1)]) = [0; 1] /\ NoDup [0; 1]
  /\ legal (register 2 cs_reading F1 F1_reg) (OTimes [OAtom (ASigma 0 1 0); OAtom (ASigma 1 1 1)])
  /\ star (value (register 2 cs_reading F1 F1_reg) (OTimes [OAtom (ASigma 0 0 0); OAtom (ASigma 1 1 1)])) = value (register 2 cs_reading F1 F1_reg) (OTimes [OAtom (ASigma 0 0 0); OAtom (ASigma 1 1 1)]).
Proof.
  split; [|split; [reflexivity|split; [|split]]].
  - intros l d _ H. injection H as <-. rewrite msum_map. exact (mu_one 2 l).
  - constructor; [intros [Q|[]]; discriminate Q|]. constructor; [intros []|constructor].
  - cbn. repeat split; lia.
  - cbn [value map atom_val]. rewrite (mprod_2 (register 2 cs_reading F1 F1_reg)), star_mul. change (isigma (i:=register 2 cs_reading F1 F1_reg)) with (mu 2 : nat -> nat -> nat -> A (site_reading cs_reading (lev 2))).
    pose proof (mu_star 2 : forall j k l, star (s:=site_reading cs_reading (lev 2)) (mu 2 j k l) = mu 2 k j l) as Hs.
    pose proof (mu_comm 2 : forall j k l j' k' l', l <> l' -> amul (a:=site_reading cs_reading (lev 2)) (mu 2 j k l) (mu 2 j' k' l') = amul (mu 2 j' k' l') (mu 2 j k l)) as Hc.
    rewrite !Hs. apply Hc. discriminate.
Qed.

Print Assumptions C64_given_value.
Print Assumptions C64_complete_value.
Print Assumptions C64_hermitian_value.
Print Assumptions C64_forms_agree.
Print Assumptions C64_basis_legal.
Print Assumptions C64_basis_orthonormal.
Print Assumptions C64_basis_complete.
Print Assumptions C64_default_value.
Print Assumptions C64_default_hermitian.
Print Assumptions C64_basis_size.
Print Assumptions C64_no_basis.
Print Assumptions C64_no_basis_error.
Print Assumptions C64_hermitian_needed.
