(** C34 products of operators, C35 angular momentum, C36 commutators; and what the
    order of factors does to products with a scaled product (C22). See Properties_Op1
    for [code] and [checked]. *)
From Coq Require Import Reals QArith Qcanon Qreals Permutation Lra.
From Verif Require Import Prelude ListFacts SortModel SortSpec SortProofs BinModel AlgSpec CAlg Cplx OpModel OpSpec OpForms OpProofs1 OpProofs2 OpProofs3 OpFuel OpOrder OpForm OpForm2 OpLocal OpSites OpFock OpJet OpSx OpRun OpLeibModel OpLeibProofs Properties_Op1.
Local Open Scope nat_scope.
Add Ring Cr9 : cring.

Section Op.
  Context {S : scalars} {dim : nat -> option nat} (I : interp S dim).
  Context (olt : op S -> op S -> bool) (slt : list nat -> list nat -> bool).
  Local Notation code := (code dim olt slt).
  Local Notation checked := (checked dim olt slt).

  (** ** C34 *)
  Theorem C34_product_value n l e :
    Forall (legal I) l -> k_times (checked n) l = Ok e ->
    k_times (code n) l = Ok e /\ legal I e /\ value I e = mprod I (map (value I) l).
  Proof.
    intros Hl H. split; [|exact (s_times I _ (checked_sound I olt slt n) l e Hl H)].
    exact (le_ok _ _ _ (m_times _ _ (checked_le olt slt n) l) H).
  Qed.
  (** operators on one local space: nothing needs to be checked *)
  Theorem C34_local_product_value s n l e :
    good_orders olt slt -> Forall (local_to s) l -> Forall (legal I) l -> k_times (code n) l = Ok e ->
    local_to s e /\ legal I e /\ value I e = mprod I (map (value I) l).
  Proof.
    intros Ho Hloc Hl H. destruct (a_times s _ _ (local_agree s dim olt slt Ho n) l Hloc) as [E G].
    unfold OpRun.code in H. rewrite <- E in H. split; [apply G; rewrite <- H; now symmetry|].
    exact (s_times I _ (checked_sound I olt slt n) l e Hl H).
  Qed.

  (** ** C36 *)
  Theorem C36_commutator_value n a b e :
    legal I a -> legal I b -> k_comm (checked n) a b = Ok e ->
    k_comm (code n) a b = Ok e /\ legal I e
    /\ value I e = aadd (amul (value I a) (value I b)) (smul (kopp k1) (amul (value I b) (value I a))).
  Proof.
    intros Ha Hb H. split; [|exact (s_comm I _ (checked_sound I olt slt n) a b e Ha Hb H)].
    exact (le_ok _ _ _ (m_comm _ _ (checked_le olt slt n) a b) H).
  Qed.
  Theorem C36_local_commutator_value s n a b e :
    good_orders olt slt -> local_to s a -> local_to s b -> legal I a -> legal I b -> k_comm (code n) a b = Ok e ->
    local_to s e /\ legal I e
    /\ value I e = aadd (amul (value I a) (value I b)) (smul (kopp k1) (amul (value I b) (value I a))).
  Proof.
    intros Ho La Lb Ha Hb H. destruct (a_comm s _ _ (local_agree s dim olt slt Ho n) a b La Lb) as [E G].
    unfold OpRun.code in H. rewrite <- E in H. split; [apply G; rewrite <- H; now symmetry|].
    exact (s_comm I _ (checked_sound I olt slt n) a b e Ha Hb H).
  Qed.
  (** operators on disjoint spaces: zero *)
  Theorem C36_disjoint n a b : apart (space a) (space b) -> k_comm (code (Datatypes.S n)) a b = Ok OZero.
  Proof.
    intros H. change (comm_step olt slt (code n) a b = Ok OZero). unfold comm_step.
    assert (sp_disjoint (space b) (space a) = true) as ->; [|reflexivity].
    unfold sp_disjoint. apply forallb_forall. intros x Hx. apply negb_true_iff. unfold sp_mem. destruct (existsb (Nat.eqb x) (space a)) eqn:E; [|reflexivity].
    apply existsb_exists in E. destruct E as [y [Hy E]]. apply Nat.eqb_eq in E. subst y. destruct (H x Hy Hx).
  Qed.
  (** [a, b] and [b, a] are the same up to the sign extracted by the ordering *)
  Theorem C36_ordering n a b : sp_disjoint (space b) (space a) = false -> ofull_lt olt slt b a = true ->
    k_comm (code (Datatypes.S n)) a b = (do c <- k_comm (code n) b a; k_scal (code n) sm1 c).
  Proof.
    intros H1 H2. change (comm_step olt slt (code n) a b = (do c <- k_comm (code n) b a; k_scal (code n) sm1 c)).
    unfold comm_step. now rewrite H1, H2.
  Qed.
  (** expand_commutators_leibniz *)
  Theorem C36_leibniz_value n k m b e e' :
    legal I e -> expand_commutators_leibniz (checked n) k m b e = Ok e' ->
    expand_commutators_leibniz (code n) k m b e = Ok e' /\ legal I e' /\ value I e' = value I e.
  Proof.
    intros Hl H. split; [|exact (leibniz_sound I _ (checked_sound I olt slt n) k m b e e' Hl H)].
    exact (le_ok _ _ _ (leibniz_mono _ _ (checked_le olt slt n) k k m m b e (Nat.le_refl k) (Nat.le_refl m)) H).
  Qed.
End Op.

(** ** C34: in the number representation. A state gives an amplitude to every
    configuration of levels. *)
Section Fock.
  Context {S : scalars} (r : cxreading S) (dim : nat -> option nat) (is_boson : nat -> bool) (Hb : forall l, is_boson l = true -> dim l = None).
  Local Notation F := (fock r dim is_boson Hb).
  (** the action of an operator on a state *)
  Definition acts (x : A F) (f : (nat -> nat) -> cx) (c : nat -> nat) : cx := ap nat (fst x) f c.
  Theorem C34_create_acts l f c :
    acts (value F (OAtom (ACreate l))) f c = match c l with 0 => c0 | Datatypes.S p => cmul (csqrt (qn (Datatypes.S p))) (f (upd c l p)) end.
  Proof. cbn. destruct (c l); [ring|reflexivity]. Qed.
  Theorem C34_destroy_acts l f c :
    acts (value F (OAtom (ADestroy l))) f c = cmul (csqrt (qn (c l + 1))) (f (upd c l (c l + 1))).
  Proof. reflexivity. Qed.
  Theorem C34_sigma_acts j k l f c :
    acts (value F (OAtom (ASigma j k l))) f c = if c l =? j then f (upd c l k) else c0.
  Proof. cbn. destruct (c l =? j); ring. Qed.
  Theorem C34_phase_acts u l f c :
    acts (value F (OAtom (APhase u l))) f c = cmul (cexp (cmul (cmul ci (cev S r u)) (cQ (qn (c l))))) (f c).
  Proof. cbn. now rewrite upd_id. Qed.
  (** a product of operators acts as one operator after the other *)
  Theorem C34_product_acts (x y : A F) f c : acts (amul x y) f c = acts x (acts y f) c.
  Proof. reflexivity. Qed.
  (** the product the code computes acts on every state as the factors do, one after
      the other *)
  Theorem C34_number_states (olt : op S -> op S -> bool) slt s n l e f c :
    good_orders olt slt -> Forall (local_to s) l -> Forall (legal F) l -> k_times (code dim olt slt n) l = Ok e ->
    acts (value F e) f c = fold_right (fun x g => acts (value F x) g) f l c.
  Proof.
    intros Ho Hloc Hl H. destruct (C34_local_product_value F olt slt s n l e Ho Hloc Hl H) as [_ [_ ->]]. clear.
    revert c. induction l as [|x l IH]; intros c; [reflexivity|]. cbn [map fold_right]. change (mprod F (value F x :: map (value F) l)) with (amul (value F x) (mprod F (map (value F) l))).
    rewrite C34_product_acts. unfold acts at 1 3. f_equal. apply FunctionalExtensionality.functional_extensionality. exact IH.
  Qed.
End Fock.

(** ** C35 *)
Section Spin.
  Context {S : scalars} (r : cxreading S) (dim : nat -> option nat).
  Local Notation cv := (cev S r).
  (** the values of the coefficients for the levels of a spin space, counted from 0 *)
  Definition coefficients (ls n : nat) (P Q Z : nat -> cx) : Prop :=
    forall m, m < n -> exists p q z,
      jp_coeff dim ls (MInt (Z.of_nat m)) true = Ok p /\ jm_coeff dim ls (MInt (Z.of_nat m)) true = Ok q
      /\ jz_coeff dim ls (MInt (Z.of_nat m)) true = Ok (Some z)
      /\ cv p = P m /\ cv q = Q m /\ cv z = Z m.
  Lemma qz_nat m : qz (Z.of_nat m) = qn m.
  Proof. reflexivity. Qed.
  Theorem C35_coefficients ls n : dim ls = Some n ->
    coefficients ls n (fun m => csqrt (qn ((m + 1) * (n - 1 - m)))) (fun m => csqrt (qn (m * (n - m)))) (fun m => cQ (qn m - (qn n - 1) / qn 2)%Qc).
  Proof.
    intros Hd m Hm. unfold jp_coeff, jm_coeff, jz_coeff. rewrite Hd. cbn [quantum_number].
    assert (((0 <=? Z.of_nat m) && (Z.of_nat m <? Z.of_nat n))%Z = true) as ->.
    { apply andb_true_intro. split; [apply Z.leb_le|apply Z.ltb_lt]; lia. }
    cbn [bind]. rewrite qz_nat. do 3 eexists. repeat split; cbn zeta.
    - rewrite (cev_sqrt S r). f_equal. exact (jp_radicand_nat n m Hm).
    - rewrite (cev_sqrt S r). f_equal. exact (jm_radicand_nat n m Hm).
    - rewrite (cev_Q S r). reflexivity.
  Qed.
  Lemma coefficients_unique ls n P Q Z P' Q' Z' : coefficients ls n P Q Z -> coefficients ls n P' Q' Z' ->
    forall m, m < n -> P m = P' m /\ Q m = Q' m /\ Z m = Z' m.
  Proof.
    intros H1 H2 m Hm. destruct (H1 m Hm) as (p & q & z & A1 & A2 & A3 & A4 & A5 & A6). destruct (H2 m Hm) as (p' & q' & z' & B1 & B2 & B3 & B4 & B5 & B6).
    rewrite A1 in B1. rewrite A2 in B2. rewrite A3 in B3. injection B1 as <-. injection B2 as <-. injection B3 as <-. repeat split; congruence.
  Qed.
  Context (ls n : nat) (Hd : dim ls = Some n) (P Q Z : nat -> cx) (HC : coefficients ls n P Q Z).
  Local Ltac known m H := pose proof (coefficients_unique ls n _ _ _ _ _ _ HC (C35_coefficients ls n Hd) m H) as (KP & KQ & KZ); rewrite ?KP, ?KQ, ?KZ; clear KP KQ KZ.
  (** J+ raises Jz by one: (Jz J+ - J+ Jz) |m> = J+ |m> *)
  Theorem C35_jz_jplus m : m + 1 < n -> cadd (cmul (Z (m + 1)) (P m)) (copp (cmul (P m) (Z m))) = P m.
  Proof.
    intros Hm. known (m + 1) Hm. assert (m < n) as H0 by lia. known m H0. rewrite jz_step. ring.
  Qed.
  (** J- lowers it: (Jz J- - J- Jz) |m + 1> = - J- |m + 1> *)
  Theorem C35_jz_jminus m : m + 1 < n -> cadd (cmul (Z m) (Q (m + 1))) (copp (cmul (Q (m + 1)) (Z (m + 1)))) = copp (Q (m + 1)).
  Proof.
    intros Hm. known (m + 1) Hm. assert (m < n) as H0 by lia. known m H0. rewrite jz_step. ring.
  Qed.
  (** (J+ J- - J- J+) |m> = 2 Jz |m> *)
  Theorem C35_jplus_jminus m : m < n ->
    cadd (match m with 0 => c0 | Datatypes.S k => cmul (P k) (Q m) end)
         (copp (if m + 1 <? n then cmul (Q (m + 1)) (P m) else c0))
    = cmul (cQ (qn 2)) (Z m).
  Proof.
    intros Hm.
    assert (match m with 0 => c0 | Datatypes.S k => cmul (P k) (Q m) end = cQ (qn (m * (n - m)))) as ->.
    { destruct m as [|k]; [symmetry; apply cQ_qn0|]. assert (k < n) as H0 by lia. known (Datatypes.S k) Hm. known k H0.
      replace ((k + 1) * (n - 1 - k)) with (Datatypes.S k * (n - Datatypes.S k)) by nia. apply csqrt_sq. }
    assert ((if m + 1 <? n then cmul (Q (m + 1)) (P m) else c0) = cQ (qn ((m + 1) * (n - 1 - m)))) as ->.
    { destruct (Nat.ltb_spec (m + 1) n) as [H|H].
      - known (m + 1) H. known m Hm. replace ((m + 1) * (n - (m + 1))) with ((m + 1) * (n - 1 - m)) by nia. apply csqrt_sq.
      - replace (n - 1 - m) with 0 by lia. rewrite Nat.mul_0_r. symmetry. apply cQ_qn0. }
    known m Hm. rewrite (jz_level m n Hm). replace (cQ (qz (-2))) with (copp (cQ (qn 2))); [ring|].
    apply cx_eq; cbn [cre cim copp cQ creal]; [|ring]. change (qz (-2)) with (- (qn 2))%Qc. unfold Q2R. cbn. field.
  Qed.
  (** the ladder ends: J+ annihilates the highest level, J- the lowest *)
  Theorem C35_highest : 0 < n -> P (n - 1) = c0.
  Proof.
    intros H0. assert (n - 1 < n) as Hm by lia. known (n - 1) Hm. replace (n - 1 - (n - 1)) with 0 by lia. rewrite Nat.mul_0_r. apply csqrt_0.
  Qed.
  Theorem C35_lowest : 0 < n -> Q 0 = c0.
  Proof. intros Hm. known 0 Hm. apply csqrt_0. Qed.
  (** J- is the adjoint of J+ *)
  Theorem C35_adjoint m : m + 1 < n -> Q (m + 1) = cconj (P m).
  Proof.
    intros Hm. known (m + 1) Hm. assert (m < n) as H0 by lia. known m H0. rewrite csqrt_conj. do 2 f_equal. nia.
  Qed.
  (** the total angular momentum: (J- J+ + Jz^2 + Jz) |m> = j (j + 1) |m> with 2 j + 1 = n *)
  Theorem C35_casimir m : m < n ->
    cadd (if m + 1 <? n then cmul (Q (m + 1)) (P m) else c0) (cadd (cmul (Z m) (Z m)) (Z m))
    = cQ ((qn n - 1) / qn 2 * ((qn n - 1) / qn 2 + 1))%Qc.
  Proof.
    intros Hm.
    assert ((if m + 1 <? n then cmul (Q (m + 1)) (P m) else c0) = cQ (qn ((m + 1) * (n - 1 - m)))) as ->.
    { destruct (Nat.ltb_spec (m + 1) n) as [H|H].
      - known (m + 1) H. known m Hm. replace ((m + 1) * (n - (m + 1))) with ((m + 1) * (n - 1 - m)) by nia. apply csqrt_sq.
      - replace (n - 1 - m) with 0 by lia. rewrite Nat.mul_0_r. symmetry. apply cQ_qn0. }
    known m Hm. rewrite <- !cQ_mul, <- !cQ_add. f_equal. rewrite <- (jp_radicand_nat n m Hm). unfold jp_radicand, spin_of. ring.
  Qed.
End Spin.

(** the quantum number m itself, as a number: the same coefficients *)
Theorem C35_quantum_number {S : scalars} (dim : nat -> option nat) ls n i b :
  dim ls = Some n -> i < n ->
  let m := MNum (qn i - (qn n - 1) / qn 2)%Qc in
  jp_coeff (S:=S) dim ls m b = jp_coeff dim ls (MInt (Z.of_nat i)) true
  /\ jm_coeff (S:=S) dim ls m b = jm_coeff dim ls (MInt (Z.of_nat i)) true
  /\ jz_coeff (S:=S) dim ls m b = jz_coeff dim ls (MInt (Z.of_nat i)) true
  /\ jp_coeff (S:=S) dim ls (MStr (Some i)) b = jp_coeff dim ls (MInt (Z.of_nat i)) true.
Proof.
  intros Hd Hi. cbn zeta. unfold jp_coeff, jm_coeff, jz_coeff. rewrite Hd. cbn [quantum_number].
  assert (((0 <=? Z.of_nat i) && (Z.of_nat i <? Z.of_nat n))%Z = true) as ->.
  { apply andb_true_intro. split; [apply Z.leb_le|apply Z.ltb_lt]; lia. }
  repeat split.
Qed.
(** Jz for an integer quantum number with shift=False gives nothing; labels cannot
    be used with J- and Jz; an index outside the multiplet is an AssertionError *)
Theorem C35_jz_unshifted_refuted {S : scalars} (dim : nat -> option nat) ls n z :
  dim ls = Some n -> jz_coeff (S:=S) dim ls (MInt z) false = Ok None.
Proof. intros H. unfold jz_coeff. now rewrite H. Qed.
Theorem C35_labels_refuted {S : scalars} (dim : nat -> option nat) ls n i b :
  dim ls = Some n -> jm_coeff (S:=S) dim ls (MStr i) b = Err AttributeError /\ jz_coeff (S:=S) dim ls (MStr i) b = Err AttributeError.
Proof. intros H. unfold jm_coeff, jz_coeff. rewrite H. now split. Qed.
Theorem C35_index_outside {S : scalars} (dim : nat -> option nat) ls n z :
  dim ls = Some n -> (z < 0 \/ Z.of_nat n <= z)%Z ->
  jp_coeff (S:=S) dim ls (MInt z) true = Err AssertionError
  /\ jm_coeff (S:=S) dim ls (MInt z) true = Err AssertionError /\ jz_coeff (S:=S) dim ls (MInt z) true = Err AssertionError.
Proof.
  intros H Hz. unfold jp_coeff, jm_coeff, jz_coeff. rewrite H. cbn [quantum_number].
  assert (((0 <=? z) && (z <? Z.of_nat n))%Z = false) as ->; [|now repeat split].
  apply andb_false_iff. destruct Hz; [left; apply Z.leb_gt|right; apply Z.ltb_ge]; lia.
Qed.

(** the operators on a spin space with the levels 0 .. d-1, and the simplifier's
    products and commutators of them *)
Section SpinOps.
  Context {S : scalars} (r : cxreading S) (dim : nat -> option nat) (is_boson : nat -> bool) (Hb : forall l, is_boson l = true -> dim l = None).
  Local Notation F := (fock r dim is_boson Hb).
  Context (l d : nat) (Hd : dim l = Some d).
  Theorem C35_jplus_acts f c : acts r dim is_boson Hb (value F (OAtom (AJp l))) f c
    = match c l with 0 => c0 | Datatypes.S m => if Datatypes.S m <? d then cmul (csqrt (qn ((m + 1) * (d - 1 - m)))) (f (upd c l m)) else c0 end.
  Proof.
    change (n_jp (size dim l) (slice f c l) (c l) = match c l with 0 => c0 | Datatypes.S m => if Datatypes.S m <? d then cmul (csqrt (qn ((m + 1) * (d - 1 - m)))) (f (upd c l m)) else c0 end).
    unfold size. rewrite Hd. unfold n_jp. cbn [la mono]. destruct (c l) as [|m]; [ring|]. destruct (Datatypes.S m <? d); [reflexivity|ring]. Qed.
  Theorem C35_jminus_acts f c : acts r dim is_boson Hb (value F (OAtom (AJm l))) f c
    = if c l + 1 <? d then cmul (csqrt (qn ((c l + 1) * (d - 1 - c l)))) (f (upd c l (c l + 1))) else c0.
  Proof.
    change (n_jm (size dim l) (slice f c l) (c l) = if c l + 1 <? d then cmul (csqrt (qn ((c l + 1) * (d - 1 - c l)))) (f (upd c l (c l + 1))) else c0).
    unfold size. rewrite Hd. unfold n_jm. cbn [la mono]. destruct (c l + 1 <? d); [reflexivity|ring]. Qed.
  Theorem C35_jz_acts f c : acts r dim is_boson Hb (value F (OAtom (AJz l))) f c
    = if c l <? d then cmul (cQ (qn (c l) - (qn d - 1) / qn 2)%Qc) (f c) else c0.
  Proof.
    change (n_jz (size dim l) (slice f c l) (c l) = if c l <? d then cmul (cQ (qn (c l) - (qn d - 1) / qn 2)%Qc) (f c) else c0).
    unfold size. rewrite Hd. unfold n_jz. cbn [la mono]. unfold slice. rewrite upd_id. destruct (c l <? d); [reflexivity|ring]. Qed.
  (** whatever the commutators are rewritten to, they act as the su(2) relations say *)
  Theorem C35_commutators (olt : op S -> op S -> bool) slt n :
    good_orders olt slt ->
    (forall e, k_comm (code dim olt slt n) (OAtom (AJz l)) (OAtom (AJp l)) = Ok e -> value F e = value F (OAtom (AJp l)))
    /\ (forall e, k_comm (code dim olt slt n) (OAtom (AJz l)) (OAtom (AJm l)) = Ok e -> value F e = smul (copp c1 : K F) (value F (OAtom (AJm l))))
    /\ (forall e, k_comm (code dim olt slt n) (OAtom (AJp l)) (OAtom (AJm l)) = Ok e -> value F e = smul (cQ (qn 2) : K F) (value F (OAtom (AJz l)))).
  Proof.
    intros Ho. assert (dim l <> None) as HS by congruence.
    assert (forall a, In a [AJp l; AJm l; AJz l] -> local_to l (OAtom (S:=S) a) /\ legal F (OAtom a)) as HL.
    { intros a [<- |[<- |[<- |[]]]]; (split; [cbn; auto|exact HS]). }
    assert (forall a b e, In a [AJp l; AJm l; AJz l] -> In b [AJp l; AJm l; AJz l] -> k_comm (code dim olt slt n) (OAtom a) (OAtom b) = Ok e ->
      value F e = mcomm F (value F (OAtom a)) (value F (OAtom b))) as G.
    { intros a b e Ha Hb' H. destruct (HL a Ha) as [A1 A2], (HL b Hb') as [B1 B2].
      destruct (C36_local_commutator_value F olt slt l n _ _ e Ho A1 B1 A2 B2 H) as [_ [_ ->]]. reflexivity. }
    split; [|split]; intros e H; apply G in H; try (cbn; tauto); rewrite H; clear H; unfold mcomm; cbn [value atom_val].
    - rewrite (jz_jp S dim F l HS). rewrite (aadd_comm _ (amul (ijp l) (ijz l))), <- aadd_assoc, aadd_opp. apply aadd_0r.
    - rewrite (jm_jz F l HS). rewrite smul_addr, aadd_assoc, aadd_opp. apply aadd_0.
    - rewrite (jm_jp S dim F l HS). rewrite smul_addr, (aadd_comm _ (smul (kopp k1) (smul _ _))), aadd_assoc, aadd_opp, aadd_0.
      rewrite <- smul_mul. f_equal. change (cmul (copp c1) (cQ (qz (-2))) = cQ (qn 2)). apply cx_eq; cbn; unfold Q2R; cbn; field.
  Qed.
End SpinOps.

(** ** Examples, and what fails *)
Definition sg (j k l : nat) : op Sx := OAtom (ASigma j k l).
Definition ph (u : Sx) (l : nat) : op Sx := OAtom (APhase u l).
Definition dp (u : Sx) (l : nat) : op Sx := OAtom (ADisp u l).
(** a exp(i x n) a^* |1><0| *)
Definition ex_factors : list (op Sx) := [x_a 0; ph (XVar 0) 0; x_ad 0; sg 1 0 0].
Example C34_ex : good_orders xolt xslt /\ Forall (local_to (S:=Sx) 0) ex_factors /\ Forall (legal xfock) ex_factors /\ Forall (legal xjet) ex_factors
  /\ match k_times (xcode 12) ex_factors with Ok (OScal _ t) => oeqb (S:=Sx) t (sg 1 0 0) | _ => false end = true
  /\ match k_times (xchecked 12) ex_factors with Ok (OScal _ t) => oeqb (S:=Sx) t (sg 1 0 0) | _ => false end = true.
Proof. split; [exact good_x|]. repeat split; try (repeat constructor; cbn; auto; fail); vm_compute; reflexivity. Qed.
(** displacements: a D(x) a^* D(y) *)
Example C34_ex_displacement :
  Forall (legal xjet) [x_a 0; dp (XVar 0) 0; x_ad 0; dp (XVar 1) 0] /\ Forall (local_to (S:=Sx) 0) [x_a 0; dp (XVar 0) 0; x_ad 0; dp (XVar 1) 0]
  /\ is_ok (k_times (xcode 12) [x_a 0; dp (XVar 0) 0; x_ad 0; dp (XVar 1) 0])
       (OTimes [dp (XVar 0) 0; OPlus [OScal (XVar 0) OOne; x_a 0]; x_ad 0; dp (XVar 1) 0]) = true.
Proof. split; [|split]; [repeat constructor; cbn; auto; fail|repeat constructor; cbn; auto; fail|vm_compute; reflexivity]. Qed.
(** factors on several spaces, with the sorting checked *)
Example C34_ex_modes :
  is_ok (k_times (xchecked 12) [x_a 1; x_a 0; x_ad 1; sym 1 [2]; x_ad 0; OAtom (AJp 5)])
    (OTimes [OPlus [OOne; OTimes [x_ad 0; x_a 0]]; OPlus [OOne; OTimes [x_ad 1; x_a 1]]; sym 1 [2]; OAtom (AJp 5)]) = true
  /\ Forall (legal xfock) [x_a 1; x_a 0; x_ad 1; sym 1 [2]; x_ad 0; OAtom (AJp 5)].
Proof. split; [vm_compute; reflexivity|]. repeat constructor; cbn; discriminate. Qed.
Example C35_ex : xdim 5 = Some 3 /\ coefficients (sx_reading xv) xdim 5 3 (fun m => csqrt (qn ((m + 1) * (3 - 1 - m)))) (fun m => csqrt (qn (m * (3 - m)))) (fun m => cQ (qn m - (qn 3 - 1) / qn 2)%Qc)
  /\ is_ok (k_comm (xcode 12) (OAtom (AJz 5)) (OAtom (AJp 5))) (OAtom (AJp 5)) = true
  /\ is_ok (k_comm (xcode 12) (OAtom (AJp 5)) (OAtom (AJm 5))) (OScal (num 2) (OAtom (AJz 5))) = true
  /\ is_ok (k_times (xcode 12) [OAtom (AJp 5); sg 1 0 5]) (OScal (XSqrt (qn 2)) (sg 2 0 5)) = true.
Proof.
  split; [reflexivity|]. split; [exact (C35_coefficients (sx_reading xv) xdim 5 3 eq_refl)|]. repeat split; vm_compute; reflexivity.
Qed.
(** [2 A_01, x B_12] and [A B C, D] *)
Example C36_ex :
  is_ok (k_comm (xchecked 12) (OScal (num 2) (sym 1 [0; 1])) (OScal (XVar 0) (sym 2 [1; 2])))
    (OScal (XMul (num 2) (XVar 0)) (OComm (sym 1 [0; 1]) (sym 2 [1; 2]))) = true
  /\ is_ok (k_comm (xchecked 12) (x_a 0) (x_ad 0)) OOne = true
  /\ is_ok (do p <- k_times (xchecked 9) [sym 1 [1]; sym 2 [1]; sym 4 [1]]; do c <- k_comm (xchecked 9) p (sym 5 [1]);
            expand_commutators_leibniz (S:=Sx) (xchecked 9) 6 9 true c)
       (OPlus [OTimes [sym 1 [1]; sym 2 [1]; OComm (sym 4 [1]) (sym 5 [1])];
               OTimes [sym 1 [1]; OComm (sym 2 [1]) (sym 5 [1]); sym 4 [1]];
               OTimes [OComm (sym 1 [1]) (sym 5 [1]); sym 2 [1]; sym 4 [1]]]) = true.
Proof. repeat split; vm_compute; reflexivity. Qed.

(** In a space with finitely many levels, products with ladder operators depend on
    how they are bracketed: with b the adjoint of a, a (b |2><0|) is zero, but (a b) |2><0|
    expands to 3 |2><0|. *)
Theorem C34_truncated_refuted :
  xdim 5 = Some 3
  /\ is_ok (do p <- k_times (xcode 8) [x_ad 5; sg 2 0 5]; k_times (xcode 8) [x_a 5; p]) OZero = true
  /\ is_ok (do p <- k_times (xcode 8) [x_a 5; x_ad 5]; do q <- k_times (xcode 8) [p; sg 2 0 5]; expand (S:=Sx) (xcode 8) 8 q)
       (OScal (num 3) (sg 2 0 5)) = true.
Proof. repeat split; vm_compute; reflexivity. Qed.
(** expand_commutators_leibniz fails for a commutator with a product of two factors on
    the left: [A_1 B_2, C_2] *)
Theorem C36_leibniz_left_refuted :
  (do p <- k_times (xcode 9) [sym 1 [1]; sym 2 [2]]; do c <- k_comm (xcode 9) p (sym 3 [2]);
   expand_commutators_leibniz (S:=Sx) (xcode 9) 6 9 true c) = Err TypeError.
Proof. vm_compute. reflexivity. Qed.

(** ** C22: the product of A_1 A_2 A_3 A_4 A_5 and 2 B_1 B_4 *)
Definition scr_left : list (op Sx) := [sym 1 [1]; sym 1 [2]; sym 1 [3]; sym 1 [4]; sym 1 [5]].
Definition scr_right : op Sx := OScal (num 2) (OTimes [sym 0 [1]; sym 0 [4]]).
Lemma scr_computed : is_ok (k_times (xcode 9) [OTimes scr_left; scr_right])
   (OScal (num 2) (OTimes [sym 1 [1]; sym 0 [1]; sym 1 [2]; sym 1 [3]; sym 0 [4]; sym 1 [4]; sym 1 [5]])) = true.
Proof. vm_compute. reflexivity. Qed.
(** B_4 is moved before A_4, which acts on the same space: the result is another
    operator *)
Theorem C22_scaled_product_refuted :
  exists p q e, k_times (xcode 9) scr_left = Ok p /\ k_times (xcode 9) [sym 0 [1]; sym 0 [4]] = Ok q
    /\ k_times (xcode 9) [p; scr_right] = Ok e
    /\ oeqb (S:=Sx) e (OScal (num 2) (OTimes [sym 1 [1]; sym 0 [1]; sym 1 [2]; sym 1 [3]; sym 0 [4]; sym 1 [4]; sym 1 [5]])) = true
    /\ scr_right = OScal (num 2) q
    /\ value xfock e <> amul (value xfock p) (value xfock scr_right).
Proof.
  exists (OTimes scr_left), (OTimes [sym 0 [1]; sym 0 [4]]).
  destruct (k_times (xcode 9) [OTimes scr_left; scr_right]) as [e|] eqn:E; [|vm_compute in E; discriminate E].
  exists e. split; [vm_compute; reflexivity|]. split; [vm_compute; reflexivity|]. split; [reflexivity|].
  pose proof scr_computed as H. rewrite E in H. cbn [is_ok] in H. split; [exact H|]. split; [reflexivity|].
  rewrite (oeqb_value xfock _ _ H). intros G.
  apply (f_equal (fun x : A xfock => ap nat (fst x) (fun _ => c1) (fun l => 1))) in G.
  assert (cmul (cQ (qz 2)) c0 = cmul (cQ (qz 2)) c1) as G2.
  { etransitivity; [|etransitivity; [exact G|]]; cbn -[cmul cadd qz cQ]; ring. }
  apply (f_equal cre) in G2. cbn in G2. unfold Q2R in G2. cbn in G2. lra.
Qed.


Print Assumptions C34_product_value.
Print Assumptions C34_local_product_value.
Print Assumptions C36_commutator_value.
Print Assumptions C36_local_commutator_value.
Print Assumptions C36_disjoint.
Print Assumptions C36_ordering.
Print Assumptions C36_leibniz_value.
Print Assumptions C34_create_acts.
Print Assumptions C34_destroy_acts.
Print Assumptions C34_sigma_acts.
Print Assumptions C34_phase_acts.
Print Assumptions C34_product_acts.
Print Assumptions C34_number_states.
Print Assumptions C35_coefficients.
Print Assumptions C35_jz_jplus.
Print Assumptions C35_jz_jminus.
Print Assumptions C35_jplus_jminus.
Print Assumptions C35_highest.
Print Assumptions C35_lowest.
Print Assumptions C35_adjoint.
Print Assumptions C35_casimir.
Print Assumptions C35_quantum_number.
Print Assumptions C35_jz_unshifted_refuted.
Print Assumptions C35_labels_refuted.
Print Assumptions C35_index_outside.
Print Assumptions C35_jplus_acts.
Print Assumptions C35_jminus_acts.
Print Assumptions C35_jz_acts.
Print Assumptions C35_commutators.
Print Assumptions C34_truncated_refuted.
Print Assumptions C36_leibniz_left_refuted.
Print Assumptions C22_scaled_product_refuted.
