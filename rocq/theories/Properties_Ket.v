(** C43 states: kets, bras, their products, the action of operators, inner and outer
    products, and expansion. [kets] (KetSpec) says what a tensor product, an action and
    inner and outer products are; KetInst proves these laws for registers of n-level
    systems. [kcode] is the simplifier as it is. [kchecked] is the same, undefined where
    the sorting of the factors of an operator product moves one past another that shares a
    local space with it, where a product of operators is split into parts that do not act
    on the respective kets, and where a coherent state is rotated by an angle not known to
    be real. *)
From Coq Require Import Reals QArith Qcanon.
From Verif Require Import Prelude ListFacts SortModel SortProofs BinModel AlgSpec CAlg Cplx OpModel OpSpec OpForms OpProofs1 OpProofs2 OpProofs3 OpFuel OpOrder OpLocal OpSx OpSites OpRun.
From Verif Require Import Properties_Op1 TrInst KetModel KetSpec KetProofs1 KetProofs2 KetProofs4 KetProofs5 KetFuel KetLocal KetInst KetInst2.
Local Open Scope nat_scope.

Section Run.
  Context {S : scalars} (dim : nat -> option nat) (olt : op S -> op S -> bool) (slt : list nat -> list nat -> bool) (klt : ket S -> ket S -> bool).
  Context (bk : ket S -> ket S -> S) (kb : ket S -> ket S -> op S) (real : S -> bool).
  Definition kcode (n m : nat) : kcreators S := kcreators_n dim (code dim olt slt n) klt slt bk kb any_phase any_split m.
  (** the code, undefined only where a coherent state is rotated by an angle not known to be real *)
  Definition kphases (n m : nat) : kcreators S := kcreators_n dim (code dim olt slt n) klt slt bk kb real any_split m.
  Definition kchecked (n m : nat) : kcreators S := kcreators_n dim (checked dim olt slt n) klt slt bk kb real clean_split m.
End Run.

Section Ket.
  Context {S : scalars} {dim : nat -> option nat} {I : interp S dim} (W : kets I).
  Context (olt : op S -> op S -> bool) (slt : list nat -> list nat -> bool) (klt : ket S -> ket S -> bool).
  (** the objects BraKet(a, b), KetBra(a, b) stand for the inner and the outer product *)
  Context (bk : ket S -> ket S -> S) (kb : ket S -> ket S -> op S) (Hbk : bk_ok W bk) (Hkb : kb_ok W kb).
  Context (real : S -> bool) (Hreal : forall u, real u = true -> kconj (ev (r:=I) u) = ev u).
  Local Notation code := (code dim olt slt).
  Local Notation checked := (checked dim olt slt).
  Local Notation kcode := (kcode dim olt slt klt bk kb).
  Local Notation kchecked := (kchecked dim olt slt klt bk kb real).
  Local Notation kphases := (kphases dim olt slt klt bk kb real).
  Local Notation legal := (legal I).
  Local Notation value := (value I).
  Local Notation klegal := (klegal (I:=I)).
  Local Notation kvalue := (kvalue W).
  Add Ring KkP : (kring I).

  Lemma ksound n m : soundQ W (kchecked n m).
  Proof. apply kcreators_sound; [exact Hbk|exact Hkb|exact Hreal|apply checked_sound]. Qed.
  Lemma kle n m : leQ (kchecked n m) (kcode n m).
  Proof. apply kcreators_mono; [apply checked_le|apply Nat.le_refl]. Qed.
  Lemma kfree n m : kc_scal (kcode n m) = kc_scal (kchecked n m) /\ kc_plus (kcode n m) = kc_plus (kchecked n m) /\ kc_tens (kcode n m) = kc_tens (kchecked n m).
  Proof. apply kets_free. Qed.
  Lemma kphases_le n m : leQ (kphases n m) (kcode n m).
  Proof. apply kcreators_mono; [constructor; intros; apply le_refl|apply Nat.le_refl]. Qed.
  Lemma klocal l n m : good_orders olt slt -> (forall a b, ket_of l a -> ket_of l b -> local_to l (kb a b)) -> agreeQ l (kchecked n m) (kphases n m).
  Proof. intros Ho Hl. apply kcreators_agree; [apply (local_agree l dim olt slt Ho n)|exact Hl|reflexivity]. Qed.
  Lemma kat_of (t : ket S) : klegal t -> kat (I:=I) (kspace t) t.
  Proof. apply kat_self. Qed.

  (** ** Multiples, sums and tensor products: the code as it is *)
  Theorem C43_multiple_value n m c t k : klegal t -> kc_scal (kcode n m) c t = Ok k ->
    klegal k /\ kvalue k = vs (ev c) (kvalue t) /\ (k = KZero \/ same_set (kspace k) (kspace t)).
  Proof.
    intros Ht H. rewrite (proj1 (kfree n m)) in H. exact (q_scal W _ (ksound n m) c t k (kspace t) (kat_of t Ht) H).
  Qed.
  Theorem C43_sum_value n m l k : Forall klegal l -> kc_plus (kcode n m) l = Ok k ->
    klegal k /\ kvalue k = vsum W (map kvalue l) /\ (forall h, same_kets h l -> k = KZero \/ same_set (kspace k) h).
  Proof.
    intros Hl H. rewrite (proj1 (proj2 (kfree n m))) in H. destruct (q_plus W _ (ksound n m) l k Hl H) as (L & V & G). split; [exact L|]. split; [exact V|]. intros h Hh. apply (G h Hh).
  Qed.
  Theorem C43_tensor_value n m l k : Forall klegal l -> kc_tens (kcode n m) l = Ok k ->
    klegal k /\ kvalue k = vprod W (map kvalue l) /\ (k = KZero \/ same_set (kspace k) (flat_map kspace l)).
  Proof.
    intros Hl H. rewrite (proj2 (proj2 (kfree n m))) in H. exact (proj1 (q_tens W _ (ksound n m) l k Hl H)).
  Qed.
  (** factors on overlapping spaces never give a ket other than zero *)
  Theorem C43_tensor_disjoint n m l k : Forall klegal l -> kc_tens (kcode n m) l = Ok k -> k <> KZero -> disjoint_kets l /\ ~ In KZero l.
  Proof.
    intros Hl H. rewrite (proj2 (proj2 (kfree n m))) in H. exact (proj2 (q_tens W _ (ksound n m) l k Hl H)).
  Qed.
  (** a sum that remains has summands on one space *)
  Theorem C43_sum_spaces n m l l' : Forall klegal l -> kc_plus (kcode n m) l = Ok (KPlus l') -> exists h, forall x, In x l' -> same_set (kspace x) h.
  Proof.
    intros Hl H. destruct (C43_sum_value n m l (KPlus l') Hl H) as ((_ & [h Hh] & Lf) & _). exists h. intros x Hx. apply Hh; [exact Hx|].
    apply (klegal_fold (I:=I)) in Lf. rewrite Forall_forall in Lf. now apply Lf.
  Qed.

  (** ** The action of an operator *)
  Theorem C43_apply_value n m a t k : legal a -> klegal t -> kc_op (kchecked n m) a t = Ok k ->
    kc_op (kcode n m) a t = Ok k
    /\ klegal k /\ kvalue k = act (value a) (kvalue t) /\ (k = KZero \/ same_set (kspace k) (kspace t)).
  Proof.
    intros Ha Ht H. split; [exact (le_ok _ _ _ (l_op _ _ (kle n m) a t) H)|]. exact (q_op W _ (ksound n m) a t k (kspace t) Ha (kat_of t Ht) H).
  Qed.
  (** a local operator and a basis state: the code as it is *)
  Theorem C43_basis_value n m a j l k : legal (OAtom a) -> level (dim:=dim) l j -> kc_op (kcode n m) (OAtom a) (KBasis j l) = Ok k ->
    klegal k /\ kvalue k = act (atom_val I a) (ebasis j l) /\ (k = KZero \/ same_set (kspace k) [l]).
  Proof.
    intros Ha Hj H. unfold Properties_Ket.kcode in H. rewrite (basis_free dim klt slt _ (checked n) bk bk kb kb any_phase real any_split clean_split) in H.
    exact (proj2 (C43_apply_value n m (OAtom a) (KBasis j l) k Ha Hj H)).
  Qed.
  (** a|j> = sqrt(j) |j-1>, and the adjoint of a; |i><j| maps |j> to |i> and other basis states to 0 *)
  Lemma basis_sigma j l : level (dim:=dim) l j -> act (isigma j j l) (ebasis j l) = ebasis (w:=W) j l.
  Proof. intros Hj. rewrite (sigma_basis I W) by exact Hj. now rewrite Nat.eqb_refl. Qed.
  Theorem C43_create_value n m j l k : boson (i:=I) l -> kc_op (kcode n m) (OAtom (ACreate l)) (KBasis j l) = Ok k ->
    kvalue k = vs (ksqrt (qn (j + 1))) (ebasis (j + 1) l).
  Proof.
    intros Hb H. assert (forall i, level (dim:=dim) l i) as Hl by (intros i; unfold level; now rewrite (boson_dim _ _ I l Hb)).
    destruct (C43_basis_value n m (ACreate l) j l k Hb (Hl j) H) as (_ & -> & _). cbn [atom_val].
    rewrite <- (basis_sigma j l (Hl j)) at 1. rewrite <- (act_mul I W), (create_sigma _ _ I) by exact Hb. rewrite (act_smul I W), (sigma_basis I W) by apply Hl. now rewrite Nat.eqb_refl.
  Qed.
  Theorem C43_destroy_value n m j l k : boson (i:=I) l -> kc_op (kcode n m) (OAtom (ADestroy l)) (KBasis j l) = Ok k ->
    kvalue k = match j with 0 => vz | Datatypes.S i => vs (ksqrt (qn j)) (ebasis i l) end.
  Proof.
    intros Hb H. assert (forall i, level (dim:=dim) l i) as Hl by (intros i; unfold level; now rewrite (boson_dim _ _ I l Hb)).
    destruct (C43_basis_value n m (ADestroy l) j l k Hb (Hl j) H) as (_ & -> & _). cbn [atom_val].
    rewrite <- (basis_sigma j l (Hl j)) at 1. rewrite <- (act_mul I W). destruct j as [|i].
    - rewrite (destroy_sigma_0 _ _ I) by exact Hb. apply act_0.
    - replace (Datatypes.S i) with (Nat.add i 1) by lia. rewrite (destroy_sigma _ _ I) by exact Hb. rewrite (act_smul I W), (sigma_basis I W) by apply Hl. now rewrite Nat.eqb_refl.
  Qed.
  Theorem C43_sigma_value n m i j j' l k : level (dim:=dim) l i -> level (dim:=dim) l j -> level (dim:=dim) l j' -> kc_op (kcode n m) (OAtom (ASigma i j l)) (KBasis j' l) = Ok k ->
    kvalue k = if j =? j' then ebasis i l else vz.
  Proof.
    intros Hi Hj Hj' H. destruct (C43_basis_value n m (ASigma i j l) j' l k (conj Hi Hj) Hj' H) as (_ & -> & _). now apply (sigma_basis I W).
  Qed.
  (** operators and kets of one local space: nothing but the angles has to be checked *)
  Theorem C43_local_apply l n m a t k : good_orders olt slt -> (forall a b, ket_of l a -> ket_of l b -> local_to l (kb a b)) -> local_to l a -> ket_of l t ->
    legal a -> klegal t -> kc_op (kphases n m) a t = Ok k ->
    kc_op (kcode n m) a t = Ok k /\ klegal k /\ kvalue k = act (value a) (kvalue t) /\ (k = KZero \/ same_set (kspace k) (kspace t)).
  Proof.
    intros Ho Hl La Lt Ha Ht H. split; [exact (le_ok _ _ _ (l_op _ _ (kphases_le n m) a t) H)|].
    destruct (b_op l _ _ (klocal l n m Ho Hl) a t La Lt) as [E _]. exact (proj2 (C43_apply_value n m a t k Ha Ht (eq_trans E H))).
  Qed.
  Theorem C43_local_inner l n m a b h c : good_orders olt slt -> (forall a b, ket_of l a -> ket_of l b -> local_to l (kb a b)) -> ket_of l a -> ket_of l b ->
    klegal a -> klegal b -> same_kets h [a; b] -> kc_bk (kphases n m) a b = Ok c ->
    kc_bk (kcode n m) a b = Ok c /\ ev (r:=I) c = inner h (kvalue a) (kvalue b).
  Proof.
    intros Ho Hl La Lb Ha Hb Hh H. split; [exact (le_ok _ _ _ (l_bk _ _ (kphases_le n m) a b) H)|].
    pose proof (b_bk l _ _ (klocal l n m Ho Hl) a b La Lb) as E. exact (q_bk W _ (ksound n m) a b c h Ha Hb Hh (eq_trans E H)).
  Qed.
  Theorem C43_local_outer l n m a b h e : good_orders olt slt -> (forall a b, ket_of l a -> ket_of l b -> local_to l (kb a b)) -> ket_of l a -> ket_of l b ->
    klegal a -> klegal b -> same_kets h [a; b] -> kc_kb (kphases n m) a b = Ok e ->
    kc_kb (kcode n m) a b = Ok e /\ legal e /\ value e = outer h (kvalue a) (kvalue b).
  Proof.
    intros Ho Hl La Lb Ha Hb Hh H. split; [exact (le_ok _ _ _ (l_kb _ _ (kphases_le n m) a b) H)|].
    destruct (b_kb l _ _ (klocal l n m Ho Hl) a b La Lb) as [E _]. exact (q_kb W _ (ksound n m) a b e h Ha Hb Hh (eq_trans E H)).
  Qed.

  (** ** Inner products *)
  Theorem C43_inner_value n m a b h c : klegal a -> klegal b -> same_kets h [a; b] -> kc_bk (kchecked n m) a b = Ok c ->
    kc_bk (kcode n m) a b = Ok c /\ ev (r:=I) c = inner h (kvalue a) (kvalue b).
  Proof.
    intros Ha Hb Hh H. split; [exact (le_ok _ _ _ (l_bk _ _ (kle n m) a b) H)|]. exact (q_bk W _ (ksound n m) a b c h Ha Hb Hh H).
  Qed.
  Lemma two_swap h (a b : ket S) : same_kets h [a; b] -> same_kets h [b; a].
  Proof. intros H x [<-|[<-|[]]] Hx; apply H; auto; [right; now left|now left]. Qed.
  Lemma on_two h a b : klegal a -> klegal b -> same_kets h [a; b] -> on (w:=W) h (kvalue a) /\ on (w:=W) h (kvalue b).
  Proof. intros Ha Hb Hh. destruct (kat_two h a b Ha Hb Hh). split; now apply kat_on. Qed.
  (** exchanging the two kets conjugates the result *)
  Theorem C43_inner_conjugate n m n' m' a b h c d : klegal a -> klegal b -> same_kets h [a; b] ->
    kc_bk (kchecked n m) a b = Ok c -> kc_bk (kchecked n' m') b a = Ok d -> ev (r:=I) d = kconj (ev c).
  Proof.
    intros Ha Hb Hh H H'. rewrite (proj2 (C43_inner_value n m a b h c Ha Hb Hh H)), (proj2 (C43_inner_value n' m' b a h d Hb Ha (two_swap _ _ _ Hh) H')).
    symmetry. destruct (on_two h a b Ha Hb Hh). now apply (inner_conj I W).
  Qed.
  (** ** Outer products *)
  Theorem C43_outer_value n m a b h e : klegal a -> klegal b -> same_kets h [a; b] -> kc_kb (kchecked n m) a b = Ok e ->
    kc_kb (kcode n m) a b = Ok e /\ legal e /\ value e = outer h (kvalue a) (kvalue b).
  Proof.
    intros Ha Hb Hh H. split; [exact (le_ok _ _ _ (l_kb _ _ (kle n m) a b) H)|]. exact (q_kb W _ (ksound n m) a b e h Ha Hb Hh H).
  Qed.
  (** the operator |a><b| maps a ket z to a, times <b|z> *)
  Theorem C43_outer_apply n m a b h e z : klegal a -> klegal b -> same_kets h [a; b] -> kc_kb (kchecked n m) a b = Ok e -> on h z ->
    act (w:=W) (value e) z = vs (inner h (kvalue b) z) (kvalue a).
  Proof.
    intros Ha Hb Hh H Hz. destruct (C43_outer_value n m a b h e Ha Hb Hh H) as (_ & _ & ->). destruct (on_two h a b Ha Hb Hh). now apply (outer_apply I W).
  Qed.

  (** ** Products of kets, bras, operators and scalars *)
  Lemma rmap_ok {A B} (f : A -> B) r y : rmap f r = Ok y -> exists x, r = Ok x /\ y = f x.
  Proof. destruct r as [x|]; [|discriminate]. intros H. injection H as <-. now exists x. Qed.
  (** ket*bra, bra*ket and bra*bra are outer products, inner products and tensor products *)
  Theorem C43_ket_bra_value n m a b h x : klegal a -> klegal b -> same_kets h [a; b] -> state_mul (kchecked n m) (Ket a) (Bra b) = Ok x ->
    state_mul (kcode n m) (Ket a) (Bra b) = Ok x /\ exists e, x = POp e /\ legal e /\ value e = outer h (kvalue a) (kvalue b).
  Proof.
    intros Ha Hb Hh H. cbn [state_mul] in *. apply rmap_ok in H. destruct H as (e & H & ->). destruct (C43_outer_value n m a b h e Ha Hb Hh H) as [E G]. rewrite E. split; [reflexivity|]. now exists e.
  Qed.
  Theorem C43_bra_ket_value n m a b h x : klegal a -> klegal b -> same_kets h [a; b] -> state_mul (kchecked n m) (Bra a) (Ket b) = Ok x ->
    state_mul (kcode n m) (Bra a) (Ket b) = Ok x /\ exists c, x = PScal c /\ ev (r:=I) c = apply_bra W h (kvalue a) (kvalue b).
  Proof.
    intros Ha Hb Hh H. cbn [state_mul] in *. apply rmap_ok in H. destruct H as (c & H & ->). destruct (C43_inner_value n m a b h c Ha Hb Hh H) as [E G]. rewrite E. split; [reflexivity|]. now exists c.
  Qed.
  (** the product of two bras, applied to the product of two kets; the code as it is *)
  Theorem C43_bra_bra_value n m a b x : klegal a -> klegal b -> state_mul (kcode n m) (Bra a) (Bra b) = Ok x ->
    exists k, x = PState (Bra k) /\ klegal k /\ (k = KZero \/ same_set (kspace k) (kspace a ++ kspace b))
    /\ (k <> KZero -> forall y z, on (w:=W) (kspace a) y -> on (w:=W) (kspace b) z ->
         apply_bra W (kspace k) (kvalue k) (vm y z) = kmul (apply_bra W (kspace a) (kvalue a) y) (apply_bra W (kspace b) (kvalue b) z)).
  Proof.
    intros Ha Hb H. cbn [state_mul] in *. apply rmap_ok in H. destruct H as (k & H & ->). exists k. split; [reflexivity|].
    assert (Forall klegal [a; b]) as Hl by (constructor; [exact Ha|constructor; [exact Hb|constructor]]).
    destruct (C43_tensor_value n m [a; b] k Hl H) as (L & V & Sp). cbn [flat_map] in Sp. rewrite app_nil_r in Sp. split; [exact L|]. split; [exact Sp|].
    intros Hk y z Hy Hz. destruct (C43_tensor_disjoint n m [a; b] k Hl H Hk) as [D _]. destruct Sp as [->|Sp]; [contradiction|].
    assert (apart (kspace a) (kspace b)) as Hap by (inversion D as [|? ? Hd _]; subst; apply Hd; now left).
    unfold apply_bra. rewrite V. change (map kvalue [a; b]) with [kvalue a; kvalue b]. rewrite vprod_2. rewrite (inner_same I W _ _ _ _ Sp). apply (inner_mul I W); [exact Hap| |exact Hy| |exact Hz]; now apply kvalue_on.
  Qed.
  (** multiples: a bra is antilinear in its ket; the code as it is *)
  Theorem C43_scaled_bra n m c k s y : klegal k -> scal_mul (kcode n m) c (Bra k) = Ok s -> on (w:=W) (kspace k) y ->
    exists k', s = Bra k' /\ klegal k' /\ (k' = KZero \/ same_set (kspace k') (kspace k)) /\ apply_bra W (kspace k) (kvalue k') y = kmul (ev c) (apply_bra W (kspace k) (kvalue k) y).
  Proof.
    intros Hk H Hy. cbn [scal_mul] in H. apply rmap_ok in H. destruct H as (k' & H & ->). destruct (C43_multiple_value n m _ _ _ Hk H) as (L & V & Sp). exists k'. split; [reflexivity|]. split; [exact L|]. split; [exact Sp|].
    unfold apply_bra. rewrite V, (inner_smul_l W) by (try exact Hy; now apply kvalue_on). f_equal. rewrite ev_conj. apply (kconj_conj I).
  Qed.
  Theorem C43_bra_sum n m a b h s y : klegal a -> klegal b -> same_kets h [a; b] -> state_add (kcode n m) (Bra a) (Bra b) = Ok s -> on (w:=W) h y ->
    exists k, s = Bra k /\ klegal k /\ (k = KZero \/ same_set (kspace k) h) /\ apply_bra W h (kvalue k) y = kadd (apply_bra W h (kvalue a) y) (apply_bra W h (kvalue b) y).
  Proof.
    intros Ha Hb Hh H Hy. cbn [state_add] in H. apply rmap_ok in H. destruct H as (k & H & ->).
    destruct (C43_sum_value n m [a; b] k) as (L & V & Sp); [constructor; [exact Ha|constructor; [exact Hb|constructor]]|exact H|]. exists k. split; [reflexivity|]. split; [exact L|]. split; [now apply Sp|].
    unfold apply_bra. rewrite V. change (map kvalue [a; b]) with [kvalue a; kvalue b]. rewrite vsum_2. destruct (on_two h a b Ha Hb Hh). now apply inner_add_l.
  Qed.
  (** <k|A applied to y is <k| applied to A y *)
  Theorem C43_bra_operator n m k a s y : klegal k -> legal a -> incl (space a) (kspace k) -> mul_op (checked n) (kchecked n m) (Bra k) a = Ok s -> on (w:=W) (kspace k) y ->
    mul_op (code n) (kcode n m) (Bra k) a = Ok s
    /\ exists k', s = Bra k' /\ klegal k' /\ (k' = KZero \/ same_set (kspace k') (kspace k)) /\ apply_bra W (kspace k) (kvalue k') y = apply_bra W (kspace k) (kvalue k) (act (value a) y).
  Proof.
    intros Hk Ha Hi H Hy. cbn [mul_op] in *. destruct (oadj (checked n) a) as [a'|] eqn:E; [|discriminate H]. cbn [bind] in H.
    rewrite (le_ok _ _ _ (oadj_mono _ _ (checked_le (dim:=dim) olt slt n) a) E). cbn [bind]. apply rmap_ok in H. destruct H as (k' & H & ->).
    destruct (oadj_sound I _ (checked_sound I olt slt n) a a' Ha E) as [La Va]. destruct (C43_apply_value n m a' k k' La Hk H) as (-> & L & V & Sp). split; [reflexivity|].
    exists k'. split; [reflexivity|]. split; [exact L|]. split; [exact Sp|]. unfold apply_bra. rewrite V, Va. rewrite (inner_act I W (kspace k) (space a)).
    - f_equal. now rewrite star_star.
    - apply (lives_star _ _ I). now apply value_lives.
    - exact Hi.
    - now apply kvalue_on.
    - exact Hy.
  Qed.
  (** what cannot be multiplied or added is a TypeError *)
  Theorem C43_type_errors (n m : nat) K a k k' :
    op_mul (kcode n m) a (Bra k) = Err TypeError /\ mul_op K (kcode n m) (Ket k) a = Err TypeError
    /\ state_add (kcode n m) (Ket k) (Bra k') = Err TypeError /\ state_add (kcode n m) (Bra k) (Ket k') = Err TypeError.
  Proof. repeat split. Qed.

  (** ** Expansion *)
  Theorem C43_expand_value n m p k k' : klegal k -> kexpand (checked n) (kchecked n m) p k = Ok k' ->
    kexpand (code n) (kcode n m) p k = Ok k' /\ klegal k' /\ kvalue k' = kvalue k /\ (k' = KZero \/ same_set (kspace k') (kspace k)).
  Proof.
    intros Hk H. split.
    - exact (le_ok _ _ _ (kexpand_mono _ _ (checked_le (dim:=dim) olt slt n) _ _ (kle n m) p p k (Nat.le_refl p)) H).
    - exact (kexpand_sound W _ (checked_sound I olt slt n) _ (ksound n m) p k k' (kspace k) (kat_of k Hk) H).
  Qed.
  Theorem C43_expand_inner n m p a b h c : klegal a -> klegal b -> same_kets h [a; b] -> bk_expand (checked n) (kchecked n m) p a b = Ok c ->
    bk_expand (code n) (kcode n m) p a b = Ok c /\ ev (r:=I) c = inner h (kvalue a) (kvalue b).
  Proof.
    intros Ha Hb Hh H. destruct (kat_two h a b Ha Hb Hh) as [Ka Kb]. split.
    - refine (le_ok _ _ _ _ H). unfold bk_expand. pose proof (fun k => kexpand_mono _ _ (checked_le (dim:=dim) olt slt n) _ _ (kle n m) p p k (Nat.le_refl p)) as X.
      apply le_bind; [apply X|]. intros a'. apply le_bind; [apply X|]. intros b'. apply le_bind; [|intros; apply le_refl]. apply le_mapM. intros [u v]. apply (l_bk _ _ (kle n m)).
    - exact (bk_expand_sound W _ (checked_sound I olt slt n) _ (ksound n m) p a b c h Ka Kb H).
  Qed.
  Theorem C43_expand_outer n m p a b h e : klegal a -> klegal b -> same_kets h [a; b] -> kb_expand (checked n) (kchecked n m) p a b = Ok e ->
    kb_expand (code n) (kcode n m) p a b = Ok e /\ legal e /\ value e = outer h (kvalue a) (kvalue b).
  Proof.
    intros Ha Hb Hh H. destruct (kat_two h a b Ha Hb Hh) as [Ka Kb]. split.
    - refine (le_ok _ _ _ _ H). unfold kb_expand. pose proof (fun k => kexpand_mono _ _ (checked_le (dim:=dim) olt slt n) _ _ (kle n m) p p k (Nat.le_refl p)) as X.
      apply le_bind; [apply X|]. intros a'. apply le_bind; [apply X|]. intros b'. apply le_bind; [|intros; apply (m_plus _ _ (checked_le (dim:=dim) olt slt n))]. apply le_mapM. intros [u v]. apply (l_kb _ _ (kle n m)).
    - exact (kb_expand_sound W _ (checked_sound I olt slt n) _ (ksound n m) p a b e h Ka Kb H).
  Qed.
End Ket.

(** ** Where the code fails *)
Section Fail.
  Context {S : scalars} (dim : nat -> option nat) (olt : op S -> op S -> bool) (slt : list nat -> list nat -> bool) (klt : ket S -> ket S -> bool) (bk : ket S -> ket S -> S) (kb : ket S -> ket S -> op S).
  Local Notation kcode := (kcode dim olt slt klt bk kb).
  Local Notation ks n h := (KSym (S:=S) n h).
  (** the inner product of kets on different spaces is an error, but not for basis states *)
  Theorem C43_inner_spaces n m a h b h' : eqb_list_nat h' h = false -> kc_bk (kcode n (1 + m)) (ks a h) (ks b h') = Err UnequalSpaces.
  Proof.
    intros H. unfold Properties_Ket.kcode. cbn [Nat.add kcreators_n kc_bk bk_step keqb]. assert (eqb_list_nat h h' = false) as H'.
    { destruct (eqb_list_nat h h') eqn:E; [|reflexivity]. apply eqb_list_nat_spec in E. subst h'. rewrite (proj2 (eqb_list_nat_spec h h) eq_refl) in H. discriminate. }
    rewrite H', Bool.andb_false_r. cbn [andb]. unfold bk_new, same_space. cbn [filter is_kzero negb kspace forallb]. now rewrite H.
  Qed.
  Theorem C43_basis_spaces_refuted n m j l l' : kc_bk (kcode n (1 + m)) (KBasis j l) (KBasis j l') = Ok s1.
  Proof. unfold Properties_Ket.kcode. cbn [Nat.add kcreators_n kc_bk bk_step]. now rewrite Nat.eqb_refl. Qed.
  (** TensorKet.create() and KetPlus.create() never return *)
  Theorem C43_empty_refuted n m : kc_tens (kcode n m) [] = Err OutOfFuel /\ kc_plus (kcode n m) [] = Err OutOfFuel.
  Proof. induction m as [|m [IH1 IH2]]; [split; reflexivity|]. unfold Properties_Ket.kcode in *. cbn [kcreators_n kc_tens kc_plus ktens_step kplus_step existsb]. now rewrite IH1, IH2. Qed.
  (** the outer product of ZeroKet with itself is an error, with another ket it is not simplified *)
  Theorem C43_outer_zero_refuted n m a h :
    kc_kb (kcode n (1 + m)) KZero KZero = Err UnequalSpaces
    /\ kc_kb (kcode n (1 + m)) KZero (ks a h) = Ok (kb KZero (ks a h)) /\ kc_kb (kcode n (1 + m)) (ks a h) KZero = Ok (kb (ks a h) KZero).
  Proof. repeat split. Qed.

  Lemma dw_loop {B} Q f (g : ket S -> ket S -> res B) mul l m spc p1 p2 q1 q2 :
    sp_lt spc (sp_union (kspace (KTensor l)) (kspace (KTensor m))) = true -> kfactor Q spc l = Ok (p1, p2) -> kfactor Q spc m = Ok (q1, q2) ->
    eqb_list_nat (kspace p1) (kspace q1) && eqb_list_nat (kspace p2) (kspace q2) && negb (is_ktriv p2) = false ->
    decompose_while Q (Datatypes.S f) g mul l m spc = decompose_while Q f g mul l m (sp_union (kspace p1) (kspace q1)).
  Proof. intros H1 H2 H3 H4. cbn [decompose_while]. rewrite H1, H2. cbn [bind]. rewrite H3. cbn [bind]. now rewrite H4. Qed.
  Lemma tw_loop K chk Q f ops l spc o1 o2 k1 k2 : sp_lt spc (kspace (KTensor l)) = true -> ofactor K spc ops = Ok (o1, o2) -> kfactor Q spc l = Ok (k1, k2) ->
    sp_incl (space o1) (kspace k1) && sp_incl (space o2) (kspace k2) && negb (is_ktriv k2) = false ->
    times_while (S:=S) K chk Q (Datatypes.S f) ops l spc = times_while K chk Q f ops l (sp_union (space o1) (kspace k1)).
  Proof. intros H1 H2 H3 H4. cbn [times_while]. rewrite H1, H2. cbn [bind]. rewrite H3. cbn [bind]. now rewrite H4. Qed.
End Fail.

(** in the environment of the examples, for any comparison of kets *)
Section Fail2.
  Context (klt : ket Sx -> ket Sx -> bool) (bk : ket Sx -> ket Sx -> Sx) (kb : ket Sx -> ket Sx -> op Sx).
  Local Notation xk := (kcode xdim xolt xslt klt bk kb).
  Local Notation ks n h := (KSym (S:=Sx) n h).
  Local Notation e12 := [ks 0 [1; 2]; ks 1 [3; 4]].
  Local Notation e13 := [ks 0 [1; 3]; ks 1 [2; 4]].
  (** the inner product of two product states on the same space with different
      factorisations *)
  Theorem C43_factorisations_refuted n m : kspace (KTensor e12) = kspace (KTensor e13) /\ kc_bk (xk n m) (KTensor e12) (KTensor e13) = Err OutOfFuel.
  Proof.
    split; [reflexivity|]. destruct m as [|m]; [reflexivity|].
    change (kc_bk (xk n (S m)) (KTensor e12) (KTensor e13)) with (do r <- decompose (xk n m) m (kc_bk (xk n m)) (fun x y => Ok (smult x y)) e12 e13; match r with Some x => Ok x | None => bk_new bk (KTensor e12) (KTensor e13) end).
    unfold decompose. change (sp_union (kspace (KTensor e12)) (kspace (KTensor e13))) with [1;2;3;4]. cbn [first_some].
    do 5 (destruct m as [|m]; [vm_compute; reflexivity|]).
    rewrite (dw_loop _ _ _ _ e12 e13 [1] (ks 0 [1; 2]) (ks 1 [3; 4]) (ks 0 [1; 3]) (ks 1 [2; 4])) by (vm_compute; reflexivity).
    change (sp_union _ _) with [1; 2; 3].
    assert (forall f g mul, decompose_while (B:=Sx) (xk n (S (S (S (S (S m)))))) (S f) g mul e12 e13 [1; 2; 3] = Err OutOfFuel) as ->; [|reflexivity].
    intros f g mul. unfold decompose_while. change (sp_lt [1; 2; 3] _) with true. cbv iota.
    assert (kfactor (xk n (S (S (S (S (S m)))))) [1; 2; 3] e12 = Err OutOfFuel) as ->; [|reflexivity].
    unfold kfactor. change (koff [1; 2; 3] e12) with (@nil (ket Sx)). rewrite (proj1 (C43_empty_refuted xdim xolt xslt klt bk kb n _)). destruct (kc_tens _ _) as [x|e] eqn:E; [reflexivity|]. vm_compute in E. discriminate.
  Qed.
  (** product states on different spaces: no error, the search for a common factorisation does not end *)
  Theorem C43_unequal_spaces_refuted n m : kc_bk (xk n m) (KTensor [ks 0 [1]; ks 1 [2]]) (KTensor [ks 2 [1]; ks 3 [3]]) = Err OutOfFuel.
  Proof.
    destruct m as [|m]; [reflexivity|].
    change (kc_bk (xk n (S m)) (KTensor [ks 0 [1]; ks 1 [2]]) (KTensor [ks 2 [1]; ks 3 [3]])) with (do r <- decompose (xk n m) m (kc_bk (xk n m)) (fun x y => Ok (smult x y)) [ks 0 [1]; ks 1 [2]] [ks 2 [1]; ks 3 [3]];
      match r with Some x => Ok x | None => bk_new bk (KTensor [ks 0 [1]; ks 1 [2]]) (KTensor [ks 2 [1]; ks 3 [3]]) end).
    unfold decompose. change (sp_union (kspace _) (kspace _)) with [1;2;3]. cbn [first_some]. destruct m as [|m]; [reflexivity|].
    assert (forall f g mul, decompose_while (B:=Sx) (xk n (S m)) f g mul [ks 0 [1]; ks 1 [2]] [ks 2 [1]; ks 3 [3]] [1] = Err OutOfFuel) as ->; [|reflexivity].
    induction f as [|f IH]; intros g mul; [reflexivity|]. rewrite (dw_loop _ _ _ _ _ _ [1] (ks 0 [1]) (ks 1 [2]) (ks 2 [1]) (ks 3 [3])) by (vm_compute; reflexivity). apply IH.
  Qed.
  (** a product of operators with a factor outside the space of the ket: no error either *)
  Local Notation A n h := (OAtom (ASym (S:=Sx) n h)).
  Theorem C43_space_too_large_refuted n m : kc_op (xk n m) (OTimes [A 0 [1]; A 1 [5]]) (KTensor [ks 0 [1]; ks 1 [2]]) = Err OutOfFuel
    /\ kc_op (xk n (2 + m)) (A 1 [5]) (ks 0 [1]) = Err SpaceTooLargeError.
  Proof.
    split; [|reflexivity].
    destruct m as [|m]; [reflexivity|].
    change (kc_op (xk n (S m)) (OTimes [A 0 [1]; A 1 [5]]) (KTensor [ks 0 [1]; ks 1 [2]])) with (do r <- act_times (code xdim xolt xslt n) any_split (xk n m) m [A 0 [1]; A 1 [5]] [ks 0 [1]; ks 1 [2]];
      match r with Some x => Ok x | None => kop_new (OTimes [A 0 [1]; A 1 [5]]) (KTensor [ks 0 [1]; ks 1 [2]]) end).
    unfold act_times. change (space _) with [1; 5]. cbn [first_some]. destruct m as [|m]; [reflexivity|]. destruct n as [|n]; [reflexivity|].
    assert (forall f, times_while (code xdim xolt xslt (S n)) any_split (xk (S n) (S m)) f [A 0 [1]; A 1 [5]] [ks 0 [1]; ks 1 [2]] [1] = Err OutOfFuel) as ->; [|reflexivity].
    induction f as [|f IH]; [reflexivity|]. rewrite (tw_loop _ _ _ _ _ _ [1] (A 0 [1]) (A 1 [5]) (ks 0 [1]) (ks 1 [2])) by (vm_compute; reflexivity). apply IH.
  Qed.
End Fail2.

(** ** Examples *)
(** registers of two-level systems meet the hypotheses *)
Definition F1 (m : nat) (h : list nat) : A (site_reading cs_reading (lev 2)) := a1.
Lemma F1_reg m h : TrInst.reg (M:=site_reading cs_reading (lev 2)) (mu 2) h (F1 m h).
Proof. apply rg_1. Qed.
Definition p2 : lev 2 := exist _ 0 eq_refl.
Definition W2 : kets (register 2 cs_reading F1 F1_reg) := RK 2 p2 F1 F1_reg (sym_ket 2 p2) (sym_on 2 p2) (sym_norm 2 p2).
Example C43_register_example :
  bk_ok W2 (bk_of 2 p2 F1 F1_reg (sym_ket 2 p2) (sym_on 2 p2) (sym_norm 2 p2)) /\ kb_ok W2 (kb_of 2 p2 F1 F1_reg (sym_ket 2 p2) (sym_on 2 p2) (sym_norm 2 p2))
  /\ klegal (I:=register 2 cs_reading F1 F1_reg) (KPlus [KTensor [KBasis 0 0; KBasis 1 1]; KScal (S:=Cs) ci (KTensor [KBasis 1 0; KSym 0 [1]])])
  /\ klegal (I:=register 2 cs_reading F1 F1_reg) (KOp (OAtom (ASigma 0 1 1)) (KSym (S:=Cs) 0 [0; 1])).
Proof.
  split; [apply bk_of_ok|]. split; [apply kb_of_ok|]. split.
  - assert (forall a b : ket Cs, apart (kspace a) (kspace b) -> disjoint_kets [a; b]) as D.
    { intros a b H. constructor; [intros y [<-|[]]; exact H|]. constructor; [intros y []|constructor]. }
    assert (apart [0] [1]) as Q by (intros x [<-|[]] [H|[]]; discriminate H).
    split; [discriminate|]. split.
    + exists [0; 1]. intros x [<-|[<-|[]]] _ y; cbn [kspace sp_union fold_right]; cbn; tauto.
    + cbn. repeat split; try discriminate; try lia; apply D; exact Q.
  - cbn. repeat split; try discriminate; try lia. intros x [<-|[]]. right. now left.
Qed.
Definition klt0 (a b : ket Sx) : bool := false.
Definition bk0 (a b : ket Sx) : Sx := OpRun.num 7.
Definition kb0 (a b : ket Sx) : op Sx := sym 9 (kspace a).
Definition kx (n m : nat) : kcreators Sx := kchecked xdim xolt xslt klt0 bk0 kb0 (fun _ => false) n m.
Definition is_ket (r : res (ket Sx)) (k : ket Sx) : bool := match r with Ok x => keqb x k | Err _ => false end.
Definition is_scal (r : res Sx) (c : Sx) : bool := match r with Ok x => seqb x c | Err _ => false end.
(** monitored runs *)
Example C43_sum_example : is_ket (kc_plus (kx 9 9) [KSym 0 [1]; KScal (OpRun.num 2) (KSym 0 [1]); KZero; KSym 1 [1]]) (KPlus [KScal (OpRun.num 3) (KSym 0 [1]); KSym 1 [1]]) = true
  /\ match kc_plus (kx 9 9) [KSym 0 [1]; KSym 0 [2]] with Err UnequalSpaces => true | _ => false end = true.
Proof. vm_compute. split; reflexivity. Qed.
Example C43_tensor_example : is_ket (kc_tens (kx 9 9) [KScal (OpRun.num 2) (KSym 0 [2]); KTriv; KScal (OpRun.num 3) (KTensor [KSym 0 [1]; KSym 1 [3]])]) (KScal (OpRun.num 6) (KTensor [KSym 0 [1]; KSym 0 [2]; KSym 1 [3]])) = true
  /\ match kc_tens (kx 9 9) [KSym 0 [1]; KSym 1 [1]] with Err OverlappingSpaces => true | _ => false end = true.
Proof. vm_compute. split; reflexivity. Qed.
Example C43_apply_example :
  is_ket (kc_op (kx 9 9) (OTimes [OAtom (ACreate 0); OAtom (ADestroy 1)]) (KTensor [KBasis 0 0; KBasis 1 1])) (KTensor [KBasis 1 0; KBasis 0 1]) = true
  /\ is_ket (kexpand (checked xdim xolt xslt 9) (kx 9 9) 9 (KOp (OAtom (ASigma 2 1 0)) (KPlus [KBasis 1 0; KBasis 3 0]))) (KBasis 2 0) = true
  /\ is_ket (kc_op (kx 9 9) (OAtom (ADestroy 0)) (KCoh (OpRun.num 5) 0)) (KScal (OpRun.num 5) (KCoh (OpRun.num 5) 0)) = true.
Proof. vm_compute. repeat split; reflexivity. Qed.
Example C43_inner_example :
  is_scal (kc_bk (kx 9 9) (KTensor [KBasis 1 0; KScal (OpRun.num 2) (KSym 0 [1])]) (KTensor [KBasis 1 0; KSym 1 [1]])) (OpRun.num 14) = true.
Proof. vm_compute. reflexivity. Qed.
Example C43_outer_example : is_ok (kc_kb (kx 9 9) (KBasis 1 0) (KBasis 2 0)) (OAtom (ASigma 1 2 0)) = true
  /\ is_ok (kc_kb (kx 9 9) (KTensor [KBasis 1 0; KSym 0 [1]]) (KTensor [KBasis 2 0; KSym 1 [1]])) (OTimes [OAtom (ASigma 1 2 0); sym 9 [1]]) = true.
Proof. vm_compute. split; reflexivity. Qed.
Example C43_expand_example :
  is_ket (kexpand (checked xdim xolt xslt 9) (kx 9 9) 9 (KOp (OPlus [sym 0 [1]; sym 1 [1]]) (KSym 0 [1]))) (KPlus [KOp (sym 0 [1]) (KSym 0 [1]); KOp (sym 1 [1]) (KSym 0 [1])]) = true
  /\ is_scal (bk_expand (checked xdim xolt xslt 9) (kx 9 9) 9 (KPlus [KBasis 1 0; KBasis 2 0]) (KPlus [KBasis 2 0; KBasis 3 0])) s1 = true.
Proof. vm_compute. split; reflexivity. Qed.
Example C43_local_example : good_orders xolt xslt /\ ket_of 0 (KPlus [KBasis 1 0; KOp (OAtom (ACreate 0)) (KSym (S:=Sx) 0 [0])]) /\ (forall a b : ket Sx, ket_of 0 a -> ket_of 0 b -> local_to 0 (OScal (S:=Sx) (OpRun.num 2) OOne)).
Proof. split; [exact good_x|]. split; [cbn; tauto|]. intros a b _ _. cbn. tauto. Qed.

Print Assumptions C43_multiple_value.
Print Assumptions C43_sum_value.
Print Assumptions C43_tensor_value.
Print Assumptions C43_tensor_disjoint.
Print Assumptions C43_sum_spaces.
Print Assumptions C43_apply_value.
Print Assumptions C43_basis_value.
Print Assumptions C43_create_value.
Print Assumptions C43_destroy_value.
Print Assumptions C43_sigma_value.
Print Assumptions C43_local_apply.
Print Assumptions C43_local_inner.
Print Assumptions C43_local_outer.
Print Assumptions C43_inner_value.
Print Assumptions C43_inner_conjugate.
Print Assumptions C43_outer_value.
Print Assumptions C43_outer_apply.
Print Assumptions C43_ket_bra_value.
Print Assumptions C43_bra_ket_value.
Print Assumptions C43_bra_bra_value.
Print Assumptions C43_scaled_bra.
Print Assumptions C43_bra_sum.
Print Assumptions C43_bra_operator.
Print Assumptions C43_type_errors.
Print Assumptions C43_expand_value.
Print Assumptions C43_expand_inner.
Print Assumptions C43_expand_outer.
Print Assumptions C43_inner_spaces.
Print Assumptions C43_basis_spaces_refuted.
Print Assumptions C43_empty_refuted.
Print Assumptions C43_outer_zero_refuted.
Print Assumptions C43_factorisations_refuted.
Print Assumptions C43_unequal_spaces_refuted.
Print Assumptions C43_space_too_large_refuted.
