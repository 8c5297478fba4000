(** C74 Products of kets and bras that are indexed sums. *)
From Coq Require Import List ZArith Lia Ring.
From Verif Require Import Prelude ListFacts SortModel SortProofs HilbertModel BasisModel BasisSpec BasisProofs AlgSpec AlgInst IdxModel IdxSpec IdxProofs1 IdxProofs2 IdxProofs3 IdxProofs4 Properties_Idx IdxBraModel.
Import ListNotations.
Local Open Scope nat_scope.

(** the adjoint names stand for the adjoints *)
Definition adjoints (cj adj : nat -> nat) (S : star_algebra) (symI : nat -> list Z -> K S) (atomI : nat -> list Z -> A S) : Prop :=
  (forall n l, symI (cj n) l = kconj (symI n l)) /\ (forall n l, atomI (adj n) l = star (atomI n l)).
(** the value of a ket, or of a bra *)
Definition state_den (S : star_algebra) symI atomI (e : env) (x : state) : A S :=
  match x with Ket k => tden S symI atomI e k | BraOf b => star (tden S symI atomI e b) end.
Definition ket_of (x : state) : term := match x with Ket k | BraOf k => k end.
(** the indices of the outermost sum *)
Definition outer (t : term) : list idx := match t with TSum _ rs => syms rs | _ => [] end.

Section Den.
  Context (cj adj : nat -> nat) (S : star_algebra) (symI : nat -> list Z -> K S) (atomI : nat -> list Z -> A S).
  Context (HA : adjoints cj adj S symI atomI).
  Add Ring KrS : (kring S).
  Notation sd := (sden S symI). Notation td := (tden S symI atomI).
  Lemma kadd_cancel_l (z x y : K S) : kadd z x = kadd z y -> x = y.
  Proof. intros H. transitivity (kadd (kopp z) (kadd z x)); [ring|]. rewrite H. ring. Qed.
  Lemma kconj_0 : kconj (@k0 S) = k0.
  Proof. apply (kadd_cancel_l (kconj (@k0 S))). rewrite <- kconj_add. transitivity (kconj (@k0 S)); [f_equal; ring|ring]. Qed.
  Lemma kconj_opp (x : K S) : kconj (kopp x) = kopp (kconj x).
  Proof. apply (kadd_cancel_l (kconj x)). rewrite <- kconj_add. transitivity (kconj (@k0 S)); [f_equal; ring|]. rewrite kconj_0. ring. Qed.
  Lemma star_0 : star (@a0 S) = a0.
  Proof. transitivity (star (smul k0 (@a0 S))); [now rewrite smul_0|]. now rewrite star_smul, kconj_0, smul_0. Qed.
  Lemma star_asum {X} (f : X -> A S) l : star (asum f l) = asum (fun v => star (f v)) l.
  Proof. induction l as [|v l IH]; cbn [asum fold_right]; [apply star_0|]. rewrite star_add. f_equal. exact IH. Qed.
  Lemma star_sum_ranges rs f e : star (sum_ranges S rs f e) = sum_ranges S rs (fun e' => star (f e')) e.
  Proof.
    revert e. induction rs as [|r rs IH]; intros e; cbn [sum_ranges]; [reflexivity|]. rewrite star_asum.
    induction (vals (snd r)) as [|v l IHl]; cbn [asum fold_right]; [reflexivity|]. rewrite IH. f_equal. exact IHl.
  Qed.
  Lemma kconj_kZ z : kconj (@kZ S z) = kZ z.
  Proof.
    assert (H : forall n, kconj (@kZ S (Z.of_nat n)) = kZ (Z.of_nat n)).
    { induction n as [|n IH]; [apply kconj_0|]. now rewrite !kZ_nat_S, kconj_add, kconj_1, IH. }
    destruct z as [|p|p]; [apply kconj_0| |].
    - specialize (H (Pos.to_nat p)). now rewrite positive_nat_Z in H.
    - specialize (H (Pos.to_nat p)). rewrite positive_nat_Z in H. cbn [kZ] in *. rewrite kconj_opp. f_equal. exact H.
  Qed.
  Lemma sconj_den e s : sd e (sconj cj s) = kconj (sd e s).
  Proof.
    induction s as [z|a|n args|a b|r a|l IH|l IH] using scal_rect'; cbn [sconj sden].
    - symmetry. apply kconj_kZ.
    - symmetry. apply kconj_kZ.
    - apply HA.
    - destruct (iden e a =? iden e b)%Z; [symmetry; apply kconj_1|symmetry; apply kconj_0].
    - destruct (irange_one r (iden e a)) as [[|[p|p|]|p]|x]; try (symmetry; apply kconj_0). symmetry. apply kconj_1.
    - induction IH as [|x l Hx _ IHl]; cbn [map fold_right]; [symmetry; apply kconj_0|]. rewrite kconj_add. now f_equal.
    - induction IH as [|x l Hx _ IHl]; cbn [map fold_right]; [symmetry; apply kconj_1|]. rewrite kconj_mul. now f_equal.
  Qed.
  Lemma dag_den t : forall e, td e (dag cj adj t) = star (td e t).
  Proof.
    induction t as [n args|c t IH|t IHt u IHu|t IHt u IHu|t IH rs]; intros e; cbn [dag tden].
    - apply HA.
    - now rewrite star_smul, sconj_den, IH.
    - now rewrite star_add, IHt, IHu.
    - now rewrite star_mul, IHt, IHu.
    - rewrite star_sum_ranges. apply sum_ranges_ext. intros e' _. apply IH.
  Qed.
End Den.

Section Names.
  Context (cj adj : nat -> nat).
  Lemma sfree_sconj s : sfree (sconj cj s) = sfree s.
  Proof.
    induction s as [z|a|n args|a b|r a|l IH|l IH] using scal_rect'; cbn [sconj sfree]; try reflexivity.
    all: induction IH as [|x l Hx _ IHl]; cbn [map flat_map]; [reflexivity|now rewrite Hx, IHl].
  Qed.
  Lemma tfree_dag t z : In z (tfree (dag cj adj t)) <-> In z (tfree t).
  Proof.
    induction t as [n args|c t IH|t IHt u IHu|t IHt u IHu|t IH rs]; cbn [dag tfree]; rewrite ?sfree_sconj, ?in_app_iff, ?filter_In; tauto.
  Qed.
  Lemma tbound_dag t z : In z (tbound (dag cj adj t)) <-> In z (tbound t).
  Proof.
    induction t as [n args|c t IH|t IHt u IHu|t IHt u IHu|t IH rs]; cbn [dag tbound]; rewrite ?in_app_iff; tauto.
  Qed.
  Lemma bound_symbols_dag t z : In z (bound_symbols (dag cj adj t)) <-> In z (bound_symbols t).
  Proof.
    induction t as [n args|c t IH|t IHt u IHu|t IHt u IHu|t IH rs]; cbn [dag bound_symbols]; rewrite ?in_app_iff; tauto.
  Qed.
End Names.

Definition body (t : term) : term := match t with TSum u _ => u | _ => t end.
(** no free index of [l] is a summation index of [k], and the summation indices that [l]
    also binds can be renamed *)
Definition safe (k l : term) : Prop := forall z, In z (outer k) ->
  ~ In z (tfree l)
  /\ (In z (bound_symbols l) -> primes_fresh z (body k) /\ forall y, primed_copy z y -> ~ In y (outer k) /\ ~ In y (tfree l)).
Definition compatible (k l : term) : Prop := wf k /\ wf l /\ safe k l /\ safe l k.
(** the product: for two bras, the bra of the product of the kets *)
Definition state_prod (S : star_algebra) symI atomI (e : env) (x y : state) : A S :=
  match x, y with
  | BraOf b, BraOf c => star (amul (tden S symI atomI e b) (tden S symI atomI e c))
  | _, _ => amul (state_den S symI atomI e x) (state_den S symI atomI e y)
  end.

Lemma not_sum_outer t : is_sum t = false -> outer t = [].
Proof. now destruct t. Qed.
Lemma NoDup_2 rs us : NoDup (syms rs) -> NoDup (syms us) -> (forall z, In z (syms us) -> ~ In z (syms rs)) -> NoDup (syms (rs ++ us)).
Proof. intros H1 H2 H. unfold syms in *. rewrite map_app. apply NoDup_app_intro; auto. intros z Z1 Z2. now apply (H z). Qed.

Lemma ket_ket_ok k l : compatible k l ->
  exists r, ket_ket k l = Ok r /\ forall (S : algebra) symI atomI e, tden S symI atomI e r = amul (tden S symI atomI e k) (tden S symI atomI e l).
Proof.
  intros [Wk [Wl [Sk Sl]]]. destruct (is_sum k) eqn:Ek, (is_sum l) eqn:El.
  - destruct k as [| | | |t rs]; try discriminate. destruct l as [| | | |t' rs']; try discriminate. cbn [ket_ket].
    destruct Wk as [Wt Nr], Wl as [Wt' Nr'].
    apply C28_mul_sums; auto.
    + intros x X. exact (proj1 (Sl x X)).
    + intros x X. exact (proj1 (Sk x X)).
    + intros x X1 X2. destruct (Sl x X1) as [_ P]. destruct (P X2) as [P1 P2]. split; assumption.
  - destruct k as [| | | |t rs]; try discriminate.
    assert (E : ket_ket (TSum t rs) l = mul_other t rs l) by (destruct l; try discriminate; reflexivity). rewrite E.
    destruct Wk as [Wt Nr].
    apply (C28_mul_other t rs l); auto.
    + intros x X _. exact (proj1 (Sk x X)).
    + intros x X1 X2. destruct (Sk x X1) as [_ P]. exact (P X2).
  - destruct l as [| | | |t' rs']; try discriminate.
    assert (E : ket_ket k (TSum t' rs') = rmul_other t' rs' k) by (destruct k; try discriminate; reflexivity). rewrite E.
    destruct Wl as [Wt Nr].
    apply (C28_mul_other t' rs' k); auto.
    + intros x X _. exact (proj1 (Sl x X)).
    + intros x X1 X2. destruct (Sl x X1) as [_ P]. exact (P X2).
  - exists (TMul k l). split; [destruct k, l; try discriminate; reflexivity|]. reflexivity.
Qed.

Lemma primes_fresh_dag cj adj z t : primes_fresh z (dag cj adj t) <-> primes_fresh z t.
Proof. unfold primes_fresh. setoid_rewrite tfree_dag. setoid_rewrite tbound_dag. reflexivity. Qed.
Lemma wf_dag cj adj t : wf (dag cj adj t) <-> wf t.
Proof. induction t as [n args|c t IH|t IHt u IHu|t IHt u IHu|t IH rs]; cbn [dag wf]; tauto. Qed.
Lemma is_sum_dag cj adj t : is_sum (dag cj adj t) = is_sum t.
Proof. now destruct t. Qed.
Lemma safe_dag_r cj adj k l : safe k l -> safe k (dag cj adj l).
Proof.
  intros H z Hz. destruct (H z Hz) as [H1 H2]. rewrite tfree_dag, bound_symbols_dag. split; [exact H1|].
  intros B. destruct (H2 B) as [P1 P2]. split; [exact P1|]. intros y Hy. rewrite tfree_dag. now apply P2.
Qed.
Lemma safe_dag_l cj adj k l : safe k l -> safe (dag cj adj k) l.
Proof.
  assert (E : outer (dag cj adj k) = outer k) by now destruct k.
  intros H z Hz. rewrite E in *. destruct (H z Hz) as [H1 H2]. split; [exact H1|].
  intros B. destruct (H2 B) as [P1 P2]. split; [|exact P2].
  destruct k as [| | | |t rs]; cbn [outer] in Hz; try contradiction. cbn [dag body] in *. now apply primes_fresh_dag.
Qed.
Lemma compatible_sym k l : compatible k l -> compatible l k.
Proof. unfold compatible. tauto. Qed.
Lemma compatible_dag_l cj adj k l : compatible k l -> compatible (dag cj adj k) l.
Proof. intros [H1 [H2 [H3 H4]]]. split; [now apply wf_dag|]. split; [exact H2|]. split; [now apply safe_dag_l|now apply safe_dag_r]. Qed.

(** sum over the indices of a product, when the indices do not occur in the other factor *)
Lemma sum_right k t rs : wf (TSum t rs) -> (forall z, In z (syms rs) -> ~ In z (tfree k)) ->
  sum_init (TMul k t) rs = Ok (TSum (TMul k t) rs)
  /\ forall (S : algebra) symI atomI e, tden S symI atomI e (TSum (TMul k t) rs) = amul (tden S symI atomI e k) (tden S symI atomI e (TSum t rs)).
Proof.
  intros [_ Hn] H. split; [now apply sum_init_ok|]. intros S symI atomI e. cbn [tden]. rewrite <- sum_ranges_mul_l.
  apply sum_ranges_ext. intros e' He. f_equal. apply tden_ext. intros x Hx. apply He. intros F. now apply (H x).
Qed.
Lemma sum_left k t rs : wf (TSum t rs) -> (forall z, In z (syms rs) -> ~ In z (tfree k)) ->
  sum_init (TMul t k) rs = Ok (TSum (TMul t k) rs)
  /\ forall (S : algebra) symI atomI e, tden S symI atomI e (TSum (TMul t k) rs) = amul (tden S symI atomI e (TSum t rs)) (tden S symI atomI e k).
Proof.
  intros [_ Hn] H. split; [now apply sum_init_ok|]. intros S symI atomI e. cbn [tden]. rewrite <- sum_ranges_mul_r.
  apply sum_ranges_ext. intros e' He. f_equal. apply tden_ext. intros x Hx. apply He. intros F. now apply (H x).
Qed.

Lemma ket_bra_sums cj adj t rs t' rs' : compatible (TSum t rs) (TSum t' rs') ->
  exists r, ket_bra cj adj (TSum t rs) (TSum t' rs') = Ok r
  /\ forall S symI atomI, adjoints cj adj S symI atomI -> forall e,
      tden S symI atomI e r = amul (tden S symI atomI e (TSum t rs)) (star (tden S symI atomI e (TSum t' rs'))).
Proof.
  intros [[Wt Nr] [[Wt' Nr'] [Sk Sl]]]. cbn [ket_bra].
  assert (Hp : forall x, In x (syms rs') -> In x (syms rs) -> primes_fresh x t' /\ forall y, primed_copy x y -> ~ In y (syms rs')).
  { intros x X1 X2. destruct (Sl x X1) as [_ P]. destruct (P X2) as [P1 P2]. split; [exact P1|]. intros y Hy. now apply P2. }
  destruct (C28_make_disjunct_value (syms rs) t' rs' Wt' Nr' Hp) as [u [us [E [_ [E2 [E3 [E4 E5]]]]]]].
  rewrite E. cbn [bind fst snd]. exists (TSum (TMul t (dag cj adj u)) (rs ++ us)). split.
  { apply sum_init_ok. split; [reflexivity|]. now apply NoDup_2. }
  assert (Hp1 : forall x, In x (syms rs') -> In x (syms rs) -> primes_fresh x t') by (intros x X1 X2; now apply Hp).
  intros S symI atomI HA e. cbn [tden]. rewrite sum_ranges_app, <- sum_ranges_mul_r. apply sum_ranges_ext. intros e1 He1.
  assert (Hu : forall z, In z (syms us) -> ~ In z (tfree t)).
  { intros z Hz F. destruct (in_dec idx_dec z (syms rs)) as [G|G]; [now apply (E3 z)|].
    assert (Ht : In z (tfree (TSum t rs))) by (cbn [tfree]; apply filter_In; split; [exact F|]; now rewrite negb_true_iff, imem_false).
    destruct (E4 z Hz) as [F1|[x [F1 [F2 F3]]]].
    - exact (proj1 (Sl z F1) Ht).
    - destruct (Sl x F1) as [_ P]. destruct (P F2) as [_ P2]. now apply (P2 z F3). }
  transitivity (amul (tden S symI atomI e1 t) (star (tden S symI atomI e1 (TSum t' rs')))).
  - rewrite <- E5. cbn [tden]. rewrite star_sum_ranges, <- sum_ranges_mul_l. apply sum_ranges_ext. intros e2 He2.
    rewrite dag_den by exact HA. f_equal. apply tden_ext. intros x Hx. apply He2. intros F. now apply (Hu x).
  - f_equal. f_equal. apply (tden_ext S symI atomI (TSum t' rs')). intros x Hx. apply He1. intros F. exact (proj1 (Sk x F) Hx).
Qed.
Lemma ket_bra_ok cj adj k b : compatible k b ->
  exists r, ket_bra cj adj k b = Ok r
  /\ forall S symI atomI, adjoints cj adj S symI atomI -> forall e,
      tden S symI atomI e r = amul (tden S symI atomI e k) (star (tden S symI atomI e b)).
Proof.
  intros C. destruct (is_sum k) eqn:Ek, (is_sum b) eqn:Eb.
  - destruct k as [| | | |t rs]; try discriminate. destruct b as [| | | |t' rs']; try discriminate. now apply ket_bra_sums.
  - destruct (ket_ket_ok k (dag cj adj b)) as [r [E V]].
    { apply compatible_sym, compatible_dag_l, compatible_sym, C. }
    exists r. split; [|intros S symI atomI HA e; rewrite V; now rewrite (dag_den cj adj S symI atomI HA)].
    rewrite <- E. destruct k; try discriminate. destruct b; try discriminate; reflexivity.
  - destruct b as [| | | |t rs]; try discriminate. destruct C as [_ [Wb [_ Sb]]].
    destruct (sum_right k (dag cj adj t) rs) as [E V].
    { cbn [wf] in *. now rewrite wf_dag. }
    { intros z Hz. exact (proj1 (Sb z Hz)). }
    eexists. split; [|intros S symI atomI HA e; rewrite V; f_equal; apply (dag_den cj adj S symI atomI HA (TSum t rs))].
    rewrite <- E. destruct k; try discriminate; reflexivity.
  - exists (TMul k (dag cj adj b)). split; [destruct k, b; try discriminate; reflexivity|].
    intros S symI atomI HA e. cbn [tden]. now rewrite (dag_den cj adj S symI atomI HA).
Qed.
Lemma bra_ket_ok cj adj b k : compatible b k ->
  exists r, bra_ket cj adj b k = Ok r
  /\ forall S symI atomI, adjoints cj adj S symI atomI -> forall e,
      tden S symI atomI e r = amul (star (tden S symI atomI e b)) (tden S symI atomI e k).
Proof.
  intros C. destruct (is_sum b && negb (is_sum k)) eqn:Eb.
  - apply andb_prop in Eb. destruct Eb as [Eb Ek]. destruct b as [| | | |t rs]; try discriminate. destruct C as [Wb [_ [Sb _]]].
    destruct (sum_left k (dag cj adj t) rs) as [E V].
    { cbn [wf] in *. now rewrite wf_dag. }
    { intros z Hz. exact (proj1 (Sb z Hz)). }
    eexists. split; [|intros S symI atomI HA e; rewrite V; f_equal; apply (dag_den cj adj S symI atomI HA (TSum t rs))].
    rewrite <- E. destruct k; try discriminate; reflexivity.
  - destruct (ket_ket_ok (dag cj adj b) k) as [r [E V]]; [now apply compatible_dag_l|].
    exists r. split; [|intros S symI atomI HA e; rewrite V; now rewrite (dag_den cj adj S symI atomI HA)].
    rewrite <- E. destruct b, k; try discriminate; reflexivity.
Qed.

(** the product of two states, of any kind, sums or not *)
Theorem C74_mul cj adj x y : compatible (ket_of x) (ket_of y) ->
  exists r, state_mul cj adj x y = Ok r
  /\ forall S symI atomI, adjoints cj adj S symI atomI -> forall e,
      tden S symI atomI e r = state_prod S symI atomI e x y.
Proof.
  destruct x as [k|b], y as [l|c]; cbn [ket_of state_mul state_prod state_den]; intros C.
  - destruct (ket_ket_ok k l C) as [r [E V]]. exists r. split; [exact E|]. intros; apply V.
  - now apply ket_bra_ok.
  - now apply bra_ket_ok.
  - destruct (ket_ket_ok b c C) as [r [E V]]. unfold bra_bra. rewrite E. cbn [bind]. eexists. split; [reflexivity|].
    intros S symI atomI HA e. now rewrite (dag_den cj adj S symI atomI HA), V.
Qed.
(** the factor that is not a sum is not renamed and need not be: products of a ket with
    the bra of a sum, and of the bra of a sum with a ket *)
Theorem C74_one_sum cj adj k t rs : is_sum k = false -> wf (TSum t rs) -> (forall z, In z (syms rs) -> ~ In z (tfree k)) ->
  (exists u, ket_bra cj adj k (TSum t rs) = Ok (TSum u rs)
    /\ forall S symI atomI, adjoints cj adj S symI atomI -> forall e,
        tden S symI atomI e (TSum u rs) = amul (tden S symI atomI e k) (star (tden S symI atomI e (TSum t rs))))
  /\ exists u, bra_ket cj adj (TSum t rs) k = Ok (TSum u rs)
    /\ forall S symI atomI, adjoints cj adj S symI atomI -> forall e,
        tden S symI atomI e (TSum u rs) = amul (star (tden S symI atomI e (TSum t rs))) (tden S symI atomI e k).
Proof.
  intros Ek W H.
  assert (W' : wf (TSum (dag cj adj t) rs)) by (cbn [wf] in *; now rewrite wf_dag).
  destruct (sum_right k _ rs W' H) as [E1 V1]. destruct (sum_left k _ rs W' H) as [E2 V2]. split.
  - eexists. split; [|intros S symI atomI HA e; rewrite V1; f_equal; apply (dag_den cj adj S symI atomI HA (TSum t rs))].
    rewrite <- E1. destruct k; try discriminate; reflexivity.
  - eexists. split; [|intros S symI atomI HA e; rewrite V2; f_equal; apply (dag_den cj adj S symI atomI HA (TSum t rs))].
    rewrite <- E2. destruct k; try discriminate; reflexivity.
Qed.

(** two bras whose kets commute (tensor products of different spaces): the product of the bras *)
Theorem C74_bra_bra cj adj b c : compatible b c ->
  exists r, state_mul cj adj (BraOf b) (BraOf c) = Ok r
  /\ forall S symI atomI, adjoints cj adj S symI atomI -> forall e,
      let vb := tden S symI atomI e b in let vc := tden S symI atomI e c in
      amul vb vc = amul vc vb -> tden S symI atomI e r = amul (star vb) (star vc).
Proof.
  intros C. destruct (C74_mul cj adj (BraOf b) (BraOf c) C) as [r [E V]]. exists r. split; [exact E|].
  intros S symI atomI HA e vb vc Hc. rewrite (V S symI atomI HA e). cbn [state_prod]. fold vb vc. now rewrite Hc, star_mul.
Qed.

(** a sum with itself, summation indices without primed copies: <v|v> and |v><v| *)
Definition plain_ket (k : term) : Prop :=
  wf k /\ forall z, In z (outer k) -> primes_fresh z (body k) /\ forall y, primed_copy z y -> ~ In y (outer k).
Lemma plain_compatible t rs : plain_ket (TSum t rs) -> compatible (TSum t rs) (TSum t rs).
Proof.
  intros [W P]. assert (Sf : safe (TSum t rs) (TSum t rs)).
  { intros z Hz. destruct (P z Hz) as [P1 P2]. split.
    - cbn [tfree outer] in *. rewrite filter_In. intros [_ F]. rewrite negb_true_iff in F. apply imem_false in F. contradiction.
    - intros _. split; [exact P1|]. intros y Hy. split; [exact (P2 y Hy)|]. cbn [tfree]. rewrite filter_In. intros [F _].
      exact (proj1 (proj2 P1 y Hy) F). }
  split; [exact W|]. split; [exact W|]. split; exact Sf.
Qed.
Theorem C74_norm cj adj t rs : plain_ket (TSum t rs) ->
  (exists r, state_mul cj adj (BraOf (TSum t rs)) (Ket (TSum t rs)) = Ok r
    /\ forall S symI atomI, adjoints cj adj S symI atomI -> forall e,
        let v := tden S symI atomI e (TSum t rs) in tden S symI atomI e r = amul (star v) v)
  /\ exists r, state_mul cj adj (Ket (TSum t rs)) (BraOf (TSum t rs)) = Ok r
    /\ forall S symI atomI, adjoints cj adj S symI atomI -> forall e,
        let v := tden S symI atomI e (TSum t rs) in
        tden S symI atomI e r = amul v (star v) /\ star (tden S symI atomI e r) = tden S symI atomI e r.
Proof.
  intros P. apply plain_compatible in P. split.
  - destruct (C74_mul cj adj (BraOf (TSum t rs)) (Ket (TSum t rs)) P) as [r [E V]]. exists r. split; [exact E|].
    intros S symI atomI HA e. apply (V S symI atomI HA e).
  - destruct (C74_mul cj adj (Ket (TSum t rs)) (BraOf (TSum t rs)) P) as [r [E V]]. exists r. split; [exact E|].
    intros S symI atomI HA e. cbn zeta. rewrite (V S symI atomI HA e). cbn [state_prod state_den]. split; [reflexivity|].
    now rewrite star_mul, star_star.
Qed.
(** the summation indices of two sums: those of the left factor, then those of the right
    factor with the common ones primed; never a repetition *)
Theorem C74_indices cj adj x y r : is_sum (ket_of x) = true -> is_sum (ket_of y) = true -> state_mul cj adj x y = Ok r ->
  exists u rs us, r = TSum u (rs ++ us) /\ syms rs = outer (ket_of x) /\ NoDup (syms (rs ++ us))
  /\ (forall z, In z (syms us) -> ~ In z (outer (ket_of x))).
Proof.
  intros Hx Hy H.
  assert (G : forall t rs t' rs' o u, make_disjunct (syms rs) t' rs' = Ok o -> sum_init u (rs ++ snd o) = Ok r ->
    exists u rs0 us, r = TSum u (rs0 ++ us) /\ syms rs0 = outer (TSum t rs) /\ NoDup (syms (rs0 ++ us)) /\ (forall z, In z (syms us) -> ~ In z (outer (TSum t rs)))).
  { intros t rs t' rs' o u E I. apply sum_init_ok in I. destruct I as [-> Hn]. exists u, rs, (snd o).
    split; [reflexivity|]. split; [reflexivity|]. split; [exact Hn|]. apply (C28_make_disjunct_avoids _ _ _ _ E). }
  destruct x as [k|k], y as [l|l]; cbn [ket_of state_mul] in *;
    destruct k as [| | | |t rs]; try discriminate; destruct l as [| | | |t' rs']; try discriminate.
  - cbn [ket_ket] in H. unfold mul_sums in H. destruct (make_disjunct (syms rs) t' rs') as [o|] eqn:E; [|discriminate]. now apply (G t rs t' rs' o (TMul t (fst o))).
  - cbn [ket_bra] in H. destruct (make_disjunct (syms rs) t' rs') as [o|] eqn:E; [|discriminate]. now apply (G t rs t' rs' o (TMul t (dag cj adj (fst o)))).
  - cbn [bra_ket] in H. destruct (make_disjunct (syms rs) t' rs') as [o|] eqn:E; [|discriminate]. now apply (G t rs t' rs' o (TMul (dag cj adj t) (fst o))).
  - unfold bra_bra in H. cbn [ket_ket] in H. unfold mul_sums in H. destruct (make_disjunct (syms rs) t' rs') as [o|] eqn:E; [|discriminate]. cbn [bind] in H.
    destruct (sum_init (TMul t (fst o)) (rs ++ snd o)) as [q|] eqn:I; [|discriminate]. cbn [bind] in H. injection H as <-.
    apply sum_init_ok in I. destruct I as [-> Hn]. cbn [dag]. eexists _, rs, (snd o).
    split; [reflexivity|]. split; [reflexivity|]. split; [exact Hn|]. apply (C28_make_disjunct_avoids _ _ _ _ E).
Qed.

Local Notation i_ := (0, 0). Local Notation i' := (0, 1). Local Notation j_ := (1, 0).
Local Notation vi := (IVar i_). Local Notation vj := (IVar j_).
(** the integers with the trivial adjoint; every symbol is the last of its indices, or 1 *)
Definition Zs : star_algebra.
Proof. refine (mk_star Zalg (fun c => c) (fun x => x) _ _ _ _ _ _ _ _ _); intros; try reflexivity. apply Z.mul_comm. Defined.
Local Notation lastv := (fun (_ : nat) (l : list Z) => last l 1%Z).
(** a ket without a sum and the bra of a sum (and the other way round): free indices of the
    ket are captured: |i> Σ_i <i| is computed as Σ_i |i><i| *)
Theorem C74_capture_refuted :
  (exists k t rs r e, state_mul (fun n => n) (fun n => n) (Ket k) (BraOf (TSum t rs)) = Ok r /\ is_sum k = false /\ wf k /\ wf (TSum t rs)
     /\ bound_symbols k = [] /\ adjoints (fun n => n) (fun n => n) Zs lastv lastv
     /\ tden Zs lastv lastv e r <> state_prod Zs lastv lastv e (Ket k) (BraOf (TSum t rs)))
  /\ (exists k t rs r e, state_mul (fun n => n) (fun n => n) (BraOf (TSum t rs)) (Ket k) = Ok r /\ is_sum k = false /\ wf k /\ wf (TSum t rs)
     /\ bound_symbols k = [] /\ adjoints (fun n => n) (fun n => n) Zs lastv lastv
     /\ tden Zs lastv lastv e r <> state_prod Zs lastv lastv e (BraOf (TSum t rs)) (Ket k)).
Proof.
  split; exists (TAtom 0 [vi]), (TAtom 0 [vi]), [(i_, OverRange 0 1 1)]; eexists _, (fun _ => 5%Z);
    (split; [reflexivity|]; split; [reflexivity|]; split; [exact I|]; split;
     [split; [exact I|repeat constructor; cbn; intuition congruence]|];
     split; [reflexivity|]; split; [split; reflexivity|]; vm_compute; discriminate).
Qed.
(** the index of the bra is not primed even if the ket binds it: the result keeps it *)
Theorem C74_no_rename cj adj k t rs r :
  is_sum k = false -> state_mul cj adj (Ket k) (BraOf (TSum t rs)) = Ok r \/ state_mul cj adj (BraOf (TSum t rs)) (Ket k) = Ok r ->
  outer r = syms rs.
Proof.
  intros Hk [H|H].
  - assert (E : state_mul cj adj (Ket k) (BraOf (TSum t rs)) = sum_init (TMul k (dag cj adj t)) rs) by (destruct k; try discriminate; reflexivity).
    rewrite E in H. apply sum_init_ok in H. now destruct H as [-> _].
  - assert (E : state_mul cj adj (BraOf (TSum t rs)) (Ket k) = sum_init (TMul (dag cj adj t) k) rs) by (destruct k; try discriminate; reflexivity).
    rewrite E in H. apply sum_init_ok in H. now destruct H as [-> _].
Qed.
(** non-vacuity: Σ_i c_i|i> with itself, and with |j>; in 2x2 matrices of Gaussian integers *)
Example C74_hyps :
  let k := TSum (TScale (SSym 0 [vi]) (TAtom 0 [vi])) [(i_, OverRange 0 1 1)] in
  plain_ket k
  /\ state_mul S S (BraOf k) (Ket k)
     = Ok (TSum (TMul (TScale (SSym 1 [vi]) (TAtom 1 [vi])) (TScale (SSym 0 [IVar i']) (TAtom 0 [IVar i']))) [(i_, OverRange 0 1 1); (i', OverRange 0 1 1)])
  /\ state_mul S S (Ket k) (BraOf k)
     = Ok (TSum (TMul (TScale (SSym 0 [vi]) (TAtom 0 [vi])) (TScale (SSym 1 [IVar i']) (TAtom 1 [IVar i']))) [(i_, OverRange 0 1 1); (i', OverRange 0 1 1)])
  /\ compatible (TAtom 0 [vj]) k
  /\ state_mul S S (Ket (TAtom 0 [vj])) (BraOf k) = Ok (TSum (TMul (TAtom 0 [vj]) (TScale (SSym 1 [vi]) (TAtom 1 [vi]))) [(i_, OverRange 0 1 1)])
  /\ adjoints S S Mat2s (fun n _ => Nat.iter n gconj (G 1 2)) (fun n _ => Nat.iter n m2star (M2 (G 0 0) (G 0 1) (G 1 0) (G 2 0))).
Proof.
  cbn zeta. split; [|split; [reflexivity|split; [reflexivity|split; [|split; [reflexivity|split; reflexivity]]]]].
  - split; [split; [exact I|repeat constructor; cbn; intuition congruence]|]. cbn [outer syms map fst].
    intros z [<-|[]]. split; [split; [cbn; tauto|]|].
    + intros y [Y1 Y2]. split; [|cbn; tauto]. cbn. intros [<-|[<-|[]]]; cbn in *; lia.
    + intros y [Y1 Y2] [<-|[]]. cbn in *. lia.
  - split; [exact I|]. split; [split; [exact I|repeat constructor; cbn; intuition congruence]|]. split; [intros z []|].
    intros z [<-|[]]. split; [cbn; intuition congruence|]. intros [].
Qed.
Print Assumptions C74_mul. Print Assumptions C74_one_sum. Print Assumptions C74_bra_bra. Print Assumptions C74_norm.
Print Assumptions C74_indices. Print Assumptions C74_capture_refuted. Print Assumptions C74_no_rename. Print Assumptions C74_hyps.
