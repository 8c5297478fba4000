(** C71 Derivative objects. *)
From Coq Require Import List ZArith Bool Arith Reals Lra Lia.
From Coquelicot Require Import Coquelicot.
From Verif Require Import Prelude DvModel DvSpec DvProofs DvInst.
Import ListNotations.
Local Open Scope nat_scope.

Section Props.
Context (J : interp) (ofree : nat -> list nat) (still : nat -> nat -> bool) (HL : legal J ofree still) (sm : (env J -> iA J) -> Prop) (HS : smooth J sm).

(** e.diff(x, n), whenever it returns, is the n-th partial derivative of e, provided x occurs in the
    points of evaluation at most as the value x *)
Theorem C71_diff t t' x n : dwf t -> clear_of ofree x t -> (0 < n)%Z -> diff ofree still t x n = Ok t' ->
  dwf t' /\ forall e, den J t' e = times_partial J x (Z.to_nat n) (den J t) e.
Proof.
  intros Hw Hc Hn H. unfold diff in H. destruct (free_symbols ofree t) as [fs|] eqn:E; [|discriminate]. cbn [bind] in H. destruct (has x fs) eqn:E1.
  - unfold create in H. destruct (create_loop ofree still [(x, n)] t) as [u|] eqn:E2; [|discriminate]. injection H as <-.
    destruct (create_loop_ok J ofree still HL sm HS [(x, n)] t u Hw) as [A1 [_ A3]]; [constructor; [now split|constructor]|exact E2|]. split; [exact A1|]. intros e. now rewrite A3.
  - destruct (create_loop_ok J ofree still HL sm HS [(x, n)] t t' Hw) as [A1 [_ A3]]; [constructor; [now split|constructor]| |now split]. cbn [create_loop]. rewrite E. cbn [bind]. now rewrite E1.
Qed.
(** create(e, derivs) for several symbols: the partial derivatives in turn *)
Theorem C71_create t t' ds : dwf t -> Forall (fun p => clear_of ofree (fst p) t /\ (0 < snd p)%Z) ds -> create ofree still t ds None = Ok t' ->
  dwf t' /\ forall e, den J t' e = partials J (map (fun p => (fst p, Z.to_nat (snd p))) ds) (den J t) e.
Proof.
  intros Hw Hd H. unfold create in H. destruct (create_loop ofree still ds t) as [u|] eqn:E; [|discriminate]. injection H as <-.
  destruct (create_loop_ok J ofree still HL sm HS ds t u Hw Hd E) as [A1 [_ A3]]. now split.
Qed.
(** only the free symbols matter: two assignments that agree on them give the same value *)
Theorem C71_free_symbols t fs : free_symbols ofree t = Ok fs -> forall e e', (forall x, In x fs -> e x = e' x) -> den J t e = den J t e'.
Proof. intros H e e' E. apply (free_depends J ofree still HL t fs H). intros z Hz. apply E. now apply has_in. Qed.
(** hence the derivative by any other symbol is zero *)
Theorem C71_not_free t fs x : free_symbols ofree t = Ok fs -> ~ In x fs -> diff ofree still t x 1 = Ok DZero /\ forall e, partial J x (den J t) e = izero J.
Proof.
  intros H Hx. split; [|intros e; now apply (indep_zero J ofree still HL t x fs)]. unfold diff. rewrite H. cbn [bind]. destruct (has x fs) eqn:F; [|reflexivity]. now apply has_in in F.
Qed.
(** evaluating at a point replaces the symbols by the values; for a derivative object that is
    already evaluated the new values take precedence *)
Theorem C71_evaluate_at op ds vs vals t' : dwf (DDer op ds vs) -> evaluate_at (DDer op ds vs) vals = Ok t' ->
  dwf t' /\ forall e, den J t' e = den J (DDer op ds []) (fun z => match dget (rev vals) z with Some v => vden J v e | None => at_point J vs e z end).
Proof.
  intros [W1 [W2 [W3 [W4 W5]]]] H. cbn [evaluate_at] in H.
  assert (Hi : incr (map fst (dupdate vs vals))) by now apply dupdate_incr.
  destruct (new_deriv_same op ds _ t' W2 Hi H) as [-> Hw]. split; [now apply Hw|]. intros e. cbn [den].
  apply (partials_depends J _ ds _ (den_ext J ofree still HL op)). intros z _. unfold at_point at 1 2. cbn [dget].
  assert (Q : forall (l d : list (nat * value)), dget (dupdate d l) z = match dget (rev l) z with Some v => Some v | None => dget d z end).
  { assert (Qs : forall (d : list (nat * value)) x v, incr (map fst d) \/ True -> dget (dset d x v) z = if x =? z then Some v else dget d z).
    { induction d as [|[y w] r IH]; intros x v _; cbn [dset dget]; [reflexivity|]. destruct (Nat.eqb_spec y x); [subst; cbn [dget]; destruct (x =? z); reflexivity|].
      destruct (x <? y); cbn [dget]; [reflexivity|]. rewrite IH by now right. destruct (Nat.eqb_spec y z), (Nat.eqb_spec x z); subst; try reflexivity; contradiction. }
    assert (Qa : forall (a b : list (nat * value)), dget (a ++ b) z = match dget a z with Some v => Some v | None => dget b z end).
    { induction a as [|[y w] a IH]; intros b; cbn [app dget]; [reflexivity|]. destruct (y =? z); [reflexivity|apply IH]. }
    induction l as [|[x v] l IH]; intros d; [reflexivity|]. unfold dupdate. cbn [fold_left fst snd rev]. change (dget (dupdate (dset d x v) l) z = match dget (rev l ++ [(x, v)]) z with Some v => Some v | None => dget d z end).
    rewrite IH, Qa, Qs by now right. cbn [dget]. destruct (dget (rev l) z); [reflexivity|]. destruct (x =? z); reflexivity. }
  rewrite Q. destruct (dget (rev vals) z); reflexivity.
Qed.
End Props.

(** evaluation is possible exactly at symbols of the derivative *)
Theorem C71_evaluate_rejects op ds vs vals : dwf (DDer op ds vs) ->
  ((exists t, evaluate_at (DDer op ds vs) vals = Ok t) <-> incl (map fst vals) (map fst ds)) /\
  (~ incl (map fst vals) (map fst ds) -> evaluate_at (DDer op ds vs) vals = Err ValueError).
Proof.
  intros [W1 [W2 [W3 [W4 W5]]]].
  assert (Hk : forall (l d : list (nat * value)) z, In z (map fst (dupdate d l)) <-> In z (map fst d) \/ In z (map fst l)).
  { induction l as [|[x v] l IH]; intros d z; [cbn; tauto|]. unfold dupdate. cbn [fold_left fst snd]. change (In z (map fst (dupdate (dset d x v) l)) <-> In z (map fst d) \/ In z (map fst ((x, v) :: l))).
    rewrite IH, dset_keys. cbn [map fst In]. intuition auto. }
  assert (E1 : existsb (fun p => snd p <=? 0)%Z (zdict ds) = false).
  { apply not_true_iff_false. intros F. apply existsb_exists in F. destruct F as [p [P1 P2]]. unfold zdict in P1. apply in_map_iff in P1. destruct P1 as [q [<- Q]]. cbn [snd] in P2. apply Z.leb_le in P2. rewrite Forall_forall in W4. specialize (W4 q Q). lia. }
  assert (Hup : incr (map fst (dupdate vs vals))) by now apply dupdate_incr.
  cbn [evaluate_at]. unfold new_deriv. rewrite (dupdate_same (zdict ds) []) by (cbn; now rewrite zdict_keys). rewrite (dupdate_same (dupdate vs vals) []) by exact Hup. cbn [app]. rewrite E1, zdict_keys.
  destruct (existsb _ (dupdate vs vals)) eqn:E2.
  - apply existsb_exists in E2. destruct E2 as [p [P1 P2]]. apply negb_true_iff in P2. assert (Hp : ~ In (fst p) (map fst ds)) by (intros F; apply has_in in F; congruence).
    assert (Hn : ~ incl (map fst vals) (map fst ds)). { intros F. apply (in_map fst) in P1. apply Hk in P1. destruct P1 as [P1|P1]; [apply Hp, W5, P1|apply Hp, F, P1]. }
    split; [|reflexivity]. split; [intros [t H]; discriminate|intros F; contradiction].
  - assert (Hy : incl (map fst vals) (map fst ds)).
    { intros z Hz. assert (In z (map fst (dupdate vs vals))) as G by (apply Hk; now right). apply in_map_iff in G. destruct G as [p [<- Hp]]. apply has_in. destruct (has (fst p) (map fst ds)) eqn:F; [reflexivity|].
      assert (existsb (fun p => negb (has (fst p) (map fst ds))) (dupdate vs vals) = true) by (apply existsb_exists; exists p; split; [exact Hp|now rewrite F]). congruence. }
    split; [|intros F; contradiction]. split; [auto|]. intros _. eexists. reflexivity.
Qed.

(** The order of differentiation does not matter for a symbol with arguments that depend on both: the same
    object results *)
Lemma diff_times_der still op x n : forall ds, incr (map fst ds) -> Forall (fun p => 0 < snd p) ds ->
  diff_times still x (S n) (DDer op ds []) = Ok (DDer op (dset ds x (match dget ds x with Some k => k + S n | None => S n end)) []).
Proof.
  assert (Step : forall ds, incr (map fst ds) -> Forall (fun p => 0 < snd p) ds -> diff1 still x (DDer op ds []) = Ok (DDer op (dset ds x (match dget ds x with Some k => S k | None => 1 end)) [])).
  { intros ds Hi Hp. cbn [diff1 map has existsb]. unfold new_deriv. rewrite (dupdate_same (zdict _) []) by (cbn [app map]; rewrite zdict_keys; now apply dset_incr). cbn [app dupdate fold_left].
    match goal with |- (if existsb ?F ?L then _ else _) = _ => assert (existsb F L = false) as -> end.
    - apply not_true_iff_false. intros F. apply existsb_exists in F. destruct F as [p [P1 P2]]. unfold zdict in P1. apply in_map_iff in P1. destruct P1 as [q [<- Q]]. cbn [snd] in P2. apply Z.leb_le in P2.
      apply dset_in in Q. destruct Q as [->|Q]; [cbn [snd] in P2; destruct (dget ds x); lia|]. rewrite Forall_forall in Hp. specialize (Hp q Q). lia.
    - cbn [existsb]. now rewrite zdict_back. }
  assert (Hs : forall (ds : list (nat * nat)) a b, dset (dset ds x a) x b = dset ds x b).
  { induction ds as [|[y w] r IH]; intros a b; cbn [dset]; [now rewrite Nat.eqb_refl|]. destruct (y =? x) eqn:E; cbn [dset]; [now rewrite Nat.eqb_refl|]. destruct (x <? y) eqn:E'; cbn [dset]; [now rewrite Nat.eqb_refl|]. rewrite E, E'. now rewrite IH. }
  assert (Hg : forall (ds : list (nat * nat)) a, dget (dset ds x a) x = Some a).
  { induction ds as [|[y w] r IH]; intros a; cbn [dset dget]; [now rewrite Nat.eqb_refl|]. destruct (y =? x) eqn:E; cbn [dget]; [now rewrite Nat.eqb_refl|]. destruct (x <? y) eqn:E'; cbn [dget]; [now rewrite Nat.eqb_refl|]. now rewrite E, IH. }
  induction n as [|n IH]; intros ds Hi Hp.
  - cbn [diff_times]. rewrite Step by assumption. cbn [bind]. do 3 f_equal. destruct (dget ds x); lia.
  - remember (S n) as m eqn:Em. cbn [diff_times]. rewrite Step by assumption. cbn [bind]. rewrite IH.
    + rewrite Hg, Hs. do 3 f_equal. destruct (dget ds x); lia.
    + now apply dset_incr.
    + apply Forall_forall. intros p P. apply dset_in in P. destruct P as [->|P]; [cbn [snd]; destruct (dget ds x); lia|]. rewrite Forall_forall in Hp. now apply Hp.
Qed.
Lemma diff_times_leaf still f args x n : forallb (arg_still still x) args = false -> diff_times still x (S n) (DLeaf f args) = Ok (DDer (DLeaf f args) [(x, S n)] []).
Proof.
  intros H. cbn [diff_times]. assert (diff1 still x (DLeaf f args) = Ok (DDer (DLeaf f args) [(x, 1)] [])) as -> by (cbn [diff1]; rewrite H; reflexivity). cbn [bind].
  destruct n as [|n]; [reflexivity|]. rewrite diff_times_der; [|split; [constructor|exact I]|constructor; [cbn; lia|constructor]]. cbn [dget dset]. now rewrite Nat.eqb_refl.
Qed.
Theorem C71_order_irrelevant ofree still f args x y m n : x <> y -> (0 < m)%Z -> (0 < n)%Z ->
  (forall z, z = x \/ z = y -> In z (flat_map (afree ofree) args) /\ forallb (arg_still still z) args = false) ->
  exists t, create ofree still (DLeaf f args) [(x, m); (y, n)] None = Ok t /\ create ofree still (DLeaf f args) [(y, n); (x, m)] None = Ok t /\
    total_order t = Z.to_nat m + Z.to_nat n /\ bound_symbols t = [].
Proof.
  intros Hxy Hm Hn H.
  assert (Main : forall a b p q, a <> b -> (0 < p)%Z -> (0 < q)%Z -> (In a (flat_map (afree ofree) args) /\ forallb (arg_still still a) args = false) -> (In b (flat_map (afree ofree) args) /\ forallb (arg_still still b) args = false) ->
     create ofree still (DLeaf f args) [(a, p); (b, q)] None = Ok (DDer (DLeaf f args) (dset [(a, Z.to_nat p)] b (Z.to_nat q)) [])).
  { intros a b p q Hab Hp Hq [A1 A2] [B1 B2]. unfold create. cbn [create_loop free_symbols bind]. apply has_in in A1, B1. rewrite A1. destruct (Z.to_nat p) as [|k] eqn:Ep; [lia|]. rewrite diff_times_leaf by exact A2. cbn [bind free_symbols]. rewrite B1.
    destruct (Z.to_nat q) as [|l] eqn:Eq; [lia|]. rewrite diff_times_der; [|split; [constructor|exact I]|constructor; [cbn; lia|constructor]]. cbn [dget]. destruct (Nat.eqb_spec a b); [contradiction|]. reflexivity. }
  eexists. split; [apply Main; auto|]. split; [|split; [|reflexivity]].
  - rewrite Main by auto. do 2 f_equal. cbn [dset]. destruct (Nat.eqb_spec y x); [now subst|]. destruct (Nat.eqb_spec x y); [contradiction|]. destruct (Nat.ltb_spec x y), (Nat.ltb_spec y x); try lia; reflexivity.
  - cbn [dset]. destruct (Nat.eqb_spec x y); [contradiction|]. destruct (y <? x); cbn; lia.
Qed.

(** A point of evaluation that depends on x: d/dy of (d/dx f)(x = 2 y) for f = x² is 4, the
    library returns an object for (d²f/dxdy)(x = 2 y), which is 0 *)
Theorem C71_chain_rule_refuted : exists t t' e, dwf t /\ diff rfree rstill t 1 1 = Ok t' /\ den rI t' e = 0%R /\ partial rI 1 (den rI t) e = 4%R.
Proof.
  exists (DDer (DLeaf 0 [VSym 0; VSym 0]) [(0, 1)] [(0, VOther 1)]). eexists. exists (fun _ => 1%R). split; [|split; [reflexivity|]].
  - cbn. split; [exact I|]. split; [split; [constructor|exact I]|]. split; [split; [constructor|exact I]|]. split; [constructor; [cbn; auto|constructor]|intros z Hz; exact Hz].
  - assert (Hf : forall e, den rI (DLeaf 0 [VSym 0; VSym 0]) e = peval (PM (PV 0) (PM (PV 0) (PC 1))) e) by reflexivity.
    assert (Hd : forall e, partial rI 0 (den rI (DLeaf 0 [VSym 0; VSym 0])) e = peval (pdiff 0 (PM (PV 0) (PM (PV 0) (PC 1)))) e) by (intros e; now apply partial_poly).
    split.
    + change (partial rI 1 (partial rI 0 (den rI (DLeaf 0 [VSym 0; VSym 0]))) (at_point rI [(0, VOther 1)] (fun _ => 1%R)) = 0%R).
      rewrite (partial_poly 1 _ _ _ Hd). cbn. lra.
    + change (partial rI 1 (fun e => partial rI 0 (den rI (DLeaf 0 [VSym 0; VSym 0])) (at_point rI [(0, VOther 1)] e)) (fun _ => 1%R) = 4%R).
      rewrite (partial_poly 1 _ (psub [(0, VOther 1)] (pdiff 0 (PM (PV 0) (PM (PV 0) (PC 1)))))); [cbn; lra|]. intros e. now rewrite Hd, psub_ok.
Qed.
(** after evaluation at a Python number, asking for the free symbols, and so differentiating, fails *)
Theorem C71_number_point_refuted : exists t t', dwf t /\ evaluate_at t [(0, VNum 0)] = Ok t' /\ free_symbols rfree t' = Err AttributeError /\ diff rfree rstill t' 0 1 = Err AttributeError.
Proof.
  exists (DDer (DLeaf 0 [VSym 0]) [(0, 1)] []). eexists. split; [|split; [reflexivity|split; reflexivity]].
  cbn. split; [exact I|]. split; [split; [constructor|exact I]|]. split; [exact I|]. split; [constructor; [cbn; auto|constructor]|intros z []].
Qed.
(** f(x, y).diff(y).diff(x, 2), evaluated at x = x0: a well-formed derivative object; the real interpretation meets the hypotheses *)
Example C71_nonvacuous : legal rI rfree rstill /\ smooth rI poly /\
  match create rfree rstill (DLeaf 0 [VSym 0; VSym 1]) [(1, 1%Z); (0, 2%Z)] (Some [(0, VSym 2)]) with
  | Ok t => dwf t /\ t = DDer (DLeaf 0 [VSym 0; VSym 1]) [(0, 2); (1, 1)] [(0, VSym 2)] /\ free_symbols rfree t = Ok [1; 2] /\ bound_symbols t = [0]
            /\ clear_of rfree 2 t /\ diff rfree rstill t 2 1 = Ok (DDer t [(2, 1)] []) /\ clear_of rfree 1 t /\ diff rfree rstill t 1 1 = Ok (DDer (DLeaf 0 [VSym 0; VSym 1]) [(0, 2); (1, 2)] [(0, VSym 2)])
  | Err _ => False
  end.
Proof.
  split; [exact rI_legal|]. split; [exact rI_smooth|]. cbn. split.
  - split; [exact I|]. split; [repeat constructor|]. split; [repeat constructor|]. split; [repeat constructor|]. intros z [<-|[]]. now left.
  - split; [reflexivity|]. split; [reflexivity|]. split; [reflexivity|]. split; [intros k v [[= <- <-]|[]] _; split; [reflexivity|intros [G|[]]; discriminate G]|]. split; [reflexivity|].
    split; [intros k v [[= <- <-]|[]] [G|[]]; discriminate G|reflexivity].
Qed.
Print Assumptions C71_diff.
Print Assumptions C71_create.
Print Assumptions C71_free_symbols.
Print Assumptions C71_not_free.
Print Assumptions C71_evaluate_at.
Print Assumptions C71_evaluate_rejects.
Print Assumptions C71_order_irrelevant.
Print Assumptions C71_chain_rule_refuted.
Print Assumptions C71_number_point_refuted.
Print Assumptions C71_nonvacuous.
