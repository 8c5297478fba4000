(** C72 Taylor series of symbols with arguments. *)
From Coq Require Import List ZArith Bool Arith Reals Lra Lia Factorial.
From Coquelicot Require Import Coquelicot.
From Verif Require Import Prelude DvModel DvSpec DvProofs DvInst Properties_Dv TayModel.
Import ListNotations.
Local Open Scope nat_scope.

Section Gen.
Context (J : interp) (ofree : nat -> list nat) (still : nat -> nat -> bool) (HL : legal J ofree still) (osub : nat -> nat -> value -> value).
(** what SymPy's [k.subs(x, v)] means *)
Definition subs_ok (v : value) : Prop := forall k x e, vden J (osub k x v) e = otherI J k (upd J e x (vden J v e)).

(** the derivatives in turn *)
Lemma diff_leaf f args x : let L := DLeaf f args in
  (forall e, den J DZero e = partial J x (den J L) e) /\ diff ofree still L x 1 = Ok DZero
  \/ diff ofree still L x 1 = Ok (DDer L [(x, 1)] []) /\ has x (flat_map (afree ofree) args) = true.
Proof.
  cbn zeta. unfold diff. cbn [free_symbols bind]. destruct (has x (flat_map (afree ofree) args)) eqn:E.
  - unfold create. cbn [create_loop free_symbols bind]. rewrite E. cbn [Z.to_nat]. change (Pos.to_nat 1) with 1. cbn [diff_times diff1]. destruct (forallb (arg_still still x) args) eqn:F.
    + left. split; [|reflexivity]. intros e. cbn [den]. unfold partial. rewrite <- (iD_const J (leafI J f (map (fun v => vden J v e) args)) (e x)). apply iD_ext. intros u. f_equal.
      apply map_ext_in. intros v Hv. rewrite forallb_forall in F. specialize (F v Hv). destruct v as [y|z|k]; cbn [arg_still vden] in *; [|reflexivity|symmetry; now apply (l_still _ _ _ HL)].
      unfold upd. destruct (y =? x); [discriminate|reflexivity].
    + right. split; reflexivity.
  - left. split; [|reflexivity]. intros e. symmetry. apply (indep_zero J ofree still HL (DLeaf f args) x (flat_map (afree ofree) args)); [reflexivity|]. intros H. apply has_in in H. congruence.
Qed.
Lemma diff_der f args x n : has x (flat_map (afree ofree) args) = true ->
  diff ofree still (DDer (DLeaf f args) [(x, S n)] []) x 1 = Ok (DDer (DLeaf f args) [(x, S (S n))] []).
Proof.
  intros H. unfold diff. cbn [free_symbols bind]. rewrite H. unfold create. cbn [create_loop free_symbols bind]. rewrite H. change (Z.to_nat 1) with 1.
  rewrite diff_times_der; [|split; [constructor|exact I]|constructor; [cbn; lia|constructor]]. cbn [dget dset bind]. rewrite Nat.eqb_refl. cbn [create_loop bind]. do 3 f_equal. f_equal. f_equal. lia.
Qed.
Lemma times_snoc x n : forall f e, times_partial J x (S n) f e = partial J x (times_partial J x n f) e.
Proof. induction n as [|n IH]; intros f e; [reflexivity|]. change (times_partial J x (S (S n)) f e) with (times_partial J x (S n) (partial J x f) e). now rewrite IH. Qed.
Lemma times_zero x n f : (forall e, f e = izero J) -> forall e, times_partial J x n f e = izero J.
Proof.
  revert f. induction n as [|n IHn]; intros f H e; cbn [times_partial]; [apply H|]. apply IHn. intros e'.
  unfold partial. rewrite <- (iD_const J (izero J) (e' x)). apply iD_ext. intros u. apply H.
Qed.
Lemma sub_args x v args e : subs_ok v -> map (fun a => vden J a e) (map (asub osub x v) args) = map (fun a => vden J a (upd J e x (vden J v e))) args.
Proof.
  intros HO. rewrite map_map. apply map_ext. intros a. destruct a as [y|z|k]; cbn [asub vden]; [|reflexivity|apply HO]. unfold upd. destruct (y =? x); reflexivity.
Qed.
Lemma at_one x v e z : at_point J [(x, v)] e z = upd J e x (vden J v e) z.
Proof. unfold at_point, upd. cbn [dget]. rewrite (Nat.eqb_sym x z). destruct (z =? x); reflexivity. Qed.

(** entry n: the n-th derivative at the point, over n! (or 1, if it is zero) *)
Definition entry_ok (L : dexp) (x : nat) (v : value) (n : nat) (c : nat * dexp) : Prop :=
  (forall e, den J (snd c) e = times_partial J x n (den J L) (upd J e x (vden J v e))) /\
  (fst c = fact n \/ fst c = 1 /\ forall e, den J (snd c) e = izero J).
Lemma loop_zero L x v k : forall n, (forall e, times_partial J x n (den J L) e = izero J) ->
  exists l, taylor_loop ofree still osub x v n k DZero = Ok l /\ length l = k /\ forall i c, nth_error l i = Some c -> entry_ok L x v (n + i) c.
Proof.
  induction k as [|k IH]; intros n Hz; cbn [taylor_loop].
  - exists []. split; [reflexivity|]. split; [reflexivity|]. intros [|i] c; discriminate.
  - destruct (IH (S n)) as [l [E [El Hl]]].
    { intros e. rewrite times_snoc. unfold partial. rewrite <- (iD_const J (izero J) (e x)). apply iD_ext. intros u. apply Hz. }
    rewrite E. cbn [bind]. eexists. split; [reflexivity|]. split; [cbn [length]; now rewrite El|]. intros [|i] c H; cbn [nth_error] in H.
    + injection H as <-. rewrite Nat.add_0_r. split; [intros e; cbn [snd den]; now rewrite Hz|right; split; reflexivity].
    + rewrite Nat.add_succ_r. apply (Hl i c H).
Qed.
Lemma loop_der f args x v k : has x (flat_map (afree ofree) args) = true -> forall n,
  exists l, taylor_loop ofree still osub x v (S (S n)) k (DDer (DLeaf f args) [(x, S n)] []) = Ok l /\ length l = k /\ forall i c, nth_error l i = Some c -> entry_ok (DLeaf f args) x v (S (S n) + i) c.
Proof.
  intros Hx. induction k as [|k IH]; intros n; cbn [taylor_loop].
  - exists []. split; [reflexivity|]. split; [reflexivity|]. intros [|i] c; discriminate.
  - rewrite diff_der by exact Hx. cbn [bind eval_at]. destruct (IH (S n)) as [l [E [El Hl]]]. rewrite E.
    assert (Ev : evaluate_at (DDer (DLeaf f args) [(x, S (S n))] []) [(x, v)] = Ok (DDer (DLeaf f args) [(x, S (S n))] [(x, v)])).
    { unfold evaluate_at, new_deriv. cbn [zdict map dupdate fold_left dset fst snd has existsb]. rewrite Nat.eqb_refl. cbn [orb negb].
      destruct (Z.leb_spec (Z.of_nat (S (S n))) 0); [lia|]. cbn [orb]. now rewrite Nat2Z.id. }
    rewrite Ev. cbn [bind]. eexists. split; [reflexivity|]. split; [cbn [length]; now rewrite El|]. intros [|i] c H; cbn [nth_error] in H.
    + injection H as <-. rewrite Nat.add_0_r. split; [|now left]. intros e. cbn [snd]. cbn [DvSpec.den partials].
      apply (partials_depends J (fun _ => true) [(x, S (S n))]); [apply (den_ext J ofree still HL (DLeaf f args))|]. intros z _. apply at_one.
    + rewrite Nat.add_succ_r. apply (Hl i c H).
Qed.
(** series_expand always returns, with order + 1 entries: the derivatives at the point, over n! *)
Theorem C72_coefficients f args x v order : subs_ok v ->
  exists l, taylor ofree still osub f args x v order = Ok l /\ length l = S order /\
    forall n c, nth_error l n = Some c -> entry_ok (DLeaf f args) x v n c.
Proof.
  intros HO. assert (H0 : args <> [] -> entry_ok (DLeaf f args) x v 0 (1, DLeaf f (map (asub osub x v) args))).
  { intros _. split; [|now left]. intros e. cbn [snd times_partial den]. f_equal. now apply sub_args. }
  destruct args as [|a args].
  - unfold taylor. eexists. split; [reflexivity|]. split; [cbn [length]; now rewrite repeat_length|]. intros [|n] c H; cbn [nth_error] in H.
    + injection H as <-. split; [reflexivity|now left].
    + apply nth_error_In, repeat_spec in H. subst. split; [|right; split; reflexivity]. intros e. cbn [snd]. symmetry. cbn [times_partial].
      apply times_zero. intros e'. exact (iD_const J (leafI J f []) (e' x)).
  - unfold taylor. cbn [eval_at bind]. set (L := a :: args) in *. destruct order as [|k].
    + cbn [taylor_loop bind]. eexists. split; [reflexivity|]. split; [reflexivity|]. intros [|[|n]] c H; try discriminate. injection H as <-. apply H0. discriminate.
    + cbn [taylor_loop]. destruct (diff_leaf f L x) as [[Z E]|[E Hx]]; rewrite E; cbn [bind].
      * cbn [eval_at bind]. destruct (loop_zero (DLeaf f L) x v k 2) as [l [El [Ell Hl]]].
        { intros e. cbn [times_partial]. unfold partial at 1. rewrite <- (iD_const J (izero J) (e x)). apply iD_ext. intros u. symmetry. apply (Z (upd J e x u)). }
        rewrite El. cbn [bind]. eexists. split; [reflexivity|]. split; [cbn [length]; now rewrite Ell|]. intros [|[|n]] c H; cbn [nth_error] in H.
        -- injection H as <-. apply H0. discriminate.
        -- injection H as <-. split; [|now left]. intros e. cbn [snd]. cbn [times_partial]. exact (Z (upd J e x (vden J v e))).
        -- apply (Hl n c H).
      * destruct (loop_der f L x v k Hx 0) as [l [El [Ell Hl]]]. rewrite El.
        assert (Ev : eval_at osub (DDer (DLeaf f L) [(x, 1)] []) x v = Ok (DDer (DLeaf f L) [(x, 1)] [(x, v)])).
        { unfold eval_at, evaluate_at, new_deriv. cbn [zdict map dupdate fold_left dset fst snd has existsb]. rewrite Nat.eqb_refl. reflexivity. }
        rewrite Ev. cbn [bind]. eexists. split; [reflexivity|]. split; [cbn [length]; now rewrite Ell|]. intros [|[|n]] c H; cbn [nth_error] in H.
        -- injection H as <-. apply H0. discriminate.
        -- injection H as <-. split; [|now left]. intros e. cbn [snd DvSpec.den partials].
           apply (partials_depends J (fun _ => true) [(x, 1)]); [apply (den_ext J ofree still HL (DLeaf f L))|]. intros z _. apply at_one.
        -- apply (Hl n c H).
Qed.
End Gen.

(** * real functions *)
Definition realI (leaf : nat -> list R -> R) (other : nat -> (nat -> R) -> R) : interp :=
  {| iV := R; iA := R; izero := 0%R; iD := Derive; iD_ext := fun f g v H => Derive_ext f g v H; iD_const := fun a v => Derive_const a v;
     leafI := leaf; otherI := other; numI := IZR |}.
(** value of a coefficient *)
Definition cval (J : interp) (r : iA J -> R) (e : env J) (c : nat * dexp) : R := (r (den J (snd c) e) / INR (fst c))%R.

Lemma times_derive leaf other x (f : (nat -> R) -> R) e : (forall e e' : nat -> R, (forall z, e z = e' z) -> f e = f e') -> forall n u,
  times_partial (realI leaf other) x n f (upd (realI leaf other) e x u) = Derive_n (fun w => f (upd (realI leaf other) e x w)) n u.
Proof.
  intros Hf. set (J := realI leaf other). assert (Hd : forall n, depends J (fun _ => true) (times_partial J x n f)).
  { intros n. apply (partials_depends J (fun _ => true) [(x, n)]). intros a b E. apply Hf. intros z. now apply E. }
  induction n as [|n IH]; intros u; [reflexivity|]. rewrite (times_snoc J x n). unfold partial. cbn [Derive_n].
  assert (Ex : upd J e x u x = u) by (unfold upd; now rewrite Nat.eqb_refl). rewrite Ex.
  apply (Derive_ext (fun v => times_partial J x n f (upd J (upd J e x u) x v))). intros w. rewrite <- IH. apply Hd. intros z _. unfold upd. destruct (z =? x); reflexivity.
Qed.
Lemma taylor_any (g : R -> R) n a b : (forall t k, ex_derive_n g k t) ->
  exists z, (Rmin a b <= z <= Rmax a b)%R /\ g b = (sum_f_R0 (fun m => (b - a) ^ m / INR (fact m) * Derive_n g m a) n + (b - a) ^ (S n) / INR (fact (S n)) * Derive_n g (S n) z)%R.
Proof.
  intros Hg. destruct (Rtotal_order a b) as [H|[H|H]].
  - destruct (Taylor_Lagrange g n a b H) as [z [Hz E]]; [intros; apply Hg|]. exists z. split; [|exact E]. rewrite Rmin_left, Rmax_right by lra. lra.
  - subst. exists b. split; [rewrite Rmin_left, Rmax_left by lra; lra|]. rewrite Rminus_diag_eq by reflexivity. replace (0 ^ S n)%R with 0%R by (cbn; lra).
    assert (Q : forall m, sum_f_R0 (fun m => 0 ^ m / INR (fact m) * Derive_n g m b)%R m = g b).
    { induction m as [|m IH]; [cbn; field|]. cbn [sum_f_R0]. rewrite IH. replace (0 ^ S m)%R with 0%R by (cbn; lra). unfold Rdiv. lra. }
    rewrite Q. unfold Rdiv. lra.
  - assert (Ho : forall k t, Derive_n (fun y => g (- y)%R) k t = ((-1) ^ k * Derive_n g k (- t))%R).
    { intros k t. apply Derive_n_comp_opp. apply filter_forall. intros y j _. apply Hg. }
    destruct (Taylor_Lagrange (fun y => g (- y)%R) n (- a) (- b)) as [z [Hz E]]; [lra| |].
    { intros t _ k _. apply ex_derive_n_comp_opp. apply filter_forall. intros y j _. apply Hg. }
    exists (- z)%R. split; [rewrite Rmin_right, Rmax_left by lra; lra|]. rewrite Ropp_involutive in E. rewrite E. rewrite Ho. f_equal.
    + apply sum_eq. intros i _. rewrite Ho, Ropp_involutive. replace (- b - - a)%R with ((-1) * (b - a))%R by ring. rewrite Rpow_mult_distr.
      replace ((-1) ^ i * (b - a) ^ i / INR (fact i) * ((-1) ^ i * Derive_n g i a))%R with (((-1) ^ i * (-1) ^ i) * ((b - a) ^ i / INR (fact i) * Derive_n g i a))%R by (unfold Rdiv; ring).
      rewrite <- Rpow_mult_distr. replace ((-1) * (-1))%R with 1%R by lra. rewrite pow1. ring.
    + replace (- b - - a)%R with ((-1) * (b - a))%R by ring. rewrite Rpow_mult_distr.
      replace ((-1) ^ S n * (b - a) ^ S n / INR (fact (S n)) * ((-1) ^ S n * Derive_n g (S n) (- z)))%R with (((-1) ^ S n * (-1) ^ S n) * ((b - a) ^ S n / INR (fact (S n)) * Derive_n g (S n) (- z)))%R by (unfold Rdiv; ring).
      rewrite <- Rpow_mult_distr. replace ((-1) * (-1))%R with 1%R by lra. rewrite pow1. ring.
Qed.

(** For a real function with derivatives of all orders in x, and a point that does not
    depend on x: f = c_0 + c_1 (x - x0) + ... + c_N (x - x0)^N + R, with R the remainder of
    Lagrange, d^(N+1)f(z)/(N+1)! (x - x0)^(N+1) for some z between x0 and x *)
Theorem C72_taylor leaf other ofree still osub f args x v order e : let J := realI leaf other in
  legal J ofree still -> subs_ok J osub v ->
  (forall t k, ex_derive_n (fun u => leaf f (map (fun a => vden J a (upd J e x u)) args) : R) k t) ->
  exists l z, taylor ofree still osub f args x v order = Ok l /\ let x0 := vden J v e : R in
    (Rmin x0 (e x) <= z <= Rmax x0 (e x))%R /\
    (den J (DLeaf f args) e : R) = (sum_f_R0 (fun n => cval J (fun a => a) e (nth n l (1%nat, DZero)) * (e x - x0) ^ n) order
      + Derive_n (fun u => leaf f (map (fun a => vden J a (upd J e x u)) args)) (S order) z / INR (fact (S order)) * (e x - x0) ^ (S order))%R.
Proof.
  intros J HL HO Hd. destruct (C72_coefficients J ofree still HL osub f args x v order HO) as [l [El [Hlen Hl]]].
  set (g := fun u : R => leaf f (map (fun a => vden J a (upd J e x u)) args) : R) in *. set (x0 := vden J v e : R).
  assert (Hf : forall a b : nat -> R, (forall z, a z = b z) -> den J (DLeaf f args) a = den J (DLeaf f args) b) by (intros a b E; apply (den_ext J ofree still HL); intros z _; apply E).
  destruct (taylor_any g order x0 (e x) Hd) as [z [Hz E]]. exists l, z. split; [exact El|]. cbn zeta. split; [exact Hz|].
  transitivity (g (e x)).
  - apply Hf. intros y. unfold upd. destruct (Nat.eqb_spec y x); [now subst|reflexivity].
  - rewrite E. f_equal; [|unfold Rdiv; ring]. apply sum_eq. intros n Hn.
    assert (Hc : exists c, nth_error l n = Some c) by (destruct (nth_error l n) eqn:F; [eauto|apply nth_error_None in F; lia]). destruct Hc as [c Hc].
    rewrite (nth_error_nth l n (1%nat, DZero) Hc). destruct (Hl n c Hc) as [H1 H2]. unfold cval.
    assert (Ed : (den J (snd c) e : R) = Derive_n g n x0). { rewrite H1. exact (times_derive leaf other x (den J (DLeaf f args)) e Hf n x0). }
    destruct H2 as [H2|[H2 H3]].
    + rewrite H2. change (((e x - x0) ^ n / INR (fact n) * Derive_n g n x0)%R = ((den J (snd c) e : R) / INR (fact n) * (e x - x0) ^ n)%R). rewrite Ed. unfold Rdiv. ring.
    + assert (Z0 : Derive_n g n x0 = 0%R) by (rewrite <- Ed; exact (H3 e)). rewrite Z0. change (((e x - x0) ^ n / INR (fact n) * 0)%R = ((den J (snd c) e : R) / INR (fst c) * (e x - x0) ^ n)%R). rewrite (H3 e). change (izero J) with 0%R. unfold Rdiv. ring.
Qed.

Definition psubs (k x : nat) (v : value) : value := if k =? x then match v with VNum z => VNum (2 * z) | VSym y => VOther y | VOther j => VOther k end else VOther k.
Lemma ex_id k t : ex_derive_n (fun u : R => u) k t.
Proof.
  assert (H : forall k u, Derive_n (fun u : R => u) (S k) u = match k with 0 => 1%R | _ => 0%R end).
  { clear. induction k as [|k IH]; intros u; [exact (Derive_id u)|]. change (Derive (Derive_n (fun u : R => u) (S k)) u = 0%R). rewrite (Derive_ext _ _ u IH). apply Derive_const. }
  destruct k as [|[|k]]; [exact I|exact (ex_derive_id t)|]. apply (ex_derive_ext (fun _ : R => match k with 0 => 1%R | _ => 0%R end)); [intros u; now rewrite H|apply ex_derive_const].
Qed.
(** f(x, 2y) about x = 3: f, df/dx, d²f/dx²/2 *)
Example C72_nonvacuous : legal rI rfree rstill /\
  taylor rfree rstill psubs 0 [VSym 0; VOther 1] 0 (VNum 3) 2 =
    Ok [(1, DLeaf 0 [VNum 3; VOther 1]); (1, DDer (DLeaf 0 [VSym 0; VOther 1]) [(0, 1)] [(0, VNum 3)]); (2, DDer (DLeaf 0 [VSym 0; VOther 1]) [(0, 2)] [(0, VNum 3)])] /\
  taylor rfree rstill psubs 0 [VSym 1] 0 (VNum 3) 2 = Ok [(1, DLeaf 0 [VSym 1]); (1, DZero); (1, DZero)] /\
  subs_ok rI psubs (VNum 3) /\
  (forall (e : nat -> R) t k, ex_derive_n (fun u => rleaf 0 [u; (2 * e 1%nat)%R]) k t).
Proof.
  split; [exact rI_legal|]. split; [reflexivity|]. split; [reflexivity|]. split.
  - intros k y e. unfold psubs. destruct (Nat.eqb_spec k y).
    + subst. change ((IZR (2 * 3))%R = (2 * upd rI e y (IZR 3) y)%R). unfold upd. rewrite Nat.eqb_refl. rewrite mult_IZR. reflexivity.
    + change ((2 * e k)%R = (2 * upd rI e y (IZR 3) k)%R). unfold upd. destruct (Nat.eqb_spec k y); [contradiction|reflexivity].
  - intros e t k. apply (ex_derive_n_ext (fun u => (2 * e 1%nat) * u)%R); [intros u; cbn; ring|]. apply ex_derive_n_scal_l. apply ex_id.
Qed.
Print Assumptions C72_coefficients.
Print Assumptions C72_taylor.
Print Assumptions C72_nonvacuous.
