(** C68 Derivatives of scalar expressions. *)
From Coq Require Import Ring_theory Ring.
From Verif Require Import Prelude ListFacts SortModel BinModel OpModel ScalarModel ScalarSpec ScalarProofs SdModel SdSpec.
Local Open Scope nat_scope.

Section Sd.
  Context {V : pyvals} (M : smeaning V) (D : sderivation M).
  Add Ring SdR : (qring V M).
  Context (vsympy vfree : V -> bool) (vdiff : V -> V) (afree : nat -> bool) (adiff : nat -> res (scal V)) (tidy : scal V -> res (scal V)).
  Context (slt : scal V -> scal V -> bool) (m : nat).
  Local Notation K := (sk slt m).
  Local Notation sudiff := (sudiff K vsympy vfree vdiff afree adiff tidy).
  Local Notation sdiff := (sdiff K vsympy vfree vdiff afree adiff tidy).
  Local Notation sdiff_by := (sdiff_by vfree afree tidy).
  Local Notation calculus := (calculus M D vsympy vfree vdiff afree adiff tidy).
  Local Notation smooth := (smooth M D (k_times K)).
  Local Notation dd := (dd D).
  Local Notation sden := (sden M). Local Notation slegal := (slegal M). Local Notation has_value := (has_value M).

  Lemma twice (x : sK M) : x = qadd x x -> x = q0.
  Proof. intros H. transitivity (qadd (qadd x x) (qopp x)); [ring|]. rewrite <- H. ring. Qed.
  Lemma dd_0 : dd q0 = q0.
  Proof. apply twice. rewrite <- dd_add. f_equal. ring. Qed.
  Lemma dd_1 : dd q1 = q0.
  Proof. apply twice. transitivity (dd (qmul q1 q1)); [f_equal; ring|]. rewrite dd_mul. ring. Qed.

  Definition keeps (rec : scal V -> res (scal V)) : Prop := forall e r, slegal e -> smooth e -> rec e = Ok r -> has_value r (dd (sden e)).
  Section Step.
    Context (C : calculus).
    Lemma constant e : slegal e -> sdepends vfree afree e = false -> dd (sden e) = q0.
    Proof.
      induction e as [| |v|n|l IH|l IH|b x IHb IHx] using scal_ind'; intros L H; cbn [sdepends] in H.
      - apply dd_0.
      - apply dd_1.
      - exact (c_free _ _ _ _ _ _ _ _ C v H).
      - exact (c_afree _ _ _ _ _ _ _ _ C n H).
      - cbn [ScalarSpec.slegal] in L. apply (legal_list M) in L. cbn [ScalarSpec.sden]. induction IH as [|y l Hy _ IHl]; [apply dd_0|]. cbn [existsb] in H. apply orb_false_elim in H. destruct H as [E1 E2].
        cbn [map ssum fold_right]. rewrite dd_add, (Hy (Forall_inv L) E1). change (fold_right qadd q0 (map sden l)) with (ssum M (map sden l)). rewrite (IHl (Forall_inv_tail L) E2). ring.
      - cbn [ScalarSpec.slegal] in L. apply (legal_list M) in L. cbn [ScalarSpec.sden]. induction IH as [|y l Hy _ IHl]; [apply dd_1|]. cbn [existsb] in H. apply orb_false_elim in H. destruct H as [E1 E2].
        cbn [map sprod fold_right]. rewrite dd_mul, (Hy (Forall_inv L) E1). change (fold_right qmul q1 (map sden l)) with (sprod M (map sden l)). rewrite (IHl (Forall_inv_tail L) E2). ring.
      - apply orb_false_elim in H. destruct H as [E1 E2]. destruct L as [Lb [Lx [Hd _]]]. cbn [ScalarSpec.sden]. apply dd_const; [exact Hd|now apply IHb|now apply IHx].
    Qed.
    Lemma diff_by_ok rec e r : keeps rec -> slegal e -> smooth e -> sdiff_by rec e = Ok r -> has_value r (dd (sden e)).
    Proof.
      intros Hr L Sm H. unfold SdModel.sdiff_by in H. destruct (sdepends vfree afree e) eqn:Ed.
      - destruct (rec e) as [d|] eqn:E; [cbn [bind] in H|discriminate H]. destruct (Hr _ _ L Sm E) as [Ld Vd]. destruct (s_eqb d SZero).
        + injection H as <-. now split.
        + rewrite <- Vd. exact (c_tidy _ _ _ _ _ _ _ _ C _ _ Ld H).
      - injection H as <-. split; [exact Logic.I|]. symmetry. now apply constant.
    Qed.
    Lemma sum_ok rec l ds : keeps rec -> Forall slegal l -> (forall x, In x l -> smooth x) -> mapM (sdiff_by rec) l = Ok ds -> forall acc r, slegal acc ->
      foldM (fun a d => x_add K a (Obj d)) acc ds = Ok r -> has_value r (qadd (sden acc) (dd (ssum M (map sden l)))).
    Proof.
      intros Hr. revert ds. induction l as [|x l IH]; intros ds L Sm H acc r La Hf; cbn [mapM] in H.
      - injection H as <-. cbn [foldM] in Hf. injection Hf as <-. split; [exact La|]. cbn [map ssum fold_right]. rewrite dd_0. ring.
      - destruct (sdiff_by rec x) as [d|] eqn:E; [cbn [bind] in H|discriminate H]. destruct (mapM (sdiff_by rec) l) as [ds'|] eqn:E'; [cbn [bind] in H|discriminate H]. injection H as <-.
        cbn [foldM] in Hf. destruct (x_add K acc (Obj d)) as [a'|] eqn:Ea; [cbn [bind] in Hf|discriminate Hf].
        destruct (diff_by_ok rec x d Hr (Forall_inv L) (Sm x (or_introl eq_refl)) E) as [Ld Vd].
        destruct (x_add_sound M K (sk_sound M slt m) acc (Obj d) a' La Ld Ea) as [La' Va'].
        destruct (IH ds' (Forall_inv_tail L) (fun y Hy => Sm y (or_intror Hy)) eq_refl a' r La' Hf) as [Lr Vr]. split; [exact Lr|].
        rewrite Vr, Va'. cbn [ScalarSpec.oden]. rewrite Vd. cbn [map ssum fold_right]. change (fold_right qadd q0 (map sden l)) with (ssum M (map sden l)). rewrite dd_add. ring.
    Qed.
    Lemma udiff_ok n : keeps (sudiff n).
    Proof.
      induction n as [|p IH]; intros e r L Sm H; [discriminate H|]. cbn [SdModel.sudiff] in H.
      pose proof (sk_sound M slt m) as HK.
      destruct e as [| |v|k|l|l|b x].
      - injection H as <-. split; [exact Logic.I|]. symmetry. apply dd_0.
      - injection H as <-. split; [exact Logic.I|]. symmetry. apply dd_1.
      - cbn [ScalarSpec.sden]. destruct (vsympy v) eqn:Ev.
        + rewrite <- (c_diff _ _ _ _ _ _ _ _ C v). exact (create_sound M _ _ H).
        + injection H as <-. split; [exact Logic.I|]. symmetry. exact (c_number _ _ _ _ _ _ _ _ C v Ev).
      - exact (c_adiff _ _ _ _ _ _ _ _ C k r H).
      - destruct (mapM _ l) as [ds|] eqn:E; [cbn [bind] in H|discriminate H]. cbn [ScalarSpec.slegal] in L. apply (legal_list M) in L.
        inversion Sm as [| | | |l' Sl| |]; subst. destruct (sum_ok _ l ds IH L Sl E SZero r Logic.I H) as [Lr Vr]. split; [exact Lr|]. rewrite Vr. cbn [ScalarSpec.sden]. ring.
      - destruct l as [|first [|f2 others]]; try discriminate H. set (os := f2 :: others) in *. cbn [ScalarSpec.slegal] in L. apply (legal_list M) in L.
        inversion Sm as [| | | | |y l' Sf Sl Sr|]; subst.
        destruct (k_times K (map Obj os)) as [rest|] eqn:Er; [cbn [bind] in H|discriminate H].
        destruct (sdiff_by (sudiff p) first) as [f'|] eqn:Ef; [cbn [bind] in H|discriminate H].
        destruct (x_mul K f' (Obj rest)) as [a|] eqn:Ea; [cbn [bind] in H|discriminate H].
        destruct (sdiff_by (sudiff p) rest) as [r'|] eqn:Er'; [cbn [bind] in H|discriminate H].
        destruct (x_mul K first (Obj r')) as [c|] eqn:Ec; [cbn [bind] in H|discriminate H].
        assert (Forall (olegal M) (map Obj os)) as Lo by (apply Forall_forall; intros z Hz; apply in_map_iff in Hz; destruct Hz as [w [<- Hw]]; exact (proj1 (Forall_forall _ _) (Forall_inv_tail L) w Hw)).
        destruct (so_times M K HK _ _ Lo Er) as [Lrest Vrest]. rewrite map_map in Vrest. cbn [ScalarSpec.oden] in Vrest.
        destruct (diff_by_ok _ _ _ IH (Forall_inv L) Sf Ef) as [Lf Vf].
        destruct (diff_by_ok _ _ _ IH Lrest (Sr _ eq_refl) Er') as [Lr' Vr'].
        destruct (x_mul_sound M K HK f' (Obj rest) a Lf Lrest Ea) as [L_a Va].
        destruct (x_mul_sound M K HK first (Obj r') c (Forall_inv L) Lr' Ec) as [L_c Vc].
        destruct (x_add_sound M K HK a (Obj c) r L_a L_c H) as [Lr Vr]. split; [exact Lr|].
        rewrite Vr. cbn [ScalarSpec.oden] in *. rewrite Va, Vc, Vf, Vr'. cbn [ScalarSpec.sden map]. change (sprod M (sden first :: map sden os)) with (qmul (sden first) (sprod M (map sden os))).
        change (sprod M (map sden os)) with (sprod M (map (fun x => sden x) os)). etransitivity; [|symmetry; etransitivity; [apply dd_mul|reflexivity]]. rewrite <- Vrest. reflexivity.
      - destruct (sudiff p b) as [inner|] eqn:Eb; [cbn [bind] in H|discriminate H]. inversion Sm as [| | | | | |b' x' Sb Sx He Hd]; subst.
        destruct L as [Lb [Lx [Hdom [Hint Hz]]]]. destruct (IH b inner Lb Sb Eb) as [Li Vi]. cbn [ScalarSpec.sden]. rewrite (dd_pow M D _ _ Hdom Hd He), <- Vi.
        destruct (s_is 0 inner) eqn:Ei.
        + injection H as <-. split; [exact Logic.I|]. rewrite (s_is_0 M _ Ei). cbn [ScalarSpec.sden]. ring.
        + destruct (x_sub K x (Raw (vZ 1))) as [x1|] eqn:E1; [cbn [bind] in H|discriminate H].
          destruct (k_pow K (Obj b) (Obj x1)) as [pw|] eqn:Ep; [cbn [bind] in H|discriminate H].
          destruct (x_mul K x (Obj pw)) as [y|] eqn:Ey; [cbn [bind] in H|discriminate H].
          destruct (x_sub_sound M K HK x (Raw (vZ 1)) x1 Lx Logic.I (fun _ => ltac:(discriminate)) E1) as [L1 V1]. cbn [ScalarSpec.oden] in V1. rewrite (vden_1 V M) in V1.
          assert (pow_ok M (wrap (Obj b)) (wrap (Obj x1))) as Hp.
          { cbn [wrap]. split; [rewrite V1; exact Hd|]. split; [|exact Hz]. intros Hb. rewrite V1. apply isint_add; [now apply Hint|]. apply isint_opp, isint_1. }
          destruct (so_pow M K HK (Obj b) (Obj x1) pw Lb L1 Hp Ep) as [Lp Vp]. cbn [ScalarSpec.oden] in Vp.
          destruct (x_mul_sound M K HK x (Obj pw) y Lx Lp Ey) as [Ly Vy].
          destruct (x_mul_sound M K HK y (Obj inner) r Ly Li H) as [Lr Vr]. split; [exact Lr|].
          rewrite Vr. cbn [ScalarSpec.oden] in *. now rewrite Vy, Vp, V1.
    Qed.
    (** the result of [diff] is legal and has the derivative of the value *)
    Theorem C68_derivative_value n e r : slegal e -> smooth e -> sdiff n e = Ok r -> has_value r (dd (sden e)).
    Proof. intros L Sm H. exact (diff_by_ok _ e r (udiff_ok n) L Sm H). Qed.
    (** the tidying at every level changes nothing: [_diff] itself *)
    Theorem C68_raw_derivative_value n e r : slegal e -> smooth e -> sudiff n e = Ok r -> has_value r (dd (sden e)).
    Proof. apply udiff_ok. Qed.
    (** an expression without the symbol is constant, and its derivative is Zero *)
    Theorem C68_independent n e : slegal e -> sdepends vfree afree e = false -> sdiff n e = Ok SZero /\ dd (sden e) = q0.
    Proof. intros L H. split; [unfold SdModel.sdiff, SdModel.sdiff_by; now rewrite H|]. now apply constant. Qed.
    (** the sum, product and power rules, for expressions with a derivative *)
    Theorem C68_sum_rule n l r : slegal (SPlus l) -> smooth (SPlus l) -> sdiff n (SPlus l) = Ok r -> sden r = ssum M (map (fun x => dd (sden x)) l).
    Proof.
      intros L Sm H. destruct (C68_derivative_value n _ r L Sm H) as [_ ->]. cbn [ScalarSpec.sden]. clear. induction l as [|x l IH]; [apply dd_0|]. etransitivity; [exact (dd_add M D (sden x) (ssum M (map sden l)))|]. now rewrite IH.
    Qed.
    Theorem C68_product_rule n x y r : slegal (STimes [x; y]) -> smooth (STimes [x; y]) -> sdiff n (STimes [x; y]) = Ok r ->
      sden r = qadd (qmul (dd (sden x)) (sden y)) (qmul (sden x) (dd (sden y))).
    Proof. intros L Sm H. destruct (C68_derivative_value n _ r L Sm H) as [_ ->]. cbn [ScalarSpec.sden map sprod fold_right]. rewrite !dd_mul, dd_1. ring. Qed.
    Theorem C68_power_rule n b e r : slegal (SPow b e) -> smooth (SPow b e) -> sdiff n (SPow b e) = Ok r ->
      sden r = qmul (qmul (sden e) (qpow (sden b) (qadd (sden e) (qopp q1)))) (dd (sden b)).
    Proof.
      intros L Sm H. destruct (C68_derivative_value n _ r L Sm H) as [_ ->]. inversion Sm as [| | | | | |b' x' Sb Sx He Hd]; subst. destruct L as [_ [_ [Hdom _]]]. now apply dd_pow.
    Qed.
  End Step.

  (** the exponent is not differentiated: if the base has derivative zero, so has the power,
      whatever the exponent - also where the power does depend on the symbol *)
  Theorem C68_exponent_ignored n b e : sudiff n b = Ok SZero -> sudiff (S n) (SPow b e) = Ok SZero.
  Proof. intros H. cbn [SdModel.sudiff]. now rewrite H. Qed.
  Theorem C68_exponent_refuted n b e : sudiff n b = Ok SZero -> sdepends vfree afree e = true -> dd (sden (SPow b e)) <> q0 ->
    exists r, sdiff (S n) (SPow b e) = Ok r /\ sden r <> dd (sden (SPow b e)).
  Proof.
    intros H Hd Hn. exists SZero. split.
    - unfold SdModel.sdiff, SdModel.sdiff_by. cbn [sdepends]. rewrite Hd, orb_true_r, (C68_exponent_ignored n b e H). reflexivity.
    - intros E. apply Hn. symmetry. exact E.
  Qed.
  (** a product of fewer than two factors has no derivative *)
  Theorem C68_short_product n x : sudiff (S n) (STimes [x]) = Err AssertionError.
  Proof. reflexivity. Qed.
End Sd.


From Coq Require Import QArith Qcanon.
From Verif Require Import CInst ScalarInst SdInst.
Local Open Scope nat_scope.
(** ** Concrete cases: dual numbers, atom 0 is the symbol t *)
Definition tfree (v : pv Dv) : bool := negb (gq_eqb (snd v) (Gq 0 0)).
Definition ddv (v : pv Dv) : pv Dv := ddu v.
Definition tafree (n : nat) : bool := n =? 0.
Definition tadiff (n : nat) : res (scal Dv) := if n =? 0 then Ok (SVal ((Gq 0 0, Gq 1 0) : pv Dv)) else Ok SZero.
Definition ttidy (s : scal Dv) : res (scal Dv) := Ok s.
Example dual_calculus : calculus Dm Dd tfree tfree ddv tafree tadiff ttidy.
Proof.
  constructor.
  - reflexivity.
  - intros v H. unfold tfree in H. apply negb_false_iff, gq_eqb_eq in H. apply du_eq; [reflexivity|exact H].
  - intros v H. unfold tfree in H. apply negb_false_iff, gq_eqb_eq in H. apply du_eq; [reflexivity|exact H].
  - intros [|n] H; [discriminate H|reflexivity].
  - intros [|n] r H; injection H as <-; split; try exact Logic.I; reflexivity.
  - intros s r L H. injection H as <-. now split.
Qed.
(** t * (3 + t) ** (-1), whose derivative is t/3 *)
Definition sd_pow : scal Dv := SPow (SPlus [SVal (dZ 3 : pv Dv); SAtom 0]) (SVal (dZ (-1) : pv Dv)).
Definition sd_expr : scal Dv := STimes [SAtom 0; sd_pow].
Definition sd_run : res (scal Dv) := sdiff (sk (fun _ _ => false) 5) tfree tfree ddv tafree tadiff ttidy 5 sd_expr.
Lemma sd_pow_legal : slegal Dm sd_pow.
Proof.
  cbn [ScalarSpec.slegal sd_pow]. split; [|split; [|split; [|split]]].
  - split; [exact Logic.I|split; exact Logic.I].
  - exact Logic.I.
  - exists (-1)%Z. split; [reflexivity|]. right. intros E. apply (f_equal (fun x => gq_eqb x (Gq 0 0))) in E. vm_compute in E. discriminate E.
  - intros _. exists (-1)%Z. reflexivity.
  - reflexivity.
Qed.
Lemma sd_legal : slegal Dm sd_expr.
Proof. split; [exact Logic.I|]. split; [exact sd_pow_legal|exact Logic.I]. Qed.
Lemma sd_times m : k_times (sk (fun _ _ => false) (S m)) (map (Obj (V:=Dv)) [sd_pow]) = Ok sd_pow.
Proof. reflexivity. Qed.
Lemma sd_pow_smooth times : smooth Dm Dd times sd_pow.
Proof.
  apply sm_pow.
  - apply sm_plus. intros x [<-|[<-|[]]]; constructor.
  - apply sm_val.
  - reflexivity.
  - exists (-2)%Z. split; [change (dadd (dZ (-1)) (dopp d1) = dZ (-2)); now rewrite dZ_m1, <- dZ_add|]. right. intros E. apply (f_equal (fun x => gq_eqb x (Gq 0 0))) in E. vm_compute in E. discriminate E.
Qed.
Lemma sd_smooth : smooth Dm Dd (k_times (sk (fun _ _ => false) 5)) sd_expr.
Proof.
  apply sm_times.
  - apply sm_atom.
  - intros y [<-|[]]. apply sd_pow_smooth.
  - intros r H. change (map (Obj (V:=Dv)) [sd_pow]) with (map (Obj (V:=Dv)) [sd_pow]) in H. rewrite (sd_times 4) in H. injection H as <-. apply sd_pow_smooth.
Qed.
Example C68_nonvacuous : slegal Dm sd_expr /\ smooth Dm Dd (k_times (sk (fun _ _ => false) 5)) sd_expr /\
  (exists r, sd_run = Ok r) /\ match sd_run with Ok r => du_eqb (sden Dm r) (Gq 0 0, Gq (Q2Qc (1 # 3)) 0) | Err _ => false end = true.
Proof.
  split; [exact sd_legal|]. split; [exact sd_smooth|].
  assert (match sd_run with Ok r => du_eqb (sden Dm r) (Gq 0 0, Gq (Q2Qc (1 # 3)) 0) | Err _ => false end = true) as H by (vm_compute; reflexivity).
  split; [|exact H]. destruct sd_run as [r|]; [now exists r|discriminate H].
Qed.
(** 3 ** t has a derivative (here log 3 stands for 1, so 3 ** t), but [diff] returns Zero *)
Definition sd_bad : scal Dv := SPow (SVal (dZ 3 : pv Dv)) (SAtom 0).
Example C68_exponent_nonvacuous : sudiff (sk (fun _ _ => false) 5) tfree tfree ddv tafree tadiff ttidy 3 (SVal (dZ 3 : pv Dv)) = Ok SZero /\
  sdepends tfree tafree (SAtom 0 : scal Dv) = true /\ dd Dd (sden Dm sd_bad) <> q0.
Proof.
  split; [reflexivity|]. split; [reflexivity|]. intros E. apply (f_equal (fun x : du => gq_eqb (snd x) (Gq 0 0))) in E. vm_compute in E. discriminate E.
Qed.

Print Assumptions C68_derivative_value.
Print Assumptions C68_raw_derivative_value.
Print Assumptions C68_independent.
Print Assumptions C68_sum_rule.
Print Assumptions C68_product_rule.
Print Assumptions C68_power_rule.
Print Assumptions C68_exponent_ignored.
Print Assumptions C68_exponent_refuted.
Print Assumptions C68_short_product.
