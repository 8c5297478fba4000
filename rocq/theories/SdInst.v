(** Dual numbers a + b t with t * t = 0 over the Gaussian rationals, with the derivation
    t d/dt: a concrete case of ScalarSpec and SdSpec in which derivatives are not all zero. *)
From Coq Require Import QArith Qcanon Ring_theory Ring.
From Verif Require Import Prelude CInst ScalarModel ScalarSpec ScalarInst SdModel SdSpec.
Local Open Scope nat_scope.

Local Notation gadd := CInst.qadd. Local Notation gmul := CInst.qmul. Local Notation gopp := CInst.qopp. Local Notation gconj := CInst.qconj.
Local Notation g0 := (Gq 0 0). Local Notation g1 := (Gq 1 0).
Add Ring GQd : CInst.qring.
Definition du : Type := gq * gq.
Definition d0 : du := (g0, g0). Definition d1 : du := (g1, g0).
Definition dadd (x y : du) : du := (gadd (fst x) (fst y), gadd (snd x) (snd y)).
Definition dmul (x y : du) : du := (gmul (fst x) (fst y), gadd (gmul (fst x) (snd y)) (gmul (snd x) (fst y))).
Definition dopp (x : du) : du := (gopp (fst x), gopp (snd x)).
Definition dconj (x : du) : du := (gconj (fst x), gconj (snd x)).
Lemma du_eq (x y : du) : fst x = fst y -> snd x = snd y -> x = y.
Proof. destruct x, y. cbn [fst snd]. now intros -> ->. Qed.
Ltac du := intros; apply du_eq; cbn [fst snd dadd dmul dopp dconj d0 d1]; ring.
Lemma dring : ring_theory d0 d1 dadd dmul (fun a b => dadd a (dopp b)) dopp eq.
Proof. constructor; du. Qed.
Add Ring DQ : dring.
Definition dZ (z : Z) : du := (gZ z, g0).
Definition du_eqb (x y : du) : bool := gq_eqb (fst x) (fst y) && gq_eqb (snd x) (snd y).
Lemma du_eqb_eq x y : du_eqb x y = true <-> x = y.
Proof.
  unfold du_eqb. rewrite andb_true_iff, !gq_eqb_eq. destruct x, y; cbn [fst snd]. split; [intros [-> ->]; reflexivity|]. intros H. now inversion H.
Qed.
Definition dint (x : du) : option Z := if gq_eqb (snd x) g0 then int_of (fst x) else None.
Lemma dint_dZ z : dint (dZ z) = Some z.
Proof. unfold dint, dZ. cbn [fst snd]. change (gq_eqb g0 g0) with true. cbn iota. apply int_of_gZ. Qed.
Lemma dint_eq x z : dint x = Some z -> x = dZ z.
Proof. unfold dint. destruct (gq_eqb (snd x) g0) eqn:E; [|discriminate]. intros H. apply gq_eqb_eq in E. apply int_of_eq in H. now apply du_eq. Qed.
Lemma dZ_add a b : dZ (a + b) = dadd (dZ a) (dZ b).
Proof. apply du_eq; cbn [fst snd dadd dZ]; [apply gZ_add|ring]. Qed.
Lemma dZ_mul a b : dZ (a * b) = dmul (dZ a) (dZ b).
Proof. apply du_eq; cbn [fst snd dmul dZ]; [apply gZ_mul|ring]. Qed.
Lemma dZ_opp a : dZ (- a) = dopp (dZ a).
Proof. apply du_eq; cbn [fst snd dopp dZ]; [apply gZ_opp|ring]. Qed.
Lemma dZ_0 : dZ 0 = d0. Proof. apply du_eq; [exact gZ_0|reflexivity]. Qed.
Lemma dZ_1 : dZ 1 = d1. Proof. apply du_eq; [exact gZ_1|reflexivity]. Qed.
Lemma dZ_inj a b : dZ a = dZ b -> a = b.
Proof. intros H. apply gZ_inj. exact (f_equal fst H). Qed.
Lemma dZ_m1 : dopp d1 = dZ (-1). Proof. change (-1)%Z with (- (1))%Z. now rewrite dZ_opp, dZ_1. Qed.
Lemma dZ_2 : dadd d1 d1 = dZ 2. Proof. change 2%Z with (1 + 1)%Z. now rewrite dZ_add, dZ_1. Qed.
(** inverses: the constant part is not zero *)
Definition unit (x : du) : Prop := fst x <> g0.
Definition dinv (x : du) : du := (ginv (fst x), gopp (gmul (gmul (ginv (fst x)) (ginv (fst x))) (snd x))).
Lemma dinv_r x : unit x -> dmul x (dinv x) = d1.
Proof.
  intros H. pose proof (ginv_r _ H) as G. apply du_eq; cbn [fst snd dmul dinv d1]; [exact G|].
  transitivity (gmul (gadd g1 (gopp (gmul (fst x) (ginv (fst x))))) (gmul (ginv (fst x)) (snd x))); [ring|]. rewrite G. ring.
Qed.
Lemma d1_unit : unit d1.
Proof. exact g1_0. Qed.
Fixpoint dnpow (x : du) (n : nat) : du := match n with 0 => d1 | S m => dmul x (dnpow x m) end.
Definition dzpow (x : du) (z : Z) : du := if (0 <=? z)%Z then dnpow x (Z.to_nat z) else dnpow (dinv x) (Z.to_nat (- z)).
Definition dok (x : du) (z : Z) : Prop := (0 <= z)%Z \/ unit x.
Lemma dzpow_S x z : dok x z -> dzpow x (z + 1) = dmul x (dzpow x z).
Proof.
  intros H. unfold dzpow. destruct (Z.leb_spec 0 z) as [L|L].
  - rewrite (proj2 (Z.leb_le 0 (z + 1))) by lia. now replace (Z.to_nat (z + 1)) with (S (Z.to_nat z)) by lia.
  - destruct H as [H|H]; [lia|]. replace (Z.to_nat (- z)) with (S (Z.to_nat (- (z + 1)))) by lia. cbn [dnpow].
    assert (dmul x (dmul (dinv x) (dnpow (dinv x) (Z.to_nat (- (z + 1))))) = dnpow (dinv x) (Z.to_nat (- (z + 1)))) as ->.
    { replace (dmul x (dmul (dinv x) (dnpow (dinv x) (Z.to_nat (- (z + 1)))))) with (dmul (dmul x (dinv x)) (dnpow (dinv x) (Z.to_nat (- (z + 1))))) by ring. rewrite (dinv_r _ H). ring. }
    destruct (Z.leb_spec 0 (z + 1)) as [L'|L']; [|reflexivity]. replace z with (-1)%Z by lia. reflexivity.
Qed.
Lemma dzpow_0 x : dzpow x 0 = d1. Proof. reflexivity. Qed.
Lemma dzpow_1 x : dzpow x 1 = x.
Proof. change (dmul x d1 = x). ring. Qed.
Lemma dmul_cancel x y z : unit x -> dmul x y = dmul x z -> y = z.
Proof. intros H E. apply (f_equal (dmul (dinv x))) in E. replace (dmul (dinv x) (dmul x y)) with (dmul (dmul x (dinv x)) y) in E by ring. replace (dmul (dinv x) (dmul x z)) with (dmul (dmul x (dinv x)) z) in E by ring. rewrite (dinv_r _ H) in E. transitivity (dmul d1 y); [ring|]. rewrite E. ring. Qed.
Lemma dz_ind (P : Z -> Prop) x : P 0%Z -> (forall z, dok x z -> P z -> P (z + 1)%Z) -> (forall z, unit x -> P (z + 1)%Z -> P z) -> forall z, dok x z -> P z.
Proof.
  intros H0 Hs Hp z Hz. destruct (Z.leb_spec 0 z) as [L|L].
  - clear Hz. revert z L. apply natlike_ind; [exact H0|]. intros z L IH. rewrite <- Z.add_1_r. apply Hs; [now left|exact IH].
  - destruct Hz as [Hz|Hz]; [lia|]. assert (forall n : nat, P (- Z.of_nat n)%Z) as G.
    { induction n as [|n IH]; [exact H0|]. apply Hp; [exact Hz|]. now replace (- Z.of_nat (S n) + 1)%Z with (- Z.of_nat n)%Z by lia. }
    specialize (G (Z.to_nat (- z))). now rewrite Z2Nat.id, Z.opp_involutive in G by lia.
Qed.
Lemma dzpow_add x y z : dok x y -> dok x z -> dzpow x (y + z) = dmul (dzpow x y) (dzpow x z).
Proof.
  intros Hy Hz. revert z Hz. apply dz_ind.
  - rewrite Z.add_0_r, dzpow_0. ring.
  - intros z Hz IH. rewrite Z.add_assoc, dzpow_S, IH, dzpow_S; [ring|exact Hz|]. destruct Hy as [Hy|Hy]; [|now right]. destruct Hz as [Hz|Hz]; [left; lia|now right].
  - intros z Hx IH. rewrite Z.add_assoc, !dzpow_S in IH by now right. apply (dmul_cancel x); [exact Hx|]. rewrite IH. ring.
Qed.
Lemma dzpow_d1 z : dzpow d1 z = d1.
Proof.
  assert (dok d1 z) as H by (right; exact d1_unit). revert z H. apply dz_ind.
  - reflexivity.
  - intros z H IH. rewrite dzpow_S, IH by exact H. ring.
  - intros z H IH. rewrite dzpow_S in IH by now right. transitivity (dmul d1 (dzpow d1 z)); [ring|exact IH].
Qed.
Lemma dnpow_fst x n : fst (dnpow x n) = npow (fst x) n.
Proof. induction n as [|n IH]; [reflexivity|]. cbn [dnpow npow dmul fst]. now rewrite IH. Qed.
Lemma unit_dec x : unit x \/ fst x = g0.
Proof. unfold unit. destruct (gq_eqb (fst x) g0) eqn:E; [right; now apply gq_eqb_eq|]. left. intros F. apply gq_eqb_eq in F. congruence. Qed.
Lemma dok_mul x y z : dok x y -> dok (dzpow x y) z -> dok x (y * z).
Proof.
  intros Hy Hz. destruct (unit_dec x) as [Hu|E]; [now right|]. destruct Hy as [Hy|Hy]; [|now right].
  left. destruct Hz as [Hz|Hz]; [nia|]. assert (y = 0)%Z as ->; [|lia]. destruct (Z.eq_dec y 0) as [->|N]; [reflexivity|]. exfalso. apply Hz. unfold dzpow.
  rewrite (proj2 (Z.leb_le 0 y) Hy). rewrite dnpow_fst, E. destruct (Z.to_nat y) as [|n] eqn:En; [lia|]. cbn [npow]. ring.
Qed.
Lemma dzpow_mul x y z : dok x y -> dok (dzpow x y) z -> dzpow (dzpow x y) z = dzpow x (y * z).
Proof.
  intros Hy Hz. revert z Hz. apply dz_ind.
  - now rewrite Z.mul_0_r.
  - intros z Hz IH. rewrite dzpow_S, IH by exact Hz. replace (y * (z + 1))%Z with (y + y * z)%Z by ring. symmetry. apply dzpow_add; [exact Hy|now apply dok_mul].
  - intros z Hx IH. rewrite dzpow_S in IH by now right. apply (dmul_cancel (dzpow x y)); [exact Hx|]. rewrite IH. replace (y * (z + 1))%Z with (y + y * z)%Z by ring. apply dzpow_add; [exact Hy|]. apply dok_mul; [exact Hy|now right].
Qed.
Lemma gconj_0 x : gconj x = g0 -> x = g0.
Proof. intros E. apply gq_eq; cbn [gre gim]; [exact (f_equal gre E)|]. pose proof (f_equal gim E) as F; cbn [gre gim CInst.qconj] in F; rewrite <- (Qcopp_involutive (gim x)), F; ring. Qed.
Lemma unit_conj x : unit x -> unit (dconj x).
Proof. intros H E. apply H. now apply gconj_0. Qed.
Lemma dconj_mul x y : dconj (dmul x y) = dmul (dconj x) (dconj y).
Proof. apply du_eq; cbn [fst snd dconj dmul]; apply gq_eq; cbn [gre gim CInst.qconj CInst.qmul CInst.qadd]; ring. Qed.
Lemma dconj_1 : dconj d1 = d1.
Proof. apply du_eq; cbn [fst snd dconj d1]; apply gq_eq; cbn [gre gim CInst.qconj]; ring. Qed.
Lemma dconj_inv x : unit x -> dconj (dinv x) = dinv (dconj x).
Proof.
  intros H. pose proof (unit_conj _ H) as H'. apply (dmul_cancel (dconj x)); [exact H'|]. rewrite (dinv_r _ H'), <- dconj_mul, (dinv_r _ H). apply dconj_1.
Qed.
Lemma dnpow_conj x n : dnpow (dconj x) n = dconj (dnpow x n).
Proof. induction n as [|n IH]; cbn [dnpow]; [symmetry; apply dconj_1|]. now rewrite IH, dconj_mul. Qed.
Lemma dzpow_conj x z : dok x z -> dzpow (dconj x) z = dconj (dzpow x z).
Proof.
  intros H. unfold dzpow. destruct (Z.leb_spec 0 z) as [L|L]; [apply dnpow_conj|]. destruct H as [H|H]; [lia|]. rewrite <- (dconj_inv _ H). apply dnpow_conj.
Qed.

(** ** Values *)
Definition dvdiv (x y : du) : res du := if gq_eqb (fst y) g0 then Err ZeroDivisionError else Ok (dmul x (dinv y)).
Definition dvpow (x y : du) : res du :=
  match dint y with
  | Some z => if gq_eqb (fst x) g0 && (z <? 0)%Z then Err ZeroDivisionError else Ok (dzpow x z)
  | None => Err Unmodelled
  end.
Definition Dv : pyvals :=
  {| pv := du; veqb := du_eqb; vZ := dZ; vadd := dadd; vsub := fun a b => dadd a (dopp b); vmul := dmul; vneg := dopp;
     vdiv := dvdiv; vpow := dvpow; vfdiv := fun x y => if du_eqb y d1 then Ok x else Err Unmodelled; vmod := fun _ _ => Err Unmodelled; vconj := dconj;
     vhalfI := (Gq 0 (/ zq 2)%Qc, g0); vbad := fun _ => false |}.
(** powers: where the exponent is no integer, x^(a + b t) = x^a (1 + b t), as for log x = 1 *)
Definition qpow_d (x y : du) : du :=
  match dint y with
  | Some z => dzpow x z
  | None => match int_of (fst y) with Some z => dmul (dzpow x z) (g1, snd y) | None => d0 end
  end.
Definition dom_d (x y : du) : Prop := exists z, y = dZ z /\ dok x z.
Lemma qpow_dZ x z : qpow_d x (dZ z) = dzpow x z.
Proof. unfold qpow_d. now rewrite dint_dZ. Qed.
(** atom 0 is t, the others are constants *)
Definition datom (n : nat) : du := if n =? 0 then (g0, g1) else (gatom n, g0).
Definition Dm : smeaning Dv.
Proof.
  refine {| sK := du; q0 := d0; q1 := d1; ScalarSpec.qadd := dadd; ScalarSpec.qmul := dmul; ScalarSpec.qopp := dopp; ScalarSpec.qconj := dconj; qhalfi := @vhalfI Dv;
     vden := fun v : pv Dv => v; aden := datom; isint := fun y => exists z, y = dZ z; qpow := qpow_d; dom := dom_d |};
   try reflexivity.
  - exact dring.
  - intros; apply du_eq; cbn [fst snd dconj dadd]; apply gq_eq; cbn [gre gim CInst.qconj CInst.qadd]; ring.
  - intros; apply dconj_mul.
  - intros; apply du_eq; cbn [fst snd dconj]; apply gq_eq; cbn [gre gim CInst.qconj]; ring.
  - intros a b H. now apply du_eqb_eq.
  - exists 1%Z. symmetry. exact dZ_1.
  - intros a [z ->]. exists (- z)%Z. symmetry. apply dZ_opp.
  - intros a b [z ->] [w ->]. exists (z + w)%Z. symmetry. apply dZ_add.
  - intros a b [z ->] [w ->]. exists (z * w)%Z. symmetry. apply dZ_mul.
  - intros a [z ->]. exists z. apply du_eq; cbn [fst snd dconj dZ]; apply gq_eq; cbn [gZ gre gim CInst.qconj]; ring.
  - intros x. rewrite <- dZ_1, qpow_dZ. apply dzpow_1.
  - intros y [z [-> _]]. rewrite qpow_dZ. apply dzpow_d1.
  - intros x. exists 2%Z. split; [exact dZ_2|]. left. lia.
  - intros x. rewrite dZ_2, qpow_dZ. change (dmul x (dmul x d1) = dmul x x). ring.
  - intros x y z [a [-> Ha]] [b [-> Hb]]. exists (a + b)%Z. split; [symmetry; apply dZ_add|]. destruct Ha as [Ha|Ha]; [|now right]. destruct Hb as [Hb|Hb]; [left; lia|now right].
  - intros x y z [a [-> Ha]] [b [-> Hb]]. rewrite <- dZ_add, !qpow_dZ. now apply dzpow_add.
  - intros x y z [a [-> Ha]] [b [-> Hb]] _. rewrite qpow_dZ in Hb. exists (a * b)%Z. split; [symmetry; apply dZ_mul|now apply dok_mul].
  - intros x y z [a [-> Ha]] [b [-> Hb]] _. rewrite qpow_dZ in Hb. rewrite <- dZ_mul, !qpow_dZ. now apply dzpow_mul.
  - intros x [z [E H]]. rewrite dZ_m1 in E |- *. apply dZ_inj in E. subst z. rewrite qpow_dZ. destruct H as [H|H]; [lia|]. change (dmul x (dmul (dinv x) d1) = d1). replace (dmul x (dmul (dinv x) d1)) with (dmul x (dinv x)) by ring. now apply dinv_r.
  - intros x y [z [-> H]]. exists z. split; [apply du_eq; cbn [fst snd dconj dZ]; apply gq_eq; cbn [gZ gre gim CInst.qconj]; ring|]. destruct H as [H|H]; [now left|]. right. now apply unit_conj.
  - intros x y [z [-> H]]. replace (dconj (dZ z)) with (dZ z) by (apply du_eq; cbn [fst snd dconj dZ]; apply gq_eq; cbn [gZ gre gim CInst.qconj]; ring). rewrite !qpow_dZ. now apply dzpow_conj.
  - intros a b c H [z [E Hz]]. rewrite dZ_m1 in *. apply dZ_inj in E. subst z. rewrite qpow_dZ. cbn [vdiv Dv] in H. unfold dvdiv in H. destruct (gq_eqb (fst b) g0); [discriminate|]. injection H as <-. change (dmul a (dinv b) = dmul a (dmul (dinv b) d1)). ring.
  - intros a b c H [z [-> Hz]]. rewrite qpow_dZ. cbn [vpow Dv] in H. unfold dvpow in H. rewrite dint_dZ in H. destruct (gq_eqb (fst a) g0 && (z <? 0)%Z); [discriminate|]. now injection H as <-.
  - intros c H. vm_compute in H. injection H as <-. apply du_eq; apply gq_eq; apply Qc_is_canon; reflexivity.
Defined.

(** ** The derivation: t d/dt *)
Definition ddu (x : du) : du := (g0, snd x).
Lemma ddu_add a b : ddu (dadd a b) = dadd (ddu a) (ddu b).
Proof. apply du_eq; cbn [fst snd ddu dadd]; ring. Qed.
Lemma ddu_mul a b : ddu (dmul a b) = dadd (dmul (ddu a) b) (dmul a (ddu b)).
Proof. apply du_eq; cbn [fst snd ddu dadd dmul]; ring. Qed.
Lemma ddu_1 : ddu d1 = d0. Proof. reflexivity. Qed.
Lemma ddu_npow x n : ddu (dnpow x (S n)) = dmul (dmul (dZ (Z.of_nat (S n))) (dnpow x n)) (ddu x).
Proof.
  induction n as [|n IH]; [change (ddu (dmul x d1) = dmul (dmul (dZ 1) d1) (ddu x)); rewrite ddu_mul, ddu_1, dZ_1; ring|].
  cbn [dnpow] in *. rewrite ddu_mul, IH. replace (Z.of_nat (S (S n))) with (1 + Z.of_nat (S n))%Z by lia. rewrite dZ_add, dZ_1. ring.
Qed.
Lemma ddu_unit x z : unit x -> ddu (dzpow x z) = dmul (dmul (dZ z) (dzpow x (z - 1))) (ddu x).
Proof.
  intros H. assert (dok x z) as Hz by now right. revert z Hz. apply dz_ind.
  - rewrite dzpow_0, dZ_0, ddu_1. ring.
  - intros z Hz IH. rewrite dzpow_S, ddu_mul, IH by exact Hz. replace (z + 1 - 1)%Z with z by lia. rewrite dZ_add, dZ_1.
    assert (dzpow x z = dmul x (dzpow x (z - 1))) as -> by (rewrite <- dzpow_S by (now right); f_equal; lia). ring.
  - intros z _ IH. rewrite dzpow_S, ddu_mul in IH by now right. replace (z + 1 - 1)%Z with z in IH by lia. rewrite dZ_add, dZ_1 in IH.
    apply (dmul_cancel x); [exact H|].
    assert (dzpow x z = dmul x (dzpow x (z - 1))) as E by (rewrite <- dzpow_S by (now right); f_equal; lia).
    transitivity (dadd (dadd (dmul (ddu x) (dzpow x z)) (dmul x (ddu (dzpow x z)))) (dopp (dmul (ddu x) (dzpow x z)))); [ring|]. rewrite IH.
    transitivity (dmul (dmul (dZ z) (dzpow x z)) (ddu x)); [ring|]. rewrite E. ring.
Qed.
Definition Dd : sderivation Dm.
Proof.
  refine {| dd := ddu : sK Dm -> sK Dm |}.
  - exact ddu_add.
  - exact ddu_mul.
  - intros x y [z [-> Hz]] [w [Ew Hw]] _. change (dadd (dZ z) (dopp d1) = dZ w) in Ew. rewrite dZ_m1, <- dZ_add in Ew. apply dZ_inj in Ew. subst w. 
    change (ddu (qpow_d x (dZ z)) = dmul (dmul (dZ z) (qpow_d x (dadd (dZ z) (dopp d1)))) (ddu x)). rewrite dZ_m1, <- dZ_add, !qpow_dZ. replace (z + -1)%Z with (z - 1)%Z in * by lia.
    destruct Hw as [Hw|Hw]; [|now apply ddu_unit]. destruct (Z.to_nat z) as [|n] eqn:En; [lia|].
    unfold dzpow. rewrite (proj2 (Z.leb_le 0 z)), (proj2 (Z.leb_le 0 (z - 1))) by lia. rewrite En. replace (Z.to_nat (z - 1)) with n by lia. rewrite ddu_npow. do 3 f_equal. lia.
  - intros x y [z [-> Hz]] Hx _. change (ddu (qpow_d x (dZ z)) = d0). rewrite qpow_dZ. change (ddu x = d0) in Hx.
    revert z Hz. apply dz_ind.
    + reflexivity.
    + intros z Hz IH. rewrite dzpow_S, ddu_mul, Hx, IH by exact Hz. ring.
    + intros z Hu _. rewrite ddu_unit, Hx by exact Hu. ring.
Defined.
