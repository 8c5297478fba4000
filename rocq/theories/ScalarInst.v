(** The Gaussian rationals as values: a concrete case of the records of ScalarModel and
    ScalarSpec, with exact arithmetic, integer powers, floor division and remainder. *)
From Coq Require Import QArith Qround Qcanon Ring_theory Ring.
From Verif Require Import Prelude CInst ScalarModel ScalarSpec.
Local Open Scope nat_scope.

Local Notation gadd := CInst.qadd. Local Notation gmul := CInst.qmul. Local Notation gopp := CInst.qopp. Local Notation gconj := CInst.qconj.
Local Notation g0 := (Gq 0 0). Local Notation g1 := (Gq 1 0).
Add Ring GQ : CInst.qring.
Definition zq (z : Z) : Qc := Q2Qc (inject_Z z).
Definition gZ (z : Z) : gq := Gq (zq z) 0.
Definition gq_eqb (x y : gq) : bool := Qc_eq_bool (gre x) (gre y) && Qc_eq_bool (gim x) (gim y).
Lemma gq_eqb_eq x y : gq_eqb x y = true <-> x = y.
Proof.
  unfold gq_eqb. split.
  - intros H. apply andb_prop in H. destruct H as [H1 H2]. apply gq_eq; now apply Qc_eq_bool_correct.
  - intros ->. assert (forall p, Qc_eq_bool p p = true) as G by (intros p; unfold Qc_eq_bool; now destruct (Qc_eq_dec p p)). now rewrite !G.
Qed.
Lemma zq_add a b : zq (a + b) = (zq a + zq b)%Qc.
Proof. apply Qc_is_canon. unfold zq, Qcplus, Q2Qc. cbn [this]. now rewrite !Qred_correct, inject_Z_plus. Qed.
Lemma zq_mul a b : zq (a * b) = (zq a * zq b)%Qc.
Proof. apply Qc_is_canon. unfold zq, Qcmult, Q2Qc. cbn [this]. now rewrite !Qred_correct, inject_Z_mult. Qed.
Lemma zq_opp a : zq (- a) = (- zq a)%Qc.
Proof. apply Qc_is_canon. unfold zq, Qcopp, Q2Qc. cbn [this]. now rewrite !Qred_correct, inject_Z_opp. Qed.
Lemma zq_inj a b : zq a = zq b -> a = b.
Proof. intros H. apply (f_equal this) in H. unfold zq, Q2Qc in H. cbn [this] in H. assert (inject_Z a == inject_Z b)%Q as E by (rewrite <- (Qred_correct (inject_Z a)), H; apply Qred_correct). now apply inject_Z_injective. Qed.
Definition int_of (x : gq) : option Z :=
  let z := Qfloor (this (gre x)) in if gq_eqb x (gZ z) then Some z else None.
Lemma int_of_eq x z : int_of x = Some z -> x = gZ z.
Proof. unfold int_of. destruct (gq_eqb x _) eqn:E; [|discriminate]. intros [= <-]. now apply gq_eqb_eq. Qed.
Lemma int_of_gZ z : int_of (gZ z) = Some z.
Proof.
  unfold int_of. assert (Qfloor (this (gre (gZ z))) = z) as ->.
  { cbn [gZ gre]. unfold zq, Q2Qc. cbn [this]. rewrite (Qfloor_comp _ (inject_Z z)); [apply Qfloor_Z|apply Qred_correct]. }
  now rewrite (proj2 (gq_eqb_eq _ _) eq_refl).
Qed.
Lemma gZ_add a b : gZ (a + b) = gadd (gZ a) (gZ b).
Proof. apply gq_eq; cbn [gZ gre gim CInst.qadd]; [apply zq_add|ring]. Qed.
Lemma gZ_mul a b : gZ (a * b) = gmul (gZ a) (gZ b).
Proof. apply gq_eq; cbn [gZ gre gim CInst.qmul]; [rewrite zq_mul; ring|ring]. Qed.
Lemma gZ_opp a : gZ (- a) = gopp (gZ a).
Proof. apply gq_eq; cbn [gZ gre gim CInst.qopp]; [apply zq_opp|ring]. Qed.
Lemma gZ_0 : gZ 0 = g0. Proof. apply gq_eq; apply Qc_is_canon; reflexivity. Qed.
Lemma gZ_1 : gZ 1 = g1. Proof. apply gq_eq; apply Qc_is_canon; reflexivity. Qed.
Lemma gZ_inj a b : gZ a = gZ b -> a = b.
Proof. intros H. apply zq_inj. exact (f_equal gre H). Qed.
(** inverse *)
Definition gnorm (x : gq) : Qc := (gre x * gre x + gim x * gim x)%Qc.
Definition ginv (x : gq) : gq := Gq (gre x / gnorm x)%Qc (- gim x / gnorm x)%Qc.
Lemma gnorm_0 x : gnorm x = 0%Qc -> x = g0.
Proof.
  unfold gnorm. intros H. assert (forall p : Qc, (0 <= p * p)%Qc) as S.
  { intros p. unfold Qcle, Qcmult, Q2Qc. cbn [this]. rewrite !Qred_correct. destruct (Qlt_le_dec (this p) 0) as [L|L].
    - setoid_replace (this p * this p)%Q with ((- this p) * (- this p))%Q by ring. apply Qmult_le_0_compat; apply (Qopp_le_compat (this p) 0); now apply Qlt_le_weak.
    - now apply Qmult_le_0_compat. }
  assert (forall p q : Qc, (p * p + q * q = 0)%Qc -> p = 0%Qc) as G.
  { intros p q E. pose proof (S p) as Sp. pose proof (S q) as Sq. assert (p * p <= 0)%Qc as L.
    { replace 0%Qc with (p * p + q * q)%Qc. replace (p * p)%Qc with (p * p + 0)%Qc at 1 by ring. apply Qcplus_le_compat; [apply Qcle_refl|exact Sq]. }
    assert (p * p = 0)%Qc as E' by (apply Qcle_antisym; assumption). destruct (Qcmult_integral _ _ E'); assumption. }
  apply gq_eq; cbn [gre gim]; [now apply (G _ (gim x))|]. apply (G _ (gre x)). rewrite <- H. ring.
Qed.
Lemma ginv_r x : x <> g0 -> gmul x (ginv x) = g1.
Proof.
  intros H. assert (gnorm x <> 0%Qc) as N by (intros E; now apply H, gnorm_0). unfold ginv. apply gq_eq; cbn [gre gim CInst.qmul]; unfold Qcdiv.
  - replace (gre x * (gre x * / gnorm x) - gim x * (- gim x * / gnorm x))%Qc with (gnorm x * / gnorm x)%Qc by (unfold gnorm; ring). now apply Qcmult_inv_r.
  - ring.
Qed.
Lemma g_domain x y : gmul x y = g0 -> x = g0 \/ y = g0.
Proof.
  intros H. destruct (gq_eqb x g0) eqn:E; [left; now apply gq_eqb_eq|]. right. assert (x <> g0) as N by (intros F; apply gq_eqb_eq in F; congruence).
  replace y with (gmul (ginv x) (gmul x y)).
  - rewrite H. apply gq_eq; cbn [gre gim CInst.qmul]; ring.
  - replace (gmul (ginv x) (gmul x y)) with (gmul (gmul x (ginv x)) y) by ring. rewrite (ginv_r _ N). ring.
Qed.
Lemma g1_0 : g1 <> g0.
Proof. intros H. apply (f_equal gre) in H. discriminate H. Qed.
(** integer powers *)
Fixpoint npow (x : gq) (n : nat) : gq := match n with 0 => g1 | S m => gmul x (npow x m) end.
Definition zpow (x : gq) (z : Z) : gq := if (0 <=? z)%Z then npow x (Z.to_nat z) else npow (ginv x) (Z.to_nat (- z)).
Definition gok (x : gq) (z : Z) : Prop := (0 <= z)%Z \/ x <> g0.
Lemma zpow_S x z : (0 <= z)%Z \/ x <> g0 -> zpow x (z + 1) = gmul x (zpow x z).
Proof.
  intros H. unfold zpow. destruct (Z.leb_spec 0 z) as [L|L].
  - rewrite (proj2 (Z.leb_le 0 (z + 1))) by lia. now replace (Z.to_nat (z + 1)) with (S (Z.to_nat z)) by lia.
  - destruct H as [H|H]; [lia|]. replace (Z.to_nat (- z)) with (S (Z.to_nat (- (z + 1)))) by lia. cbn [npow].
    assert (gmul x (gmul (ginv x) (npow (ginv x) (Z.to_nat (- (z + 1))))) = npow (ginv x) (Z.to_nat (- (z + 1)))) as ->.
    { replace (gmul x (gmul (ginv x) (npow (ginv x) (Z.to_nat (- (z + 1)))))) with (gmul (gmul x (ginv x)) (npow (ginv x) (Z.to_nat (- (z + 1))))) by ring. rewrite (ginv_r _ H). ring. }
    destruct (Z.leb_spec 0 (z + 1)) as [L'|L']; [|reflexivity]. replace z with (-1)%Z by lia. reflexivity.
Qed.
Lemma zpow_0 x : zpow x 0 = g1. Proof. reflexivity. Qed.
Lemma zpow_1 x : zpow x 1 = x.
Proof. change (gmul x g1 = x). ring. Qed.
Lemma gmul_cancel x y z : x <> g0 -> gmul x y = gmul x z -> y = z.
Proof. intros H E. apply (f_equal (gmul (ginv x))) in E. replace (gmul (ginv x) (gmul x y)) with (gmul (gmul x (ginv x)) y) in E by ring. replace (gmul (ginv x) (gmul x z)) with (gmul (gmul x (ginv x)) z) in E by ring. rewrite (ginv_r _ H) in E. transitivity (gmul g1 y); [ring|]. rewrite E. ring. Qed.
Lemma z_ind (P : Z -> Prop) x : P 0%Z -> (forall z, gok x z -> P z -> P (z + 1)%Z) -> (forall z, x <> g0 -> P (z + 1)%Z -> P z) -> forall z, gok x z -> P z.
Proof.
  intros H0 Hs Hp z Hz. destruct (Z.leb_spec 0 z) as [L|L].
  - clear Hz. revert z L. apply natlike_ind; [exact H0|]. intros z L IH. rewrite <- Z.add_1_r. apply Hs; [now left|exact IH].
  - destruct Hz as [Hz|Hz]; [lia|]. assert (forall n : nat, P (- Z.of_nat n)%Z) as G.
    { induction n as [|n IH]; [exact H0|]. apply Hp; [exact Hz|]. now replace (- Z.of_nat (S n) + 1)%Z with (- Z.of_nat n)%Z by lia. }
    specialize (G (Z.to_nat (- z))). now rewrite Z2Nat.id, Z.opp_involutive in G by lia.
Qed.
Lemma zpow_add x y z : gok x y -> gok x z -> zpow x (y + z) = gmul (zpow x y) (zpow x z).
Proof.
  intros Hy Hz. revert z Hz. apply z_ind.
  - rewrite Z.add_0_r, zpow_0. ring.
  - intros z Hz IH. rewrite Z.add_assoc, zpow_S, IH, zpow_S; [ring|exact Hz|]. destruct Hy as [Hy|Hy]; [|now right]. destruct Hz as [Hz|Hz]; [left; lia|now right].
  - intros z Hx IH. rewrite Z.add_assoc, !zpow_S in IH by now right. apply (gmul_cancel x); [exact Hx|]. rewrite IH. ring.
Qed.
Lemma zpow_g1 z : zpow g1 z = g1.
Proof.
  assert (gok g1 z) as H by (right; exact g1_0). revert z H. apply z_ind.
  - reflexivity.
  - intros z H IH. rewrite zpow_S, IH by exact H. ring.
  - intros z H IH. rewrite zpow_S in IH by now right. transitivity (gmul g1 (zpow g1 z)); [ring|exact IH].
Qed.
Lemma zpow_n0 x z : x <> g0 -> zpow x z <> g0.
Proof.
  intros H E. assert (gmul (zpow x z) (zpow x (- z)) = g1) as F by (rewrite <- zpow_add by (now right); rewrite Z.add_opp_diag_r; reflexivity).
  rewrite E in F. apply g1_0. transitivity (gmul g0 (zpow x (- z))); [symmetry; exact F|ring].
Qed.
Lemma gok_mul x y z : gok x y -> gok (zpow x y) z -> gok x (y * z).
Proof.
  intros Hy Hz. destruct (gq_eqb x g0) eqn:E; [|right; intros F; apply gq_eqb_eq in F; congruence]. apply gq_eqb_eq in E. destruct Hy as [Hy|Hy]; [|now right].
  left. destruct Hz as [Hz|Hz]; [nia|]. subst x. assert (y = 0)%Z as ->; [|lia]. destruct (Z.eq_dec y 0) as [->|N]; [reflexivity|]. exfalso. apply Hz. unfold zpow.
  rewrite (proj2 (Z.leb_le 0 y) Hy). destruct (Z.to_nat y) as [|n] eqn:En; [lia|]. cbn [npow]. ring.
Qed.
Lemma zpow_mul x y z : gok x y -> gok (zpow x y) z -> zpow (zpow x y) z = zpow x (y * z).
Proof.
  intros Hy Hz. assert (x <> g0 \/ (0 <= y)%Z) as Hy' by (destruct Hy; tauto). revert z Hz. apply z_ind.
  - now rewrite Z.mul_0_r.
  - intros z Hz IH. rewrite zpow_S, IH by exact Hz. replace (y * (z + 1))%Z with (y + y * z)%Z by ring. symmetry. apply zpow_add; [exact Hy|now apply gok_mul].
  - intros z Hx IH. rewrite zpow_S in IH by now right. apply (gmul_cancel (zpow x y)); [exact Hx|]. rewrite IH. replace (y * (z + 1))%Z with (y + y * z)%Z by ring. apply zpow_add; [exact Hy|]. apply gok_mul; [exact Hy|now right].
Qed.
Lemma gconj_inv x : x <> g0 -> gconj (ginv x) = ginv (gconj x).
Proof.
  intros H. assert (gconj x <> g0) as H' by (intros E; apply H; apply gq_eq; cbn [gre gim]; [exact (f_equal gre E)|]; pose proof (f_equal gim E) as F; cbn [gre gim CInst.qconj] in F; rewrite <- (Qcopp_involutive (gim x)), F; ring).
  apply (gmul_cancel (gconj x)); [exact H'|]. rewrite (ginv_r _ H'). transitivity (gconj (gmul x (ginv x))); [apply gq_eq; cbn [gre gim CInst.qconj CInst.qmul]; ring|]. rewrite (ginv_r _ H). apply gq_eq; cbn [gre gim CInst.qconj]; ring.
Qed.
Lemma npow_conj x n : npow (gconj x) n = gconj (npow x n).
Proof. induction n as [|n IH]; cbn [npow]; [apply gq_eq; cbn [gre gim CInst.qconj]; ring|]. rewrite IH. apply gq_eq; cbn [gre gim CInst.qconj CInst.qmul]; ring. Qed.
Lemma zpow_conj x z : gok x z -> zpow (gconj x) z = gconj (zpow x z).
Proof.
  intros H. unfold zpow. destruct (Z.leb_spec 0 z) as [L|L]; [apply npow_conj|]. destruct H as [H|H]; [lia|]. rewrite <- (gconj_inv _ H). apply npow_conj.
Qed.

(** Python's arithmetic on exact complex numbers; [//] and [%] need real numbers, [**]
    integer exponents (others are outside this model) *)
Definition gdiv (x y : gq) : res gq := if gq_eqb y g0 then Err ZeroDivisionError else Ok (gmul x (ginv y)).
Definition gpow (x y : gq) : res gq :=
  match int_of y with
  | Some z => if gq_eqb x g0 && (z <? 0)%Z then Err ZeroDivisionError else Ok (zpow x z)
  | None => Err Unmodelled
  end.
Definition gfloor (x : gq) : res gq := if gq_eqb (Gq 0 (gim x)) g0 then Ok (gZ (Qfloor (this (gre x)))) else Err TypeError.
Definition gfdiv (x y : gq) : res gq := do q <- gdiv x y; gfloor q.
Definition gmod (x y : gq) : res gq := do q <- gfdiv x y; Ok (gadd x (gopp (gmul y q))).
Definition Gv : pyvals :=
  {| pv := gq; veqb := gq_eqb; vZ := gZ; vadd := gadd; vsub := fun a b => gadd a (gopp b); vmul := gmul; vneg := gopp;
     vdiv := gdiv; vpow := gpow; vfdiv := gfdiv; vmod := gmod; vconj := gconj;
     vhalfI := Gq 0 (/ zq 2)%Qc; vbad := fun _ => false |}.
(** powers with other exponents are left open, except that 1 to any power is 1 *)
Definition qpow_g (x y : gq) : gq := match int_of y with Some z => zpow x z | None => if gq_eqb x g1 then g1 else g0 end.
Definition dom_g (x y : gq) : Prop := exists z, y = gZ z /\ gok x z.
Lemma qpow_gZ x z : qpow_g x (gZ z) = zpow x z.
Proof. unfold qpow_g. now rewrite int_of_gZ. Qed.
Lemma gZ_m1 : gopp g1 = gZ (-1). Proof. change (-1)%Z with (- (1))%Z. now rewrite gZ_opp, gZ_1. Qed.
Lemma gZ_2 : gadd g1 g1 = gZ 2. Proof. change 2%Z with (1 + 1)%Z. now rewrite gZ_add, gZ_1. Qed.
(** atoms: number 2k has the value k + i, number 2k+1 the value k - i *)
Definition gatom (n : nat) : gq := Gq (zq (Z.of_nat (Nat.div2 n))) (if Nat.even n then 1 else - (1))%Qc.
Definition gaconj (n : nat) : nat := if Nat.even n then S n else pred n.
Lemma gaconj_ok n : gatom (gaconj n) = gconj (gatom n).
Proof.
  unfold gaconj, gatom. destruct (Nat.even n) eqn:E.
  - apply Nat.even_spec in E. destruct E as [m ->]. replace (Nat.even (S (2 * m))) with false by (symmetry; rewrite Nat.even_succ; rewrite <- Nat.negb_even; now rewrite Nat.even_mul).
    rewrite Nat.div2_double, Nat.div2_succ_double. reflexivity.
  - assert (Nat.odd n = true) as O by (now rewrite <- Nat.negb_even, E). apply Nat.odd_spec in O. destruct O as [m ->]. replace (pred (2 * m + 1)) with (2 * m) by lia.
    replace (Nat.even (2 * m)) with true by (now rewrite Nat.even_mul). rewrite Nat.add_1_r, Nat.div2_double, Nat.div2_succ_double. apply gq_eq; cbn [gre gim CInst.qconj]; [reflexivity|ring].
Qed.
Definition Gm : smeaning Gv.
Proof.
  refine {| sK := gq; q0 := g0; q1 := g1; ScalarSpec.qadd := gadd; ScalarSpec.qmul := gmul; ScalarSpec.qopp := gopp; ScalarSpec.qconj := gconj; qhalfi := @vhalfI Gv;
     vden := fun v : pv Gv => v; aden := gatom; isint := fun y => exists z, y = gZ z; qpow := qpow_g; dom := dom_g |};
   try reflexivity.
  - exact CInst.qring.
  - intros; apply gq_eq; cbn [gre gim CInst.qconj CInst.qadd]; ring.
  - intros; apply gq_eq; cbn [gre gim CInst.qconj CInst.qmul]; ring.
  - intros; apply gq_eq; cbn [gre gim CInst.qconj]; ring.
  - intros a b H. now apply gq_eqb_eq.
  - exists 1%Z. symmetry. exact gZ_1.
  - intros a [z ->]. exists (- z)%Z. symmetry. apply gZ_opp.
  - intros a b [z ->] [w ->]. exists (z + w)%Z. symmetry. apply gZ_add.
  - intros a b [z ->] [w ->]. exists (z * w)%Z. symmetry. apply gZ_mul.
  - intros a [z ->]. exists z. apply gq_eq; cbn [gZ gre gim CInst.qconj]; ring.
  - intros x. rewrite <- gZ_1, qpow_gZ. apply zpow_1.
  - intros y [z [-> _]]. rewrite qpow_gZ. apply zpow_g1.
  - intros x. exists 2%Z. split; [exact gZ_2|]. left. lia.
  - intros x. rewrite gZ_2, qpow_gZ. change (gmul x (gmul x g1) = gmul x x). ring.
  - intros x y z [a [-> Ha]] [b [-> Hb]]. exists (a + b)%Z. split; [symmetry; apply gZ_add|]. destruct Ha as [Ha|Ha]; [|now right]. destruct Hb as [Hb|Hb]; [left; lia|now right].
  - intros x y z [a [-> Ha]] [b [-> Hb]]. rewrite <- gZ_add, !qpow_gZ. now apply zpow_add.
  - intros x y z [a [-> Ha]] [b [-> Hb]] _. rewrite qpow_gZ in Hb. exists (a * b)%Z. split; [symmetry; apply gZ_mul|now apply gok_mul].
  - intros x y z [a [-> Ha]] [b [-> Hb]] _. rewrite qpow_gZ in Hb. rewrite <- gZ_mul, !qpow_gZ. now apply zpow_mul.
  - intros x [z [E H]]. rewrite gZ_m1 in E |- *. apply gZ_inj in E. subst z. rewrite qpow_gZ. destruct H as [H|H]; [lia|]. change (gmul x (gmul (ginv x) g1) = g1). replace (gmul x (gmul (ginv x) g1)) with (gmul x (ginv x)) by ring. now apply ginv_r.
  - intros x y [z [-> H]]. exists z. split; [apply gq_eq; cbn [gZ gre gim CInst.qconj]; ring|]. destruct H as [H|H]; [now left|]. right. intros E. apply H. apply gq_eq; cbn [gre gim]; [exact (f_equal gre E)|].
    pose proof (f_equal gim E) as F; cbn [gre gim CInst.qconj] in F; rewrite <- (Qcopp_involutive (gim x)), F; ring.
  - intros x y [z [-> H]]. replace (gconj (gZ z)) with (gZ z) by (apply gq_eq; cbn [gZ gre gim CInst.qconj]; ring). rewrite !qpow_gZ. now apply zpow_conj.
  - intros a b c H [z [E Hz]]. rewrite gZ_m1 in *. apply gZ_inj in E. subst z. rewrite qpow_gZ. cbn [vdiv Gv] in H. unfold gdiv in H. destruct (gq_eqb b g0); [discriminate|]. injection H as <-. change (gmul a (ginv b) = gmul a (gmul (ginv b) g1)). ring.
  - intros a b c H [z [-> Hz]]. rewrite qpow_gZ. cbn [vpow Gv] in H. unfold gpow in H. rewrite int_of_gZ in H. destruct (gq_eqb a g0 && (z <? 0)%Z); [discriminate|]. now injection H as <-.
  - intros c H. vm_compute in H. injection H as <-. apply gq_eq; apply Qc_is_canon; reflexivity.
Defined.

(** The Gaussian rationals obey the laws about 0 and 1. *)
Lemma geqb_of (x y : gq) : x = y -> gq_eqb x y = true.
Proof. apply gq_eqb_eq. Qed.
Lemma ginv_1 : ginv (gZ 1) = gZ 1.
Proof. apply gq_eq; apply Qc_is_canon; vm_compute; reflexivity. Qed.
Lemma Gv_laws : number_laws Gv.
Proof.
  split; cbn [Gv pv veqb vZ vadd vsub vmul vneg vdiv vpow vfdiv vmod vbad].
  - intros a. now apply geqb_of.
  - intros a b H. apply gq_eqb_eq in H. now apply geqb_of.
  - intros a b c H1 H2. apply gq_eqb_eq in H1, H2. apply geqb_of. congruence.
  - reflexivity.
  - intros y z. destruct (Z.eqb_spec y z) as [->|H]; [now apply geqb_of|]. destruct (gq_eqb (gZ y) (gZ z)) eqn:E; [|reflexivity]. apply gq_eqb_eq, gZ_inj in E. contradiction.
  - reflexivity.
  - intros w. apply geqb_of. rewrite gZ_0. ring.
  - intros w. apply geqb_of. rewrite gZ_0. ring.
  - now apply geqb_of.
  - intros w. apply geqb_of. rewrite gZ_0. ring.
  - intros w. apply geqb_of. rewrite gZ_0. ring.
  - reflexivity.
  - reflexivity.
  - reflexivity.
  - intros w. apply geqb_of. rewrite gZ_1. ring.
  - intros w. apply geqb_of. rewrite gZ_1. ring.
  - intros w _. apply geqb_of. rewrite gZ_0. ring.
  - intros w _. apply geqb_of. rewrite gZ_0. ring.
  - intros w. exists (gmul w (ginv (gZ 1))). split; [reflexivity|]. apply geqb_of. rewrite ginv_1, gZ_1. ring.
  - exists (gZ 1). split; [|reflexivity]. unfold gfdiv, gdiv. rewrite ginv_1. reflexivity.
  - intros w. now left.
  - intros w. now left.
  - intros w. now left.
  - intros w _. exists g1. split; [|apply geqb_of; symmetry; exact gZ_1]. unfold gpow. rewrite int_of_gZ. cbn [Z.ltb Z.compare]. now rewrite Bool.andb_false_r.
  - intros w. exists (zpow w 1). split; [|apply geqb_of; apply zpow_1]. unfold gpow. rewrite int_of_gZ. cbn [Z.ltb Z.compare]. now rewrite Bool.andb_false_r.
Qed.
