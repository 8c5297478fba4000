(** Two-by-two matrices of complex numbers, with the real-valued cosine and sine (C60). *)
From Coq Require Import Reals Lra Ring.
From Verif Require Import Cplx AlgSpec CAlg LibSpec.
Local Open Scope R_scope.

Record x2 := X2 { x00 : cx; x01 : cx; x10 : cx; x11 : cx }.
Lemma x2_eq x y : x00 x = x00 y -> x01 x = x01 y -> x10 x = x10 y -> x11 x = x11 y -> x = y.
Proof. destruct x, y. cbn. now intros -> -> -> ->. Qed.
Definition x2add x y := X2 (cadd (x00 x) (x00 y)) (cadd (x01 x) (x01 y)) (cadd (x10 x) (x10 y)) (cadd (x11 x) (x11 y)).
Definition x2mul x y := X2
  (cadd (cmul (x00 x) (x00 y)) (cmul (x01 x) (x10 y))) (cadd (cmul (x00 x) (x01 y)) (cmul (x01 x) (x11 y)))
  (cadd (cmul (x10 x) (x00 y)) (cmul (x11 x) (x10 y))) (cadd (cmul (x10 x) (x01 y)) (cmul (x11 x) (x11 y))).
Definition x2smul c x := X2 (cmul c (x00 x)) (cmul c (x01 x)) (cmul c (x10 x)) (cmul c (x11 x)).
Definition x2star x := X2 (cconj (x00 x)) (cconj (x10 x)) (cconj (x01 x)) (cconj (x11 x)).
Definition XMat2 : algebra.
Proof.
  refine (mk_algebra cx c0 c1 cadd cmul copp cring x2 (X2 c0 c0 c0 c0)
    (X2 c1 c0 c0 c1) x2add x2mul x2smul _ _ _ _ _ _ _ _ _ _ _ _ _ _ _);
    intros; apply x2_eq; apply cx_eq; cbn; ring.
Defined.
Definition XMat2s : star_algebra.
Proof.
  refine (mk_star XMat2 cconj x2star _ _ _ _ _ _ _ _ _); intros; try reflexivity;
    try (apply x2_eq); apply cx_eq; cbn; ring.
Defined.
Definition XM : calgebra.
Proof. refine (mk_calg XMat2s ci chalf ci_sq _ chalf_2). apply cx_eq; cbn; ring. Defined.

Definition ccos (x : cx) : cx := creal (cos (cre x)).
Definition csin (x : cx) : cx := creal (sin (cre x)).
Lemma real_im (x : cx) : real (M:=XM) x -> cim x = 0.
Proof. intros H. apply (f_equal cim) in H. cbn in H. lra. Qed.
Lemma XM_circular : circular (M:=XM) cexp ccos csin.
Proof.
  constructor.
  - intros t _. apply cconj_real.
  - intros t _. apply cconj_real.
  - intros t _. apply cx_eq; cbn; [|ring]. pose proof (sin2_cos2 (cre t)) as H. unfold Rsqr in H. lra.
  - apply cx_eq; cbn; [apply Rtrigo_def.cos_0|reflexivity].
  - apply cx_eq; cbn; [apply Rtrigo_def.sin_0|reflexivity].
  - intros s t _ _. apply cx_eq; cbn; [rewrite cos_plus|]; ring.
  - intros s t _ _. apply cx_eq; cbn; [rewrite sin_plus|]; ring.
  - intros t Ht. apply real_im in Ht. apply cx_eq; cbn; rewrite Ht.
    + replace (0 * cre t - 1 * 0) with 0 by ring. replace (0 * 0 + 1 * cre t) with (cre t) by ring. rewrite exp_0. ring.
    + replace (0 * cre t - 1 * 0) with 0 by ring. replace (0 * 0 + 1 * cre t) with (cre t) by ring. rewrite exp_0. ring.
Qed.
(** the polar angle of a point on the unit circle *)
Lemma angle a b : a * a + b * b = 1 -> exists t, cos t = a /\ sin t = b.
Proof.
  intros H. assert (-1 <= a <= 1) as Ha by nra.
  assert (sin (acos a) * sin (acos a) = b * b) as Hs.
  { pose proof (sin2_cos2 (acos a)) as E. unfold Rsqr in E. rewrite cos_acos in E by exact Ha. lra. }
  assert ((sin (acos a) - b) * (sin (acos a) + b) = 0) as Hz by nra.
  apply Rmult_integral in Hz. destruct Hz as [Hz|Hz].
  - exists (acos a). split; [now apply cos_acos|lra].
  - exists (- acos a). rewrite cos_neg, sin_neg. split; [now apply cos_acos|lra].
Qed.
Lemma polar_form (z : cx) : exists r p, 0 <= r /\ r * r = cre z * cre z + cim z * cim z /\ z = cmul (creal r) (cexp (cmul ci (creal p))).
Proof.
  assert (forall r p, cmul (creal r) (cexp (cmul ci (creal p))) = Cx (r * cos p) (r * sin p)) as F.
  { intros r p. apply cx_eq; cbn; replace (0 * p - 1 * 0) with 0 by ring; replace (0 * 0 + 1 * p) with p by ring; rewrite exp_0; ring. }
  pose proof (Rle_0_sqr (cre z)) as P1. pose proof (Rle_0_sqr (cim z)) as P2. unfold Rsqr in P1, P2.
  set (n := cre z * cre z + cim z * cim z). assert (0 <= n) as Hn by (unfold n; lra).
  pose proof (sqrt_sqrt n Hn) as Hq. pose proof (sqrt_pos n) as Hp.
  destruct (Req_dec (sqrt n) 0) as [E|E].
  - exists 0, 0. rewrite E in Hq. assert (n = 0) as Hn0 by lra. unfold n in Hn0.
    split; [lra|]. split; [unfold n; lra|]. rewrite F. apply cx_eq; cbn; nra.
  - destruct (angle (cre z / sqrt n) (cim z / sqrt n)) as (p & Hc & Hs).
    { transitivity ((cre z * cre z + cim z * cim z) / (sqrt n * sqrt n)); [field; exact E|]. rewrite Hq. unfold n. field. fold n. pose proof (Rmult_integral_contrapositive_currified _ _ E E). lra. }
    exists (sqrt n), p. split; [exact Hp|]. split; [exact Hq|]. rewrite F, Hc, Hs. apply cx_eq; cbn; field; exact E.
Qed.
Lemma modulus (z : cx) : cmul (cconj z) z = creal (cre z * cre z + cim z * cim z).
Proof. apply cx_eq; cbn; ring. Qed.
Lemma XM_arg : has_arg (M:=XM) cexp.
Proof.
  intros z H. cbn in H. rewrite modulus in H. apply (f_equal cre) in H. cbn in H.
  destruct (polar_form z) as (r & p & Hr & Hm & Hz). exists (creal p). split; [apply cconj_real|].
  assert (r = 1) as -> by nra. rewrite Hz. apply cx_eq; cbn; ring.
Qed.
Lemma XM_polar : has_polar (M:=XM) cexp ccos csin.
Proof.
  intros z w H. cbn in H. rewrite !modulus in H. apply (f_equal cre) in H. cbn in H.
  destruct (polar_form z) as (r & p & Hr & Hm & Hz). destruct (polar_form w) as (q & p' & Hq & Hm' & Hw).
  destruct (angle r q) as (t & Hc & Hs); [lra|].
  exists (creal t), (creal p), (creal p'). split; [apply cconj_real|]. split; [apply cconj_real|]. split; [apply cconj_real|].
  split; [rewrite Hz at 1|rewrite Hw at 1]; cbn; unfold ccos, csin; cbn [creal cre]; [rewrite Hc|rewrite Hs]; reflexivity.
Qed.
