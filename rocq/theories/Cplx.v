(** Complex numbers as pairs of real numbers, with the exponential function. *)
From Coq Require Import Reals QArith Qcanon Qreals Ring Lra Eqdep_dec.
Local Open Scope R_scope.

Record cx := Cx { cre : R; cim : R }.
Lemma cx_eq x y : cre x = cre y -> cim x = cim y -> x = y.
Proof. destruct x, y. cbn. now intros -> ->. Qed.
Lemma cx_dec (x y : cx) : {x = y} + {x <> y}.
Proof.
  destruct x as [a b], y as [c d]. destruct (Req_EM_T a c) as [-> |H]; [|right; congruence].
  destruct (Req_EM_T b d) as [-> |H]; [now left|right; congruence].
Defined.
Lemma cx_uip (x y : cx) (p q : x = y) : p = q.
Proof. apply eq_proofs_unicity_on. intros z. destruct (cx_dec x z); [now left|now right]. Qed.

Definition c0 := Cx 0 0.
Definition c1 := Cx 1 0.
Definition ci := Cx 0 1.
Definition cadd x y := Cx (cre x + cre y) (cim x + cim y).
Definition cmul x y := Cx (cre x * cre y - cim x * cim y) (cre x * cim y + cim x * cre y).
Definition copp x := Cx (- cre x) (- cim x).
Definition cconj x := Cx (cre x) (- cim x).
Definition creal (r : R) := Cx r 0.
Definition cQ (q : Qc) := creal (Q2R q).
Definition cexp x := Cx (exp (cre x) * cos (cim x)) (exp (cre x) * sin (cim x)).
Definition csqrt (q : Qc) := creal (sqrt (Q2R q)).
Definition chalf := creal (/ 2).

Lemma cring : ring_theory c0 c1 cadd cmul (fun x y => cadd x (copp y)) copp eq.
Proof. constructor; intros; try reflexivity; apply cx_eq; cbn; ring. Qed.
Add Ring Cr : cring.

Lemma cconj_add x y : cconj (cadd x y) = cadd (cconj x) (cconj y).
Proof. apply cx_eq; cbn; ring. Qed.
Lemma cconj_mul x y : cconj (cmul x y) = cmul (cconj x) (cconj y).
Proof. apply cx_eq; cbn; ring. Qed.
Lemma cconj_opp x : cconj (copp x) = copp (cconj x).
Proof. apply cx_eq; cbn; ring. Qed.
Lemma cconj_conj x : cconj (cconj x) = x.
Proof. apply cx_eq; cbn; ring. Qed.
Lemma cconj_real r : cconj (creal r) = creal r.
Proof. apply cx_eq; cbn; ring. Qed.
Lemma creal_add a b : creal (a + b) = cadd (creal a) (creal b).
Proof. apply cx_eq; cbn; ring. Qed.
Lemma creal_mul a b : creal (a * b) = cmul (creal a) (creal b).
Proof. apply cx_eq; cbn; ring. Qed.
Lemma ci_sq : cmul ci ci = copp c1.
Proof. apply cx_eq; cbn; ring. Qed.
Lemma chalf_2 : cadd chalf chalf = c1.
Proof. apply cx_eq; cbn; field. Qed.

Lemma cexp_add x y : cexp (cadd x y) = cmul (cexp x) (cexp y).
Proof. apply cx_eq; cbn; rewrite exp_plus, ?cos_plus, ?sin_plus; ring. Qed.
Lemma cexp_0 : cexp c0 = c1.
Proof. apply cx_eq; cbn; rewrite exp_0, ?cos_0, ?sin_0; ring. Qed.
Lemma cexp_conj x : cconj (cexp x) = cexp (cconj x).
Proof. apply cx_eq; cbn; rewrite ?cos_neg, ?sin_neg; ring. Qed.

Lemma Q2R_add (a b : Qc) : Q2R (a + b)%Qc = Q2R a + Q2R b.
Proof. rewrite <- Q2R_plus. apply Qeq_eqR. apply Qred_correct. Qed.
Lemma Q2R_mul (a b : Qc) : Q2R (a * b)%Qc = Q2R a * Q2R b.
Proof. rewrite <- Q2R_mult. apply Qeq_eqR. apply Qred_correct. Qed.
Lemma cQ_add a b : cQ (a + b)%Qc = cadd (cQ a) (cQ b).
Proof. unfold cQ. rewrite Q2R_add. apply creal_add. Qed.
Lemma cQ_mul a b : cQ (a * b)%Qc = cmul (cQ a) (cQ b).
Proof. unfold cQ. rewrite Q2R_mul. apply creal_mul. Qed.
Lemma cQ_0 : cQ 0%Qc = c0.
Proof. apply cx_eq; cbn; [|reflexivity]. unfold Q2R. cbn. field. Qed.
Lemma cQ_1 : cQ 1%Qc = c1.
Proof. apply cx_eq; cbn; [|reflexivity]. unfold Q2R. cbn. field. Qed.
Lemma cx_idem v : v = cadd v v -> v = c0.
Proof. destruct v as [a b]. intros H. injection H as H1 H2. apply cx_eq; cbn; lra. Qed.
Lemma cconj_1 : cconj c1 = c1.
Proof. apply cx_eq; cbn; ring. Qed.
Lemma cconj_0 : cconj c0 = c0.
Proof. apply cx_eq; cbn; ring. Qed.
Lemma cconj_m1 : cconj (copp c1) = copp c1.
Proof. apply cx_eq; cbn; ring. Qed.
