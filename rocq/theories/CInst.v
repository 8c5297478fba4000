(** A concrete complex *-algebra: 2x2 matrices over the Gaussian rationals. *)
From Coq Require Import List ZArith QArith Qcanon Ring_theory Ring Lia.
From Verif Require Import AlgSpec CAlg.
Import ListNotations.

Record gq := Gq { gre : Qc; gim : Qc }.
Definition qadd (x y : gq) := Gq (gre x + gre y) (gim x + gim y).
Definition qmul (x y : gq) := Gq (gre x * gre y - gim x * gim y) (gre x * gim y + gim x * gre y).
Definition qopp (x : gq) := Gq (- gre x) (- gim x).
Definition qconj (x : gq) := Gq (gre x) (- gim x).
Lemma gq_eq x y : gre x = gre y -> gim x = gim y -> x = y.
Proof. destruct x, y. cbn. now intros -> ->. Qed.
Lemma qring : ring_theory (Gq 0 0) (Gq 1 0) qadd qmul (fun x y => qadd x (qopp y)) qopp eq.
Proof. constructor; intros; try reflexivity; apply gq_eq; cbn [gre gim qadd qmul qopp]; ring. Qed.

Record q2 := Q2 { q00 : gq; q01 : gq; q10 : gq; q11 : gq }.
Lemma q2_eq x y : q00 x = q00 y -> q01 x = q01 y -> q10 x = q10 y -> q11 x = q11 y -> x = y.
Proof. destruct x, y. cbn. now intros -> -> -> ->. Qed.
Definition q2add x y := Q2 (qadd (q00 x) (q00 y)) (qadd (q01 x) (q01 y)) (qadd (q10 x) (q10 y)) (qadd (q11 x) (q11 y)).
Definition q2mul x y := Q2
  (qadd (qmul (q00 x) (q00 y)) (qmul (q01 x) (q10 y))) (qadd (qmul (q00 x) (q01 y)) (qmul (q01 x) (q11 y)))
  (qadd (qmul (q10 x) (q00 y)) (qmul (q11 x) (q10 y))) (qadd (qmul (q10 x) (q01 y)) (qmul (q11 x) (q11 y))).
Definition q2smul c x := Q2 (qmul c (q00 x)) (qmul c (q01 x)) (qmul c (q10 x)) (qmul c (q11 x)).
Definition q2star x := Q2 (qconj (q00 x)) (qconj (q10 x)) (qconj (q01 x)) (qconj (q11 x)).
Definition g0 := Gq 0 0.
Definition g1 := Gq 1 0.
Definition CMat2 : algebra.
Proof.
  refine (mk_algebra gq (Gq 0 0) (Gq 1 0) qadd qmul qopp qring q2 (Q2 g0 g0 g0 g0)
    (Q2 g1 g0 g0 g1) q2add q2mul q2smul _ _ _ _ _ _ _ _ _ _ _ _ _ _ _);
    intros; apply q2_eq; apply gq_eq; cbn [q00 q01 q10 q11 q2add q2mul q2smul gre gim qadd qmul qopp g0 g1]; ring.
Defined.
Definition CMat2s : star_algebra.
Proof.
  refine (mk_star CMat2 qconj q2star _ _ _ _ _ _ _ _ _); intros; try reflexivity;
    try (apply q2_eq); apply gq_eq; cbn [CMat2 K A kadd kmul aadd amul smul k1 a1 q00 q01 q10 q11 q2add q2mul q2smul q2star gre gim qadd qmul qopp qconj g0 g1]; ring.
Defined.
Definition half : Qc := Q2Qc (1 # 2).
Definition CM : calgebra.
Proof.
  refine (mk_calg CMat2s (Gq 0 1) (Gq half 0) _ _ _); cbn [CMat2s CMat2 alg K kadd kmul kopp kconj k1];
    apply gq_eq; cbn [gre gim qadd qmul qopp qconj]; try ring.
  unfold half. apply Qc_is_canon. reflexivity.
Defined.

Definition gq_eqb (x y : gq) : bool := (if Qc_eq_dec (gre x) (gre y) then true else false) && (if Qc_eq_dec (gim x) (gim y) then true else false).
Lemma gq_eqb_eq x y : gq_eqb x y = true -> x = y.
Proof.
  unfold gq_eqb. destruct (Qc_eq_dec (gre x) (gre y)) as [H|H]; [|discriminate].
  destruct (Qc_eq_dec (gim x) (gim y)) as [H'|H']; [|discriminate]. intros _. now apply gq_eq.
Qed.
Definition q2_eqb (x y : q2) : bool :=
  gq_eqb (q00 x) (q00 y) && gq_eqb (q01 x) (q01 y) && gq_eqb (q10 x) (q10 y) && gq_eqb (q11 x) (q11 y).
Lemma q2_eqb_eq x y : q2_eqb x y = true -> x = y.
Proof.
  unfold q2_eqb. intros H. apply andb_prop in H as [H H4]. apply andb_prop in H as [H H3]. apply andb_prop in H as [H H2].
  apply q2_eq; now apply gq_eqb_eq.
Qed.
(** ladder operator, Pauli X, scalar multiples *)
Definition sm_ (z : Z) : gq := Gq (Q2Qc (inject_Z z)) 0.
Definition lower : q2 := Q2 g0 g1 g0 g0.
Definition raise : q2 := Q2 g0 g0 g1 g0.
Definition paulix : q2 := Q2 g0 g1 g1 g0.
Definition pauliz : q2 := Q2 g1 g0 g0 (Gq (-(1)) 0).
Definition one2 : q2 := Q2 g1 g0 g0 g1.
Definition zero2 : q2 := Q2 g0 g0 g0 g0.
