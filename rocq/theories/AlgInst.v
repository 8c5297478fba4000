(** Concrete algebras, used to show that the hypotheses of the theorems can be met
    and to refute claims. *)
From Coq Require Import List ZArith Ring_theory Ring Lia.
From Verif Require Import AlgSpec.
Import ListNotations.

(** the integers over the integers *)
Definition Zalg : algebra.
Proof.
  refine (mk_algebra Z 0%Z 1%Z Z.add Z.mul Z.opp _ Z 0%Z 1%Z Z.add Z.mul Z.mul _ _ _ _ _ _ _ _ _ _ _ _ _ _ _);
    [constructor|..]; intros; try reflexivity; try ring.
Defined.

(** Gaussian integers *)
Record gi := G { re : Z; im : Z }.
Definition gadd (x y : gi) := G (re x + re y) (im x + im y).
Definition gmul (x y : gi) := G (re x * re y - im x * im y) (re x * im y + im x * re y).
Definition gopp (x : gi) := G (- re x) (- im x).
Definition gconj (x : gi) := G (re x) (- im x).
Lemma gi_eq x y : re x = re y -> im x = im y -> x = y.
Proof. destruct x, y. cbn. now intros -> ->. Qed.
Lemma gring : ring_theory (G 0 0) (G 1 0) gadd gmul (fun x y => gadd x (gopp y)) gopp eq.
Proof. constructor; intros; try reflexivity; apply gi_eq; cbn [re im gadd gmul gopp]; ring. Qed.
(** 2x2 matrices of Gaussian integers *)
Record m2 := M2 { m00 : gi; m01 : gi; m10 : gi; m11 : gi }.
Lemma m2_eq x y : m00 x = m00 y -> m01 x = m01 y -> m10 x = m10 y -> m11 x = m11 y -> x = y.
Proof. destruct x, y. cbn. now intros -> -> -> ->. Qed.
Definition m2add x y := M2 (gadd (m00 x) (m00 y)) (gadd (m01 x) (m01 y)) (gadd (m10 x) (m10 y)) (gadd (m11 x) (m11 y)).
Definition m2mul x y := M2
  (gadd (gmul (m00 x) (m00 y)) (gmul (m01 x) (m10 y))) (gadd (gmul (m00 x) (m01 y)) (gmul (m01 x) (m11 y)))
  (gadd (gmul (m10 x) (m00 y)) (gmul (m11 x) (m10 y))) (gadd (gmul (m10 x) (m01 y)) (gmul (m11 x) (m11 y))).
Definition m2smul c x := M2 (gmul c (m00 x)) (gmul c (m01 x)) (gmul c (m10 x)) (gmul c (m11 x)).
Definition m2star x := M2 (gconj (m00 x)) (gconj (m10 x)) (gconj (m01 x)) (gconj (m11 x)).
Definition Mat2 : algebra.
Proof.
  refine (mk_algebra gi (G 0 0) (G 1 0) gadd gmul gopp gring m2 (M2 (G 0 0) (G 0 0) (G 0 0) (G 0 0))
    (M2 (G 1 0) (G 0 0) (G 0 0) (G 1 0)) m2add m2mul m2smul _ _ _ _ _ _ _ _ _ _ _ _ _ _ _);
    intros; apply m2_eq; apply gi_eq; cbn [m00 m01 m10 m11 m2add m2mul m2smul re im gadd gmul gopp]; ring.
Defined.
Definition Mat2s : star_algebra.
Proof.
  refine (mk_star Mat2 gconj m2star _ _ _ _ _ _ _ _ _); intros; try reflexivity;
    try (apply m2_eq); apply gi_eq; cbn [Mat2 K A kadd kmul aadd amul smul k1 a1 m00 m01 m10 m11 m2add m2mul m2smul m2star re im gadd gmul gopp gconj]; ring.
Defined.
