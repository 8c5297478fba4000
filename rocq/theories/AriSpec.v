(** What a formula over operators and numbers means. Independent of the model's evaluation. *)
From Coq Require Import QArith Qcanon.
From Verif Require Import Prelude AlgSpec CAlg OpModel OpSpec AriModel.
Local Open Scope nat_scope.

Section Spec.
  Context {S : scalars} {dim : nat -> option nat} (I : interp S dim).

  (** a mathematical value: a number or an element of the algebra *)
  Inductive mval := MNum (c : K I) | MOp (x : A I).
  (** a number where an operator is expected is that multiple of the identity *)
  Definition elem (m : mval) : A I := match m with MNum c => smul c a1 | MOp x => x end.
  Fixpoint mpow (x : A I) (n : nat) : A I := match n with 0 => a1 | Datatypes.S n' => amul x (mpow x n') end.

  (** [stands f m]: the formula [f], read as mathematics, denotes [m] *)
  Inductive stands : formula S -> mval -> Prop :=
  | st_var a : stands (FVar a) (MOp (value I a))
  | st_num c : stands (FNum c) (MNum (ev c))
  | st_add_num x y c d : stands x (MNum c) -> stands y (MNum d) -> stands (FAdd x y) (MNum (kadd c d))
  | st_sub_num x y c d : stands x (MNum c) -> stands y (MNum d) -> stands (FSub x y) (MNum (kadd c (kopp d)))
  | st_mul_num x y c d : stands x (MNum c) -> stands y (MNum d) -> stands (FMul x y) (MNum (kmul c d))
  | st_neg_num x c : stands x (MNum c) -> stands (FNeg x) (MNum (kopp c))
  (* division by a number that has an inverse *)
  | st_div_num x y c d i : stands x (MNum c) -> stands y (MNum d) -> kmul d i = k1 -> stands (FDiv x y) (MNum (kmul c i))
  | st_div x y v d i : stands x (MOp v) -> stands y (MNum d) -> kmul d i = k1 -> stands (FDiv x y) (MOp (smul i v))
  (* at least one operand is an operator *)
  | st_add x y m m' : stands x m -> stands y m' -> operand2 m m' -> stands (FAdd x y) (MOp (aadd (elem m) (elem m')))
  | st_sub x y m m' : stands x m -> stands y m' -> operand2 m m' -> stands (FSub x y) (MOp (aadd (elem m) (smul (kopp k1) (elem m'))))
  | st_mul x y m m' : stands x m -> stands y m' -> operand2 m m' -> stands (FMul x y) (MOp (amul (elem m) (elem m')))
  | st_neg x v : stands x (MOp v) -> stands (FNeg x) (MOp (smul (kopp k1) v))
  (* powers with a natural number as the exponent *)
  | st_pow x v n : stands x (MOp v) -> stands (FPow x (XInt (Z.of_nat n))) (MOp (mpow v n))
  | st_pow_0 x v : stands x (MOp v) -> stands (FPow x (XNum 0%Qc)) (MOp a1)
  | st_pow_1 x v : stands x (MOp v) -> stands (FPow x (XNum 1%Qc)) (MOp v)
  with operand2 : mval -> mval -> Prop :=
  | op_left x m : operand2 (MOp x) m
  | op_right m x : operand2 m (MOp x).

  (** the operators in a formula are legal expressions *)
  Fixpoint flegal (f : formula S) : Prop :=
    match f with
    | FVar a => legal I a
    | FNum _ => True
    | FAdd x y | FSub x y | FMul x y | FDiv x y => flegal x /\ flegal y
    | FNeg x | FPow x _ => flegal x
    end.
  (** a result is legal and has the value [m] *)
  Definition yields (v : pval S) (m : mval) : Prop :=
    match v, m with
    | VOp a, MOp x => means I a x
    | VNum c, MNum d => ev c = d
    | _, _ => False
    end.
  (** [sinv] computes inverses *)
  Definition inverts (sinv : S -> res S) : Prop := forall c d, sinv c = Ok d -> kmul (ev c) (ev d) = @k1 I.
End Spec.
Arguments MNum {S dim I} c. Arguments MOp {S dim I} x. Arguments elem {S dim I} m. Arguments stands {S dim} I f m.

(** every operator in a formula satisfies [P] *)
Fixpoint operators_are {S : Type} (P : op S -> Prop) (f : formula S) : Prop :=
  match f with
  | FVar a => P a
  | FNum _ => True
  | FAdd x y | FSub x y | FMul x y | FDiv x y => operators_are P x /\ operators_are P y
  | FNeg x | FPow x _ => operators_are P x
  end.

(** formulas without operators; formulas without products of operators *)
Fixpoint numeric {S : Type} (f : formula S) : Prop :=
  match f with
  | FVar _ => False
  | FNum _ => True
  | FAdd x y | FSub x y | FMul x y | FDiv x y => numeric x /\ numeric y
  | FNeg x | FPow x _ => numeric x
  end.
Fixpoint linear {S : Type} (f : formula S) : Prop :=
  match f with
  | FVar _ | FNum _ => True
  | FAdd x y | FSub x y => linear x /\ linear y
  | FMul x y => linear x /\ linear y /\ (numeric x \/ numeric y)
  | FDiv x y => linear x /\ linear y
  | FNeg x => linear x
  | FPow x n => linear x /\ match n with XInt z => z = 0%Z \/ z = 1%Z | _ => True end
  end.
