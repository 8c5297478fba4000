(** Python arithmetic on operators: formulas built with +, -, *, / and ** from
    operator expressions and plain numbers.
    /repo/src/qnet/algebra/core/abstract_quantum_algebra.py:211-292 (QuantumExpression
    __add__ .. __pow__). The creators are those of OpModel.
    Simplified: a plain number is a Python, NumPy or SymPy number; ScalarValue objects on
    the left of an operator go through Scalar.__add__ etc. (scalar_algebra.py:60-175), not
    modelled here. Arithmetic of two numbers is Python's own. *)
From Coq Require Import QArith Qcanon.
From Verif Require Import Prelude OpModel.
Local Open Scope nat_scope.

(** an exponent: an int (or another type with __index__), a number of another type (a float,
    a Fraction: comparable with integers, but not an argument of range), or an object that
    cannot be converted to an integer (a symbol, an operator) *)
Inductive exponent := XInt (n : Z) | XNum (q : Qc) | XSym.

Inductive formula (S : Type) :=
| FVar (a : op S)
| FNum (c : S)
| FAdd (x y : formula S)
| FSub (x y : formula S)
| FMul (x y : formula S)
| FDiv (x y : formula S)
| FNeg (x : formula S)
| FPow (x : formula S) (n : exponent).
Arguments FVar {S} a. Arguments FNum {S} c. Arguments FAdd {S} x y. Arguments FSub {S} x y. Arguments FMul {S} x y.
Arguments FDiv {S} x y. Arguments FNeg {S} x. Arguments FPow {S} x n.

(** what a formula evaluates to: an operator or a number *)
Inductive pval (S : Type) := VOp (a : op S) | VNum (c : S).
Arguments VOp {S} a. Arguments VNum {S} c.

Section Ari.
Context {S : scalars} (K : ocreators S).
(** [1 / c] as SymPy computes it; for 0 the result is zoo, which ScalarValue.create refuses
    with a ValueError (scalar_algebra.py:218-219) *)
Context (sinv : S -> res S).

(** __add__ and __radd__, 211-225: a number is first multiplied with the identity *)
Definition p_add (x y : pval S) : res (pval S) :=
  match x, y with
  | VOp a, VOp b => do r <- k_plus K [a; b]; Ok (VOp r)
  | VOp a, VNum c | VNum c, VOp a => do c' <- k_scal K c OOne; do r <- k_plus K [a; c']; Ok (VOp r)
  | VNum c, VNum d => Ok (VNum (sadd c d))
  end.
(** __mul__ and __rmul__, 227-250: a number times an operator, in either order, is
    [_scalar_times_expr_cls.create(number, operator)] *)
Definition p_mul (x y : pval S) : res (pval S) :=
  match x, y with
  | VOp a, VOp b => do r <- k_times K [a; b]; Ok (VOp r)
  | VOp a, VNum c | VNum c, VOp a => do r <- k_scal K c a; Ok (VOp r)
  | VNum c, VNum d => Ok (VNum (smult c d))
  end.
(** __neg__, 258-259: (-1) * self *)
Definition p_neg (x : pval S) : res (pval S) :=
  match x with VOp _ => p_mul (VNum sm1) x | VNum c => Ok (VNum (sneg c)) end.
(** __sub__, 252-253: self + (-1) * other; __rsub__, 255-256: (-1) * self + other *)
Definition p_sub (x y : pval S) : res (pval S) :=
  match x, y with
  | VNum c, VNum d => Ok (VNum (ssub c d))
  | VOp _, _ => do y' <- p_mul (VNum sm1) y; p_add x y'
  | VNum _, VOp _ => do y' <- p_mul (VNum sm1) y; p_add y' x
  end.
(** __truediv__, 261-270: by a number, self * (1 / other); by an operator, SymPy raises a
    TypeError and the fallback has no __rmul__, so NotImplemented, a TypeError. There is no
    __rtruediv__: a number divided by an operator is a TypeError. *)
Definition p_div (x y : pval S) : res (pval S) :=
  match x, y with
  | VOp _, VNum c => do f <- sinv c; p_mul x (VNum f)
  | VNum d, VNum c => do f <- sinv c; Ok (VNum (smult d f))
  | _, VOp _ => Err TypeError
  end.
(** __pow__, 272-292. A negative exponent [-m] evaluates [self**m], then [1 / ...] *)
Definition p_pow_int (a : op S) (n : Z) : res (op S) :=
  match n with
  | 0%Z => Ok OOne
  | 1%Z => Ok a
  | Zpos p => k_times K (repeat a (Pos.to_nat p))
  | Zneg p => do _ <- (if (p =? 1)%positive then Ok a else k_times K (repeat a (Pos.to_nat p))); Err TypeError
  end.
Definition p_pow (x : pval S) (n : exponent) : res (pval S) :=
  match x with
  | VNum _ => Err Unmodelled
  | VOp a =>
    match n with
    | XInt z => do r <- p_pow_int a z; Ok (VOp r)
    (* the two equality tests accept any number; [range] needs an integer type, and a number
       that is no integer leads to NotImplemented *)
    | XNum q => if Qc_eq_dec q 0 then Ok (VOp OOne) else if Qc_eq_dec q 1 then Ok (VOp a) else Err TypeError
    | XSym => Err TypeError
    end
  end.

(** Python evaluates the left operand first *)
Fixpoint run (f : formula S) : res (pval S) :=
  match f with
  | FVar a => Ok (VOp a)
  | FNum c => Ok (VNum c)
  | FAdd x y => do a <- run x; do b <- run y; p_add a b
  | FSub x y => do a <- run x; do b <- run y; p_sub a b
  | FMul x y => do a <- run x; do b <- run y; p_mul a b
  | FDiv x y => do a <- run x; do b <- run y; p_div a b
  | FNeg x => do a <- run x; p_neg a
  | FPow x n => do a <- run x; p_pow a n
  end.
End Ari.
