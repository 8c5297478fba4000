(** What scalar expressions mean. Specification vocabulary for C42 and C48. *)
From Coq Require Import Ring_theory.
From Verif Require Import Prelude ScalarModel.

(** A commutative ring with conjugation in which the wrapped values and the atoms have
    values, and a power function. [dom x y] says that x^y obeys the power laws that the
    simplification rules use (for example: y a natural number, or x invertible and y an
    integer, or x a positive real number). *)
Record smeaning (V : pyvals) := {
  sK : Type; q0 : sK; q1 : sK; qadd : sK -> sK -> sK; qmul : sK -> sK -> sK; qopp : sK -> sK;
  qring : ring_theory q0 q1 qadd qmul (fun a b => qadd a (qopp b)) qopp eq;
  qconj : sK -> sK;
  qconj_add : forall a b, qconj (qadd a b) = qadd (qconj a) (qconj b);
  qconj_mul : forall a b, qconj (qmul a b) = qmul (qconj a) (qconj b);
  qconj_0 : qconj q0 = q0;
  qconj_1 : qconj q1 = q1;
  qconj_inv : forall a, qconj (qconj a) = a;
  qhalfi : sK;
  (* the wrapped values *)
  vden : V -> sK;
  vden_eq : forall a b, veqb a b = true -> vden a = vden b;
  vden_0 : vden (vZ 0) = q0;
  vden_1 : vden (vZ 1) = q1;
  vden_2 : vden (vZ 2) = qadd q1 q1;
  vden_m1 : vden (vZ (-1)) = qopp q1;
  vden_add : forall a b, vden (vadd a b) = qadd (vden a) (vden b);
  vden_sub : forall a b, vden (vsub a b) = qadd (vden a) (qopp (vden b));
  vden_mul : forall a b, vden (vmul a b) = qmul (vden a) (vden b);
  vden_neg : forall a, vden (vneg a) = qopp (vden a);
  vden_conj : forall a, vden (vconj a) = qconj (vden a);
  vden_halfI : vden vhalfI = qhalfi;
  aden : nat -> sK;
  (* integers *)
  isint : sK -> Prop;
  isint_1 : isint q1;
  isint_opp : forall a, isint a -> isint (qopp a);
  isint_add : forall a b, isint a -> isint b -> isint (qadd a b);
  isint_mul : forall a b, isint a -> isint b -> isint (qmul a b);
  isint_conj : forall a, isint a -> isint (qconj a);
  (* powers *)
  qpow : sK -> sK -> sK;
  dom : sK -> sK -> Prop;
  pow_0 : forall x, qpow x q0 = q1;
  pow_1 : forall x, qpow x q1 = x;
  pow_1l : forall y, dom q1 y -> qpow q1 y = q1;
  dom_2 : forall x, dom x (qadd q1 q1);
  pow_2 : forall x, qpow x (qadd q1 q1) = qmul x x;
  dom_add : forall x y z, dom x y -> dom x z -> dom x (qadd y z);
  pow_add : forall x y z, dom x y -> dom x z -> qpow x (qadd y z) = qmul (qpow x y) (qpow x z);
  dom_mul : forall x y z, dom x y -> dom (qpow x y) z -> isint z -> dom x (qmul y z);
  pow_mul : forall x y z, dom x y -> dom (qpow x y) z -> isint z -> qpow (qpow x y) z = qpow x (qmul y z);
  pow_inv : forall x, dom x (qopp q1) -> qmul x (qpow x (qopp q1)) = q1;
  dom_conj : forall x y, dom x y -> dom (qconj x) (qconj y);
  pow_conj : forall x y, dom x y -> qpow (qconj x) (qconj y) = qconj (qpow x y);
  vden_div : forall a b c, vdiv a b = Ok c -> dom (vden b) (qopp q1) -> vden c = qmul (vden a) (qpow (vden b) (qopp q1));
  vden_pow : forall a b c, vpow a b = Ok c -> dom (vden a) (vden b) -> vden c = qpow (vden a) (vden b);
  vfdiv_11 : forall c, vfdiv (vZ 1) (vZ 1) = Ok c -> vden c = q1
}.
Arguments sK {V}. Arguments q0 {V s}. Arguments q1 {V s}. Arguments qadd {V s}. Arguments qmul {V s}. Arguments qopp {V s}. Arguments qconj {V s}.
Arguments qhalfi {V s}. Arguments vden {V}. Arguments aden {V}. Arguments isint {V s}. Arguments qpow {V s}. Arguments dom {V s}.

Section Meaning.
  Context {V : pyvals} (M : smeaning V).
  Definition ssum (l : list (sK M)) : sK M := fold_right qadd q0 l.
  Definition sprod (l : list (sK M)) : sK M := fold_right qmul q1 l.
  (** the value of a scalar *)
  Fixpoint sden (a : scal V) : sK M :=
    match a with
    | SZero => q0
    | SOne => q1
    | SVal v => vden M v
    | SAtom n => aden M n
    | SPlus l => ssum (map sden l)
    | STimes l => sprod (map sden l)
    | SPow b e => qpow (sden b) (sden e)
    end.
  Definition oden (a : operand V) : sK M := match a with Raw v => vden M v | Obj s => sden s end.
  Definition is_pow {V} (a : scal V) : bool := match a with SPow _ _ => true | _ => false end.
  (** a power for which the rules are valid: a power of a power needs an integer
      exponent, and the base is not the number zero *)
  Definition pow_ok (b e : scal V) : Prop :=
    dom (sden b) (sden e) /\ (is_pow b = true -> isint (sden e)) /\ s_is 0 b = false.
  (** all the powers in an expression are of this kind *)
  Fixpoint slegal (a : scal V) : Prop :=
    match a with
    | SZero | SOne | SVal _ | SAtom _ => True
    | SPlus l | STimes l => fold_right (fun x P => slegal x /\ P) True l
    | SPow b e => slegal b /\ slegal e /\ pow_ok b e
    end.
  (** powers of non-zero bases with integer exponents only *)
  Fixpoint int_powers (a : scal V) : Prop :=
    match a with
    | SPlus l | STimes l => fold_right (fun x P => int_powers x /\ P) True l
    | SPow b e => int_powers b /\ int_powers e /\ isint (sden e) /\ sden b <> q0
    | _ => True
    end.
  Definition olegal (a : operand V) : Prop := match a with Raw _ => True | Obj s => slegal s end.
  (** numbers: bare or wrapped values, Zero and One *)
  Definition number (a : operand V) : option V :=
    match a with
    | Raw v => Some v
    | Obj (SVal v) => Some v
    | Obj SZero => Some (vZ 0)
    | Obj SOne => Some (vZ 1)
    | _ => None
    end.
End Meaning.
Arguments number {V}.

(** ** The numbers themselves *)
(** Python's operators on two numbers *)
Definition py {V : pyvals} (o : bop) (v w : V) : res V :=
  match o with
  | Add => Ok (vadd v w) | Sub => Ok (vsub v w) | Mul => Ok (vmul v w)
  | Div => vdiv v w | Pow => vpow v w | FloorDiv => vfdiv v w | Mod => vmod v w
  end.
(** results that compare equal, or the same exception; an infinite or undefined quotient
    may be reported as a ZeroDivisionError instead of a ValueError *)
Definition agree {V : pyvals} (r s : res (scal V)) : Prop :=
  match r, s with
  | Ok x, Ok y => s_eqb x y = true
  | Err e, Err f => e = f \/ (e = ZeroDivisionError /\ f = ValueError)
  | _, _ => False
  end.
(** a computation that gives a number equal to w *)
Definition gives {V : pyvals} (r : res V) (w : V) : Prop := exists c, r = Ok c /\ veqb c w = true.
(** a division by zero is an exception or gives infinity or nan *)
Definition undefined {V : pyvals} (r : res V) : Prop := r = Err ZeroDivisionError \/ exists c, r = Ok c /\ vbad c = true.
(** what 0 and 1 do among the numbers; [vbad]: infinities and nan *)
Record number_laws (V : pyvals) : Prop := {
  n_refl : forall a : V, veqb a a = true;
  n_sym : forall a b : V, veqb a b = true -> veqb b a = true;
  n_trans : forall a b c : V, veqb a b = true -> veqb b c = true -> veqb a c = true;
  n_bad : forall a b : V, veqb a b = true -> vbad a = vbad b;
  n_ints : forall y z, veqb (vZ y : V) (vZ z) = (y =? z)%Z;
  n_finite : forall z, vbad (vZ z : V) = false;
  n_add_0l : forall w : V, veqb (vadd (vZ 0) w) w = true;
  n_add_0r : forall w : V, veqb (vadd w (vZ 0)) w = true;
  n_add_11 : veqb (vadd (vZ 1) (vZ 1) : V) (vZ 2) = true;
  n_sub_0r : forall w : V, veqb (vsub w (vZ 0)) w = true;
  n_sub_0l : forall w : V, veqb (vsub (vZ 0) w) (vneg w) = true;
  n_sub_01 : veqb (vsub (vZ 0) (vZ 1) : V) (vZ (-1)) = true;
  n_mul_m1 : vmul (vZ (-1)) (vZ 1) = (vZ (-1) : V);
  n_sub_11 : veqb (vsub (vZ 1) (vZ 1) : V) (vZ 0) = true;
  n_mul_1l : forall w : V, veqb (vmul (vZ 1) w) w = true;
  n_mul_1r : forall w : V, veqb (vmul w (vZ 1)) w = true;
  n_mul_0l : forall w : V, vbad w = false -> veqb (vmul (vZ 0) w) (vZ 0) = true;
  n_mul_0r : forall w : V, vbad w = false -> veqb (vmul w (vZ 0)) (vZ 0) = true;
  n_div_1 : forall w : V, gives (vdiv w (vZ 1)) w;
  n_fdiv_11 : gives (vfdiv (vZ 1) (vZ 1) : res V) (vZ 1);
  n_div_0 : forall w : V, undefined (vdiv w (vZ 0));
  n_fdiv_0 : forall w : V, undefined (vfdiv w (vZ 0));
  n_mod_0 : forall w : V, undefined (vmod w (vZ 0));
  n_pow_0 : forall w : V, vbad w = false -> gives (vpow w (vZ 0)) (vZ 1);
  n_pow_1 : forall w : V, gives (vpow w (vZ 1)) w
}.
(** at least one operand is a Scalar *)
Definition has_scalar {V} (a b : operand V) : bool := match a, b with Raw _, Raw _ => false | _, _ => true end.

(** The operators on values. *)
Definition val_op {V : pyvals} (M : smeaning V) (o : bop) (x y : sK M) : sK M :=
  match o with
  | Add => qadd x y
  | Sub => qadd x (qopp y)
  | Mul => qmul x y
  | Div => qmul x (qpow y (qopp q1))
  | Pow => qpow x y
  | FloorDiv | Mod => q0
  end.
(** the operator applies: the divisor is invertible; the power laws hold, a power of a
    power has an integer exponent, and 0 is only raised to numbers; floor division and
    remainder are for numbers only *)
Definition applies {V : pyvals} (M : smeaning V) (o : bop) (a b : operand V) : Prop :=
  match o with
  | Add | Sub | Mul => True
  | Div => dom (oden M b) (qopp q1)
  | Pow => dom (oden M a) (oden M b) /\ (is_pow (wrap a) = true -> isint (oden M b)) /\ (o_is 0 a = true -> number b <> None)
  | FloorDiv | Mod => False
  end.
(** a scalar that is legal and has the given value *)
Definition has_value {V : pyvals} (M : smeaning V) (r : scal V) (k : sK M) : Prop := slegal M r /\ sden M r = k.
