(** The scalar algebra: Zero, One, ScalarValue, ScalarPlus, ScalarTimes, ScalarPower and
    their Python operators. /repo/src/qnet/algebra/core/scalar_algebra.py,
    /repo/src/qnet/algebra/_rules.py:42-90 and the methods inherited from
    QuantumExpression (/repo/src/qnet/algebra/core/abstract_quantum_algebra.py:211-290).
    Not modelled: ScalarIndexedSum (C27-C29), ScalarDerivative, [series_expand] (C33). *)
From Verif Require Import Prelude SortModel BinModel.

(** The values that ScalarValue wraps: Python numbers and SymPy expressions, up to [==],
    with their own arithmetic; [vbad]: infinities and nan (scalar_algebra.py:38-39). *)
Record pyvals := {
  pv :> Type;
  veqb : pv -> pv -> bool;
  vZ : Z -> pv;
  vadd : pv -> pv -> pv; vsub : pv -> pv -> pv; vmul : pv -> pv -> pv; vneg : pv -> pv;
  vdiv : pv -> pv -> res pv; vpow : pv -> pv -> res pv; vfdiv : pv -> pv -> res pv; vmod : pv -> pv -> res pv;
  vconj : pv -> pv;
  vhalfI : pv; (* sympy.I / 2 *)
  vbad : pv -> bool
}.
Arguments veqb {_}. Arguments vZ {_}. Arguments vadd {_}. Arguments vsub {_}. Arguments vmul {_}. Arguments vneg {_}.
Arguments vdiv {_}. Arguments vpow {_}. Arguments vfdiv {_}. Arguments vmod {_}. Arguments vconj {_}. Arguments vhalfI {_}. Arguments vbad {_}.

(** Scalar objects. [SAtom] stands for any ScalarExpression that is not one of the
    others, such as a BraKet. *)
Inductive scal (V : Type) :=
| SZero | SOne | SVal (v : V) | SAtom (n : nat) | SPlus (l : list (scal V)) | STimes (l : list (scal V)) | SPow (b e : scal V).
Arguments SZero {V}. Arguments SOne {V}. Arguments SVal {V}. Arguments SAtom {V}. Arguments SPlus {V}. Arguments STimes {V}. Arguments SPow {V}.
(** what can stand next to an operator: a bare number or SymPy expression, or a Scalar *)
Inductive operand (V : Type) := Raw (v : V) | Obj (s : scal V).
Arguments Raw {V}. Arguments Obj {V}.

Section Scalars.
Context {V : pyvals}.
Local Notation scal := (scal V). Local Notation operand := (operand V).

(** [==]: scalar_algebra.py:309-313, singleton.py:63-65, abstract_algebra.py:363-368 *)
Fixpoint s_eqb (a b : scal) : bool :=
  let go := fix go (l l' : list scal) : bool :=
    match l, l' with [], [] => true | x :: r, y :: r' => s_eqb x y && go r r' | _, _ => false end in
  match a, b with
  | SZero, SZero | SOne, SOne => true
  | SZero, SVal v => veqb v (vZ 0)
  | SOne, SVal v => veqb v (vZ 1)
  | SVal v, SZero => veqb v (vZ 0)
  | SVal v, SOne => veqb v (vZ 1)
  | SVal v, SVal w => veqb v w
  | SAtom n, SAtom m => n =? m
  | SPlus l, SPlus l' | STimes l, STimes l' => go l l'
  | SPow x y, SPow x' y' => s_eqb x x' && s_eqb y y'
  | _, _ => false
  end.
(** comparison with the Python integer z *)
Definition s_is (z : Z) (a : scal) : bool :=
  match a with SZero => (z =? 0)%Z | SOne => (z =? 1)%Z | SVal v => veqb v (vZ z) | _ => false end.
Definition o_is (z : Z) (a : operand) : bool := match a with Raw v => veqb v (vZ z) | Obj s => s_is z s end.
Definition o_eqb (a : operand) (s : scal) : bool := match a with Raw v => s_eqb (SVal v) s | Obj t => s_eqb t s end.

(** ScalarValue.create, scalar_algebra.py:211-235 *)
Definition create (v : V) : res scal :=
  if vbad v then Err ValueError else if veqb v (vZ 0) then Ok SZero else if veqb v (vZ 1) then Ok SOne else Ok (SVal v).
Definition create_o (a : operand) : res scal := match a with Raw v => create v | Obj s => Ok s end.
(** convert_to_scalars, algebraic_properties.py:563-573 *)
Definition wrap (a : operand) : scal := match a with Raw v => SVal v | Obj s => s end.
(** the wrapped value of a bare value or ScalarValue *)
Definition val_of (a : operand) : option V := match a with Raw v => Some v | Obj (SVal v) => Some v | _ => None end.

(** the [create] methods of the three operations *)
Record screators := {
  k_plus : list operand -> res scal;
  k_times : list operand -> res scal;
  k_pow : operand -> operand -> res scal
}.
Context (K : screators).

(** ** The operators. [x_op a b] is [a op b] for a Scalar [a]. *)
(** ScalarValue.__add__ 346-354, Zero.__add__ 562-568, One.__add__ 734-742,
    Scalar.__add__ 59-62, QuantumExpression.__add__ *)
Definition plus_base (a : scal) (b : operand) : res scal :=
  if o_is 0 b then Ok a else do b' <- create_o b; k_plus K [Obj a; Obj b'].
Definition x_add (a : scal) (b : operand) : res scal :=
  match a with
  | SVal v => match val_of b with
              | Some w => create (vadd v w)
              | None => if o_is 1 b then create (vadd v (vZ 1)) else plus_base a b
              end
  | SZero => match b with
             | Obj (SVal w) => Ok (SVal w)
             | Raw w => create w
             | _ => plus_base a b
             end
  | SOne => match val_of b with
            | Some w => create (vadd (vZ 1) w)
            | None => if o_is 1 b then Ok (SVal (vZ 2)) else plus_base a b
            end
  | _ => plus_base a b
  end.
(** ScalarValue.__mul__ 366-372, Zero.__mul__ 578-583, One.__mul__ 754-758,
    Scalar.__mul__ 69-74, QuantumExpression.__mul__ *)
Definition mul_base (a : scal) (b : operand) : res scal :=
  if o_is 1 b then Ok a
  else if o_is 0 b then Ok SZero
  else match b with
       | Raw w => do b' <- create w; k_times K [Obj b'; Obj a]
       | Obj _ => k_times K [Obj a; b]
       end.
Definition x_mul (a : scal) (b : operand) : res scal :=
  match a with
  | SVal v => match val_of b with Some w => create (vmul v w) | None => mul_base a b end
  | SZero => Ok SZero
  | SOne => create_o b
  | _ => mul_base a b
  end.
(** [w * a] for a bare value: ScalarValue.__rmul__ 419-423, Zero.__rmul__ 629-633,
    One.__rmul__ (791), Scalar.__rmul__ 125-130, QuantumExpression.__rmul__ *)
Definition r_mul (w : V) (a : scal) : res scal :=
  match a with
  | SVal v => create (vmul w v)
  | SZero => Ok SZero
  | SOne => create w
  | _ => if veqb w (vZ 1) then Ok a else if veqb w (vZ 0) then Ok SZero else x_mul a (Raw w)
  end.
(** [w + a]: ScalarValue.__radd__ 402-408, Zero.__radd__ 621-625, One.__radd__ 779-783,
    Scalar.__radd__ 115-118, QuantumExpression.__radd__ *)
Definition r_add (w : V) (a : scal) : res scal :=
  match a with
  | SVal v => create (vadd w v)
  | SZero => create w
  | SOne => create (vadd w (vZ 1))
  | _ => if veqb w (vZ 0) then Ok a else x_add a (Raw w)
  end.
(** [(-1) * b], as used by QuantumExpression.__sub__ *)
Definition minus_o (b : operand) : res scal := match b with Raw w => create (vmul (vZ (-1)) w) | Obj s => r_mul (vZ (-1)) s end.
(** ScalarValue.__sub__ 356-364, Zero.__sub__ 570-576, One.__sub__ 744-752 (which
    falls back on [super().__add__]), Scalar.__sub__ 64-67, QuantumExpression.__sub__ *)
Definition sub_base (a : scal) (b : operand) : res scal :=
  if o_is 0 b then Ok a else do m <- minus_o b; x_add a (Obj m).
Definition x_sub (a : scal) (b : operand) : res scal :=
  match a with
  | SVal v => match val_of b with
              | Some w => create (vsub v w)
              | None => if o_is 1 b then create (vsub v (vZ 1)) else sub_base a b
              end
  | SZero => match val_of b with Some w => create (vneg w) | None => sub_base a b end
  | SOne => match val_of b with
            | Some w => create (vsub (vZ 1) w)
            | None => if o_is 1 b then Ok SZero else plus_base a b
            end
  | _ => sub_base a b
  end.
(** [w - a]: ScalarValue.__rsub__ 410-416, Zero.__rsub__ 627, One.__rsub__ 785-789,
    Scalar.__rsub__ 120-123, QuantumExpression.__rsub__ *)
Definition r_sub (w : V) (a : scal) : res scal :=
  match a with
  | SVal v => create (vsub w v)
  | SZero => create w
  | SOne => create (vsub w (vZ 1))
  | _ => do m <- r_mul (vZ (-1)) a; if veqb w (vZ 0) then Ok m else x_add m (Raw w)
  end.
(** [a ** b]: ScalarValue.__pow__ 395-401, Zero.__pow__ 613-619, One.__pow__ 771-777,
    ScalarExpression.__pow__ 487, ScalarPlus 863, ScalarTimes 905, ScalarPower 1058;
    QuantumExpression.__pow__ 263-284 for exponents that are not values, then
    Scalar.__rpow__ 163-172 of the exponent *)
Definition x_pow (a : scal) (b : operand) : res scal :=
  let base v :=
    match val_of b with
    | Some w => do r <- vpow v w; create r
    | None => if o_is 0 b then Ok SOne else if o_is 1 b then Ok a
              else if s_is 0 a then Ok SZero else if s_is 1 a then Ok SOne else Err TypeError
    end in
  match a with
  | SVal v => base v
  | SZero => base (vZ 0)
  | SOne => base (vZ 1)
  | SPow x e => do e' <- x_mul e b; k_pow K (Obj x) (Obj e')
  | _ => k_pow K (Obj a) b
  end.
(** [w ** a]: ScalarValue.__rpow__ 445-449, Zero.__rpow__ 646, One.__rpow__ (791) *)
Definition r_pow (w : V) (a : scal) : res scal :=
  match a with
  | SVal v => do r <- vpow w v; create r
  | SZero => Ok SOne
  | SOne => create w
  | _ => if veqb w (vZ 0) then Ok SZero else if veqb w (vZ 1) then Ok SOne else Err TypeError
  end.
(** [a / b]: ScalarValue.__truediv__ 381-393 (an infinite SymPy quotient counts as a
    division by zero unless both are ScalarValue), Zero.__truediv__ 593-599,
    One.__truediv__ 767-773 (which falls back on [super().__floordiv__], then on
    [b.__rtruediv__]), Scalar.__truediv__ 87-101, QuantumExpression.__truediv__,
    Scalar.__rtruediv__ 141-153 *)
Definition div_base (a : scal) (b : operand) : res scal :=
  if o_is 1 b then Ok a
  else if o_is 0 b then Err ZeroDivisionError
  else if o_eqb b a then Ok SOne
  else match val_of b with
       | Some w => do i <- vdiv (vZ 1) w; x_mul (SVal i) (Obj a)
       | None => do i <- k_pow K b (Raw (vZ (-1))); x_mul a (Obj i)
       end.
Definition x_div (a : scal) (b : operand) : res scal :=
  match a with
  | SVal v => match b with
              | Obj (SVal w) => do r <- vdiv v w; create r
              | Raw w => do r <- vdiv v w; match create r with Err ValueError => Err ZeroDivisionError | c => c end
              | _ => div_base a b
              end
  | SZero => match val_of b with Some w => do r <- vdiv (vZ 0) w; create r | None => div_base a b end
  | SOne => match val_of b with
            | Some w => do r <- vdiv (vZ 1) w; create r
            | None => if o_is 1 b then do r <- vfdiv (vZ 1) (vZ 1); create r
                      else if o_is 0 b then Err ZeroDivisionError
                      else k_pow K b (Raw (vZ (-1)))
            end
  | _ => div_base a b
  end.
(** [w / a]: ScalarValue.__rtruediv__ 433-439, Zero.__rtruediv__ 641, One.__rtruediv__
    (791), Scalar.__rtruediv__ *)
Definition r_div (w : V) (a : scal) : res scal :=
  match a with
  | SVal v => do r <- vdiv w v; create r
  | SZero => Err ZeroDivisionError
  | SOne => create w
  | _ => if veqb w (vZ 0) then Ok SZero
         else do i <- k_pow K (Obj a) (Raw (vZ (-1)));
              if veqb w (vZ 1) then Ok i else r_mul w i
  end.
(** [a // b] and [a % b] for values: ScalarValue 374-379, 388-393, Zero 585-591,
    601-611, One 760-765, 775-781, Scalar.__floordiv__ 76-85, Scalar.__mod__ 103-112 *)
Definition x_fdiv (a : scal) (b : operand) : res scal :=
  let self_fdiv1 := match a with
    | SVal v => do r <- vfdiv v (vZ 1); create r
    | SZero => do r <- vfdiv (vZ 0) (vZ 1); create r
    | SOne => do r <- vfdiv (vZ 1) (vZ 1); create r
    | _ => Err PlainException (* RecursionError *) end in
  let base := if o_is 1 b then self_fdiv1 else if o_is 0 b then Err ZeroDivisionError else Err TypeError in
  match a, val_of b with
  | SVal v, Some w => do r <- vfdiv v w; create r
  | SZero, Some w => do r <- vfdiv (vZ 0) w; create r
  | SOne, Some w => do r <- vfdiv (vZ 1) w; create r
  | _, _ => base
  end.
Definition x_mod (a : scal) (b : operand) : res scal :=
  let base := if o_is 1 b then Ok SZero else if o_is 0 b then Err ZeroDivisionError else Err TypeError in
  match a, val_of b with
  | SVal v, Some w => do r <- vmod v w; create r
  | SZero, Some w => do r <- vmod (vZ 0) w; create r
  | SOne, Some w => do r <- vmod (vZ 1) w; create r
  | _, _ => base
  end.
(** [w // a], [w % a]: ScalarValue 425-431, 441-445, Zero 635-645, One.__rmod__ 793-797;
    One has no __rfloordiv__ (line 791 assigns [__rfloordiv]), so Scalar.__rfloordiv__
    132-139 *)
Definition r_fdiv (w : V) (a : scal) : res scal :=
  match a with
  | SVal v => do r <- vfdiv w v; create r
  | SZero => do r <- vfdiv w (vZ 0); create r
  | _ => if veqb w (vZ 0) then Ok SZero else Err TypeError
  end.
Definition r_mod (w : V) (a : scal) : res scal :=
  match a with
  | SVal v => do r <- vmod w v; create r
  | SZero => Err ZeroDivisionError
  | SOne => do r <- vmod w (vZ 1); create r
  | _ => if veqb w (vZ 0) then Ok SZero else Err TypeError
  end.
(** [-a]: ScalarValue 340-341, Zero 535, One 731-732, QuantumExpression.__neg__ *)
Definition x_neg (a : scal) : res scal :=
  match a with SVal v => create (vneg v) | SZero => Ok SZero | SOne => Ok (SVal (vZ (-1))) | _ => r_mul (vZ (-1)) a end.

Inductive bop := Add | Sub | Mul | Div | Pow | FloorDiv | Mod.
(** [a op b] where at least one is a Scalar *)
Definition apply (o : bop) (a b : operand) : res scal :=
  match a with
  | Obj s =>
    match o with
    | Add => x_add s b | Sub => x_sub s b | Mul => x_mul s b | Div => x_div s b | Pow => x_pow s b | FloorDiv => x_fdiv s b | Mod => x_mod s b
    end
  | Raw w =>
    match b with
    | Raw _ => Err Unmodelled
    | Obj s =>
      match o with
      | Add => r_add w s | Sub => r_sub w s | Mul => r_mul w s | Div => r_div w s | Pow => r_pow w s | FloorDiv => r_fdiv w s | Mod => r_mod w s
      end
    end
  end.
(** int, float and complex of the singletons, scalar_algebra.py:649-658, 799-808; bool
    is Python's default *)
Inductive pyconst := PInt (z : Z) | PFloat (z : Z) | PComplex (re im : Z) | PBool (b : bool).
Inductive conversion := ToInt | ToFloat | ToComplex | ToBool.
Definition convert_zero (c : conversion) : pyconst :=
  match c with ToInt => PInt 0 | ToFloat => PFloat 0 | ToComplex => PComplex 0 0 | ToBool => PBool true end.
Definition convert_one (c : conversion) : pyconst :=
  match c with ToInt => PInt 1 | ToFloat => PFloat 1 | ToComplex => PComplex 0 1 | ToBool => PBool true end.

(** ** Creation *)
(** collect_scalar_summands, algebraic_properties.py:187-247 *)
Fixpoint mul_all (t : scal) (l : list scal) : res scal :=
  match l with [] => Ok t | x :: r => do t' <- x_mul t (Obj x); mul_all t' r end.
Definition coeff_term (op : scal) : res (scal * scal) :=
  match op with
  | STimes (SVal c :: t :: rest) => do t' <- mul_all t rest; Ok (SVal c, t')
  | STimes [SVal c] => Err IndexError
  | STimes [] => Err IndexError
  | _ => Ok (SOne, op)
  end.
Fixpoint add_coeff (term c : scal) (m : list (scal * scal)) : res (list (scal * scal)) :=
  match m with
  | [] => Ok [(term, c)]
  | (t, d) :: r => if s_eqb t term then do d' <- x_add d (Obj c); Ok ((t, d') :: r) else do r' <- add_coeff term c r; Ok ((t, d) :: r')
  end.
Fixpoint collect_loop (ops : list scal) (a0 : scal) (m : list (scal * scal)) : res (scal * list (scal * scal)) :=
  match ops with
  | [] => Ok (a0, m)
  | SVal v :: rest => do a <- x_add a0 (Obj (SVal v)); collect_loop rest a m
  | op :: rest => do ct <- coeff_term op; do m' <- add_coeff (snd ct) (fst ct) m; collect_loop rest a0 m'
  end.
Fixpoint rebuild (m : list (scal * scal)) : res (list scal) :=
  match m with
  | [] => Ok []
  | (t, c) :: r => do o <- x_mul c (Obj t); do r' <- rebuild r; Ok (if s_is 0 o then r' else o :: r')
  end.
(** ScalarPlus.create, scalar_algebra.py:846-850: assoc, convert_to_scalars, orderby,
    collect_scalar_summands; match_replace_binary has no rules. [slt]: the order of the
    keys *)
Definition flat_plus (l : list operand) : list operand :=
  flat_map (fun o => match o with Obj (SPlus l) => map Obj l | _ => [o] end) l.
Definition plus_step (slt : scal -> scal -> bool) (l : list operand) : res scal :=
  do am <- collect_loop (pysorted slt (map wrap (flat_plus l))) SZero [];
  do terms <- rebuild (snd am);
  let fops := if s_is 0 (fst am) then terms else fst am :: terms in
  match fops with [] => Ok SZero | [x] => Ok x | _ => Ok (SPlus fops) end.

(** the binary rules of ScalarTimes, _rules.py:52-73 *)
Definition lift (r : res scal) : outcome scal :=
  match r with Ok x => Replaces (Some x) | Err CannotSimplify => Refuses | Err e => Raises e end.
Definition times_rules : list (scal -> scal -> outcome scal) :=
  [ (fun x y => match x, y with SVal a, SVal b => lift (create (vmul a b)) | _, _ => NoMatch end);
    (fun x y => if s_eqb x y then lift (x_pow x (Raw (vZ 2))) else NoMatch);
    (fun x y => if s_is 0 x then Replaces (Some SZero) else NoMatch);
    (fun x y => if s_is 0 y then Replaces (Some SZero) else NoMatch);
    (fun x y => match x, y with
                | SPow b e, SPow b' e' => if s_eqb b b' then lift (do s <- x_add e (Obj e'); x_pow b (Obj s)) else NoMatch
                | _, _ => NoMatch
                end);
    (fun x y => match y with SPow b e => if s_eqb x b && s_is (-1) e then Replaces (Some SOne) else NoMatch | _ => NoMatch end) ].
Definition times_cls : bincls scal :=
  {| binary_rules := times_rules; is_neutral := s_is 1; neutral := SOne;
     instance_args := fun x => match x with STimes l => Some l | _ => None end |}.
(** ScalarTimes.create, scalar_algebra.py:886-900: conversion, assoc, orderby,
    filter_neutral, match_replace_binary *)
Definition times_step (slt : scal -> scal -> bool) (fuel : nat) (l : list operand) : res scal :=
  do l' <- mapM create_o l;
  let ops := pysorted slt (flat_map (fun s => match s with STimes l => l | _ => [s] end) l') in
  match ops with
  | [] => Ok SOne
  | o :: _ =>
    match filter (fun s => negb (s_is 1 s)) ops with
    | [] => Ok o
    | [x] => Ok x
    | fops =>
      do r <- match_replace_binary times_cls fuel fops;
      match r with inl x => Ok x | inr l => Ok (STimes l) end
    end
  end.
(** ScalarPower.create, scalar_algebra.py:1033-1034, and its rules, _rules.py:75-88 *)
Definition pow_step (b e : operand) : res scal :=
  let b := wrap b in let e := wrap e in
  match b, e with
  | SVal v, SVal w => do r <- vpow v w; create r
  | _, _ =>
    if s_is 0 e then Ok SOne
    else if s_is 1 e then Ok b
    else match b with
         | SPow x y => do p <- x_mul y (Obj e); x_pow x (Obj p)
         | _ => Ok (SPow b e)
         end
  end.

(** conjugate: ScalarValue 306-307, Zero, One, ScalarPlus 858-861, ScalarTimes 902-905,
    ScalarPower 1061-1063; [aconj]: the conjugate of an atom *)
Context (aconj : nat -> nat).
Fixpoint conjugate (a : scal) : res scal :=
  let go := fix go (l : list scal) : res (list operand) := match l with [] => Ok [] | x :: r => do x' <- conjugate x; do r' <- go r; Ok (Obj x' :: r') end in
  match a with
  | SZero => Ok SZero
  | SOne => Ok SOne
  | SVal v => Ok (SVal (vconj v))
  | SAtom n => Ok (SAtom (aconj n))
  | SPlus l => do l' <- go l; k_plus K l'
  | STimes l => do l' <- go l; k_times K (rev l')
  | SPow b e => do b' <- conjugate b; do e' <- conjugate e; k_pow K (Obj b') (Obj e')
  end.
(** Scalar.real and Scalar.imag, scalar_algebra.py:49-57 *)
Definition real_part (a : scal) : res scal := do c <- conjugate a; do s <- x_add c (Obj a); x_div s (Raw (vZ 2)).
Definition imag_part (a : scal) : res scal := do c <- conjugate a; do s <- x_sub c (Obj a); x_mul s (Raw vhalfI).
End Scalars.
Arguments screators : clear implicits.

(** tying the knot: recursion depth at most [n] *)
Fixpoint sk {V : pyvals} (slt : scal V -> scal V -> bool) (n : nat) : screators V :=
  match n with
  | 0 => {| k_plus := fun _ => Err OutOfFuel; k_times := fun _ => Err OutOfFuel; k_pow := fun _ _ => Err OutOfFuel |}
  | S m => {| k_plus := plus_step (sk slt m) slt; k_times := times_step (sk slt m) slt m; k_pow := pow_step (sk slt m) |}
  end.
