(** Derivative objects: QuantumDerivative (constructor, evaluate_at, free_symbols,
    bound_symbols, n, _diff), its [create] (derivative_via_diff), QuantumExpression.diff and
    QuantumSymbol._diff.
    /repo/src/qnet/algebra/core/abstract_quantum_algebra.py:123-152, 358-363, 690-831;
    algebraic_properties.py:947-976.
    Simplifications: SymPy symbols are numbers, in the order of their printed names; non-atomic
    symbols (indexed symbols) are not modelled. A value or an argument is a symbol, a Python
    number or another SymPy expression, known by a number. Expressions are Zero, symbols with
    arguments, and derivative objects. expand and simplify_scalar do not change these (when SymPy does not
    simplify the arguments) and are left out;
    so is the instance cache. Substituting fresh dummies for symbols in an operand
    ([free_symbols]) removes these symbols from its free symbols. *)
From Coq Require Import List ZArith Bool Arith.
From Verif Require Import Prelude.
Import ListNotations.
Local Open Scope nat_scope.

Inductive value := VSym (x : nat) | VNum (z : Z) | VOther (k : nat).
Inductive dexp :=
| DZero
| DLeaf (f : nat) (args : list value)
| DDer (op : dexp) (derivs : list (nat * nat)) (vals : list (nat * value)).

Section Dv.
(** What SymPy says of the other expressions: their free symbols; whether the derivative is 0. *)
Context (ofree : nat -> list nat) (still : nat -> nat -> bool).

Definition has (x : nat) (l : list nat) : bool := existsb (Nat.eqb x) l.
Fixpoint dget {T} (d : list (nat * T)) (x : nat) : option T :=
  match d with [] => None | (y, v) :: r => if y =? x then Some v else dget r x end.
(** [d[x] = v], the dict listed in the order of the printed names (lines 753-757) *)
Fixpoint dset {T} (d : list (nat * T)) (x : nat) (v : T) : list (nat * T) :=
  match d with
  | [] => [(x, v)]
  | (y, w) :: r => if y =? x then (x, v) :: r else if x <? y then (x, v) :: (y, w) :: r else (y, w) :: dset r x v
  end.
(** [d.update(l)], [dict(l)] *)
Definition dupdate {T} (d l : list (nat * T)) : list (nat * T) := fold_left (fun d p => dset d (fst p) (snd p)) l d.

(** QuantumDerivative.__init__, lines 704-735 *)
Definition new_deriv (op : dexp) (derivs : list (nat * Z)) (vals : list (nat * value)) : res dexp :=
  let ds := dupdate [] derivs in
  if existsb (fun p => snd p <=? 0)%Z ds then Err ValueError
  else
    let vs := dupdate [] vals in
    if existsb (fun p => negb (has (fst p) (map fst ds))) vs then Err ValueError
    else Ok (DDer op (map (fun p => (fst p, Z.to_nat (snd p))) ds) vs).
Definition zdict (ds : list (nat * nat)) : list (nat * Z) := map (fun p => (fst p, Z.of_nat (snd p))) ds.

(** lines 759-763; other expressions have no [evaluate_at] *)
Definition evaluate_at (e : dexp) (vals : list (nat * value)) : res dexp :=
  match e with
  | DDer op ds vs => new_deriv op (zdict ds) (dupdate vs vals)
  | _ => Err AttributeError
  end.
(** lines 811-817 *)
Definition total_order (e : dexp) : nat := match e with DDer _ ds _ => list_sum (map snd ds) | _ => 0 end.

(** free symbols of a SymPy object; a Python number has none to ask for *)
Definition vfree (v : value) : res (list nat) :=
  match v with VSym x => Ok [x] | VNum _ => Err AttributeError | VOther k => Ok (ofree k) end.
(** arguments of symbols are Scalars (ScalarValue.free_symbols: numbers have no free symbols) *)
Definition afree (v : value) : list nat := match v with VSym x => [x] | VNum _ => [] | VOther k => ofree k end.
Fixpoint vfrees (vs : list (nat * value)) : res (list nat) :=
  match vs with [] => Ok [] | (_, v) :: r => do a <- vfree v; do b <- vfrees r; Ok (a ++ b) end.
(** lines 782-800 *)
Fixpoint free_symbols (e : dexp) : res (list nat) :=
  match e with
  | DZero => Ok []
  | DLeaf _ args => Ok (flat_map afree args)
  | DDer op _ [] => free_symbols op
  | DDer op _ vs =>
    do f <- free_symbols op;
    do g <- vfrees vs;
    Ok (filter (fun x => negb (has x (map fst vs))) f ++ g)
  end.
(** lines 802-809 *)
Definition bound_symbols (e : dexp) : list nat := match e with DDer _ _ vs => map fst vs | _ => [] end.

(** whether the derivative of an argument by [x] is zero *)
Definition arg_still (x : nat) (v : value) : bool :=
  match v with VSym y => negb (y =? x) | VNum _ => true | VOther k => still k x end.
Definition is_sym (x : nat) (v : value) : bool := match v with VSym y => y =? x | _ => false end.
(** [_diff]: QuantumSymbol lines 358-363, QuantumDerivative lines 819-831 *)
Definition diff1 (x : nat) (e : dexp) : res dexp :=
  match e with
  | DZero => Ok DZero
  | DLeaf f args => if forallb (arg_still x) args then Ok DZero else new_deriv e [(x, 1%Z)] []
  | DDer op ds vs =>
    if has x (map fst vs) then Ok DZero
    else if existsb (fun p => is_sym x (snd p)) vs then new_deriv e [(x, 1%Z)] []
    else new_deriv op (zdict (dset ds x (match dget ds x with Some n => S n | None => 1 end))) vs
  end.
Fixpoint diff_times (x : nat) (n : nat) (e : dexp) : res dexp :=
  match n with 0 => Ok e | S k => do e' <- diff1 x e; diff_times x k e' end.

(** derivative_via_diff, algebraic_properties.py:947-976, for [derivs] a tuple *)
Fixpoint create_loop (derivs : list (nat * Z)) (e : dexp) : res dexp :=
  match derivs with
  | [] => Ok e
  | (x, n) :: r =>
    do f <- free_symbols e;
    if has x f then do e' <- diff_times x (Z.to_nat n) e; create_loop r e' else Ok DZero
  end.
(** lines 690-702: the early [return] skips the values; Zero is not changed by [substitute];
    substituting in a symbol (only for [derivs] = ()) is not modelled *)
Definition create (e : dexp) (derivs : list (nat * Z)) (vals : option (list (nat * value))) : res dexp :=
  do e' <- create_loop derivs e;
  match vals with
  | None => Ok e'
  | Some vs => match e' with DZero => Ok DZero | DLeaf _ _ => Err Unmodelled | DDer _ _ _ => evaluate_at e' vs end
  end.
(** QuantumExpression.diff, lines 123-152 *)
Definition diff (e : dexp) (x : nat) (n : Z) : res dexp :=
  do f <- free_symbols e;
  if has x f then create e [(x, n)] None else Ok DZero.
End Dv.
