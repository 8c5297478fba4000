(** What derivative objects mean: symbols have values; an operand is a function of these
    values; [iD] is the derivative of a function of one value; partial derivatives vary one
    symbol; a derivative object evaluated at a point takes the partial derivatives of
    its operand and then replaces the symbols by the values. *)
From Coq Require Import List ZArith Bool Arith.
From Verif Require Import Prelude DvModel.
Import ListNotations.
Local Open Scope nat_scope.

Record interp := {
  iV : Type; iA : Type; izero : iA;
  iD : (iV -> iA) -> iV -> iA;
  iD_ext : forall f g v, (forall u, f u = g u) -> iD f v = iD g v;
  iD_const : forall a v, iD (fun _ => a) v = izero;
  leafI : nat -> list iV -> iA;
  otherI : nat -> (nat -> iV) -> iV;
  numI : Z -> iV
}.
Section Spec.
Context (J : interp).
Definition env := nat -> iV J.
Definition upd (e : env) (x : nat) (v : iV J) : env := fun z => if z =? x then v else e z.
Definition partial (x : nat) (f : env -> iA J) : env -> iA J := fun e => iD J (fun v => f (upd e x v)) (e x).
Definition vden (v : value) (e : env) : iV J := match v with VSym x => e x | VNum z => numI J z | VOther k => otherI J k e end.
Definition at_point (vs : list (nat * value)) (e : env) : env := fun z => match dget vs z with Some v => vden v e | None => e z end.
Fixpoint times_partial (x n : nat) (f : env -> iA J) : env -> iA J := match n with 0 => f | S k => times_partial x k (partial x f) end.
Fixpoint partials (ds : list (nat * nat)) (f : env -> iA J) : env -> iA J :=
  match ds with [] => f | (x, n) :: r => partials r (times_partial x n f) end.
Fixpoint den (t : dexp) : env -> iA J :=
  match t with
  | DZero => fun _ => izero J
  | DLeaf f args => fun e => leafI J f (map (fun v => vden v e) args)
  | DDer op ds vs => fun e => partials ds (den op) (at_point vs e)
  end.

(** what SymPy answers about an expression agrees with its interpretation *)
Record legal (ofree : nat -> list nat) (still : nat -> nat -> bool) : Prop := {
  l_free : forall k e e', (forall x, In x (ofree k) -> e x = e' x) -> otherI J k e = otherI J k e';
  l_still : forall k x, still k x = true -> forall e v, otherI J k (upd e x v) = otherI J k e
}.
(** a class of functions whose partial derivatives commute *)
Record smooth (sm : (env -> iA J) -> Prop) : Prop := {
  s_ext : forall f g, (forall e, f e = g e) -> sm f -> sm g;
  s_zero : sm (fun _ => izero J);
  s_leaf : forall f args, sm (den (DLeaf f args));
  s_partial : forall x f, sm f -> sm (partial x f);
  s_at : forall vs f, sm f -> sm (fun e => f (at_point vs e));
  s_comm : forall x y f e, sm f -> partial x (partial y f) e = partial y (partial x f) e
}.
End Spec.

(** Derivative objects as the constructors make them: dicts in the order of the printed names,
    positive orders, evaluation only for symbols of the derivative. *)
Fixpoint incr (l : list nat) : Prop := match l with [] => True | x :: r => Forall (lt x) r /\ incr r end.
Fixpoint dwf (t : dexp) : Prop :=
  match t with
  | DDer op ds vs => dwf op /\ incr (map fst ds) /\ incr (map fst vs) /\ Forall (fun p => 0 < snd p) ds /\ incl (map fst vs) (map fst ds)
  | _ => True
  end.
(** [x] occurs in no value at which [t] is evaluated, except as the value [x] itself (and then
    [t] is not evaluated at another value of [x]) *)
Definition clear_of (ofree : nat -> list nat) (x : nat) (t : dexp) : Prop :=
  match t with
  | DDer _ _ vs => forall k v, In (k, v) vs -> In x (afree ofree v) -> v = VSym x /\ ~ In x (map fst vs)
  | _ => True
  end.
