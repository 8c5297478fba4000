(** Abstract Taylor series of symbols with arguments: QuantumSymbol._series_expand,
    QuantumExpression._series_expand and _evaluate_at.
    /repo/src/qnet/algebra/core/abstract_quantum_algebra.py:159-216, 365-372, 1095-1101; the
    derivatives are those of DvModel.v.
    A coefficient [t / n!] is represented as the pair of n! and t. The last step of series_expand
    (zeros become the Zero of the algebra) does nothing here. *)
From Coq Require Import List ZArith Bool Arith Factorial.
From Verif Require Import Prelude DvModel.
Import ListNotations.
Local Open Scope nat_scope.

Section Tay.
(** as in DvModel.v, and SymPy's [k.subs(x, v)] *)
Context (ofree : nat -> list nat) (still : nat -> nat -> bool) (osub : nat -> nat -> value -> value).

(** [substitute({x: v})] in an argument *)
Definition asub (x : nat) (v a : value) : value :=
  match a with VSym y => if y =? x then v else VSym y | VNum z => VNum z | VOther k => osub k x v end.
(** lines 1095-1101 *)
Definition eval_at (e : dexp) (x : nat) (v : value) : res dexp :=
  match e with
  | DDer _ _ _ => evaluate_at e [(x, v)]
  | DLeaf f args => Ok (DLeaf f (map (asub x v) args))
  | DZero => Ok DZero
  end.
(** lines 207-215, from [n] on for [k] more orders *)
Fixpoint taylor_loop (x : nat) (v : value) (n k : nat) (e : dexp) : res (list (nat * dexp)) :=
  match k with
  | 0 => Ok []
  | S k' =>
    match e with
    | DZero => do r <- taylor_loop x v (S n) k' e; Ok ((1, e) :: r)
    | _ =>
      do e' <- diff ofree still e x 1;
      do t <- eval_at e' x v;
      do r <- taylor_loop x v (S n) k' e';
      Ok ((fact n, t) :: r)
    end
  end.
(** lines 203-216, 365-372 *)
Definition taylor (f : nat) (args : list value) (x : nat) (v : value) (order : nat) : res (list (nat * dexp)) :=
  match args with
  | [] => Ok ((1, DLeaf f []) :: repeat (1, DZero) order)
  | _ =>
    do t <- eval_at (DLeaf f args) x v;
    do r <- taylor_loop x v 1 order (DLeaf f args);
    Ok ((1, t) :: r)
  end.
End Tay.
