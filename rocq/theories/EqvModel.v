(** Equations: arithmetic with equations and expressions, comparison, verify, symbols.
    /repo/src/qnet/algebra/toolbox/equation.py:219-236, 245-303, on EquationModel.v.
    The operations of the expressions are parameters. Not modelled: operations of the expressions that
    raise AttributeError inside [try] (the retry with the equation itself as operand). *)
From Coq Require Import List ZArith Bool.
From Verif Require Import Prelude EquationModel.
Import ListNotations.

Section Eqv.
Context {E O : Type} (eqb : E -> E -> bool) (int_of : O -> option Z).
Local Notation eqn := (eqn E O).
(** the other operand: an expression or an equation *)
Inductive operand := XE (x : E) | XQ (q : eqn).
Definition fresh (l r : E) : eqn := eq_init int_of (Some l) r NoTag [] [] [].
Definition caught {T} (x : res T) : res T := match x with Err AttributeError => Err Unmodelled | _ => x end.

(** __add__, __radd__ and __sub__, lines 276-288; [op] is the + or - of the expressions *)
Definition eq_addsub (op : E -> E -> res E) (e : eqn) (o : operand) : res eqn :=
  match o with
  | XQ q => caught (do l <- lhs e; do m <- lhs q; do l' <- op l m; do r' <- op (e_rhs e) (e_rhs q); Ok (fresh l' r'))
  | XE x => do l <- lhs e; do l' <- op l x; do r' <- op (e_rhs e) x; Ok (fresh l' r')
  end.
(** __mul__, __truediv__, lines 290-291, 296-297 *)
Definition eq_mul (op : E -> E -> res E) (e : eqn) (x : E) : res eqn :=
  do l <- lhs e; do l' <- op l x; do r' <- op (e_rhs e) x; Ok (fresh l' r').
(** __rmul__, lines 293-294 *)
Definition eq_rmul (op : E -> E -> res E) (e : eqn) (x : E) : res eqn :=
  do l <- lhs e; do l' <- op x l; do r' <- op x (e_rhs e); Ok (fresh l' r').
(** __eq__, lines 299-303 *)
Definition eq_eq (e : eqn) (o : operand) : res bool :=
  match o with
  | XQ q => do l <- lhs e; do m <- lhs q; Ok (eqb l m && eqb (e_rhs e) (e_rhs q))
  | XE x => Ok (eqb (e_rhs e) x)
  end.
(** verify, lines 219-236, without [func]; [simp] is expand().simplify_scalar() *)
Definition verify (simp : E -> res E) (sub : E -> E -> res E) (e : eqn) : res E :=
  do l <- lhs e; do a <- simp l; do b <- simp (e_rhs e); sub a b.
(** free_symbols and bound_symbols, lines 245-269; [syms x = None]: x has no such attribute. The
    [try] also covers the lhs itself. all_symbols, lines 271-274 *)
Definition eq_symbols (syms : E -> option (list nat)) (e : eqn) : res (list nat) :=
  do l <- lhs e;
  Ok (match syms l with Some a => a | None => [] end ++ match syms (e_rhs e) with Some b => b | None => [] end).
Definition all_symbols (fs bs : E -> option (list nat)) (e : eqn) : res (list nat) :=
  do a <- eq_symbols fs e; do b <- eq_symbols bs e; Ok (a ++ b).
(** as_dict, lines 100-107 *)
Definition as_dict (e : eqn) : res (list (E * E)) := do l <- lhs e; Ok [(l, e_rhs e)].
End Eqv.
Arguments operand : clear implicits. Arguments XE {E O}. Arguments XQ {E O}.
