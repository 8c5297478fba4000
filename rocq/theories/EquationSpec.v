(** What an equation with history is: a non-empty list of complete lines (left side, right
    side, tag), oldest first. Specification vocabulary for C44. *)
From Verif Require Import Prelude EquationModel.

Section Spec.
Context {E O : Type} (eqb : E -> E -> bool) (int_of : O -> option Z).
Definition line : Type := E * E * tag O.
(** the history of an equation, and its current line *)
Definition history : Type := list line * line.
Definition tagged (t : tag O) : tag O := match t with OtherTag o => match int_of o with Some z => IntTag z | None => t end | _ => t end.
(** a new line replaces everything, or comes below it *)
Definition next (cont : bool) (h : history) (x : line) : history := if cont then (fst h ++ [snd h], x) else ([], x).
Definition spec1 (c : call E O) (h : history) : res history :=
  let '(l, r, t0) := snd h in
  match c with
  | Apply f cont t => do l' <- f l; do r' <- f r; Ok (next cont h (l', r', tagged t))
  | ApplyToLhs f cont t => do l' <- f l; Ok (next cont h (l', r, tagged t))
  | ApplyToRhs f cont t => do r' <- f r; Ok (next cont h (l, r', tagged t))
  | SetTag t => Ok (fst h, (l, r, tagged t))
  | Copy => Ok h
  | Arith f g => do l' <- f l; do r' <- g r; Ok (next false h (l', r', NoTag))
  end.
Fixpoint spec (cs : list (call E O)) (h : history) : res history :=
  match cs with [] => Ok h | c :: r => do h' <- spec1 c h; spec r h' end.

Definition same (a b : E) : Prop := eqb a b = true.
(** [==] is an equivalence *)
Record equivalence : Prop := { eq_refl' : forall a, same a a; eq_sym' : forall a b, same a b -> same b a; eq_trans' : forall a b c, same a b -> same b c -> same a c }.
(** functions that give equal results, or the same exception, for equal arguments *)
Definition same_res (a b : res E) : Prop := match a, b with Ok x, Ok y => same x y | Err x, Err y => x = y | _, _ => False end.
Definition respectful (f : E -> res E) : Prop := forall a b, same a b -> same_res (f a) (f b).
Definition good_call (c : call E O) : Prop :=
  match c with Apply f _ _ | ApplyToLhs f _ _ | ApplyToRhs f _ _ | Arith f _ => respectful f | SetTag _ | Copy => True end.
(** What is stored and printed: the same right sides and tags; a left side is equal to
    the line's, or absent (printed as a blank) if it equals the left side of the line above. *)
Inductive shows : option E -> list (option E * E * tag O) -> list line -> Prop :=
| shows_nil above : shows above [] []
| shows_full above l l' r t ls hs : same l l' -> shows (Some l') ls hs -> shows above ((Some l, r, t) :: ls) ((l', r, t) :: hs)
| shows_blank a l' r t ls hs : same a l' -> shows (Some l') ls hs -> shows (Some a) ((None, r, t) :: ls) ((l', r, t) :: hs).
End Spec.
