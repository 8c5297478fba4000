(** Eq, the symbolic equation with a history.
    /repo/src/qnet/algebra/toolbox/equation.py. The expressions and the functions applied
    to them are parameters; functions return an expression (never None) or raise.
    Not modelled: verify, the symbol sets, the column layout of the printed text. *)
From Verif Require Import Prelude.

(** a tag: None, an int, or anything else (a str, a float, ...) *)
Inductive tag (O : Type) := NoTag | IntTag (z : Z) | OtherTag (o : O).
Arguments NoTag {O}. Arguments IntTag {O}. Arguments OtherTag {O}.

Section Eqn.
Context {E O : Type} (eqb : E -> E -> bool).
(** Python's [int(o)], [None] if it raises ValueError or TypeError *)
Context (int_of : O -> option Z).

(** the attributes _lhs, _rhs, _tag, _prev_lhs, _prev_rhs, _prev_tags *)
Record eqn := MkEq {
  e_lhs : option E; e_rhs : E; e_tag : tag O;
  e_plhs : list (option E); e_prhs : list E; e_ptags : list (tag O)
}.
(** Eq.__init__, equation.py:59-72 *)
Definition norm_tag (t : tag O) : tag O :=
  match t with OtherTag o => match int_of o with Some z => IntTag z | None => t end | _ => t end.
Definition eq_init (lhs : option E) (rhs : E) (t : tag O) (pl : list (option E)) (pr : list E) (pt : list (tag O)) : eqn :=
  MkEq lhs rhs (norm_tag t) pl pr pt.
(** the properties lhs (74-82), rhs and tag *)
Fixpoint last_some (l : list (option E)) : res E :=
  match l with [] => Err IndexError | Some x :: _ => Ok x | None :: r => last_some r end.
Definition lhs (e : eqn) : res E := last_some (e_lhs e :: rev (e_plhs e)).
(** set_tag 95-100, copy 240-245 *)
Definition set_tag (t : tag O) (e : eqn) : eqn := eq_init (e_lhs e) (e_rhs e) t (e_plhs e) (e_prhs e) (e_ptags e).
Definition copy (e : eqn) : eqn := eq_init (e_lhs e) (e_rhs e) (e_tag e) (e_plhs e) (e_prhs e) (e_ptags e).
(** _update 206-221 *)
Definition update (e : eqn) (l : option E) (r : E) (t : tag O) (cont : bool) : eqn :=
  if cont then eq_init l r t (e_plhs e ++ [e_lhs e]) (e_prhs e ++ [e_rhs e]) (e_ptags e ++ [e_tag e])
  else eq_init l r t [] [] [].
(** apply 111-133 and apply_mtd 160-175; substitute 195-204 is [apply] *)
Definition eq_apply (f : E -> res E) (cont : bool) (t : tag O) (e : eqn) : res eqn :=
  do l <- lhs e; do l' <- f l; do r' <- f (e_rhs e);
  Ok (update e (if eqb l' l && cont then None else Some l') r' t cont).
(** apply_to_lhs 135-143, apply_mtd_to_lhs 177-186 *)
Definition eq_apply_lhs (f : E -> res E) (cont : bool) (t : tag O) (e : eqn) : res eqn :=
  do l <- lhs e; do l' <- f l; Ok (update e (Some l') (e_rhs e) t cont).
(** apply_to_rhs 145-158, apply_mtd_to_rhs 188-198 *)
Definition eq_apply_rhs (f : E -> res E) (cont : bool) (t : tag O) (e : eqn) : res eqn :=
  do l <- (if cont then Ok None else rmap Some (lhs e)); do r' <- f (e_rhs e); Ok (update e l r' t cont).
(** __add__, __sub__, __mul__, __rmul__, __truediv__ 283-307: [f] acts on the left side,
    [g] on the right side *)
Definition eq_arith (f g : E -> res E) (e : eqn) : res eqn :=
  do l <- lhs e; do l' <- f l; do r' <- g (e_rhs e); Ok (eq_init (Some l') r' NoTag [] [] []).
(** the lines of the printed equation, _render_str 315-340; an absent left side is blank *)
Definition eq_lines (e : eqn) : list (option E * E * tag O) :=
  combine (combine (e_plhs e ++ [e_lhs e]) (e_prhs e ++ [e_rhs e])) (e_ptags e ++ [e_tag e]).

(** one call *)
Inductive call :=
| Apply (f : E -> res E) (cont : bool) (t : tag O)
| ApplyToLhs (f : E -> res E) (cont : bool) (t : tag O)
| ApplyToRhs (f : E -> res E) (cont : bool) (t : tag O)
| SetTag (t : tag O)
| Copy
| Arith (f g : E -> res E).
Definition exec1 (c : call) (e : eqn) : res eqn :=
  match c with
  | Apply f cont t => eq_apply f cont t e
  | ApplyToLhs f cont t => eq_apply_lhs f cont t e
  | ApplyToRhs f cont t => eq_apply_rhs f cont t e
  | SetTag t => Ok (set_tag t e)
  | Copy => Ok (copy e)
  | Arith f g => eq_arith f g e
  end.
Fixpoint exec (cs : list call) (e : eqn) : res eqn :=
  match cs with [] => Ok e | c :: r => do e' <- exec1 c e; exec r e' end.
(** Eq(lhs, rhs, tag) *)
Definition eq_new (l r : E) (t : tag O) : eqn := eq_init (Some l) r t [] [] [].
End Eqn.
Arguments eqn : clear implicits. Arguments call : clear implicits.
