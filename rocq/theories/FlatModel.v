(** Model of _import_submodules (_flat_api_tools.py:37-93): the flat API. A package is a
    tree of modules with their attributes and __all__. Names are numbers, ordered as the
    strings. Simplification: the arguments include and exclude are None and
    include_private_modules is false (no caller inside QNET passes others to the recursive
    calls); importing a module has no further effects. *)
From Verif Require Import Prelude.

(** attribute values: objects and modules (by full name), compared with [is] *)
Inductive obj := OObj (id : nat) | OMod (path : list nat).
Definition attrs_t : Type := list (nat * obj).
Inductive tree := Node (nm : nat) (private ispkg : bool) (all : option (list nat)) (attrs : attrs_t) (subs : list tree).
Definition t_name (t : tree) := match t with Node n _ _ _ _ _ => n end.
Definition t_private (t : tree) := match t with Node _ p _ _ _ _ => p end.
Definition t_pkg (t : tree) := match t with Node _ _ k _ _ _ => k end.
(** [__all__], set to the empty list if missing (72-73) *)
Definition t_all (t : tree) : list nat := match t with Node _ _ _ (Some l) _ _ => l | _ => [] end.
Definition t_attrs (t : tree) := match t with Node _ _ _ _ a _ => a end.
Definition t_subs (t : tree) := match t with Node _ _ _ _ _ l => l end.
Definition with_all (t : tree) : tree := match t with Node n p k _ a l => Node n p k (Some (t_all t)) a l end.

Fixpoint path_eqb (a b : list nat) : bool :=
  match a, b with [], [] => true | x :: a', y :: b' => (x =? y) && path_eqb a' b' | _, _ => false end.
Definition obj_eqb (a b : obj) : bool :=
  match a, b with OObj x, OObj y => x =? y | OMod p, OMod q => path_eqb p q | _, _ => false end.
Fixpoint lookup (x : nat) (l : attrs_t) : option obj :=
  match l with [] => None | (y, v) :: l' => if x =? y then Some v else lookup x l' end.
Fixpoint setattr (x : nat) (v : obj) (l : attrs_t) : attrs_t :=
  match l with [] => [(x, v)] | (y, w) :: l' => if x =? y then (y, v) :: l' else (y, w) :: setattr x v l' end.
(** list.sort *)
Fixpoint insert (x : nat) (l : list nat) : list nat :=
  match l with [] => [x] | y :: l' => if x <=? y then x :: l else y :: insert x l' end.
Fixpoint isort (l : list nat) : list nat := match l with [] => [] | x :: l' => insert x (isort l') end.

(** the inner loop, 78-92; the state is the list __all__ and the attributes of the package.
    The ImportError of line 85 is PlainException here. *)
Fixpoint export (src : attrs_t) (names : list nat) (st : list nat * attrs_t) : res (list nat * attrs_t) :=
  match names with
  | [] => Ok st
  | x :: r =>
    match lookup x src with
    | None => Err AttributeError
    | Some o =>
      match lookup x (snd st) with
      | Some o' => if obj_eqb o' o then export src r st else Err PlainException
      | None => export src r (fst st ++ [x], setattr x o (snd st))
      end
    end
  end.
(** the loop over the submodules, 64-92 *)
Definition import_list (imp : list nat -> tree -> res tree) (path : list nat) :=
  fix go (subs : list tree) (st : list nat * attrs_t) : res (list tree * (list nat * attrs_t)) :=
    match subs with
    | [] => Ok ([], st)
    | s :: r =>
      if t_private s then do q <- go r st; Ok (s :: fst q, snd q)
      else
        do s' <- (if t_pkg s then imp (path ++ [t_name s]) s else Ok (with_all s));
        do st' <- export (t_attrs s') (t_all s') (fst st, setattr (t_name s) (OMod (path ++ [t_name s])) (snd st));
        do q <- go r st'; Ok (s' :: fst q, snd q)
    end.
Fixpoint import_submodules (path : list nat) (t : tree) : res tree :=
  match t with
  | Node n p k all attrs subs =>
    do r <- import_list import_submodules path subs (match all with Some l => l | None => [] end, attrs);
    Ok (Node n p k (Some (isort (fst (snd r)))) (snd (snd r)) (fst r))
  end.
