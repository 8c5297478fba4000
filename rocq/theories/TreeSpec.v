(** Specification for C21. *)
From Verif Require Import Prelude PatModel TreeModel.

(** All sub-expressions (keyword values included), children before parents,
    left to right. *)
Fixpoint postorder (e : expr) : list expr :=
  match e with
  | Leaf _ => [e]
  | Node _ l k => concat (map postorder l) ++ concat (map (fun kv => postorder (snd kv)) k) ++ [e]
  end.
Definition occurs (x e : expr) : Prop := In x (postorder e).

(** [maps_to m e t]: [t] is the value of the key [e] (of the first, should there be several) *)
Definition maps_to (m : var_map) (e t : expr) : Prop := exists m1 m2, m = m1 ++ (e, t) :: m2 /\ ~ In e (map fst m1).
Definition unmapped (m : var_map) (e : expr) : Prop := ~ In e (map fst m).
(** [replaced m e e']: [e'] is [e] with every maximal occurrence of a key of [m]
    replaced by its value, all at once. *)
Inductive replaced (m : var_map) : expr -> expr -> Prop :=
| rep_here e t : maps_to m e t -> replaced m e t
| rep_leaf v : unmapped m (Leaf v) -> replaced m (Leaf v) (Leaf v)
| rep_node c l k l' k' :
    unmapped m (Node c l k) ->
    Forall2 (replaced m) l l' ->
    Forall2 (fun x y => fst x = fst y /\ replaced m (snd x) (snd y)) k k' ->
    replaced m (Node c l k) (Node c l' k').

(** Bottom-up rewriting, by structural recursion: rebuild from the rewritten
    children, then apply the first applicable rule once. *)
Fixpoint rewrite_up (create : nat -> list expr -> list (nat * expr) -> res expr) (once : expr -> res expr) (e : expr) : res expr :=
  match e with
  | Leaf _ => once e
  | Node c l k =>
    do l' <- mapMs (rewrite_up create once) l;
    do k' <- mapMkw (rewrite_up create once) k;
    do e' <- create c l' k';
    once e'
  end.

(** [first_rule rs e r]: [r] is the outcome of the first rule of [rs] that
    matches [e] and does not decline, or [e] itself if there is none. *)
Inductive first_rule : list rule -> expr -> res expr -> Prop :=
| fr_none e : first_rule [] e (Ok e)
| fr_skip p f rs e r : p e = MFail -> first_rule rs e r -> first_rule ((p, f) :: rs) e r
| fr_decline p f rs e m r : p e = MOk m -> f m = Err CannotSimplify -> first_rule rs e r -> first_rule ((p, f) :: rs) e r
| fr_apply p f rs e m r : p e = MOk m -> f m = r -> r <> Err CannotSimplify -> first_rule ((p, f) :: rs) e r
| fr_raise p f rs e x : p e = MExc x -> first_rule ((p, f) :: rs) e (Err x).
