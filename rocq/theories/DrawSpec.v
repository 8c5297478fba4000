(** What a drawing of a tree has to show. *)
From Verif Require Import Prelude DrawModel.

(** the tree cut below depth [d] *)
Fixpoint cut (d : nat) (t : tree) : tree := match t with T n l => T n (match d with 0 => [] | S d' => map (cut d') l end) end.
Definition cut_at (m : option nat) (t : tree) : tree := match m with Some d => cut d t | None => t end.
Fixpoint size (t : tree) : nat := match t with T _ l => S (list_sum (map size l)) end.
(** the subexpressions, with repetitions *)
Fixpoint subs (t : tree) : list tree := match t with T n l => t :: flat_map subs l end.

(** the graph [ns], [es] unfolds from node [v] to the tree [t]: there is exactly one statement
    for [v], it shows the name of [t] (as a leaf iff [t] has no children), and the edges out of
    [v], in their order, lead to nodes that unfold to the children of [t] *)
Section Unfold.
Context {id : Type} (dec : id -> id -> bool).
Definition targets (es : list (id * id)) (v : id) : list id := map snd (filter (fun e => dec (fst e) v) es).
Inductive unfolds (ns : list (@node id)) (es : list (id * id)) : id -> tree -> Prop :=
| unfolds_T v n l lf : filter (fun nd => dec (n_id nd) v) ns = [ {| n_id := v; n_expr := n; n_leaf := lf |} ] ->
    (lf = true <-> l = []) -> unfolds_all ns es (targets es v) l -> unfolds ns es v (T n l)
with unfolds_all (ns : list (@node id)) (es : list (id * id)) : list id -> list tree -> Prop :=
| unfolds_nil : unfolds_all ns es [] []
| unfolds_cons v vs t ts : unfolds ns es v t -> unfolds_all ns es vs ts -> unfolds_all ns es (v :: vs) (t :: ts).
End Unfold.

(** ** trees of lines *)
(** the nodes in preorder, each with, for the ancestors below the root and for itself, whether
    it is the last child of its parent *)
Inductive ptree := P (text : sym) (l : list ptree).
Definition ptext (t : ptree) : sym := match t with P s _ => s end.
Fixpoint walk (flags : list bool) (t : ptree) : list (list bool * sym) :=
  match t with P s l =>
    (flags, s) :: (fix go (l : list ptree) := match l with
                   | [] => []
                   | u :: l' => walk (flags ++ [match l' with [] => true | _ => false end]) u ++ go l'
                   end) l
  end.
(** the line of a node: three columns for each ancestor, with a vertical line if the ancestor
    has later siblings, then the mark of the node *)
Definition column (last : bool) : list sym := [SSpace; SSpace; if last then SSpace else SLine].
Definition line_of (pad : list sym) (p : list bool * sym) : list sym :=
  match rev (fst p) with
  | [] => [SDot; snd p]
  | own :: anc => pad ++ flat_map column (rev anc) ++ [SSpace; SSpace; if own then SLeaf else SBranch; snd p]
  end.
(** what is to be shown of an expression: nothing below depth [d] or below excluded ones *)
Section Shown.
Context (excluded : nat -> bool) (depth : option nat) (srepr_leaves : bool).
Fixpoint shown (level : nat) (root : bool) (t : atree) : ptree :=
  match t with
  | A n None => P (if srepr_leaves && negb root then SRepr n else SText n) []
  | A n (Some l) => P (SText n) (if excluded n || match depth with Some d => d <=? level | None => false end then [] else map (shown (S level) false) l)
  end.
End Shown.
(** reading a drawing back: the depth of a line is the number of its columns before the text *)
Definition depth_of (l : list sym) : nat := length l.
