(** Drawing expression trees: dotprint, /repo/src/qnet/printing/dot.py, and print_tree,
    /repo/src/qnet/printing/treeprinting.py.
    Simplifications: an expression is its name (what the label, id and style functions look
    at) and its children; node statements and edges are kept as data instead of DOT text;
    the lines of a tree are lists of drawing symbols. *)
From Verif Require Import Prelude.

(** [get_children(expr)], dot.py:124-128 *)
Inductive tree := T (name : nat) (children : list tree).
Definition name (t : tree) : nat := match t with T n _ => n end.
Definition children (t : tree) : list tree := match t with T _ l => l end.

(** ** dotprint *)
Section Dot.
(** [id_of expr location]: _node_id, dot.py:88-92 *)
Context {id : Type} (id_of : nat -> nat * nat -> id).
Context (maxdepth : option nat).
(** a node statement: id, expression and whether it is drawn as a leaf (the arguments of
    labelfunc and of the styles) *)
Record node := { n_id : id; n_expr : nat; n_leaf : bool }.
Definition edge := (id * id)%type.
(** pos_counter, a defaultdict(int) *)
Definition counter := list (nat * nat).
Definition get (c : counter) (l : nat) : nat := match find (fun p => fst p =? l) c with Some p => snd p | None => 0 end.
Fixpoint incr (c : counter) (l : nat) : counter :=
  match c with [] => [(l, 1)] | p :: c' => if fst p =? l then (l, S (snd p)) :: c' else p :: incr c' l end.
(** the loop over the children, dot.py:233-241 *)
Fixpoint visit (me : id) (level : nat) (l : list tree) (c : counter) : list edge * list (nat * nat * tree) * counter :=
  match l with
  | [] => ([], [], c)
  | t :: l' =>
    let i := get c (S level) in
    let sub := id_of (name t) (S level, i) in
    let '(es, st, c') := visit me level l' (incr c (S level)) in
    ((me, sub) :: es, (S level, i, t) :: st, c')
  end.
(** the while loop, dot.py:222-243; the fuel bounds the number of rounds *)
Fixpoint loop (fuel : nat) (stack : list (nat * nat * tree)) (c : counter) : option (list node * list edge) :=
  match fuel with
  | 0 => match stack with [] => Some ([], []) | _ => None end
  | S f =>
    match stack with
    | [] => Some ([], [])
    | (level, pos, t) :: rest =>
      let me := id_of (name t) (level, pos) in
      let is_leaf := (length (children t) =? 0) || match maxdepth with Some d => d <=? level | None => false end in
      let nd := {| n_id := me; n_expr := name t; n_leaf := is_leaf |} in
      let '(es, st, c') := if is_leaf then ([], [], c) else visit me level (children t) c in
      match loop f (rest ++ st) c' with Some (ns, es') => Some (nd :: ns, es ++ es') | None => None end
    end
  end.
Definition dotprint (fuel : nat) (t : tree) : option (list node * list edge) := loop fuel [(0, 0, t)] [].
End Dot.
Arguments n_id {id}. Arguments n_expr {id}. Arguments n_leaf {id}.
(** the default ids, dot.py:206-210: 'node_(level, pos)' with repeat, hash(expr) without *)
Definition id_repeat (idfunc : nat -> nat) (n : nat) (loc : nat * nat) : nat * (nat * nat) := (idfunc n, loc).
Definition id_once (idfunc : nat -> nat) (n : nat) (loc : nat * nat) : nat := idfunc n.

(** ** print_tree *)
(** an expression with the attribute ([Some] children) or without it *)
Inductive atree := A (name : nat) (attr : option (list atree)).
Definition aname (t : atree) : nat := match t with A n _ => n end.
Definition has_attr (t : atree) : bool := match t with A _ (Some _) => true | _ => false end.
(** drawing symbols: a space, the vertical line, the two branch marks ('├─ ', '└─ '), the root
    mark ('. '); the text of an expression, by to_str or by srepr; padding text *)
Inductive sym := SSpace | SLine | SBranch | SLeaf | SDot | SText (n : nat) | SRepr (n : nat).
Section Tree.
Context (excluded : nat -> bool) (depth : option nat) (srepr_leaves : bool).
(** treeprinting.py:32-117 *)
Fixpoint print_tree (padding : list sym) (last root : bool) (level : nat) (t : atree) {struct t} : list (list sym) :=
  let head := if root then [SDot; SText (aname t)]
              else removelast padding ++ [if last then SLeaf else SBranch; SText (aname t)] in
  let padding := padding ++ [SSpace; SSpace] in
  let stop := excluded (aname t) || match depth with Some d => d <=? level | None => false end in
  head :: match t with
          | A _ None => []
          | A _ (Some l) =>
            if stop then [] else
            (fix go (l : list atree) : list (list sym) :=
               match l with
               | [] => []
               | u :: l' =>
                 let lst := match l' with [] => true | _ => false end in
                 (if has_attr u
                  then print_tree (padding ++ [if lst then SSpace else SLine]) lst false (S level) u
                  else [padding ++ [if lst then SLeaf else SBranch; if srepr_leaves then SRepr (aname u) else SText (aname u)]])
                 ++ go l'
               end) l
          end.
Definition tree_lines (padding : list sym) (t : atree) : list (list sym) := print_tree padding false true 0 t.
End Tree.
