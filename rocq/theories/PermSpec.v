(** Independent specification vocabulary for permutations (C01-C07). *)
From Verif Require Import Prelude.

(** [p], read as the map j |-> p[j], is a bijection of {0..n-1}, n = len(p). *)
Definition bijection (p : list nat) : Prop :=
  (forall i, i < length p -> nth i p 0 < length p) /\
  (forall i j, i < length p -> j < length p -> nth i p 0 = nth j p 0 -> i = j) /\
  (forall y, y < length p -> exists i, i < length p /\ nth i p 0 = y).

(** The same for arbitrary Python integers. *)
Definition bijectionZ (p : list Z) : Prop :=
  (forall i, i < length p -> (0 <= nth i p 0 < Z.of_nat (length p))%Z) /\
  (forall i j, i < length p -> j < length p -> nth i p 0%Z = nth j p 0%Z -> i = j) /\
  (forall y, y < length p -> exists i, i < length p /\ nth i p 0%Z = Z.of_nat y).

(** [c] is a cycle of the permutation [p]: each element is mapped to the next
    one, the last one back to the first. *)
Definition is_cycle (p c : list nat) : Prop :=
  c <> [] /\
  forall i, i < length c -> nth (nth i c 0) p 0 = nth ((i + 1) mod length c) c 0.

(** Normal form of a cycle list: disjoint, covering, minimal element first,
    sorted by first element. *)
Definition cycles_normal_form (p : list nat) (cs : list (list nat)) : Prop :=
  (forall c, In c cs -> is_cycle p c) /\
  NoDup (concat cs) /\
  (forall x, x < length p <-> In x (concat cs)) /\
  (forall c x, In c cs -> In x c -> hd 0 c <= x) /\
  StronglySorted lt (map (hd 0) cs).

(** Side-by-side concatenation of two permutations, as a map. *)
Definition side_by_side (s a b : list nat) : Prop :=
  length s = length a + length b /\
  (forall i, i < length a -> nth i s 0 = nth i a 0) /\
  (forall i, i < length b -> nth (length a + i) s 0 = length a + nth i b 0).

(** A permutation that is not the side-by-side concatenation of two
    non-empty permutations. *)
Definition indecomposable (s : list nat) : Prop :=
  s <> [] /\
  forall a b, bijection a -> bijection b -> a <> [] -> b <> [] -> ~ side_by_side s a b.

(** First channel of block [k] in a block structure. *)
Definition block_start (bs : list nat) (k : nat) : nat := sum (firstn k bs).
