(** What it means to sort: independent of the sorting method. *)
From Coq Require Import List Sorting Permutation Bool.
Import ListNotations.

Section Spec.
  Context {A : Type} (lt : A -> A -> bool).

  (** [lt] orders the elements of [l] consistently (a strict weak order): nothing
      is below something below it, and "not below" is transitive *)
  Definition consistent (l : list A) : Prop :=
    (forall a b, In a l -> In b l -> lt a b = true -> lt b a = false)
    /\ (forall a b c, In a l -> In b l -> In c l ->
          lt a b = false -> lt b c = false -> lt a c = false).

  (** no element is below an earlier one *)
  Definition in_order (l : list A) : Prop := StronglySorted (fun a b => lt b a = false) l.

  (** neither below the other *)
  Definition tied (x y : A) : bool := negb (lt x y) && negb (lt y x).

  (** [r] lists the elements of [l] in order, tied elements in their original
      order *)
  Definition stable_sort (l r : list A) : Prop :=
    Permutation l r /\ in_order r
    /\ forall x, In x l -> filter (tied x) r = filter (tied x) l.
End Spec.

(** ** Dictionary order *)
From Coq Require Import ZArith.
From Verif Require Import SortModel.

(** compare lists by the first position where they differ; a proper prefix comes
    first *)
Section Dict.
  Context {A : Type} (c : A -> A -> comparison).
  Fixpoint dict (l l' : list A) : comparison :=
    match l, l' with
    | [], [] => Eq
    | [], _ :: _ => Lt
    | _ :: _, [] => Gt
    | x :: l1, y :: l2 => match c x y with Eq => dict l1 l2 | r => r end
    end.
End Dict.

Definition num_compare (a b : num) : comparison :=
  match a, b with
  | NFin x, NFin y => Z.compare x y
  | NFin _, NInf => Lt
  | NInf, NFin _ => Gt
  | NInf, NInf => Eq
  end.

(** numbers by value, strings and tuples by the dictionary order; the order
    between different kinds is arbitrary *)
Definition kind (a : elt) : nat :=
  match a with ENum _ => 0 | EStr _ => 1 | ETup _ => 2 | EObj _ => 3 end.
Fixpoint elt_compare (a b : elt) : comparison :=
  match a, b with
  | ENum x, ENum y => num_compare x y
  | EStr x, EStr y => dict Nat.compare x y
  | EObj x, EObj y => dict Nat.compare x y
  | ETup x, ETup y => dict elt_compare x y
  | _, _ => Nat.compare (kind a) (kind b)
  end.
Definition key_compare : list elt -> list elt -> comparison := dict elt_compare.

(** Two elements can be compared with [<]: both numbers, both strings, or both
    tuples whose elements can be compared up to and including the first
    difference. Equal objects need no comparison. *)
Fixpoint comparable (a b : elt) {struct a} : Prop :=
  match a, b with
  | ENum _, ENum _ => True
  | EStr _, EStr _ => True
  | EObj x, EObj y => x = y
  | ETup l, ETup l' =>
    (fix go (l l' : list elt) : Prop :=
       match l, l' with
       | x :: l1, y :: l2 => comparable x y /\ (x = y -> go l1 l2)
       | _, _ => True
       end) l l'
  | _, _ => False
  end.
Definition comparable_keys (l l' : list elt) : Prop := comparable (ETup l) (ETup l').
