(** Shared vocabulary: exceptions as values and a few list helpers that mirror
    the Python list/tuple operations used all over QNET. *)
From Coq Require Export List Arith ZArith Lia Bool Permutation Sorting.Sorted.
Export ListNotations.

(** Python exceptions that the modelled code can raise. [OutOfFuel] is not a
    Python exception: it marks exhaustion of the recursion fuel of a model
    function, and theorems show it is never returned. *)
Inductive exn :=
| ValueError | BadPermutationError | IndexError | TypeError | AssertionError
| KeyError | AttributeError | ZeroDivisionError | StopIteration
| AlgebraError | WrongCDimError | IncompatibleBlockStructures
| CannotSimplify | BasisNotSetError | UnequalSpaces | OverlappingSpaces
| SpaceTooLargeError | BadLiouvillianError | InfiniteSumError
| CannotConvertToSLH | UnboundLocalError | PlainException | NotImplementedError | OutOfFuel | Unmodelled.

Inductive res (A : Type) :=
| Ok (a : A)
| Err (e : exn).
Arguments Ok {A} a.
Arguments Err {A} e.

Definition bind {A B} (r : res A) (f : A -> res B) : res B :=
  match r with Ok a => f a | Err e => Err e end.

Definition rmap {A B} (f : A -> B) (r : res A) : res B :=
  match r with Ok a => Ok (f a) | Err e => Err e end.

Notation "'do' x <- r ; k" := (bind r (fun x => k))
  (at level 200, x pattern, r at level 100, k at level 200, right associativity).

(** [of_option e o]: a lookup that raises [e] when it fails. *)
Definition of_option {A} (e : exn) (o : option A) : res A :=
  match o with Some a => Ok a | None => Err e end.

(** Python's [[f(x) for x in l]] where [f] may raise. *)
Fixpoint mapM {A B} (f : A -> res B) (l : list A) : res (list B) :=
  match l with
  | [] => Ok []
  | x :: xs => do y <- f x; do ys <- mapM f xs; Ok (y :: ys)
  end.

(** Python's [l.index(x)]: position of the first occurrence. *)
Fixpoint index_of (x : nat) (l : list nat) : option nat :=
  match l with
  | [] => None
  | y :: ys => if x =? y then Some 0 else option_map S (index_of x ys)
  end.

(** Python's [l.remove(x)]: drop the first occurrence ([None] = ValueError). *)
Fixpoint remove_first (x : nat) (l : list nat) : option (list nat) :=
  match l with
  | [] => None
  | y :: ys => if x =? y then Some ys else option_map (cons y) (remove_first x ys)
  end.

(** Python's [l[i] = v] ([None] = IndexError). *)
Fixpoint set_nth {A} (i : nat) (v : A) (l : list A) : option (list A) :=
  match l, i with
  | [], _ => None
  | _ :: ys, 0 => Some (v :: ys)
  | y :: ys, S i' => option_map (cons y) (set_nth i' v ys)
  end.

(** Python's [sum(l)]. *)
Definition sum (l : list nat) : nat := fold_right Nat.add 0 l.

(** Stable insertion sort by an integer key: the list [sorted(l, key=k)]
    returns (Python's sort is stable; for integer keys the comparison is a
    total order, so the stable sorted list is unique). *)
Section SortBy.
  Context {A : Type} (key : A -> Z).
  Fixpoint insert_by (x : A) (l : list A) : list A :=
    match l with
    | [] => [x]
    | y :: ys => if (key x <=? key y)%Z then x :: y :: ys else y :: insert_by x ys
    end.
  Definition sort_by (l : list A) : list A := fold_right insert_by [] l.
End SortBy.

Definition sortZ (l : list Z) : list Z := sort_by (fun z => z) l.

(** Boolean equality of integer lists (Python's [==] on lists of ints). *)
Fixpoint eqb_listZ (a b : list Z) : bool :=
  match a, b with
  | [], [] => true
  | x :: xs, y :: ys => (x =? y)%Z && eqb_listZ xs ys
  | _, _ => false
  end.

Fixpoint eqb_list_nat (a b : list nat) : bool :=
  match a, b with
  | [], [] => true
  | x :: xs, y :: ys => (x =? y) && eqb_list_nat xs ys
  | _, _ => false
  end.

(** Python's [max(l)] / [min(l)] ([None] = ValueError on an empty list). *)
Definition list_max1 (l : list nat) : option nat :=
  match l with [] => None | x :: xs => Some (fold_left Nat.max xs x) end.
Definition list_min1 (l : list nat) : option nat :=
  match l with [] => None | x :: xs => Some (fold_left Nat.min xs x) end.
