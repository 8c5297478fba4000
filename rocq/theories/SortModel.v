(** Model of Python's [sorted] with a user-defined [__lt__], and of the order
    keys of /repo/src/qnet/utils/ordering.py. *)
From Verif Require Import Prelude.

(** CPython's list.sort for fewer than 64 elements (Objects/listobject.c:
    count_run, then binarysort): find the initial run, reverse it if it is
    strictly descending, insert the remaining elements one by one by binary
    search. Simplification: longer lists, for which CPython splits the list into
    runs and merges them, are treated the same way; theorem C22_any_stable_sort
    covers every sorting method when the comparison is consistent. [lt] is the
    truth value of [__lt__] ([None] is false). *)
Section PySort.
  Context {A : Type} (lt : A -> A -> bool).

  (** how many further elements continue the run whose last element is [last] *)
  Fixpoint run_length (desc : bool) (last : A) (l : list A) : nat :=
    match l with
    | [] => 0
    | x :: l' => if Bool.eqb (lt x last) desc then S (run_length desc x l') else 0
    end.
  Definition count_run (l : list A) : nat * bool :=
    match l with
    | [] => (0, false)
    | [_] => (1, false)
    | x :: y :: l' => (S (S (run_length (lt y x) y l')), lt y x)
    end.

  (** binary search for the insertion point of [pivot] in [a[lo:hi]]; [n] bounds
      the number of iterations *)
  Fixpoint bisect (n : nat) (a : list A) (pivot : A) (lo hi : nat) : nat :=
    match n with
    | 0 => lo
    | S n' =>
      if lo <? hi then
        let p := lo + (hi - lo) / 2 in
        match nth_error a p with
        | Some x => if lt pivot x then bisect n' a pivot lo p else bisect n' a pivot (S p) hi
        | None => lo
        end
      else lo
    end.
  Definition binary_insert (a : list A) (pivot : A) : list A :=
    let i := bisect (length a) a pivot 0 (length a) in
    firstn i a ++ pivot :: skipn i a.

  Definition pysorted (l : list A) : list A :=
    let (n, desc) := count_run l in
    let run := firstn n l in
    fold_left binary_insert (skipn n l) (if desc then rev run else run).
End PySort.

(** The same with a comparison that may raise *)
Section PySortM.
  Context {A : Type} (ltM : A -> A -> res bool).

  Fixpoint run_lengthM (desc : bool) (last : A) (l : list A) : res nat :=
    match l with
    | [] => Ok 0
    | x :: l' =>
      do b <- ltM x last;
      if Bool.eqb b desc then do n <- run_lengthM desc x l'; Ok (S n) else Ok 0
    end.
  Definition count_runM (l : list A) : res (nat * bool) :=
    match l with
    | [] => Ok (0, false)
    | [_] => Ok (1, false)
    | x :: y :: l' =>
      do b <- ltM y x;
      do n <- run_lengthM b y l';
      Ok (S (S n), b)
    end.
  Fixpoint bisectM (n : nat) (a : list A) (pivot : A) (lo hi : nat) : res nat :=
    match n with
    | 0 => Ok lo
    | S n' =>
      if lo <? hi then
        let p := lo + (hi - lo) / 2 in
        match nth_error a p with
        | Some x =>
          do b <- ltM pivot x;
          if b then bisectM n' a pivot lo p else bisectM n' a pivot (S p) hi
        | None => Ok lo
        end
      else Ok lo
    end.
  Definition binary_insertM (a : list A) (pivot : A) : res (list A) :=
    do i <- bisectM (length a) a pivot 0 (length a);
    Ok (firstn i a ++ pivot :: skipn i a).
  Fixpoint insert_allM (a l : list A) : res (list A) :=
    match l with
    | [] => Ok a
    | x :: l' => do a' <- binary_insertM a x; insert_allM a' l'
    end.
  Definition pysortedM (l : list A) : res (list A) :=
    do nd <- count_runM l;
    let run := firstn (fst nd) l in
    insert_allM (if snd nd then rev run else run) (skipn (fst nd) l).
End PySortM.

(** ** KeyTuple, ordering.py:39-63 *)

(** Tuple elements: numbers, strings (as lists of character codes), nested
    tuples, and objects that cannot be compared with [<] (given by their
    string). Simplification: numbers are integers or infinity. *)
Inductive num := NFin (z : Z) | NInf.
Definition num_lt (a b : num) : bool :=
  match a, b with
  | NFin x, NFin y => (x <? y)%Z
  | NFin _, NInf => true
  | NInf, _ => false
  end.
Definition num_eqb (a b : num) : bool :=
  match a, b with
  | NFin x, NFin y => (x =? y)%Z
  | NInf, NInf => true
  | _, _ => false
  end.
Inductive elt := ENum (n : num) | EStr (s : list nat) | ETup (l : list elt) | EObj (s : list nat).

(** [<] on Python strings (lexicographic by code point) *)
Fixpoint str_lt (a b : list nat) : bool :=
  match a, b with
  | [], [] => false
  | [], _ :: _ => true
  | _ :: _, [] => false
  | x :: a', y :: b' => if x <? y then true else if y <? x then false else str_lt a' b'
  end.

(** [==] on elements *)
Fixpoint elt_eqb (a b : elt) : bool :=
  match a, b with
  | ENum x, ENum y => num_eqb x y
  | EStr x, EStr y => eqb_list_nat x y
  | EObj x, EObj y => eqb_list_nat x y
  | ETup x, ETup y =>
    (fix go (l l' : list elt) : bool :=
       match l, l' with
       | [], [] => true
       | x :: l1, y :: l2 => elt_eqb x y && go l1 l2
       | _, _ => false
       end) x y
  | _, _ => false
  end.

Section KeyTuple.
  (** Python's [str] *)
  Context (str_of : elt -> list nat).

  (** [a > b] where [None] is TypeError. KeyTuple does not define [__gt__], so
      tuples are compared by [tuple.__gt__]: the first position where the
      elements differ decides. *)
  Fixpoint py_gt (a b : elt) : option bool :=
    match a, b with
    | ENum x, ENum y => Some (num_lt y x)
    | EStr x, EStr y => Some (str_lt y x)
    | ETup x, ETup y =>
      (fix tup_gt (l l' : list elt) : option bool :=
         match l, l' with
         | [], [] => Some false
         | [], _ :: _ => Some false
         | _ :: _, [] => Some true
         | x :: l1, y :: l2 => if elt_eqb x y then tup_gt l1 l2 else py_gt x y
         end) x y
    | _, _ => None
    end.

  (** lines 45-53: the outcome of one pair of elements, given [a < b] *)
  Definition pair_order (lt : option bool) (a b : elt) : option bool :=
    let fallback :=
      if str_lt (str_of a) (str_of b) then Some true
      else if str_lt (str_of b) (str_of a) then Some false else None in
    match lt with
    | Some true => Some true
    | Some false =>
      match py_gt a b with
      | Some true => Some false
      | Some false => None
      | None => fallback
      end
    | None => fallback
    end.

  (** [a < b] ([None] is TypeError); nested tuples by KeyTuple.__lt__ (43-59).
      Simplification: nested plain tuples are compared as KeyTuples, which is
      the same when their elements are comparable. *)
  Fixpoint py_lt (a b : elt) : option bool :=
    match a, b with
    | ENum x, ENum y => Some (num_lt x y)
    | EStr x, EStr y => Some (str_lt x y)
    | ETup x, ETup y =>
      Some ((fix tup_lt (l l' : list elt) : bool :=
         match l, l' with
         | [], [] => false
         | [], _ :: _ => true
         | _ :: _, [] => false
         | x :: l1, y :: l2 =>
           match pair_order (py_lt x y) x y with
           | Some b => b
           | None => tup_lt l1 l2
           end
         end) x y)
    | _, _ => None
    end.

  (** KeyTuple.__lt__ (43-59); the falsy [None] returned for a tie is [false] *)
  Fixpoint kt_lt (l l' : list elt) : bool :=
    match l, l' with
    | [], [] => false
    | [], _ :: _ => true
    | _ :: _, [] => false
    | x :: l1, y :: l2 =>
      match pair_order (py_lt x y) x y with
      | Some b => b
      | None => kt_lt l1 l2
      end
    end.
End KeyTuple.
