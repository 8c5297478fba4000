(** Model of /repo/src/qnet/utils/containers.py and of
    Expression._get_instance_key (/repo/src/qnet/algebra/core/abstract_algebra.py). *)
From Verif Require Import Prelude SortModel.

(** Python values as they occur in [args] and [kwargs]: numbers, strings and byte
    strings (as lists of character codes), None, other objects (given by an
    identity; [hashable] says whether they have a [__hash__], they cannot be
    compared with [<]) and containers. [KList] stands for every [Sequence] other
    than [tuple], [KSet] for every sized iterable container that is neither a
    sequence nor a mapping. The elements of a mapping are what [.items()] yields:
    2-tuples. Simplification: numbers are integers, and [True == 1] is ignored. *)
Inductive kind := KTup | KList | KSet | KDict | KOrd.
Inductive pv :=
| PInt (z : Z)
| PStr (s : list nat)
| PBytes (s : list nat)
| PNone
| PObj (hashable : bool) (n : nat)
| PCont (k : kind) (l : list pv).

(** [==] on the values that nested_tuple builds *)
Fixpoint pv_eqb (a b : pv) : bool :=
  match a, b with
  | PInt x, PInt y => (x =? y)%Z
  | PStr x, PStr y => eqb_list_nat x y
  | PBytes x, PBytes y => eqb_list_nat x y
  | PNone, PNone => true
  | PObj h x, PObj h' y => Bool.eqb h h' && (x =? y)
  | PCont KTup l, PCont KTup l' =>
    (fix go (l l' : list pv) : bool :=
       match l, l' with
       | [], [] => true
       | x :: l1, y :: l2 => pv_eqb x y && go l1 l2
       | _, _ => false
       end) l l'
  | _, _ => false
  end.

(** [<] on the values that nested_tuple builds: tuples are compared at the first
    position where they differ; different types raise TypeError *)
Fixpoint pv_lt (a b : pv) : res bool :=
  match a, b with
  | PInt x, PInt y => Ok (x <? y)%Z
  | PStr x, PStr y => Ok (str_lt x y)
  | PBytes x, PBytes y => Ok (str_lt x y)
  | PCont KTup l, PCont KTup l' =>
    (fix go (l l' : list pv) : res bool :=
       match l, l' with
       | [], [] => Ok false
       | [], _ :: _ => Ok true
       | _ :: _, [] => Ok false
       | x :: l1, y :: l2 => if pv_eqb x y then go l1 l2 else pv_lt x y
       end) l l'
  | _, _ => Err TypeError
  end.

(** containers.py:15-36, called on the iterator [map(nested_tuple, ...)]: sorted()
    reads the iterator to its end before it compares anything, so that after a
    TypeError [list(iterable)] in the handler finds nothing left. *)
Definition sorted_if_possible (l : list pv) : list pv :=
  match pysortedM pv_lt l with
  | Ok l' => l'
  | Err _ => []
  end.

(** containers.py:39-84 *)
Fixpoint nested_tuple (x : pv) : pv :=
  match x with
  | PCont KOrd l => PCont KTup (map nested_tuple l)
  | PCont KDict l => PCont KTup (sorted_if_possible (map nested_tuple l))
  | PCont KTup l => PCont KTup (map nested_tuple l)
  | PCont KList l => PCont KTup (map nested_tuple l)
  | PCont KSet l => PCont KTup (sorted_if_possible (map nested_tuple l))
  | _ => x
  end.

Definition entries (x : pv) : list pv := match x with PCont _ l => l | _ => [] end.

(** abstract_algebra.py:188-199; the class is given by an identity *)
Definition instance_key (cls : nat) (args kwargs : list pv) : list pv :=
  PObj true cls :: entries (nested_tuple (PCont KTup args)) ++ entries (nested_tuple (PCont KDict kwargs)).
