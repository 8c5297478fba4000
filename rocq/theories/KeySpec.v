(** Vocabulary for C47, independent of the sorting and the conversion. *)
From Verif Require Import Prelude KeyModel.

Definition ordered (k : kind) : Prop := match k with KSet | KDict => False | _ => True end.
Definition leaf (x : pv) : Prop := match x with PCont _ _ => False | _ => True end.

(** [==] on Python containers: same kind of container and equal entries, in the
    same order when the container is ordered *)
Inductive pyeq : pv -> pv -> Prop :=
| eq_leaf x : leaf x -> pyeq x x
| eq_cont k l l' l2 :
    Forall2 pyeq l l2 -> Permutation l2 l' -> (ordered k -> l2 = l') ->
    pyeq (PCont k l) (PCont k l').

(** the same entries, whatever the kind of the containers *)
Inductive same_data : pv -> pv -> Prop :=
| sd_leaf x : leaf x -> same_data x x
| sd_cont k k' l l' l2 :
    Forall2 same_data l l2 -> Permutation l2 l' -> (ordered k -> ordered k' -> l2 = l') ->
    same_data (PCont k l) (PCont k' l').

(** Types of set elements and dictionary keys that Python can sort *)
Inductive kty := TyInt | TyStr | TyBytes | TyTup (ts : list kty) | TyFroz (t : kty).
Fixpoint has_ty (t : kty) (x : pv) {struct t} : Prop :=
  match t, x with
  | TyInt, PInt _ => True
  | TyStr, PStr _ => True
  | TyBytes, PBytes _ => True
  | TyTup ts, PCont KTup l =>
    (fix go (ts : list kty) (l : list pv) : Prop :=
       match ts, l with
       | [], [] => True
       | t :: ts', x :: l' => has_ty t x /\ go ts' l'
       | _, _ => False
       end) ts l
  | TyFroz t, PCont KSet l => Forall (has_ty t) l
  | _, _ => False
  end.

Definition is_pair (e : pv) (k : pv) : Prop := exists v, e = PCont KTup [k; v].

(** [sortable x]: in every set inside [x] all elements have the same sortable
    type; every mapping consists of key-value pairs, with the keys of a plain
    dictionary of the same sortable type and pairwise different *)
Fixpoint sortable (x : pv) : Prop :=
  match x with
  | PCont k l =>
    (fix go (l : list pv) : Prop := match l with [] => True | y :: l' => sortable y /\ go l' end) l
    /\ match k with
       | KSet => exists t, Forall (has_ty t) l
       | KDict => exists t ks, Forall2 is_pair l ks /\ Forall (has_ty t) ks
                               /\ ForallOrdPairs (fun a b => ~ pyeq a b) ks
       | _ => True
       end
  | _ => True
  end.

(** Python's [hash(x)] succeeds: no list, set or dict anywhere inside, and no
    unhashable object. Simplification: [KSet] is never hashable here. *)
Fixpoint hashable (x : pv) : Prop :=
  match x with
  | PObj h _ => h = true
  | PCont k l =>
    k = KTup /\ (fix go (l : list pv) : Prop := match l with [] => True | y :: l' => hashable y /\ go l' end) l
  | _ => True
  end.

(** every object inside [x] is hashable *)
Fixpoint hashable_leaves (x : pv) : Prop :=
  match x with
  | PObj h _ => h = true
  | PCont _ l => (fix go (l : list pv) : Prop := match l with [] => True | y :: l' => hashable_leaves y /\ go l' end) l
  | _ => True
  end.
