(** Specification vocabulary for channel routing and block structures (C06-C08, C14). *)
From Verif Require Import Prelude PermSpec.

(** A dict of channel mappings in which keys and values are channel numbers
    below [n] and no two keys share a value. *)
Definition valid_mapping (mapping : list (Z * Z)) (n : nat) : Prop :=
  (forall k v, In (k, v) mapping -> (0 <= k < Z.of_nat n)%Z /\ (0 <= v < Z.of_nat n)%Z) /\
  (forall k k' v, In (k, v) mapping -> In (k', v) mapping -> k = k').

(** [p] routes every mapped channel as requested and keeps the relative order
    of all other channels. *)
Definition routes_as (mapping : list (Z * Z)) (n : nat) (p : list nat) : Prop :=
  bijection p /\ length p = n /\
  (forall k v, In (Z.of_nat k, v) mapping -> k < n -> Z.of_nat (nth k p 0) = v) /\
  (forall a b, a < b -> b < n ->
     ~ In (Z.of_nat a) (map fst mapping) -> ~ In (Z.of_nat b) (map fst mapping) ->
     nth a p 0 < nth b p 0).

(** Channel numbering after removing port [i]: old number of new channel [a],
    and new number of old channel [y <> i]. *)
Definition keep (i a : nat) : nat := if a <? i then a else S a.
Definition drop (o y : nat) : nat := if y <? o then y else y - 1.

(** [fine] can be grouped into consecutive runs with sizes [coarse]. *)
Definition refines (fine coarse : list nat) : Prop :=
  exists groups, concat groups = fine /\ map sum groups = coarse.

Definition positive (l : list nat) : Prop := forall x, In x l -> 0 < x.
