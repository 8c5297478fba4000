(** Hilbert spaces as sets of local factors. *)
From Coq Require Import List Sorting Bool ZArith.
From Verif Require Import SortModel SortSpec HilbertModel.
Import ListNotations.

Definition literal (s : local) : Prop := exists t, l_label s = Lit t.

(** the space that carries the factors [l], when it is not the full space *)
Definition factors (h : hs) : list local :=
  match h with Trivial => [] | Full => [] | Local s => [s] | Prod l => l end.

(** canonical spaces: the labels are plain strings, a ProductSpace has at least
    two distinct factors, listed in the order of their keys *)
Definition canonical (h : hs) : Prop :=
  match h with
  | Trivial | Full => True
  | Local s => literal s
  | Prod l =>
    2 <= length l /\ (forall s, In s l -> literal s)
    /\ StronglySorted (fun s t => key_compare (local_key s) (local_key t) = Lt) l
  end.

(** operands accepted by the constructor, and the factors they stand for *)
Definition arg_ok (a : harg) : Prop :=
  match a with HS h => canonical h /\ h <> Full | Lbl s => label_ok s = true end.
Definition arg_factor (a : harg) (s : local) : Prop :=
  match a with HS h => In s (factors h) | Lbl t => s = mk_local None (Lit t) None [] end.

(** [h] is the product of exactly the local spaces satisfying [P] *)
Definition is_product_of (P : local -> Prop) (h : hs) : Prop :=
  canonical h /\ h <> Full /\ forall s, In s (factors h) <-> P s.
