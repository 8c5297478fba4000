(** What bases, labels and ranges mean. *)
From Coq Require Import List ZArith.
From Verif Require Import Prelude SortModel HilbertModel BasisModel.
Import ListNotations.

(** [bs] are the basis labels of the local spaces [l] *)
Definition have_bases (l : list local) (bs : list (list str)) : Prop :=
  Forall2 (fun s b => l_basis s = Some b) l bs.
(** an index tuple picks one position in every basis *)
Definition index_tuple (bs : list (list str)) (is : list nat) : Prop :=
  Forall2 (fun i b => i < length b) is bs.
(** position of an index tuple in row-major (lexicographic) order: the last
    index runs fastest *)
Definition rank (ds is : list nat) : nat :=
  fold_left (fun acc di => acc * fst di + snd di) (combine ds is) 0.
Definition product_of (ds : list nat) : nat := fold_right Nat.mul 1 ds.
(** the labels that the index tuple picks *)
Definition picked (bs : list (list str)) (is : list nat) : list str :=
  map (fun bi => nth (snd bi) (fst bi) []) (combine bs is).
Definition comma_free (w : str) : Prop := ~ In comma w.
