(** The Pauli operators on two levels g, e of a local space l, written with the transition
    operators |j><k| of an interpretation. Specification vocabulary for C62. *)
From Coq Require Import ZArith QArith Qcanon.
From Verif Require Import Prelude AlgSpec CAlg HilbertModel BasisModel OpModel OpSpec.
Local Open Scope nat_scope.
Section Spec.
Context {S : scalars} {dim : nat -> option nat} (I : interp S dim) (l g e : nat).
Local Notation "x - y" := (aadd x (smul (kopp k1) y)).
Local Notation "x + y" := (aadd x y).
Local Notation kb j k := (isigma (i:=I) j k l).   (* |j><k| *)
(** X = |g><e| + |e><g|, Y = -i |g><e| + i |e><g|, Z = |g><g| - |e><e| *)
Definition sx : A I := (kb g e) + (kb e g).
Definition sy : A I := smul (kopp iu) (kb g e) + smul iu (kb e g).
Definition sz : A I := (kb g g) - (kb e e).
(** the projector on the two levels *)
Definition s_id : A I := (kb g g) + (kb e e).
End Spec.
(** the 2x2 matrices in the documentation; rows and columns are g, e *)
Section Matrices.
Context {S : scalars} (r : reading S) (g e : nat).
Definition two_by_two (a b c d : K r) : nat -> nat -> K r := fun i j =>
  if i =? g then (if j =? g then a else if j =? e then b else k0)
  else if i =? e then (if j =? g then c else if j =? e then d else k0)
  else k0.
End Matrices.

(** the level of the local space [s] named by an integer or by a basis label *)
Definition names_level (s : local) (a : lbl) (j : nat) : Prop :=
  match a, l_basis s with
  | Idx i, None => i = Z.of_nat j
  | Idx i, Some b => i = Z.of_nat j /\ j < length b
  | Lab x, Some b => nth_error b j = Some x /\ forall k, k < j -> nth_error b k <> Some x
  | Lab _, None => False
  end.
(** the levels meant by the argument [states]: the two given ones; without argument the two
    lowest levels *)
Definition two_levels (s : local) (states : option (list lbl)) (g e : nat) : Prop :=
  match states with
  | Some [a; b] => names_level s a g /\ names_level s b e
  | Some _ => False
  | None => g = 0 /\ e = 1 /\ match l_basis s with
                             | None => True
                             | Some b => exists x y b', b = x :: y :: b' /\ x <> y
                             end
  end.
(** operators call the local space [s] by [ls] *)
Definition space_of (dim : nat -> option nat) (s : local) (ls : nat) : Prop := dim ls = option_map (@length _) (l_basis s).
