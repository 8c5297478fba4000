(** Specification vocabulary for matrices (C66). *)
From Verif Require Import Prelude AlgSpec CAlg MatModel MarModel.

Section Spec.
  Context {T : Type}.
  (** the array really has [n] rows of [m] entries *)
  Definition shaped (a : matrix T) (n m : nat) : Prop :=
    nrows a = n /\ ncols a = m /\ length (rows a) = n /\ Forall (fun r => length r = m) (rows a).
  (** the entry in row [i], column [j] *)
  Definition cell (a : matrix T) (i j : nat) : option T :=
    match nth_error (rows a) i with Some r => nth_error r j | None => None end.
End Spec.

Section Numbers.
  Context {M : calgebra}.
  Definition is_number (o : entry M) : Prop := match o with MNum _ _ => True | MOp _ => False end.
  (** a number whose real and imaginary part the code can get directly *)
  Definition has_parts (o : entry M) : Prop :=
    match o with MNum HasReal _ | MNum Sympy _ => True | _ => False end.
  (** the operator that an entry stands for *)
  Definition entry_value (o : entry M) : A M := match o with MNum _ c => smul c a1 | MOp x => x end.
  (** the operator in row [i], column [j] of a matrix of entries *)
  Definition at_ (a : matrix (entry M)) (i j : nat) : A M :=
    match cell a i j with Some o => entry_value o | None => a0 end.
End Numbers.
