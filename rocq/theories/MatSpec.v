(** Specification vocabulary for matrices of operators (C45) and SLH systems (C09-C12, C38). *)
From Verif Require Import Prelude AlgSpec CAlg MatModel SlhModel.

(** Index set of the Ito generator of an n-channel system: the row/column of the
    drift, of the constant, and one per channel. *)
Inductive ix := iT | iB | iC (k : nat).
Definition ixs (n : nat) : list ix := iT :: iB :: map iC (seq 0 n).
Definition inb (n : nat) (i : ix) : Prop := match i with iC k => k < n | _ => True end.

Section Spec.
  Context {M : calgebra}.
  Notation A := (A M).

  (** the array really has [n] rows of [m] entries *)
  Definition has_shape (a : matrix A) (n m : nat) : Prop :=
    nrows a = n /\ ncols a = m /\ length (rows a) = n /\ Forall (fun r => length r = m) (rows a).

  Definition delta (i j : nat) : A := if i =? j then a1 else a0.
  (** [sum_{k < n} f k] *)
  Definition bigsum (n : nat) (f : nat -> A) : A := asum f (seq 0 n).

  (** the leading [k] rows/columns are decoupled from the others: every entry that
      connects them passes the test [zb] for zero *)
  Definition split_at (zb : A -> bool) (a : matrix A) (n k : nat) : Prop :=
    forall i j, i < n -> j < n -> (i < k <= j \/ j < k <= i) -> zb (ent a i j) = true.

  (** S^dagger S = 1 and S S^dagger = 1 for an n x n matrix *)
  Definition isometry (s : matrix A) (n : nat) : Prop :=
    forall i j, i < n -> j < n -> bigsum n (fun k => amul (star (ent s k i)) (ent s k j)) = delta i j.
  Definition coisometry (s : matrix A) (n : nat) : Prop :=
    forall i j, i < n -> j < n -> bigsum n (fun k => amul (ent s i k) (star (ent s j k))) = delta i j.

  (** an SLH triple with [n] channels: S is n x n, L is n x 1 *)
  Definition system (a : slh M) (n : nat) : Prop := has_shape (sS a) n n /\ has_shape (sL a) n 1.
  (** the physical ones: unitary S, self-adjoint H *)
  Definition physical (a : slh M) (n : nat) : Prop :=
    system a n /\ isometry (sS a) n /\ coisometry (sS a) n /\ star (sH a) = sH a.

  (** the n-channel system in which every channel passes through *)
  Definition passthrough (a : slh M) (n : nat) : Prop :=
    system a n /\ (forall i j, i < n -> j < n -> ent (sS a) i j = delta i j) /\
    (forall i, i < n -> ent (sL a) i 0 = a0) /\ sH a = a0.

  (** What a feedback inversion oracle may do: a returned scalar really is the
      inverse. [closed_under_star] and [inverts_one] hold for the code because the
      adjoint of [c * Identity] is [conj(c) * Identity]. *)
  Definition sound_inv (inv : A -> res (K M)) : Prop :=
    forall x w, inv x = Ok w -> amul (smul w a1) x = a1.
  Definition inv_star (inv : A -> res (K M)) : Prop :=
    forall x w, inv x = Ok w -> exists w', inv (star x) = Ok w'.
  Definition inv_one (inv : A -> res (K M)) : Prop := exists w, inv a1 = Ok w.

  (** The Ito generator of an SLH triple (Gough and James, "The series product
      and its application to quantum feedforward and feedback networks"):
      [[1, -L^dagger S, -iH - L^dagger L/2], [0, S, L], [0, 0, 1]] *)
  Definition generator (n : nat) (a : slh M) (i j : ix) : A :=
    match i, j with
    | iT, iT => a1
    | iT, iC l => aopp (bigsum n (fun k => amul (star (ent (sL a) k 0)) (ent (sS a) k l)))
    | iT, iB => aadd (smul (kopp iu) (sH a))
                     (aopp (smul khalf (bigsum n (fun k => amul (star (ent (sL a) k 0)) (ent (sL a) k 0)))))
    | iC k, iC l => ent (sS a) k l
    | iC k, iB => ent (sL a) k 0
    | iB, iB => a1
    | _, _ => a0
    end.
  (** G applied to a vector of fields [x] *)
  Definition apply_gen (n : nat) (G : ix -> ix -> A) (x : ix -> A) (i : ix) : A :=
    asum (fun k => amul (G i k) (x k)) (ixs n).
End Spec.
