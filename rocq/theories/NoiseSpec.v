(** The quantum Langevin equation of an SLH model. Specification vocabulary for C56. *)
From Verif Require Import Prelude AlgSpec CAlg MatModel SlhModel MatSpec.

(** an index of the noise: the time, or a channel *)
Inductive noise := Time | Chan (j : nat).
Section Spec.
  Context {M : calgebra}.
  Notation A := (A M).
  Notation "x + y" := (aadd x y). Notation "x * y" := (amul x y). Notation "- x" := (aopp x).
  Definition comm (x y : A) : A := x * y + - (y * x).
  (** the structure maps: the coefficients of dt, of db_i^dagger, of db_j and of
      db_i^dagger db_j in the equation of motion of X (Hudson and Parthasarathy) *)
  Definition theta (n : nat) (a : slh M) (x : A) (m v : noise) : A :=
    let s := ent (sS a) in let l k := ent (sL a) k 0 in
    match m, v with
    | Time, Time =>
        smul iu (comm (sH a) x) +
        bigsum n (fun k => star (l k) * x * l k + - smul khalf (star (l k) * l k * x + x * star (l k) * l k))
    | Chan i, Time => bigsum n (fun k => star (s k i) * comm x (l k))
    | Time, Chan j => bigsum n (fun k => comm (star (l k)) x * s k j)
    | Chan i, Chan j => bigsum n (fun k => star (s k i) * x * s k j) + - (delta i j * x)
    end.
  Definition in_range (n : nat) (m : noise) : Prop := match m with Time => True | Chan j => Nat.lt j n end.
  (** the equation of motion with the input fields b_j *)
  Definition langevin (n : nat) (th : noise -> noise -> A) (b : nat -> A) : A :=
    th Time Time + bigsum n (fun i => star (b i) * th (Chan i) Time) + bigsum n (fun j => th Time (Chan j) * b j)
    + bigsum n (fun i => bigsum n (fun j => th (Chan i) (Chan j) * (star (b i) * b j))).
  (** [th] generates a flow of *-homomorphisms: d(XY) = dX Y + X dY + dX dY with the
      quantum Ito table, the flow respects adjoints and the identity (Evans and Hudson) *)
  Definition flow (n : nat) (th : A -> noise -> noise -> A) : Prop :=
    (forall m v, in_range n m -> in_range n v -> th a1 m v = a0) /\
    (forall x m v, in_range n m -> in_range n v -> star (th x m v) = th (star x) v m) /\
    (forall x y m v, in_range n m -> in_range n v -> th (x + y) m v = th x m v + th y m v) /\
    (forall x y m v, in_range n m -> in_range n v ->
       th (x * y) m v = th x m v * y + x * th y m v + bigsum n (fun k => th x m (Chan k) * th y (Chan k) v)).
End Spec.
