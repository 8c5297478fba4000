(** Adiabatic elimination: what the limit should be. Specification vocabulary for C55.
    The formulas are those of the limit theorem of Bouten, van Handel and Silberfarb for
    the quantum stochastic differential equation with the coefficients
    K = k^2 Y + k A + B, L_j^dagger = k F_j + G_j, N = S^dagger. *)
From Verif Require Import Prelude AlgSpec CAlg MatModel SlhModel MatSpec AdModel.

(** A real parameter k, and the operators that do not depend on it. *)
Record scaling (M : calgebra) := {
  kk : K M;
  kk_real : kconj kk = kk;
  const : A M -> Prop;
  const_add : forall x y, const x -> const y -> const (aadd x y);
  const_mul : forall x y, const x -> const y -> const (amul x y);
  const_star : forall x, const x -> const (star x);
  const_half : forall x, const x -> const (smul khalf x);
  const_i : forall x, const x -> const (smul iu x);
  const_unique : forall b a y b' a' y', const b -> const a -> const y -> const b' -> const a' -> const y' ->
    aadd (aadd b (smul kk a)) (smul (kmul kk kk) y) = aadd (aadd b' (smul kk a')) (smul (kmul kk kk) y') ->
    b = b' /\ a = a' /\ y = y'
}.
Arguments kk {M}. Arguments const {M}.

Section Spec.
  Context {M : calgebra}.
  Notation A := (A M). Notation K := (K M).
  Notation "x + y" := (aadd x y). Notation "x * y" := (amul x y). Notation "- x" := (aopp x).
  (** series_expand finds the coefficients of polynomials in k (C33) *)
  Definition series_ok (C : scaling M) (ser : nat -> A -> res (list A)) : Prop :=
    (forall b a y cs, const C b -> const C a -> const C y ->
       ser 2 (b + smul (kk C) a + smul (kmul (kk C) (kk C)) y) = Ok cs -> cs = [b; a; y]) /\
    (forall g f cs, const C g -> const C f -> ser 1 (g + smul (kk C) f) = Ok cs -> cs = [g; f]).
  (** the model depends on k as required, with the coefficients h0, h1, h2, f_j, g_j *)
  Definition scales (C : scaling M) (a : slh M) (n : nat) (h0 h1 h2 : A) (f g : nat -> A) : Prop :=
    const C h0 /\ const C h1 /\ const C h2 /\ (forall j, j < n -> const C (f j) /\ const C (g j)) /\
    sH a = h0 + smul (kk C) h1 + smul (kmul (kk C) (kk C)) h2 /\
    (forall j, j < n -> star (ent (sL a) j 0) = g j + smul (kk C) (f j)).

  (** P0 is the projection to the kernel of Y, Yt the inverse of Y on the complement *)
  Definition slow_space (y yt p0 : A) : Prop :=
    p0 * p0 = p0 /\ star p0 = p0 /\ y * p0 = a0 /\ p0 * y = a0 /\
    y * yt = a1 + - p0 /\ yt * y = a1 + - p0 /\ yt * p0 = a0 /\ p0 * yt = a0.

  (** the coefficients of the limit *)
  Section Limit.
    Context (n : nat) (y a b yt p0 : A) (f g : nat -> A) (w : nat -> nat -> A).
    Definition lim_K : A := p0 * (b + - (a * yt * a)) * p0.
    Definition lim_L (j : nat) : A := p0 * (g j + - (a * yt * f j)) * p0.
    Definition lim_M (i : nat) : A :=
      - (bigsum n (fun j => p0 * w i j * (star (g j) + - (star (f j) * yt * a)) * p0)).
    Definition lim_N (i j : nat) : A :=
      bigsum n (fun l => p0 * w i l * (star (f l) * yt * f j + delta l j) * p0).
    (** the slow space is invariant *)
    Definition closed : Prop :=
      (forall j, Nat.lt j n -> p0 * (g j + - (a * yt * f j)) * (a1 + - p0) = a0) /\
      (forall i j, Nat.lt i n -> Nat.lt j n -> bigsum n (fun l => p0 * w i l * (star (f l) * yt * f j + delta l j)) * (a1 + - p0) = a0).
    Definition closed_back : Prop :=
      forall i j, Nat.lt i n -> Nat.lt j n -> (a1 + - p0) * bigsum n (fun l => w i l * (star (f l) * yt * f j + delta l j)) * p0 = a0.
  End Limit.
  (** sums of squares vanish only if all the squares do *)
  Definition definite : Prop := forall n (x : nat -> A), bigsum n (fun j => star (x j) * x j) = a0 -> forall j, Nat.lt j n -> x j = a0.
End Spec.
