(** Vocabulary for the library components (C60). *)
From Verif Require Import Prelude AlgSpec CAlg MatModel SlhModel MatSpec.

Section Spec.
  Context {M : calgebra} (kexp kcos ksin : K M -> K M).
  Notation K := (K M). Notation A := (A M).
  Definition real (x : K) : Prop := kconj x = x.
  (** what is used of [exp], [cos] and [sin] at real arguments *)
  Record circular : Prop := {
    cos_real : forall t, real t -> real (kcos t);
    sin_real : forall t, real t -> real (ksin t);
    cos_sin : forall t, real t -> kadd (kmul (kcos t) (kcos t)) (kmul (ksin t) (ksin t)) = k1;
    cos_0 : kcos k0 = k1;
    sin_0 : ksin k0 = k0;
    cos_add : forall s t, real s -> real t -> kcos (kadd s t) = kadd (kmul (kcos s) (kcos t)) (kopp (kmul (ksin s) (ksin t)));
    sin_add : forall s t, real s -> real t -> ksin (kadd s t) = kadd (kmul (ksin s) (kcos t)) (kmul (kcos s) (ksin t));
    exp_euler : forall t, real t -> kexp (kmul iu t) = kadd (kcos t) (kmul iu (ksin t)) }.
  (** every number of modulus one is [exp(i phi)], and every pair of numbers on
      the unit sphere has polar coordinates *)
  Definition has_arg : Prop := forall z : K, kmul (kconj z) z = k1 -> exists t, real t /\ z = kexp (kmul iu t).
  Definition has_polar : Prop := forall z w : K, kadd (kmul (kconj z) z) (kmul (kconj w) w) = k1 ->
    exists t p q, real t /\ real p /\ real q /\ z = kmul (kcos t) (kexp (kmul iu p)) /\ w = kmul (ksin t) (kexp (kmul iu q)).
  (** the SLH triple with scattering matrix [[a, b], [c, d]] and no dynamics *)
  Definition scatters (s : slh M) (a b c d : K) : Prop :=
    system s 2 /\ ent (sS s) 0 0 = smul a a1 /\ ent (sS s) 0 1 = smul b a1 /\
    ent (sS s) 1 0 = smul c a1 /\ ent (sS s) 1 1 = smul d a1 /\
    ent (sL s) 0 0 = a0 /\ ent (sL s) 1 0 = a0 /\ sH s = a0.
  (** [[a, b], [c, d]] is unitary *)
  Definition unitary2 (a b c d : K) : Prop :=
    kadd (kmul (kconj a) a) (kmul (kconj c) c) = k1 /\
    kadd (kmul (kconj b) b) (kmul (kconj d) d) = k1 /\
    kadd (kmul (kconj a) b) (kmul (kconj c) d) = k0.
  (** [sum_ij L_i^dagger S_ij alpha_j] *)
  Definition coupling (n : nat) (s : slh M) (alpha : nat -> K) : A :=
    bigsum n (fun i => bigsum n (fun j => smul (alpha j) (amul (star (ent (sL s) i 0)) (ent (sS s) i j)))).
End Spec.
