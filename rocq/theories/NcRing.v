(** The decision procedure for non-commutative rings, on the elements of a
    complex *-algebra. *)
From Coq Require Import Ncring Ncring_tac.
From Verif Require Import AlgSpec CAlg.

#[export] Instance Aops (M : calgebra) : @Ring_ops (A M) a0 a1 aadd amul (fun x y => aadd x (aopp y)) aopp eq := {}.
#[export] Instance Aring (M : calgebra) : (@Ring _ _ _ _ _ _ _ _ (Aops M)).
Proof.
  constructor; unfold equality, eq_notation, addition, add_notation, multiplication, mul_notation, opposite,
    opp_notation, subtraction, sub_notation, zero, zero_notation, one, one_notation;
    try typeclasses eauto; intros; try (repeat intro; subst; reflexivity).
  - apply aadd_0.
  - apply aadd_comm.
  - apply aadd_assoc.
  - apply amul_1l.
  - apply amul_1r.
  - apply amul_assoc.
  - apply amul_addl.
  - apply amul_addr.
  - apply aadd_opp.
Qed.

(** terms built from [aadd], [amul], [aopp], [a0], [a1] *)
Ltac ncr := non_commutative_ring.
