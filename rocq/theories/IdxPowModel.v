(** Integer powers of indexed scalar sums: ScalarIndexedSum.__pow__,
    /repo/src/qnet/algebra/core/scalar_algebra.py:1010-1031. The product of two sums is that of
    IdxModel.v (QuantumIndexedSum.__mul__). Not modelled: negative exponents (the reciprocal
    of a power), other exponents (ScalarPower.create). *)
From Coq Require Import List ZArith.
From Verif Require Import Prelude BasisModel IdxModel.
Import ListNotations.

(** [for _ in range(other - 1): res = res * self] *)
Fixpoint pow_loop (t : term) (rs : list irange_of) (k : nat) (acc : term) : res term :=
  match k with
  | 0 => Ok acc
  | S k' =>
    match acc with
    | TSum u us => do r <- mul_sums u us t rs; pow_loop t rs k' r
    | _ => Err Unmodelled
    end
  end.
(** [S ** n]; [None] is One *)
Definition sum_pow (t : term) (rs : list irange_of) (n : Z) : res (option term) :=
  if (n =? 0)%Z then Ok None
  else if (n =? 1)%Z then Ok (Some (TSum t rs))
  else if (1 <? n)%Z then do r <- pow_loop t rs (Z.to_nat (n - 1)) (TSum t rs); Ok (Some r)
  else Err Unmodelled.
