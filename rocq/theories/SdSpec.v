(** What derivatives of scalar expressions mean: a derivation of the ring of values. *)
From Verif Require Import Prelude ScalarModel ScalarSpec.

(** the derivative of a value by the symbol: additive, product rule, power rule for constant
    exponents *)
Record sderivation {V : pyvals} (M : smeaning V) := {
  dd : sK M -> sK M;
  dd_add : forall a b, dd (qadd a b) = qadd (dd a) (dd b);
  dd_mul : forall a b, dd (qmul a b) = qadd (qmul (dd a) b) (qmul a (dd b));
  dd_pow : forall x y, dom x y -> dom x (qadd y (qopp q1)) -> dd y = q0 ->
    dd (qpow x y) = qmul (qmul y (qpow x (qadd y (qopp q1)))) (dd x);
  (* a power of constants is a constant *)
  dd_const : forall x y, dom x y -> dd x = q0 -> dd y = q0 -> dd (qpow x y) = q0
}.
Arguments dd {V M} s.

Section Spec.
  Context {V : pyvals} (M : smeaning V) (D : sderivation M).
  (** SymPy differentiates correctly; objects without the symbol, and plain numbers, are
      constants; the tidying does not change the value *)
  Record calculus (vsympy vfree : V -> bool) (vdiff : V -> V) (afree : nat -> bool) (adiff : nat -> res (scal V)) (tidy : scal V -> res (scal V)) : Prop := {
    c_diff : forall v, vden M (vdiff v) = dd D (vden M v);
    c_number : forall v, vsympy v = false -> dd D (vden M v) = q0;
    c_free : forall v, vfree v = false -> dd D (vden M v) = q0;
    c_afree : forall n, afree n = false -> dd D (aden M n) = q0;
    c_adiff : forall n r, adiff n = Ok r -> has_value M r (dd D (aden M n));
    c_tidy : forall s r, slegal M s -> tidy s = Ok r -> has_value M r (sden M s)
  }.
  (** expressions to which the power rule applies: every exponent is constant, and the power
      with the exponent lowered by one makes sense. In a product this is also asked of the
      product of the remaining factors, as ScalarTimes.create returns it. *)
  Inductive smooth (times : list (operand V) -> res (scal V)) : scal V -> Prop :=
  | sm_zero : smooth times SZero
  | sm_one : smooth times SOne
  | sm_val v : smooth times (SVal v)
  | sm_atom n : smooth times (SAtom n)
  | sm_plus l : (forall x, In x l -> smooth times x) -> smooth times (SPlus l)
  | sm_times x l : smooth times x -> (forall y, In y l -> smooth times y) ->
      (forall r, times (map Obj l) = Ok r -> smooth times r) -> smooth times (STimes (x :: l))
  | sm_pow b e : smooth times b -> smooth times e -> dd D (sden M e) = q0 -> dom (sden M b) (qadd (sden M e) (qopp q1)) -> smooth times (SPow b e).
End Spec.
