(** What the power series of a scalar means. Specification vocabulary for C69. *)
From Coq Require Import ZArith.
From Verif Require Import Prelude ScalarModel ScalarSpec.
Local Open Scope nat_scope.

(** Values that may depend on a parameter: [spt] is the deviation of the parameter from the
    expansion point; some values are constant; the remainders of expansions are taken from a
    class of regular values (bounded near the expansion point). [s_split] makes expansions
    unique. *)
Record sparam {V : pyvals} (M : smeaning V) := {
  spt : sK M;
  scst : sK M -> Prop;
  sreg : sK M -> Prop;
  s_0 : scst q0;
  s_1 : scst q1;
  s_add : forall x y, scst x -> scst y -> scst (qadd x y);
  s_mul : forall x y, scst x -> scst y -> scst (qmul x y);
  s_opp : forall x, scst x -> scst (qopp x);
  s_reg : forall x, scst x -> sreg x;
  sreg_add : forall x y, sreg x -> sreg y -> sreg (qadd x y);
  sreg_mul : forall x y, sreg x -> sreg y -> sreg (qmul x y);
  sreg_pt : sreg spt;
  s_split : forall c x, scst c -> sreg x -> qadd c (qmul spt x) = q0 -> c = q0 /\ x = q0
}.
Arguments spt {V M}. Arguments scst {V M}. Arguments sreg {V M}.

Section Spec.
  Context {V : pyvals} {M : smeaning V} (P : sparam M).
  (** x multiplied with itself; a natural number as a value *)
  Fixpoint qtimes (x : sK M) (n : nat) : sK M := match n with 0 => q1 | S m => qmul x (qtimes x m) end.
  Fixpoint qnat (n : nat) : sK M := match n with 0 => q0 | S m => qadd q1 (qnat m) end.
  (** c_0 + c_1 (x - x_0) + c_2 (x - x_0)^2 + ... *)
  Definition polynomial (cs : list (sK M)) : sK M :=
    ssum M (map (fun nc => qmul (qtimes (spt P) (fst nc)) (snd nc)) (combine (seq 0 (length cs)) cs)).
  (** [v] is that polynomial up to a multiple of (x - x_0)^(number of coefficients) *)
  Definition expands (v : sK M) (cs : list (sK M)) : Prop :=
    Forall (scst P) cs /\ exists r, sreg P r /\ v = qadd (polynomial cs) (qmul (qtimes (spt P) (length cs)) r).
  (** the n-th coefficient of a product *)
  Definition cauchy (cs ds : list (sK M)) (n : nat) : sK M :=
    ssum M (map (fun k => qmul (nth k cs q0) (nth (n - k) ds q0)) (seq 0 (S n))).
  (** the terms up to the requested order *)
  Fixpoint low_terms (order : nat) (l : list (V * option Z)) : list (V * option Z) :=
    match l with
    | [] => []
    | (c, Some o) :: rest => if (o <=? Z.of_nat order)%Z then (c, Some o) :: low_terms order rest else []
    | (c, None) :: rest => (c, None) :: low_terms order rest
    end.
  Definition term_value (t : V * option Z) : sK M :=
    match snd t with Some o => qmul (qtimes (spt P) (Z.to_nat o)) (vden M (fst t)) | None => q0 end.
  Definition nonsingular (t : V * option Z) : Prop := exists o, snd t = Some o /\ (0 <= o)%Z.
  Fixpoint increasing (last : Z) (l : list (V * option Z)) : Prop :=
    match l with
    | [] => True
    | (_, Some o) :: rest => (last < o)%Z /\ increasing o rest
    | (_, None) :: rest => increasing last rest
    end.
  (** If none of the terms is singular: increasing exponents, constant coefficients, and their
      sum is the given value up to a multiple of the next power. Plain numbers are constant.
      The integer n is the sum of n ones, and powers with it are repeated products. Other
      expressions expand as they should. *)
  Record expander (vsympy : V -> bool) (terms : V -> nat -> list (V * option Z)) (aseries : nat -> res (list (scal V))) (order : nat) : Prop := {
    x_terms : forall v, vsympy v = true -> let l := low_terms order (terms v order) in
      Forall nonsingular l -> increasing (-1) l /\ Forall (fun t => scst P (vden M (fst t))) l /\
      exists r, sreg P r /\ vden M v = qadd (ssum M (map term_value l)) (qmul (qtimes (spt P) (S order)) r);
    x_number : forall v, vsympy v = false -> scst P (vden M v);
    x_nat : forall n, vden M (vZ (Z.of_nat n)) = qnat n;
    x_pow : forall x n, qpow x (qnat n) = qtimes x n;
    x_atoms : forall k l, aseries k = Ok l -> length l = S order /\ Forall (slegal M) l /\ expands (aden M k) (map (sden M) l)
  }.
  (** sums have at least two operands (QuantumPlus objects with fewer do not exist) *)
  Fixpoint sproper (e : scal V) : Prop :=
    match e with
    | SPlus l => l <> [] /\ fold_right (fun x Q => sproper x /\ Q) True l
    | STimes l => fold_right (fun x Q => sproper x /\ Q) True l
    | SPow b x => sproper b /\ sproper x
    | _ => True
    end.
End Spec.
