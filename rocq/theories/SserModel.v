(** Power series of scalar expressions: [expr.series_expand(param, about, order)] for a Scalar.
    /repo/src/qnet/algebra/core/abstract_quantum_algebra.py:159-216 (series_expand), 492-495
    (QuantumPlus), 535-546 (QuantumTimes), 1071-1093, scalar_algebra.py:267-291 (ScalarValue),
    1079-1095 (ScalarPower). Scalars, their creators and operators are those of ScalarModel.
    Not modelled: ScalarIndexedSum, ScalarDerivative. *)
From Coq Require Import ZArith.
From Verif Require Import Prelude SortModel BinModel OpModel ScalarModel OpSeriesModel.
Local Open Scope nat_scope.

Section Sser.
Context {V : pyvals}.
Local Notation scal := (scal V).
Context (K : screators V).
(** What comes from SymPy and Python: whether the wrapped value is a SymPy object; the terms
    (coefficient, exponent) that [sympy.series(c, x=param, x0=0, n=None)] generates for it, up to
    the first exponent above a given order ([None]: not an integer); [int(val)]. *)
Context (vsympy : V -> bool) (terms : V -> nat -> list (V * option Z)) (vint : V -> res Z).
(** [series_expand] of other scalar expressions (BraKet, ...) *)
Context (aseries : nat -> res (list scal)) (order : nat).

(** ScalarValue._series_expand, scalar_algebra.py:273-289, the loop from [next_order] on *)
Fixpoint term_loop (next : nat) (l : list (V * option Z)) : res (list V) :=
  match l with
  | [] => Ok (repeat (vZ 0) (order + 1 - next))
  | (c, o) :: rest =>
    match o with
    | None => Err ValueError
    | Some o =>
      if (o <? 0)%Z then Err ValueError
      else if (Z.of_nat order <? o)%Z then Ok (repeat (vZ 0) (order + 1 - next))
      else do r <- term_loop (Z.to_nat o + 1) rest; Ok (repeat (vZ 0) (Z.to_nat o - next) ++ c :: r)
    end
  end.
(** scalar_algebra.py:267-291 *)
Definition value_series (v : V) : res (list scal) :=
  if vsympy v then do l <- term_loop 0 (terms v order); mapM create l else Ok (SVal v :: repeat SZero order).
(** _series_expand_combine_prod, abstract_quantum_algebra.py:1071-1093 *)
Definition sum_from (l : list scal) : res scal :=
  match l with
  | [] => Err IndexError
  | x :: rest => foldM (fun acc s => if s_is 0 s then Ok acc else x_add K acc (Obj s)) x rest
  end.
Definition prod_entry (c1 c2 : list scal) (n k : nat) : res scal :=
  do a <- of_option IndexError (nth_error c1 k);
  do b <- of_option IndexError (nth_error c2 (n - k));
  if s_is 0 a || s_is 0 b then Ok SZero else x_mul K a (Obj b).
Definition combine_series (c1 c2 : list scal) : res (list scal) :=
  mapM (fun n => do summands <- mapM (prod_entry c1 c2 n) (seq 0 (S n)); sum_from summands) (seq 0 (S order)).
(** [int(self.exp)]: only ScalarValue, Zero and One have [__int__] *)
Definition s_int (e : scal) : res Z :=
  match e with SZero => Ok 0%Z | SOne => Ok 1%Z | SVal v => vint v | _ => Err TypeError end.
(** the loop of [series_expand] that makes the entries type-stable, abstract_quantum_algebra.py:193-201 *)
Definition fix_entry (v : scal) : scal := if s_is 0 v then SZero else if s_is 1 v then SOne else v.
(** [e.series_expand(param, about, order)], with recursion depth at most [n]. For Zero and One
    the general method, abstract_quantum_algebra.py:203-214, in which all derivatives are Zero. *)
Fixpoint sseries (n : nat) (e : scal) : res (list scal) :=
  match n with
  | 0 => Err OutOfFuel
  | S p =>
    do l <-
      match e with
      | SZero | SOne => Ok (e :: repeat SZero order)
      | SVal v => value_series v
      | SAtom k => aseries k
      | SPlus l => do ls <- mapM (sseries p) l; mapM (fun t => k_plus K (map Obj t)) (zip_all ls)
      | STimes l =>
        match l with
        | [] | [_] => Err AssertionError
        | [x; y] => do c1 <- sseries p x; do c2 <- sseries p y; combine_series c1 c2
        | x :: rest => do c1 <- sseries p x; do c2 <- sseries p (STimes rest); combine_series c1 c2
        end
      | SPow b x =>
        do z <- s_int x;
        if s_is z x && (0 <? z)%Z then
          (* ScalarTimes needs two operands *)
          if (z =? 1)%Z then Err TypeError else sseries p (STimes (repeat b (Z.to_nat z)))
        else Err ValueError
      end;
    Ok (map fix_entry l)
  end.
End Sser.
