(** Power series of operators: [expr.series_expand(param, about, order)].
    /repo/src/qnet/algebra/core/abstract_quantum_algebra.py:159-216, 365-372, 455-457,
    492-495, 535-546, 624-627, 1071-1093 and
    /repo/src/qnet/algebra/core/operator_algebra.py:588-597, scalar_algebra.py:267-291.
    Not modelled: local operators whose arguments depend on the parameter (their
    derivatives are OperatorDerivative objects), OperatorTrace. *)
From Coq Require Import QArith Qcanon.
From Verif Require Import Prelude BinModel OpModel.
Local Open Scope nat_scope.

Section Series.
Context {S : scalars}.
Local Notation op := (op S).
(** What comes from SymPy: the terms (coefficient, exponent) that
    [sympy.series(c, x=param, x0=0, n=None)] generates for a coefficient, up to the
    first exponent above a given order ([None]: not an integer), for a number just
    the number itself; and whether a coefficient is free of the parameter. *)
Context (terms : S -> nat -> list (S * option Z)) (free : S -> bool).
Context (K : ocreators S) (order : nat).

(** ScalarValue._series_expand, scalar_algebra.py:267-291, the loop from [next_order] on *)
Fixpoint scalar_loop (next : nat) (l : list (S * option Z)) : res (list S) :=
  match l with
  | [] => Ok (repeat s0 (order + 1 - next))
  | (c, o) :: rest =>
    match o with
    | None => Err ValueError
    | Some o =>
      if (o <? 0)%Z then Err ValueError
      else if (Z.of_nat order <? o)%Z then Ok (repeat s0 (order + 1 - next))
      else do r <- scalar_loop (Z.to_nat o + 1) rest;
           Ok (repeat s0 (Z.to_nat o - next) ++ c :: r)
    end
  end.
(** [coeff.series_expand]: the entries are made type-stable, abstract_quantum_algebra.py:190-201 *)
Definition scalar_series (c : S) : res (list S) :=
  do l <- scalar_loop 0 (terms c order);
  Ok (map (fun v => if seqb v s0 then s0 else if seqb v s1 then s1 else v) l).

(** [zip] *)
Fixpoint zip_all {A} (ls : list (list A)) : list (list A) :=
  match ls with
  | [] => []
  | [l] => map (fun x => [x]) l
  | l :: rest => map (fun p => fst p :: snd p) (combine l (zip_all rest))
  end.

(** the entries of the series of a product are operators or the scalar Zero (here
    [None]). [sum += summand]: Zero plus an operator is the operator's [__radd__],
    abstract_quantum_algebra.py:216-229 *)
Definition add_to (acc : option op) (x : op) : res op :=
  match acc with
  | Some a => k_plus K [a; x]
  | None => do z <- k_scal K s0 OOne; k_plus K [x; z]
  end.

(** _series_expand_combine_prod, abstract_quantum_algebra.py:1071-1093, for factors of
    type [A] with their [is_zero] and product *)
Definition prod_summand {A} (zero : A -> bool) (mul : A -> op -> res op) (c1 : list A) (c2 : list op) (n k : nat) : res (option op) :=
  do a <- of_option IndexError (nth_error c1 k);
  do b <- of_option IndexError (nth_error c2 (n - k));
  if zero a || is_zero b then Ok None else do p <- mul a b; Ok (Some p).
Definition combine_prod {A} (zero : A -> bool) (mul : A -> op -> res op) (c1 : list A) (c2 : list op) : res (list (option op)) :=
  mapM (fun n =>
    do summands <- mapM (prod_summand zero mul c1 c2 n) (seq 0 (Datatypes.S n));
    match summands with
    | [] => Err IndexError
    | x :: rest =>
      foldM (fun acc s => match s with None => Ok acc | Some p => do r <- add_to acc p; Ok (Some r) end) x rest
    end) (seq 0 (Datatypes.S order)).

(** the type-stability loop of [series_expand], abstract_quantum_algebra.py:190-201, for an
    operator *)
Definition stable (l : list (option op)) : list op :=
  map (fun v => match v with None => OZero | Some e => if is_zero e then OZero else e end) l.
Definition stable_ops (l : list op) : list op := stable (map Some l).

(** an expression that does not depend on the parameter: abstract_quantum_algebra.py:203-214
    (all derivatives vanish), 365-372 *)
Definition constant (e : op) : list op := stable (Some e :: repeat None order).
Definition atom_free (a : atom S) : bool :=
  match a with
  | APhase u _ | ADisp u _ | ASqueeze u _ => free u
  | _ => true
  end.

Fixpoint series (e : op) : res (list op) :=
  match e with
  | OZero | OOne => Ok (constant e)
  | OAtom a => if atom_free a then Ok (constant e) else Err Unmodelled
  | OScal c t =>
    do ce <- scalar_series c;
    do te <- series t;
    do r <- combine_prod (fun c => seqb c s0) (k_scal K) ce te;
    Ok (stable r)
  | OPlus l =>
    do ls <- (fix go (l : list op) : res (list (list op)) :=
                match l with [] => Ok [] | x :: l' => do s <- series x; do r <- go l'; Ok (s :: r) end) l;
    do r <- mapM (k_plus K) (zip_all ls);
    Ok (stable_ops r)
  | OTimes l =>
    match l with
    | [] | [_] => Err AssertionError
    | _ =>
      (fix go (l : list op) : res (list op) :=
         match l with
         | [] => Err AssertionError
         | [x] => series x
         | x :: rest =>
           do c1 <- series x;
           do c2 <- go rest;
           do r <- combine_prod is_zero (fun a b => k_times K [a; b]) c1 c2;
           Ok (stable r)
         end) l
    end
  | OComm a b =>
    do sa <- series a;
    do sb <- series b;
    do r <- mapM (fun n =>
      do cs <- mapM (fun k => do x <- of_option IndexError (nth_error sa k);
                              do y <- of_option IndexError (nth_error sb (n - k));
                              k_comm K x y) (seq 0 (Datatypes.S n));
      k_plus K cs) (seq 0 (Datatypes.S order));
    Ok (stable_ops r)
  | OAdj a => do s <- series a; do r <- mapM (oadj K) s; Ok (stable_ops r)
  | OTr _ _ => Err Unmodelled
  (* SingleQuantumOperation._series_expand does not pass the keyword [sign] on *)
  | OPM _ a => do s <- series a; Ok (stable_ops (map (OPM true) s))
  end.
End Series.
