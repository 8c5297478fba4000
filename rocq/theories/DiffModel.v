(** Derivatives of operators: [expr.diff(sym, n, expand_simplify)] for a SymPy symbol
    [sym], and [expr.simplify_scalar()].
    /repo/src/qnet/algebra/core/abstract_quantum_algebra.py:118-157, 358-375, 420-433,
    450-453, 470-471, 497-498, 548-552, 600-601, 629-643, algebraic_properties.py:947-976,
    operator_algebra.py:226-235, 266-267, 294-295, 598-600, 660-663, 713-715,
    scalar_algebra.py:245-255.
    Simplifications: an OperatorDerivative object (the derivative of a symbol with
    arguments, or of a local operator) is represented by a symbol on the same space,
    whose name stands for the object; it is not matched by any rule. Its adjoint, which
    the code writes as the derivative of the adjoint, is written as the adjoint of the symbol. Not modelled:
    evaluation of derivatives at points ([vals]), non-atomic [sym], OperatorTrace. *)
From Coq Require Import QArith Qcanon.
From Verif Require Import Prelude BinModel OpModel.
Local Open Scope nat_scope.

Section Diff.
Context {S : scalars}.
Local Notation op := (op S).
Local Notation atom := (atom S).
(** What comes from SymPy: whether [sym] is among the free symbols of a coefficient,
    [sympy.diff(c, sym)], [sympy.simplify(c)]. *)
Context (dep : S -> bool) (dS : S -> S) (simp : S -> S).
(** Symbols with scalar arguments: whether [sym] occurs in an argument (or the label),
    whether the derivative of an argument is nonzero; the name of the derivative of
    a symbol or local operator. *)
Context (sym_dep sym_moves : nat -> bool) (dname : atom -> nat).
(** whether two results are the same object ([is]); only equal expressions are *)
Context (same : op -> op -> bool).
Context (K : ocreators S).

(** [sym in expr.free_symbols]: abstract_algebra.py:629-639, 793-799,
    abstract_quantum_algebra.py:381-389, 600-601 *)
Definition atom_dep (a : atom) : bool :=
  match a with
  | ASym n _ => sym_dep n
  | APhase u _ | ADisp u _ | ASqueeze u _ => dep u
  | _ => false
  end.
Fixpoint depends (e : op) : bool :=
  match e with
  | OZero | OOne => false
  | OAtom a => atom_dep a
  | OScal c t => dep c || depends t
  | OPlus l | OTimes l => existsb depends l
  | OComm a b => depends a || depends b
  | OAdj a | OTr a _ | OPM _ a => depends a
  end.

(** [c.diff(sym)] for a coefficient: abstract_quantum_algebra.py:138-154, scalar_algebra.py:245-255 *)
Definition scal_diff (c : S) : S :=
  if dep c then let d := dS c in if seqb d s0 then s0 else simp d else s0.

(** Squeeze.create: _rules.py:306-309 *)
Definition squeeze_create (u : S) (ls : nat) : op := if seqb u s0 then OOne else OAtom (ASqueeze u ls).
(** operator_algebra.py:229-235 *)
Definition atom_simplify (a : atom) : op :=
  match a with
  | APhase u l => phase_create (simp u) l
  | ADisp u l => disp_create (simp u) l
  | ASqueeze u l => squeeze_create (simp u) l
  | _ => OAtom a
  end.
Fixpoint all_same (l l' : list op) : bool :=
  match l, l' with
  | [], [] => true
  | x :: m, y :: m' => same x y && all_same m m'
  | _, _ => false
  end.
(** [e.simplify_scalar()]: abstract_quantum_algebra.py:118-125, 373-375, 420-433, 633-643 *)
Fixpoint simplify (e : op) : res op :=
  let simps := fix go (l : list op) : res (list op) :=
    match l with [] => Ok [] | x :: l' => do x' <- simplify x; do r <- go l'; Ok (x' :: r) end in
  match e with
  | OZero | OOne => Ok e
  | OAtom a => Ok (atom_simplify a)
  | OScal c t => do t' <- simplify t; k_scal K (simp c) t'
  | OPlus l => do l' <- simps l; if all_same l l' then Ok e else k_plus K l'
  | OTimes l => do l' <- simps l; if all_same l l' then Ok e else k_times K l'
  | OComm a b =>
    do a' <- simplify a; do b' <- simplify b;
    if same a a' && same b b' then Ok e else k_comm K a' b'
  | OAdj a => do a' <- simplify a; if same a a' then Ok e else oadj K a'
  | OPM s a => do a' <- simplify a; if same a a' then Ok e else Ok (OPM s a')
  | OTr _ _ => Err Unmodelled
  end.

(** the end of [diff], abstract_quantum_algebra.py:145-147; [m] bounds the recursion
    depth of [expand] *)
Context (m : nat).
Definition clean (d : op) : res op :=
  if is_zero d then Ok d else do d' <- expand K m d; simplify d'.

(** OperatorDerivative(a, derivs={sym: 1}) *)
Definition derivative_of (a : atom) : op := OAtom (ASym (dname a) (atom_space a)).
(** abstract_quantum_algebra.py:358-363, operator_algebra.py:226-227 *)
Definition atom_diff (a : atom) : op :=
  match a with
  | ASym n _ => if sym_moves n then derivative_of a else OZero
  | _ => derivative_of a
  end.

(** [x.diff(sym)], abstract_quantum_algebra.py:127-154, given [_diff] *)
Definition diff_by (rec : op -> res op) (x : op) : res op :=
  if depends x then do d <- rec x; clean d else Ok OZero.
(** [e._diff(sym)], with recursion depth at most [n] *)
Fixpoint udiff (n : nat) (e : op) : res op :=
  match n with
  | 0 => Err OutOfFuel
  | Datatypes.S p =>
    let diff := diff_by (udiff p) in
    match e with
    | OZero | OOne => Ok OZero
    | OAtom a => Ok (atom_diff a)
    | OScal c t =>
      do x <- k_scal K (scal_diff c) t;
      do t' <- diff t;
      do y <- k_scal K c t';
      k_plus K [x; y]
    | OPlus l =>
      do l' <- mapM diff l;
      foldM (fun a b => k_plus K [a; b]) OZero l'
    | OTimes l =>
      match l with
      | [] | [_] => Err AssertionError
      | first :: others =>
        do rest <- k_times K others;
        do first' <- diff first;
        do x <- k_times K [first'; rest];
        do rest' <- diff rest;
        do y <- k_times K [first; rest'];
        k_plus K [x; y]
      end
    | OComm a b =>
      do a' <- diff a;
      do b' <- diff b;
      k_plus K [OComm a' b; OComm a b']
    | OAdj a => do a' <- diff a; oadj K a'
    | OTr _ _ => Err Unmodelled
    | OPM _ _ => Err AttributeError       (* self.operands._diff: operands is a tuple *)
    end
  end.

(** derivative_via_diff, algebraic_properties.py:960-976, for one symbol: the check is
    made once, before the loop *)
Fixpoint repeated (n : nat) (times : nat) (e : op) : res op :=
  match times with 0 => Ok e | Datatypes.S t => do d <- udiff n e; repeated n t d end.
(** [e.diff(sym, times, expand_simplify)], abstract_quantum_algebra.py:127-154 *)
Definition diff (n : nat) (times : nat) (tidy : bool) (e : op) : res op :=
  if depends e then
    do d <- repeated n times e;
    if tidy then clean d else Ok d
  else Ok OZero.
End Diff.
