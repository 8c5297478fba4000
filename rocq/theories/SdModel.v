(** Derivatives of scalar expressions: [expr.diff(sym)] for a Scalar and a SymPy symbol.
    /repo/src/qnet/algebra/core/abstract_quantum_algebra.py:127-154 (diff), 470-471
    (QuantumPlus), 547-552 (QuantumTimes), algebraic_properties.py:960-976,
    scalar_algebra.py:245-249 (ScalarValue), 530-531, 698-699 (Zero, One), 1071-1077
    (ScalarPower). Scalars, their creators and operators are those of ScalarModel.
    Not modelled: repeated derivatives, evaluation at points, ScalarIndexedSum. *)
From Verif Require Import Prelude SortModel BinModel OpModel ScalarModel.
Local Open Scope nat_scope.

Section Sd.
Context {V : pyvals}.
Local Notation scal := (scal V).
Context (K : screators V).
(** What comes from SymPy: whether the wrapped value is a SymPy object, whether the symbol
    is among its free symbols, [sympy.diff(val, sym)]. *)
Context (vsympy vfree : V -> bool) (vdiff : V -> V).
(** Other scalar expressions (BraKet, ...): whether the symbol is free in them, [_diff]. *)
Context (afree : nat -> bool) (adiff : nat -> res scal).
(** [.expand().simplify_scalar()] *)
Context (tidy : scal -> res scal).

(** whether [sym.free_symbols] is contained in [expr.free_symbols], abstract_algebra.py:420-433 *)
Fixpoint sdepends (e : scal) : bool :=
  match e with
  | SZero | SOne => false
  | SVal v => vfree v
  | SAtom n => afree n
  | SPlus l | STimes l => existsb sdepends l
  | SPow b x => sdepends b || sdepends x
  end.
(** [diff(sym)], abstract_quantum_algebra.py:127-154, given [_diff] *)
Definition sdiff_by (rec : scal -> res scal) (x : scal) : res scal :=
  if sdepends x then do d <- rec x; if s_eqb d SZero then Ok d else tidy d else Ok SZero.
(** [e._diff(sym)], with recursion depth at most [n] *)
Fixpoint sudiff (n : nat) (e : scal) : res scal :=
  match n with
  | 0 => Err OutOfFuel
  | S p =>
    match e with
    | SZero | SOne => Ok SZero
    | SVal v => if vsympy v then create (vdiff v) else Ok SZero
    | SAtom k => adiff k
    (* sum([o.diff(sym) for o in self.operands], Zero) *)
    | SPlus l =>
      do ds <- mapM (sdiff_by (sudiff p)) l;
      foldM (fun a d => x_add K a (Obj d)) SZero ds
    (* first.diff(sym) * rest + first * rest.diff(sym) *)
    | STimes l =>
      match l with
      | [] | [_] => Err AssertionError
      | first :: others =>
        do rest <- k_times K (map Obj others);
        do first' <- sdiff_by (sudiff p) first;
        do x <- x_mul K first' (Obj rest);
        do rest' <- sdiff_by (sudiff p) rest;
        do y <- x_mul K first (Obj rest');
        x_add K x (Obj y)
      end
    (* inner = self.base._diff(sym); self.exp * ScalarPower.create(self.base, self.exp - 1) * inner *)
    | SPow b x =>
      do inner <- sudiff p b;
      if s_is 0 inner then Ok SZero
      else
        do x1 <- x_sub K x (Raw (vZ 1));
        do pw <- k_pow K (Obj b) (Obj x1);
        do y <- x_mul K x (Obj pw);
        x_mul K y (Obj inner)
    end
  end.
(** [e.diff(sym)] *)
Definition sdiff (n : nat) (e : scal) : res scal := sdiff_by (sudiff n) e.
End Sd.
