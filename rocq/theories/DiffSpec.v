(** Derivatives with respect to a real parameter. Specification vocabulary for C54. *)
From Coq Require Import QArith Qcanon.
From Verif Require Import Prelude AlgSpec CAlg OpModel OpSpec.
Local Open Scope nat_scope.

(** An interpretation in which coefficients and operators depend on a real parameter:
    [dK c c']: c' is the derivative of the coefficient c; [dA x x']: x' is the derivative of
    the operator x. Linearity, product rules, the conjugation commutes with
    it, partial traces of constants are constant. *)
Record derivation {S : scalars} {dim : nat -> option nat} (I : interp S dim) := {
  dK : K I -> K I -> Prop;
  dA : A I -> A I -> Prop;
  dK_Q : forall q, dK (kQ q) k0;
  dA_0 : dA a0 a0;
  dA_1 : dA a1 a0;
  dA_add : forall x x' y y', dA x x' -> dA y y' -> dA (aadd x y) (aadd x' y');
  dA_mul : forall x x' y y', dA x x' -> dA y y' -> dA (amul x y) (aadd (amul x' y) (amul x y'));
  dA_smul : forall c c' x x', dK c c' -> dA x x' -> dA (smul c x) (aadd (smul c' x) (smul c x'));
  dA_star : forall x x', dA x x' -> dA (star x) (star x');
  dA_trace : forall h x, dA x a0 -> dA (itrace h x) a0;
  dA_unique : forall x x' x'', dA x x' -> dA x x'' -> x' = x''
}.
Arguments dK {S dim I}. Arguments dA {S dim I}.

Section Contract.
  Context {S : scalars} {dim : nat -> option nat} {I : interp S dim} (D : derivation I).
  (** what is expected of SymPy *)
  Record sympy_diff (dep : S -> bool) (dS simp : S -> S) : Prop := {
    sd_diff : forall c, dep c = true -> dK D (ev c) (ev (dS c));
    sd_const : forall c, dep c = false -> dK D (ev c) k0;
    sd_simp : forall c, ev (r:=I) (simp c) = ev c
  }.
  (** what the symbols that stand for derivatives mean; symbols and local operators
      without the parameter among their arguments do not depend on it *)
  Record symbols_diff (dep : S -> bool) (sym_dep sym_moves : nat -> bool) (dname : atom S -> nat) : Prop := {
    sy_der : forall a, legal_atom I a -> dA D (atom_val I a) (isym (dname a) (atom_space a));
    sy_const : forall n h, sym_dep n = false \/ sym_moves n = false -> dA D (isym n h) a0;
    sy_local : forall a, legal_atom I a ->
      match a with ASym _ _ => False | APhase u _ | ADisp u _ | ASqueeze u _ => dep u = false | _ => True end ->
      dA D (atom_val I a) a0
  }.
  (** the n-th derivative *)
  Fixpoint nth_derivative (n : nat) (x x' : A I) : Prop :=
    match n with
    | 0 => x' = x
    | Datatypes.S p => exists y, dA D x y /\ nth_derivative p y x'
    end.
End Contract.
