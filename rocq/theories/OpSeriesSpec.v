(** Expansion in powers of a real parameter. Specification vocabulary for C33. *)
From Coq Require Import QArith Qcanon.
From Verif Require Import Prelude AlgSpec CAlg OpModel OpSpec.
Local Open Scope nat_scope.

(** An interpretation in which operators may depend on a parameter: [pt] is the
    deviation of the parameter from the expansion point, some operators are constant,
    and the remainders of expansions are taken from a class of regular operators
    (think of operator-valued functions bounded near the expansion point).
    [pt_split] makes expansions unique: a constant plus [pt] times a regular operator
    vanishes only if both do. *)
Record param {S : scalars} {dim : nat -> option nat} (I : interp S dim) := {
  pt : K I;
  pt_real : kconj pt = pt;
  cst : A I -> Prop;
  reg : A I -> Prop;
  cst_0 : cst a0;
  cst_1 : cst a1;
  cst_add : forall x y, cst x -> cst y -> cst (aadd x y);
  cst_mul : forall x y, cst x -> cst y -> cst (amul x y);
  cst_neg : forall x, cst x -> cst (smul (kopp k1) x);
  cst_star : forall x, cst x -> cst (star x);
  reg_cst : forall x, cst x -> reg x;
  reg_add : forall x y, reg x -> reg y -> reg (aadd x y);
  reg_mul : forall x y, reg x -> reg y -> reg (amul x y);
  reg_pt : forall x, reg x -> reg (smul pt x);
  reg_star : forall x, reg x -> reg (star x);
  pt_split : forall c x, cst c -> reg x -> aadd c (smul pt x) = a0 -> c = a0 /\ x = a0
}.
Arguments pt {S dim I}. Arguments cst {S dim I}. Arguments reg {S dim I}.

Fixpoint kpow {M : algebra} (x : K M) (n : nat) : K M :=
  match n with 0 => k1 | Datatypes.S m => kmul x (kpow x m) end.

Section Expands.
  Context {S : scalars} {dim : nat -> option nat} {I : interp S dim} (P : param I).
  (** c_0 + c_1 (x - x_0) + c_2 (x - x_0)^2 + ... *)
  Definition polynomial (cs : list (A I)) : A I :=
    msum I (map (fun nc => smul (kpow (pt P) (fst nc)) (snd nc)) (combine (seq 0 (length cs)) cs)).
  (** [v] is that polynomial up to a multiple of (x - x_0)^(number of coefficients) *)
  Definition expands (v : A I) (cs : list (A I)) : Prop :=
    Forall (cst P) cs /\
    exists r, reg P r /\ v = aadd (polynomial cs) (smul (kpow (pt P) (length cs)) r).
  (** the n-th coefficient of a product *)
  Definition cauchy (cs ds : list (A I)) (n : nat) : A I :=
    msum I (map (fun k => amul (nth k cs a0) (nth (n - k) ds a0)) (seq 0 (Datatypes.S n))).
  (** What is expected of SymPy. The terms up to the requested order: *)
  Fixpoint low_terms (order : nat) (l : list (S * option Z)) : list (S * option Z) :=
    match l with
    | [] => []
    | (c, Some o) :: rest => if (o <=? Z.of_nat order)%Z then (c, Some o) :: low_terms order rest else []
    | (c, None) :: rest => (c, None) :: low_terms order rest
    end.
  Definition term_value (t : S * option Z) : A I :=
    match snd t with Some o => smul (kpow (pt P) (Z.to_nat o)) (smul (ev (fst t)) a1) | None => a0 end.
  Definition nonsingular (t : S * option Z) : Prop := exists o, snd t = Some o /\ (0 <= o)%Z.
  Fixpoint increasing (last : Z) (l : list (S * option Z)) : Prop :=
    match l with
    | [] => True
    | (_, Some o) :: rest => (last < o)%Z /\ increasing o rest
    | (_, None) :: rest => increasing last rest
    end.
  (** if none of them is singular: increasing exponents, constant coefficients, and
      their sum is the given coefficient up to a multiple of the next power *)
  Definition sympy_ok (terms : S -> nat -> list (S * option Z)) (order : nat) (c : S) : Prop :=
    let l := low_terms order (terms c order) in
    Forall nonsingular l ->
    increasing (-1) l /\
    Forall (fun t => cst P (smul (ev (fst t)) a1)) l /\
    exists r, reg P r /\
      smul (ev c) a1 = aadd (msum I (map term_value l)) (smul (kpow (pt P) (Datatypes.S order)) r).
  (** local operators without scalar arguments, or with arguments free of the
      parameter, are constant *)
  Definition atoms_ok (free : S -> bool) : Prop :=
    forall a, match a with
              | APhase u _ | ADisp u _ | ASqueeze u _ => free u = true
              | _ => True
              end -> cst P (atom_val I a).
End Expands.

(** no OperatorPlusMinusCC with a minus sign occurs in the expression *)
Fixpoint no_minus_cc {S : Type} (e : op S) : Prop :=
  match e with
  | OZero | OOne | OAtom _ => True
  | OScal _ t => no_minus_cc t
  | OPlus l | OTimes l => fold_right (fun x P => no_minus_cc x /\ P) True l
  | OComm a b => no_minus_cc a /\ no_minus_cc b
  | OAdj a | OTr a _ => no_minus_cc a
  | OPM s a => s = true /\ no_minus_cc a
  end.
(** sums and products have at least two operands (QuantumPlus and QuantumTimes
    objects with fewer do not exist: abstract_quantum_algebra.py:482-486, 509-513) *)
Fixpoint proper {S : Type} (e : op S) : Prop :=
  match e with
  | OZero | OOne | OAtom _ => True
  | OScal _ t => proper t
  | OPlus l | OTimes l => 2 <= length l /\ fold_right (fun x P => proper x /\ P) True l
  | OComm a b => proper a /\ proper b
  | OAdj a | OTr a _ | OPM _ a => proper a
  end.
