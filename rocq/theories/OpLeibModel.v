(** [expand_commutators_leibniz], /repo/src/qnet/algebra/toolbox/commutator_manipulation.py:14-63,
    with the rule application of /repo/src/qnet/algebra/core/abstract_algebra.py:694-790, and
    the coefficient functions of /repo/src/qnet/algebra/library/spin_algebra.py:391-464. *)
From Coq Require Import QArith Qcanon.
From Verif Require Import Prelude SortModel BinModel OpModel.
Local Open Scope nat_scope.

Section Leib.
  Context {S : scalars} (K : ocreators S).
  Local Notation op := (op S).
  (** leibniz_right, commutator_manipulation.py:36-40 *)
  Definition leibniz_right (a : op) (bc : list op) : res op :=
    match bc with
    | [] => Err IndexError
    | b :: rest =>
      do c <- k_times K rest;
      do ab <- k_comm K a b;
      do x <- k_times K [ab; c];
      do ac <- k_comm K a c;
      do y <- k_times K [b; ac];
      k_plus K [x; y]
    end.
  (** leibniz_left, 42-46: the remaining factors are put together by the constructor,
      which wants at least two of them (abstract_quantum_algebra.py:509-512) *)
  Definition leibniz_left (ab : list op) (c : op) : res op :=
    match ab with
    | [] => Err IndexError
    | a :: rest =>
      if length rest <=? 1 then Err TypeError
      else
        let b := OTimes rest in
        do bc <- k_comm K b c;
        do x <- k_times K [a; bc];
        do ac <- k_comm K a c;
        do y <- k_times K [ac; b];
        k_plus K [x; y]
    end.

  Section Rec.
  (** [recurse]: expand_commutators_leibniz itself, and the depth left for [expand] *)
  Context (recurse : op -> res op) (m : nat).
  Definition try_leibniz (r : res op) (next : res op) : res op :=
    match (do x <- r; do e <- expand K m x; recurse e) with
    | Err CannotSimplify => next
    | other => other
    end.
  (** _apply_rules_no_recurse (abstract_algebra.py:694-709) with the two rules, 48-54 *)
  Definition leibniz_rules (e : op) : res op :=
    match e with
    | OComm a b =>
      let second := match a with OTimes ab => try_leibniz (leibniz_left ab b) (Ok e) | _ => Ok e end in
      match b with OTimes bc => try_leibniz (leibniz_right a bc) second | _ => second end
    | _ => Ok e
    end.
  (** _apply_rules (abstract_algebra.py:712-790): rebuild bottom-up. Simplification: local
      operators and symbols are re-instantiated as themselves. *)
  Fixpoint leibniz_apply (e : op) : res op :=
    let go := fix go (l : list op) : res (list op) :=
      match l with [] => Ok [] | x :: l' => do x' <- leibniz_apply x; do r <- go l'; Ok (x' :: r) end in
    match e with
    | OZero | OOne | OAtom _ => Ok e
    | OScal c t => do t' <- leibniz_apply t; do r <- k_scal K c t'; leibniz_rules r
    | OPlus l => do l' <- go l; do r <- k_plus K l'; leibniz_rules r
    | OTimes l => do l' <- go l; do r <- k_times K l'; leibniz_rules r
    | OComm a b => do a' <- leibniz_apply a; do b' <- leibniz_apply b; do r <- k_comm K a' b'; leibniz_rules r
    | OAdj a => do a' <- leibniz_apply a; do r <- oadj K a'; leibniz_rules r
    | OTr _ _ => Err Unmodelled
    | OPM s a => do a' <- leibniz_apply a; Ok (OPM s a')
    end.
  End Rec.

  (** expand_commutators_leibniz with nesting depth at most [n] *)
  Fixpoint expand_commutators_leibniz (n m : nat) (expand_expr : bool) (e : op) : res op :=
    match n with
    | 0 => Err OutOfFuel
    | Datatypes.S n' =>
      let recurse := expand_commutators_leibniz n' m expand_expr in
      if expand_expr then
        do e1 <- expand K m e;
        do e2 <- leibniz_apply recurse m e1;
        expand K m e2
      else leibniz_apply recurse m e
    end.
End Leib.

(** ** The coefficient functions *)
(** the argument [m]: a label (given by its position among the basis labels, [None]
    if there is no such label), an integer, or a SymPy number *)
Inductive marg := MStr (pos : option nat) | MInt (m : Z) | MNum (q : Qc).
Section Coeff.
  Context {S : scalars} (dim : nat -> option nat).
  (** [m] as a quantum number, or the exception. [basis_ok]: whether the code uses the
      existing attribute [basis_labels] *)
  Definition quantum_number (basis_ok : bool) (n : nat) (m : marg) (shift : bool) : res Qc :=
    let s := spin_of n in
    match m with
    | MStr pos => if basis_ok then match pos with Some i => Ok (qn i - s)%Qc | None => Err ValueError end else Err AttributeError
    | MInt z => if shift then if ((0 <=? z) && (z <? Z.of_nat n))%Z then Ok (qz z - s)%Qc else Err AssertionError else Ok (qz z)
    | MNum q => Ok q
    end.
  (** Jpjmcoeff, spin_algebra.py:391-423 *)
  Definition jp_coeff (ls : nat) (m : marg) (shift : bool) : res S :=
    match dim ls with
    | None => Err AssertionError
    | Some n => do q <- quantum_number true n m shift; let s := spin_of n in Ok (ssqrt (s * (s + 1) - q * (q + 1))%Qc)
    end.
  (** Jmjmcoeff, spin_algebra.py:445-464: a label is looked up in [ls.basis] *)
  Definition jm_coeff (ls : nat) (m : marg) (shift : bool) : res S :=
    match dim ls with
    | None => Err AssertionError
    | Some n => do q <- quantum_number false n m shift; let s := spin_of n in Ok (ssqrt (s * (s + 1) - q * (q - 1))%Qc)
    end.
  (** Jzjmcoeff, spin_algebra.py:426-443: [None] stands for Python's None *)
  Definition jz_coeff (ls : nat) (m : marg) (shift : bool) : res (option S) :=
    match dim ls with
    | None => Err AssertionError
    | Some n =>
      match m with
      | MInt _ => if shift then do q <- quantum_number false n m shift; Ok (Some (sQ q)) else Ok None
      | _ => do q <- quantum_number false n m shift; Ok (Some (sQ q))
      end
    end.
End Coeff.
