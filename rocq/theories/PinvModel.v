(** Pseudo-inverses of operators: [op.pseudo_inverse()] and [PseudoInverse.create(op)].
    /repo/src/qnet/algebra/core/operator_algebra.py:62-78, 247-248, 272-273, 300-301,
    438-439, 466-467, 480-482, 500-502, 605-606, 670-671, 685-686, 720-721, 730-734,
    737-761, library/fock_operators.py:36-37, 79-80, 129-130, 168, 205,
    library/spin_algebra.py:315-316, 351-352, 387-388,
    abstract_quantum_algebra.py:262-270.
    Simplifications: an unevaluated PseudoInverse object is a symbol on the space of its
    operand, with a name that stands for the operand ([pi_name], [pi_of]); no rule matches
    it, and its adjoint is the unevaluated Adjoint, as in the code. OperatorDerivative,
    NullSpaceProjector, OperatorIndexedSum and KetBra, which give unevaluated objects too,
    are symbols. *)
From Coq Require Import QArith Qcanon.
From Verif Require Import Prelude BinModel OpModel.
Local Open Scope nat_scope.

Section Pinv.
Context {S : scalars}.
Local Notation op := (op S).
(** [1 / c] for a coefficient (SymPy) *)
Context (sinv : S -> S).
(** names of the PseudoInverse objects, and the operand of the object with a given name *)
Context (pi_name : op -> nat) (pi_of : nat -> option op).
Context (K : ocreators S).

(** [PseudoInverse(x)]: operator_algebra.py:737-761 *)
Definition pi_obj (x : op) : op := OAtom (ASym (pi_name x) (space x)).

(** [_pseudo_inverse] of local operators and symbols: operator_algebra.py:247-248,
    438-439, 757-758, fock_operators.py:36-37, 79-80, 129-130, 168, 205,
    spin_algebra.py:315-316, 351-352, 387-388 *)
Definition atom_pinv (a : atom S) : op :=
  match a with
  | ASym n h =>
    match pi_of n with
    | Some x => if list_eq_dec Nat.eq_dec (space x) h then x else pi_obj (OAtom a)
    | None => pi_obj (OAtom a)
    end
  | ACreate _ | ADestroy _ | AJp _ | AJm _ | AJz _ => pi_obj (OAtom a)
  | ASigma j k l => OAtom (ASigma k j l)
  | APhase u l => phase_create (sneg u) l
  | ADisp u l => disp_create (sneg u) l
  | ASqueeze u l => OAtom (ASqueeze (sneg u) l)
  end.

(** [_doit] of OperatorPlusMinusCC: operator_algebra.py:730-734 *)
Definition pm_doit (s : bool) (a : op) : res op :=
  do a' <- oadj K a; if s then k_plus K [a; a'] else osub K a a'.

(** [op.pseudo_inverse()] *)
Fixpoint pinv (e : op) : res op :=
  match e with
  | OZero => Ok OZero
  | OOne => Ok OOne
  | OAtom a => Ok (atom_pinv a)
  | OScal c t => do t' <- pinv t; k_scal K (sinv c) t'            (* 500-502 *)
  | OPlus _ | OComm _ _ | OTr _ _ => Ok (pi_obj e)                (* 466-467, 605-606, 670-671 *)
  | OTimes l =>                                                   (* 480-482 *)
    do l' <- (fix go (l : list op) : res (list op) :=
      match l with [] => Ok [] | x :: l' => do x' <- pinv x; do r <- go l'; Ok (x' :: r) end) l;
    k_times K (rev l')
  | OAdj a => do a' <- pinv a; oadj K a'                          (* 685-686 *)
  | OPM s a => do d <- pm_doit s a; Ok (pi_obj d)                 (* 720-721 *)
  end.

(** [PseudoInverse.create(x)] for an operator or a scalar: scalars_to_op
    (algebraic_properties.py:550-560), then delegate_to_method('_pseudo_inverse') *)
Definition pinv_create (x : op + S) : res op :=
  match x with inl e => pinv e | inr c => do e <- k_scal K c OOne; pinv e end.
End Pinv.
