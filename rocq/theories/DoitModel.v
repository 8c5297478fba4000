(** [doit], [rebuild] and [rewrite_with_operator_pm_cc] for operators.
    /repo/src/qnet/algebra/core/abstract_algebra.py:421-500, 544-565, 602-609;
    /repo/src/qnet/algebra/core/operator_algebra.py:569-570, 730-734, 957-1010.
    Not modelled: instance caching (see CreateModel), indexed sums (see IdxModel),
    derivatives, pseudo-inverses, null-space projectors. *)
From Coq Require Import QArith Qcanon.
From Verif Require Import Prelude SortModel BinModel OpModel.
Local Open Scope nat_scope.

Section Doit.
Context {S : scalars}.
Local Notation op := (op S).
Local Notation ocreators := (ocreators S).

(** which classes are listed in [classes] ([None]: all of them). Only Commutator and
    OperatorPlusMinusCC have their own [_doit]; for all others [_doit] returns the
    expression itself, abstract_algebra.py:502-508 *)
Record classes := { in_comm : bool; in_pm : bool }.
Definition all_classes : classes := {| in_comm := true; in_pm := true |}.

Section Step.
Context (K : ocreators) (tr : list nat -> op -> res op).

(** [cls.create(...)] for the local operators: only Phase and Displace have rules
    (_rules.py:263-274) *)
Definition atom_create (a : atom S) : op :=
  match a with APhase u l => phase_create u l | ADisp u l => disp_create u l | _ => OAtom a end.

(** [e.__class__.create(f(arg)... )]: the common part of doit
    (abstract_algebra.py:476-493) and apply_rules with no rules (556-565). Numbers,
    labels and Hilbert spaces are left alone, coefficients are ScalarValues. The
    [create] of Adjoint delegates to [_adjoint], operator_algebra.py:655-678; [tr] is
    OperatorTrace.create (see TrModel). *)
Definition map_args (f : op -> res op) (e : op) : res op :=
  match e with
  | OZero | OOne => Ok e
  | OAtom a => Ok (atom_create a)
  | OScal c t => do t' <- f t; k_scal K c t'
  | OPlus l => do l' <- mapM f l; k_plus K l'
  | OTimes l => do l' <- mapM f l; k_times K l'
  | OComm a b => do a' <- f a; do b' <- f b; k_comm K a' b'
  | OAdj a => do a' <- f a; oadj K a'
  | OTr a h => do a' <- f a; tr h a'
  | OPM s a => do a' <- f a; Ok (OPM s a')
  end.

(** [e._doit()]: operator_algebra.py:569-570, 730-734; for classes not listed, [e] *)
Definition doit1 (cl : classes) (e : op) : res op :=
  match e with
  | OComm a b => if in_comm cl then written_out K a b else Ok e
  | OPM s a =>
    if in_pm cl then
      do a' <- oadj K a;
      if s then k_plus K [a; a'] else osub K a a'
    else Ok e
  | _ => Ok e
  end.

(** [e.doit(classes, recursive)], abstract_algebra.py:468-500, with recursion depth
    at most [n] *)
Fixpoint doit (n : nat) (cl : classes) (recursive : bool) (e : op) : res op :=
  match n with
  | 0 => Err OutOfFuel
  | Datatypes.S m =>
    do new <- doit1 cl e;
    if oeqb new e || recursive then
      do new' <- map_args (doit m cl recursive) new;
      if negb (oeqb new' e) && recursive then doit m cl recursive new' else Ok new'
    else Ok new
  end.

(** [e.rebuild()], abstract_algebra.py:602-609 *)
Fixpoint rebuild_e (n : nat) (e : op) : res op :=
  match n with 0 => Err OutOfFuel | Datatypes.S m => map_args (rebuild_e m) e end.

(** The temporary rules of OperatorPlus, operator_algebra.py:971-1008. *)
(** if B.adjoint() == A: return r, else raise CannotSimplify *)
Definition if_adjoint (b a : op) (r : outcome op) : outcome op :=
  match oadj K b with
  | Ok b' => if oeqb b' a then r else Refuses
  | Err CannotSimplify => Refuses
  | Err x => Raises x
  end.
Definition pm1 (x y : op) : outcome op := if_adjoint y x (Replaces (Some (OPM true x))).
Definition pm2 (x y : op) : outcome op :=
  match x with
  | OScal c b => if seqb c sm1 then if_adjoint b y (Replaces (Some (OPM false y))) else NoMatch
  | _ => NoMatch
  end.
Definition pm3 (x y : op) : outcome op :=
  match x, y with
  | OScal c a, OScal d b =>
    if_adjoint b a
      (if seqb c d then olift (k_scal K c (OPM true a))
       else if seqb c (sneg d) then olift (k_scal K c (OPM false a))
       else Refuses)
  | _, _ => NoMatch
  end.
Definition pm_cls : bincls op :=
  {| binary_rules := [pm1; pm2; pm3]; is_neutral := is_zero; neutral := OZero;
     instance_args := fun o => match o with OPlus l => Some l | _ => None end |}.
End Step.

Context (dim : nat -> option nat) (olt : op -> op -> bool) (slt : list nat -> list nat -> bool).
Context (ord : list op -> res (list op)).

(** OperatorPlus.create with these rules: assoc, orderby, collect_summands,
    match_replace_binary (algebraic_properties.py:353-389) *)
Definition pm_plus_step (K : ocreators) (fuel : nat) (ops : list op) : res op :=
  do fops <- collect_summands K (pysorted (ofull_lt olt slt) (flat_plus ops));
  match fops with
  | [] => Ok OZero
  | [x] => Ok x
  | _ =>
    do r <- match_replace_binary (pm_cls K) fuel fops;
    match r with inl e => Ok e | inr l => Ok (OPlus l) end
  end.
Fixpoint pm_creators_n (n : nat) : ocreators :=
  match n with
  | 0 => {| k_scal := fun _ _ => Err OutOfFuel; k_plus := fun _ => Err OutOfFuel;
            k_times := fun _ => Err OutOfFuel; k_comm := fun _ _ => Err OutOfFuel |}
  | Datatypes.S m =>
    let K := pm_creators_n m in
    {| k_scal := scal_step K; k_plus := pm_plus_step K m;
       k_times := times_step dim ord K m; k_comm := comm_step olt slt K |}
  end.
(** [rewrite_with_operator_pm_cc(e)]: the whole expression is rebuilt within the
    context of these rules. [trace] is OperatorTrace.create for given entry points.
    Not modelled: the [_instances] of the other classes, which keep what they hold. *)
Definition rewrite_pm (trace : ocreators -> list nat -> op -> res op) (n m : nat) (e : op) : res op :=
  let K := pm_creators_n n in rebuild_e K (trace K) m e.
End Doit.

(** expressions without partial traces *)
Definition no_trace {S : scalars} (h : list nat) (e : op S) : res (op S) := Err Unmodelled.
