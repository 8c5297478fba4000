(** The operator algebra: [create] of ScalarTimesOperator, OperatorPlus,
    OperatorTimes and Commutator with their simplifications and rules, adjoints,
    expansion and power series.
    /repo/src/qnet/algebra/core/operator_algebra.py,
    /repo/src/qnet/algebra/core/abstract_quantum_algebra.py,
    /repo/src/qnet/algebra/core/algebraic_properties.py and the operator rules of
    /repo/src/qnet/algebra/_rules.py:111-355.
    Not modelled here: instance caching (see CreateModel), indexed sums (see
    IdxModel), derivatives, pseudo-inverses, null-space projectors, symbolic
    level labels. *)
From Coq Require Import QArith Qcanon.
From Verif Require Import Prelude SortModel BinModel.
Local Open Scope nat_scope.

(** Coefficients: ScalarValue objects around numbers or SymPy expressions, with
    Python's arithmetic. [seqb] is [==] (structural for SymPy, so two different
    expressions of the same number may compare unequal). [sQ] gives the rational
    literals. *)
Record scalars := {
  sc :> Type;
  seqb : sc -> sc -> bool;
  sQ : Qc -> sc;
  sadd : sc -> sc -> sc;
  ssub : sc -> sc -> sc;
  smult : sc -> sc -> sc;
  sneg : sc -> sc;
  sdiv2 : sc -> sc;
  sconj : sc -> sc;
  sI : sc;
  sexp : sc -> sc;
  ssqrt : Qc -> sc
}.
Arguments seqb {s}. Arguments sQ {s}. Arguments sadd {s}. Arguments ssub {s}. Arguments smult {s}.
Arguments sneg {s}. Arguments sdiv2 {s}. Arguments sconj {s}. Arguments sI {s}.
Arguments sexp {s}. Arguments ssqrt {s}.

Definition qn (n : nat) : Qc := Q2Qc (inject_Z (Z.of_nat n)).
Definition qz (z : Z) : Qc := Q2Qc (inject_Z z).

(** Local operators and symbols: OperatorSymbol (operator_algebra.py:244-250),
    Create/Destroy/Phase/Displace/Squeeze (library/fock_operators.py),
    LocalSigma (operator_algebra.py:305-443; levels are given by their index),
    Jplus/Jminus/Jz (library/spin_algebra.py). A Hilbert space is the increasing
    list of the labels of its local factors. *)
Inductive atom (S : Type) :=
| ASym (name : nat) (h : list nat)
| ACreate (ls : nat)
| ADestroy (ls : nat)
| ASigma (j k : nat) (ls : nat)
| APhase (u : S) (ls : nat)
| ADisp (u : S) (ls : nat)
| ASqueeze (u : S) (ls : nat)
| AJp (ls : nat)
| AJm (ls : nat)
| AJz (ls : nat).
Arguments ASym {S} name h. Arguments ACreate {S} ls. Arguments ADestroy {S} ls.
Arguments ASigma {S} j k ls. Arguments APhase {S} u ls. Arguments ADisp {S} u ls.
Arguments ASqueeze {S} u ls. Arguments AJp {S} ls. Arguments AJm {S} ls. Arguments AJz {S} ls.

Inductive op (S : Type) :=
| OZero
| OOne
| OAtom (a : atom S)
| OScal (c : S) (t : op S)
| OPlus (l : list (op S))
| OTimes (l : list (op S))
| OComm (a b : op S)
| OAdj (a : op S)
| OTr (a : op S) (h : list nat)
| OPM (plus : bool) (a : op S).
Arguments OZero {S}. Arguments OOne {S}. Arguments OAtom {S} a. Arguments OScal {S} c t.
Arguments OPlus {S} l. Arguments OTimes {S} l. Arguments OComm {S} a b. Arguments OAdj {S} a.
Arguments OTr {S} a h. Arguments OPM {S} plus a.

(** ** Hilbert spaces as sets of labels *)
Fixpoint sp_insert (x : nat) (h : list nat) : list nat :=
  match h with
  | [] => [x]
  | y :: h' => if x <? y then x :: h else if x =? y then h else y :: sp_insert x h'
  end.
Definition sp_union (a b : list nat) : list nat := fold_right sp_insert b a.
Definition sp_mem (x : nat) (h : list nat) : bool := existsb (Nat.eqb x) h.
Definition sp_disjoint (a b : list nat) : bool := forallb (fun x => negb (sp_mem x b)) a.
Definition sp_diff (a b : list nat) : list nat := filter (fun x => negb (sp_mem x b)) a.

Definition atom_space {S} (a : atom S) : list nat :=
  match a with
  | ASym _ h => h
  | ACreate ls | ADestroy ls | ASigma _ _ ls | APhase _ ls | ADisp _ ls | ASqueeze _ ls
  | AJp ls | AJm ls | AJz ls => [ls]
  end.
(** [op.space]: abstract_quantum_algebra.py:401-410 (the product of the spaces of
    the operands), 611-613, operator_algebra.py:250-253, 273-276, 639-643 *)
Fixpoint space {S} (e : op S) : list nat :=
  match e with
  | OZero | OOne => []
  | OAtom a => atom_space a
  | OScal _ t => space t
  | OPlus l | OTimes l => fold_right (fun o h => sp_union (space o) h) [] l
  | OComm a b => sp_union (space a) (space b)
  | OAdj a | OPM _ a => space a
  | OTr a h => sp_diff (space a) h
  end.

(** The mutually recursive entry points: [ScalarTimesOperator.create(c, A)] (also
    reached by [c * A]), [OperatorPlus.create(ops...)] (by [A + B]),
    [OperatorTimes.create(ops...)] (by [A * B]), [Commutator.create(A, B)]. *)
Record ocreators (S : Type) := {
  k_scal : S -> op S -> res (op S);
  k_plus : list (op S) -> res (op S);
  k_times : list (op S) -> res (op S);
  k_comm : op S -> op S -> res (op S)
}.
Arguments k_scal {S} o. Arguments k_plus {S} o. Arguments k_times {S} o. Arguments k_comm {S} o.

(** what a replacement function does *)
Definition olift {A} (r : res A) : outcome A :=
  match r with Ok x => Replaces (Some x) | Err CannotSimplify => Refuses | Err e => Raises e end.

Section Op.
Context {S : scalars}.
Local Notation op := (op S).
Local Notation atom := (atom S).
Local Notation ocreators := (ocreators S).

Definition s0 : S := sQ 0%Qc.
Definition s1 : S := sQ 1%Qc.
Definition sm1 : S := sQ (- (1))%Qc.

(** Expression.__eq__ (abstract_algebra.py:363-368): same class, same arguments *)
Definition atom_eqb (a b : atom) : bool :=
  match a, b with
  | ASym n h, ASym n' h' => (n =? n') && eqb_list_nat h h'
  | ACreate x, ACreate y => x =? y
  | ADestroy x, ADestroy y => x =? y
  | ASigma j k x, ASigma j' k' y => (j =? j') && (k =? k') && (x =? y)
  | APhase u x, APhase v y => seqb u v && (x =? y)
  | ADisp u x, ADisp v y => seqb u v && (x =? y)
  | ASqueeze u x, ASqueeze v y => seqb u v && (x =? y)
  | AJp x, AJp y => x =? y
  | AJm x, AJm y => x =? y
  | AJz x, AJz y => x =? y
  | _, _ => false
  end.
Fixpoint oeqb (a b : op) {struct a} : bool :=
  let list_eqb := fix go (l m : list op) {struct l} : bool :=
    match l, m with [], [] => true | x :: l', y :: m' => oeqb x y && go l' m' | _, _ => false end in
  match a, b with
  | OZero, OZero => true
  | OOne, OOne => true
  | OAtom x, OAtom y => atom_eqb x y
  | OScal c t, OScal d u => seqb c d && oeqb t u
  | OPlus l, OPlus m => list_eqb l m
  | OTimes l, OTimes m => list_eqb l m
  | OComm x y, OComm x' y' => oeqb x x' && oeqb y y'
  | OAdj x, OAdj y => oeqb x y
  | OTr x h, OTr y h' => oeqb x y && eqb_list_nat h h'
  | OPM s x, OPM s' y => Bool.eqb s s' && oeqb x y
  | _, _ => false
  end.

Definition is_zero (e : op) : bool := match e with OZero => true | _ => false end.
Definition is_one (e : op) : bool := match e with OOne => true | _ => false end.

(** What the code takes from its environment: the dimension of a local space
    ([None] if no basis is set), the comparison of two expressions by
    [expr_order_key] and of two Hilbert spaces by [_order_key], and the sorting of
    the operands of a product, [sorted(ops, key=DisjunctCommutativeHSOrder)]
    (see [real_order] below). *)
Context (dim : nat -> option nat) (olt : op -> op -> bool) (slt : list nat -> list nat -> bool).

(** FullCommutativeHSOrder.__lt__, ordering.py:146-153 *)
Definition ofull_lt (x y : op) : bool :=
  if eqb_list_nat (space x) (space y) then olt x y else slt (space x) (space y).
(** DisjunctCommutativeHSOrder.__lt__, ordering.py:110-116 *)
Definition odisj_lt (x y : op) : bool :=
  match space x, space y with
  | [], [] => olt x y
  | _, _ => if sp_disjoint (space x) (space y) then slt (space x) (space y) else false
  end.
Definition real_order (l : list op) : res (list op) := Ok (pysorted odisj_lt l).

Context (ord : list op -> res (list op)).

(** LocalSigma.create for integer levels: the constructor raises for levels
    outside the space (operator_algebra.py:356-367); LocalSigma.raise_jk,
    operator_algebra.py:403-434, then returns ZeroOperator *)
Definition in_range (ls : nat) (j : Z) : bool :=
  (0 <=? j)%Z && match dim ls with Some d => (j <? Z.of_nat d)%Z | None => true end.
Definition raise_jk (j k ls : nat) (j_incr k_incr : Z) : op :=
  let j' := (Z.of_nat j + j_incr)%Z in
  let k' := (Z.of_nat k + k_incr)%Z in
  if in_range ls j' && in_range ls k' then OAtom (ASigma (Z.to_nat j') (Z.to_nat k') ls) else OZero.

(** Phase.create, Displace.create: _rules.py:263-274 *)
Definition phase_create (u : S) (ls : nat) : op := if seqb u s0 then OOne else OAtom (APhase u ls).
Definition disp_create (u : S) (ls : nat) : op := if seqb u s0 then OOne else OAtom (ADisp u ls).

(** Jpjmcoeff, Jmjmcoeff, Jzjmcoeff (library/spin_algebra.py:383-464) for an index
    [m] with shift=True *)
Definition spin_of (n : nat) : Qc := ((qn n - 1) / qn 2)%Qc.
Definition jp_radicand (n m : nat) : Qc :=
  let s := spin_of n in let mq := (qn m - s)%Qc in (s * (s + 1) - mq * (mq + 1))%Qc.
Definition jm_radicand (n m : nat) : Qc :=
  let s := spin_of n in let mq := (qn m - s)%Qc in (s * (s + 1) - mq * (mq - 1))%Qc.
Definition spin_coeff (ls m : nat) (f : nat -> S) : res S :=
  match dim ls with
  | None => Err AssertionError     (* assert isinstance(ls, SpinSpace) *)
  | Some n => if m <? n then Ok (f n) else Err AssertionError
  end.
Definition Jpjmcoeff (ls m : nat) : res S := spin_coeff ls m (fun n => ssqrt (jp_radicand n m)).
Definition Jmjmcoeff (ls m : nat) : res S := spin_coeff ls m (fun n => ssqrt (jm_radicand n m)).
Definition Jzjmcoeff (ls m : nat) : res S := spin_coeff ls m (fun n => sQ (qn m - spin_of n)%Qc).

Section Step.
Context (K : ocreators).

(** [A - B], abstract_quantum_algebra.py:240-241: [A + (-1) * B] *)
Definition osub (a b : op) : res op := do b' <- k_scal K sm1 b; k_plus K [a; b'].
(** [A + u] for a scalar, abstract_quantum_algebra.py:201-210 *)
Definition add_scalar (a : op) (u : S) : res op := do u' <- k_scal K u OOne; k_plus K [a; u'].

(** ScalarTimesOperator.create: match_replace with _rules.py:141-157 *)
Definition scal_step (c : S) (a : op) : res op :=
  if seqb c s1 then Ok a
  else if seqb c s0 then Ok OZero
  else match a with
       | OZero => Ok OZero
       | OScal v b => k_scal K (smult c v) b
       | OPlus l =>
         if seqb c sm1 then do l' <- mapM (k_scal K sm1) l; k_plus K l'
         else Ok (OScal c a)
       | _ => Ok (OScal c a)
       end.

(** assoc, algebraic_properties.py:44-54 *)
Definition flat_plus (ops : list op) : list op :=
  flat_map (fun o => match o with OPlus l => l | _ => [o] end) ops.
Definition flat_times (ops : list op) : list op :=
  flat_map (fun o => match o with OTimes l => l | _ => [o] end) ops.

(** collect_summands, algebraic_properties.py:147-184: the ordered dictionary of
    coefficients *)
Definition coeff_term (o : op) : S * op := match o with OScal c t => (c, t) | _ => (s1, o) end.
Fixpoint cmap_add (c : S) (t : op) (m : list (op * S)) : list (op * S) :=
  match m with
  | [] => [(t, c)]
  | (t', c') :: m' => if oeqb t' t then (t', sadd c' c) :: m' else (t', c') :: cmap_add c t m'
  end.
Definition collect (ops : list op) : list (op * S) :=
  fold_left (fun m o => let '(c, t) := coeff_term o in cmap_add c t m) ops [].
Definition collect_summands (ops : list op) : res (list op) :=
  do l <- mapM (fun tc : op * S => let '(t, c) := tc in k_scal K c t) (collect ops);
  Ok (filter (fun o => negb (is_zero o)) l).

(** OperatorPlus.create: assoc, scalars_to_op (no scalars here), orderby,
    collect_summands, match_replace_binary without rules,
    operator_algebra.py:458-464 *)
Definition plus_step (ops : list op) : res op :=
  do fops <- collect_summands (pysorted ofull_lt (flat_plus ops));
  match fops with
  | [] => Ok OZero
  | [x] => Ok x
  | _ => Ok (OPlus fops)
  end.

(** OperatorTimes._binary_rules, _rules.py:159-261, in order *)
Definition r001 (x y : op) : outcome op :=
  match x with OScal u a => olift (do p <- k_times K [a; y]; k_scal K u p) | _ => NoMatch end.
Definition r002 (x y : op) : outcome op := match x with OZero => Replaces (Some OZero) | _ => NoMatch end.
Definition r003 (x y : op) : outcome op := match y with OZero => Replaces (Some OZero) | _ => NoMatch end.
Definition r004 (x y : op) : outcome op :=
  match y with OScal u b => olift (do p <- k_times K [x; b]; k_scal K u p) | _ => NoMatch end.
(** a rule about two local operators on the same local space *)
Definition local_rule (f : atom -> atom -> outcome op) (x y : op) : outcome op :=
  match x, y with OAtom a, OAtom b => f a b | _, _ => NoMatch end.
Definition r005 := local_rule (fun x y => match x, y with
  | ASigma a b l, ASigma c d l' =>
    if l =? l' then olift (k_scal K (if b =? c then s1 else s0) (OAtom (ASigma a d l))) else NoMatch
  | _, _ => NoMatch end).
Definition r009 := local_rule (fun x y => match x, y with
  | ACreate l, ASigma j k l' =>
    if l =? l' then olift (k_scal K (ssqrt (qn j + 1)%Qc) (raise_jk j k l 1 0)) else NoMatch
  | _, _ => NoMatch end).
Definition r010 := local_rule (fun x y => match x, y with
  | ADestroy l, ASigma j k l' =>
    if l =? l' then olift (k_scal K (ssqrt (qn j)) (raise_jk j k l (-1) 0)) else NoMatch
  | _, _ => NoMatch end).
Definition r011 := local_rule (fun x y => match x, y with
  | ASigma j k l, ADestroy l' =>
    if l =? l' then olift (k_scal K (ssqrt (qn k + 1)%Qc) (raise_jk j k l 0 1)) else NoMatch
  | _, _ => NoMatch end).
Definition r012 := local_rule (fun x y => match x, y with
  | ASigma j k l, ACreate l' =>
    if l =? l' then olift (k_scal K (ssqrt (qn k)) (raise_jk j k l 0 (-1))) else NoMatch
  | _, _ => NoMatch end).
Definition r013 := local_rule (fun x y => match x, y with
  | ADestroy l, ACreate l' =>
    if l =? l' then
      olift (do p <- k_times K [OAtom (ACreate l); OAtom (ADestroy l)]; k_plus K [OOne; p])
    else NoMatch
  | _, _ => NoMatch end).
Definition r014 := local_rule (fun x y => match x, y with
  | APhase u l, APhase v l' => if l =? l' then Replaces (Some (phase_create (sadd u v) l)) else NoMatch
  | _, _ => NoMatch end).
Definition r015 := local_rule (fun x y => match x, y with
  | ADisp u l, ADisp v l' =>
    if l =? l' then
      olift (k_scal K (sexp (sdiv2 (ssub (smult u (sconj v)) (smult (sconj u) v))))
                      (disp_create (sadd u v) l))
    else NoMatch
  | _, _ => NoMatch end).
Definition r016 := local_rule (fun x y => match x, y with
  | ADestroy l, APhase u l' =>
    if l =? l' then
      olift (do p <- k_scal K (sexp (smult sI u)) (phase_create u l); k_times K [p; OAtom (ADestroy l)])
    else NoMatch
  | _, _ => NoMatch end).
Definition r017 := local_rule (fun x y => match x, y with
  | ADestroy l, ADisp u l' =>
    if l =? l' then
      olift (do q <- add_scalar (OAtom (ADestroy l)) u; k_times K [disp_create u l; q])
    else NoMatch
  | _, _ => NoMatch end).
Definition r018 := local_rule (fun x y => match x, y with
  | APhase u l, ACreate l' =>
    if l =? l' then
      olift (do p <- k_scal K (sexp (smult sI u)) (OAtom (ACreate l)); k_times K [p; phase_create u l])
    else NoMatch
  | _, _ => NoMatch end).
Definition r019 := local_rule (fun x y => match x, y with
  | ADisp u l, ACreate l' =>
    if l =? l' then
      olift (do q <- add_scalar (OAtom (ACreate l)) (smult sm1 (sconj u)); k_times K [q; disp_create u l])
    else NoMatch
  | _, _ => NoMatch end).
Definition r020 := local_rule (fun x y => match x, y with
  | APhase u l, ASigma j k l' =>
    if l =? l' then olift (k_scal K (sexp (smult (smult sI u) (sQ (qn j)))) (OAtom (ASigma j k l))) else NoMatch
  | _, _ => NoMatch end).
Definition r021 := local_rule (fun x y => match x, y with
  | ASigma j k l, APhase u l' =>
    if l =? l' then olift (k_scal K (sexp (smult (smult sI u) (sQ (qn k)))) (OAtom (ASigma j k l))) else NoMatch
  | _, _ => NoMatch end).
Definition r022 := local_rule (fun x y => match x, y with
  | AJp l, ASigma j k l' =>
    if l =? l' then olift (do c <- Jpjmcoeff l j; k_scal K c (raise_jk j k l 1 0)) else NoMatch
  | _, _ => NoMatch end).
Definition r023 := local_rule (fun x y => match x, y with
  | AJm l, ASigma j k l' =>
    if l =? l' then olift (do c <- Jmjmcoeff l j; k_scal K c (raise_jk j k l (-1) 0)) else NoMatch
  | _, _ => NoMatch end).
Definition r024 := local_rule (fun x y => match x, y with
  | AJz l, ASigma j k l' =>
    if l =? l' then olift (do c <- Jzjmcoeff l j; k_scal K c (OAtom (ASigma j k l))) else NoMatch
  | _, _ => NoMatch end).
Definition r025 := local_rule (fun x y => match x, y with
  | ASigma j k l, AJp l' =>
    if l =? l' then olift (do c <- Jmjmcoeff l k; k_scal K c (raise_jk j k l 0 (-1))) else NoMatch
  | _, _ => NoMatch end).
Definition r026 := local_rule (fun x y => match x, y with
  | ASigma j k l, AJm l' =>
    if l =? l' then olift (do c <- Jpjmcoeff l k; k_scal K c (raise_jk j k l 0 1)) else NoMatch
  | _, _ => NoMatch end).
Definition r027 := local_rule (fun x y => match x, y with
  | ASigma j k l, AJz l' =>
    if l =? l' then olift (do c <- Jzjmcoeff l k; k_scal K c (OAtom (ASigma j k l))) else NoMatch
  | _, _ => NoMatch end).
Definition r028 := local_rule (fun x y => match x, y with
  | AJm l, AJp l' =>
    if l =? l' then
      olift (do a <- k_scal K (sQ (qz (-2))) (OAtom (AJz l));
             do p <- k_times K [OAtom (AJp l); OAtom (AJm l)]; k_plus K [a; p])
    else NoMatch
  | _, _ => NoMatch end).
Definition r029 := local_rule (fun x y => match x, y with
  | AJm l, AJz l' =>
    if l =? l' then
      olift (do p <- k_times K [OAtom (AJz l); OAtom (AJm l)]; k_plus K [p; OAtom (AJm l)])
    else NoMatch
  | _, _ => NoMatch end).
Definition r030 := local_rule (fun x y => match x, y with
  | AJz l, AJp l' =>
    if l =? l' then
      olift (do p <- k_times K [OAtom (AJp l); OAtom (AJz l)]; k_plus K [p; OAtom (AJp l)])
    else NoMatch
  | _, _ => NoMatch end).

Definition times_rules : list (op -> op -> outcome op) :=
  [r001; r002; r003; r004; r005; r009; r010; r011; r012; r013; r014; r015; r016; r017; r018; r019;
   r020; r021; r022; r023; r024; r025; r026; r027; r028; r029; r030].
Definition times_cls : bincls op :=
  {| binary_rules := times_rules; is_neutral := is_one; neutral := OOne;
     instance_args := fun o => match o with OTimes l => Some l | _ => None end |}.

(** OperatorTimes.create: assoc, orderby, filter_neutral, match_replace_binary,
    operator_algebra.py:470-478 *)
Definition times_step (fuel : nat) (ops : list op) : res op :=
  do l <- ord (flat_times ops);
  match l with
  | [] => Ok OOne
  | x :: _ =>
    match filter (fun o => negb (is_one o)) l with
    | [] => Ok x
    | [y] => Ok y
    | fops =>
      do r <- match_replace_binary times_cls fuel fops;
      match r with inl e => Ok e | inr l' => Ok (OTimes l') end
    end
  end.

(** Commutator.create: scalars_to_op (no scalars here), disjunct_hs_zero,
    commutator_order (algebraic_properties.py:576-604), match_replace with
    _rules.py:316-350 *)
Definition fock_like (a : atom) : bool :=
  match a with ACreate _ | ADestroy _ | ASigma _ _ _ | APhase _ _ | ADisp _ _ => true | _ => false end.
Definition spin_like (a : atom) : bool :=
  match a with ASigma _ _ _ | AJp _ | AJm _ | AJz _ => true | _ => false end.
Definition written_out (a b : op) : res op :=
  do p <- k_times K [a; b]; do q <- k_times K [b; a]; osub p q.
Definition comm_rules (a b : op) : res op :=
  if oeqb a b then Ok OZero
  else match a, b with
       | OScal u a', OScal v b' => do c <- k_comm K a' b'; k_scal K (smult u v) c
       | OScal v a', _ => do c <- k_comm K a' b; k_scal K v c
       | _, OScal v b' => do c <- k_comm K a b'; k_scal K v c
       | OAtom x, OAtom y =>
         match x, y with
         | ACreate l, ADestroy l' => if l =? l' then Ok (OScal sm1 OOne) else written_out a b
         | _, _ => if fock_like x && fock_like y then written_out a b
                   else if spin_like x && spin_like y then written_out a b
                   else Ok (OComm a b)
         end
       | _, _ => Ok (OComm a b)
       end.
Definition comm_step (a b : op) : res op :=
  if sp_disjoint (space b) (space a) then Ok OZero
  else if ofull_lt b a then do c <- k_comm K b a; k_scal K sm1 c
  else comm_rules a b.

(** [e.adjoint()]: abstract_quantum_algebra.py:391-392, 473-474, 501-502, 552-554,
    operator_algebra.py:270-271, 294-295, 436-437, 523-524, 602-603, 667-670, 716-717,
    fock_operators.py:33-34, 76-77, 126-127, 165-166, 202-203, spin_algebra.py:309-310, 341-342, 373-374.
    Sums, multiples and commutators are built by their constructors, products by
    [create]. *)
Definition atom_adj (a : atom) : op :=
  match a with
  | ASym n h => OAdj (OAtom (ASym n h))
  | ACreate l => OAtom (ADestroy l)
  | ADestroy l => OAtom (ACreate l)
  | ASigma j k l => OAtom (ASigma k j l)
  | APhase u l => phase_create (sneg (sconj u)) l
  | ADisp u l => disp_create (sneg u) l
  | ASqueeze u l => OAtom (ASqueeze (sneg u) l)
  | AJp l => OAtom (AJm l)
  | AJm l => OAtom (AJp l)
  | AJz l => OAtom (AJz l)
  end.
Fixpoint oadj (e : op) : res op :=
  let adjs := fix go (l : list op) : res (list op) :=
    match l with [] => Ok [] | x :: l' => do x' <- oadj x; do r <- go l'; Ok (x' :: r) end in
  match e with
  | OZero => Ok OZero
  | OOne => Ok OOne
  | OAtom a => Ok (atom_adj a)
  | OScal c t => do t' <- oadj t; Ok (OScal (sconj c) t')
  | OPlus l => do l' <- adjs l; Ok (OPlus l')
  | OTimes l => do l' <- adjs l; k_times K (rev l')
  | OComm a b => do b' <- oadj b; do a' <- oadj a; Ok (OComm b' a')
  | OAdj a => Ok a
  | OTr a h => Ok (OAdj e)
  | OPM s a => do a' <- oadj a; Ok (OPM s a')
  end.
End Step.

(** all entry points with recursion depth at most [n] *)
Fixpoint creators_n (n : nat) : ocreators :=
  match n with
  | 0 => {| k_scal := fun _ _ => Err OutOfFuel; k_plus := fun _ => Err OutOfFuel;
            k_times := fun _ => Err OutOfFuel; k_comm := fun _ _ => Err OutOfFuel |}
  | Datatypes.S m =>
    let K := creators_n m in
    {| k_scal := scal_step K; k_plus := plus_step K; k_times := times_step K m; k_comm := comm_step K |}
  end.

(** ** Expansion *)
Definition summands_of (e : op) : list op := match e with OPlus l => l | _ => [e] end.
(** [itertools.product] *)
Fixpoint cartesian {A} (ls : list (list A)) : list (list A) :=
  match ls with
  | [] => [[]]
  | l :: rest => flat_map (fun x => map (fun c => x :: c) (cartesian rest)) l
  end.
(** [x = f(x, y)] for each [y] in turn *)
Fixpoint foldM {A B} (f : A -> B -> res A) (a : A) (l : list B) : res A :=
  match l with [] => Ok a | b :: l' => do a' <- f a b; foldM f a' l' end.

Section Expand.
Context (K : ocreators).
(** the loops of _expand_product, abstract_quantum_algebra.py:1111-1121 *)
Definition mul_combo (combo : list op) : res op :=
  match combo with [] => Err IndexError | x :: rest => foldM (fun a b => k_times K [a; b]) x rest end.
Definition add_all (l : list op) : res op :=
  match l with [] => Err IndexError | x :: rest => foldM (fun a b => k_plus K [a; b]) x rest end.

(** [e.expand()] with recursion depth at most [n]: abstract_quantum_algebra.py:493-495,
    536-537, 462-467, 615-616, 1104-1125; operator_algebra.py:571-585, 645-648, 709-710.
    A coefficient is a ScalarValue, which expands to itself. The adjoint of a
    sum of adjoints calls the missing method [adjoin]. Not modelled: OperatorTrace. *)
Fixpoint expand (n : nat) (e : op) : res op :=
  match n with
  | 0 => Err OutOfFuel
  | Datatypes.S m =>
    let finish ret := match ret with OPlus _ => expand m ret | _ => Ok ret end in
    match e with
    | OPlus l => do l' <- mapM (expand m) l; k_plus K l'
    | OTimes l =>
      do eops <- mapM (expand m) l;
      do summands <- mapM mul_combo (cartesian (map summands_of eops));
      do ret <- add_all summands;
      finish ret
    | OScal c t =>
      do t' <- expand m t;
      do summands <- mapM (k_scal K c) (summands_of t');
      do ret <- add_all summands;
      finish ret
    | OComm a b =>
      do a' <- expand m a;
      do b' <- expand m b;
      do cs <- mapM (fun c => match c with [x; y] => k_comm K x y | _ => Err TypeError end)
                    (cartesian [summands_of a'; summands_of b']);
      k_plus K cs
    | OAdj a =>
      do a' <- expand m a;
      match a' with OPlus _ => Err AttributeError | _ => oadj K a' end
    | OTr _ _ => Err Unmodelled
    | _ => Ok e
    end
  end.
End Expand.
End Op.
