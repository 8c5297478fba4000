(** The super-operator algebra: [create] of SuperOperatorPlus, SuperOperatorTimes,
    ScalarTimesSuperOperator, SPre and SPost, application to operators, adjoints,
    expansion, and the constructor routines commutator, anti_commutator, lindblad
    and liouvillian.
    /repo/src/qnet/algebra/core/super_operator_algebra.py,
    /repo/src/qnet/algebra/core/abstract_quantum_algebra.py,
    /repo/src/qnet/algebra/core/algebraic_properties.py and the super-operator rules
    of /repo/src/qnet/algebra/_rules.py:410-512.
    Not modelled: instance caching (see CreateModel), SuperOperatorDerivative,
    simplify_scalar, series expansion. *)
From Coq Require Import QArith Qcanon.
From Verif Require Import Prelude SortModel BinModel OpModel.
Local Open Scope nat_scope.

(** SuperOperatorSymbol, IdentitySuperOperator, ZeroSuperOperator, SPre, SPost,
    ScalarTimesSuperOperator, SuperOperatorPlus, SuperOperatorTimes, SuperAdjoint
    (super_operator_algebra.py:59-256) *)
Inductive sop (S : Type) :=
| SZero
| SOne
| SSym (name : nat) (h : list nat)
| SPre (a : op S)
| SPost (a : op S)
| SScal (c : S) (t : sop S)
| SPlus (l : list (sop S))
| STimes (l : list (sop S))
| SAdj (s : sop S).
Arguments SZero {S}. Arguments SOne {S}. Arguments SSym {S} name h. Arguments SPre {S} a. Arguments SPost {S} a.
Arguments SScal {S} c t. Arguments SPlus {S} l. Arguments STimes {S} l. Arguments SAdj {S} s.

(** [s.space]: super_operator_algebra.py:73-75, 97-99, 205-207, 239-241,
    abstract_quantum_algebra.py:401-410, 611-613 *)
Fixpoint sspace {S} (s : sop S) : list nat :=
  match s with
  | SZero | SOne => []
  | SSym _ h => h
  | SPre a | SPost a => space a
  | SScal _ t => sspace t
  | SPlus l | STimes l => fold_right (fun o h => sp_union (sspace o) h) [] l
  | SAdj t => sspace t
  end.

Section Sup.
Context {S : scalars}.
Local Notation op := (op S).
Local Notation sop := (sop S).

(** Expression.__eq__ (abstract_algebra.py:363-368) *)
Fixpoint sop_eqb (a b : sop) {struct a} : bool :=
  let list_eqb := fix go (l m : list sop) {struct l} : bool :=
    match l, m with [], [] => true | x :: l', y :: m' => sop_eqb x y && go l' m' | _, _ => false end in
  match a, b with
  | SZero, SZero => true
  | SOne, SOne => true
  | SSym n h, SSym n' h' => (n =? n') && eqb_list_nat h h'
  | SPre x, SPre y => oeqb x y
  | SPost x, SPost y => oeqb x y
  | SScal c t, SScal d u => seqb c d && sop_eqb t u
  | SPlus l, SPlus m => list_eqb l m
  | STimes l, STimes m => list_eqb l m
  | SAdj x, SAdj y => sop_eqb x y
  | _, _ => false
  end.
Definition is_szero (s : sop) : bool := match s with SZero => true | _ => false end.
Definition is_sone (s : sop) : bool := match s with SOne => true | _ => false end.

(** ** ScalarTimesSuperOperator.create (also [c * s]): match_replace with
    _rules.py:424-437. Rule R004 multiplies the coefficients and starts again. *)
Fixpoint super_scal (c : S) (t : sop) : sop :=
  if seqb c s1 then t
  else if seqb c s0 then SZero
  else match t with
       | SZero => SZero
       | SScal v b => super_scal (smult c v) b
       | _ => SScal c t
       end.

(** ** SPre.create, SPost.create: _rules.py:454-478 *)
Fixpoint pre_create (a : op) : sop :=
  match a with
  | OScal u b => super_scal u (pre_create b)
  | OOne => SOne
  | OZero => SZero
  | _ => SPre a
  end.
Fixpoint post_create (a : op) : sop :=
  match a with
  | OScal u b => super_scal u (post_create b)
  | OOne => SOne
  | OZero => SZero
  | _ => SPost a
  end.

(** The comparison of two super-operators by [expr_order_key] and of two Hilbert
    spaces by [_order_key] *)
Context (solt : sop -> sop -> bool) (slt : list nat -> list nat -> bool).
(** FullCommutativeHSOrder.__lt__, ordering.py:146-153 *)
Definition sfull_lt (x y : sop) : bool :=
  if eqb_list_nat (sspace x) (sspace y) then solt x y else slt (sspace x) (sspace y).
(** SuperCommutativeHSOrder.__lt__, super_operator_algebra.py:128-137, with
    DisjunctCommutativeHSOrder.__lt__, ordering.py:110-116 *)
Definition super_lt (x y : sop) : bool :=
  match x, y with
  | SPre _, SPost _ => true
  | SPost _, SPre _ => false
  | _, _ =>
    match sspace x, sspace y with
    | [], [] => solt x y
    | _, _ => if sp_disjoint (sspace x) (sspace y) then slt (sspace x) (sspace y) else false
    end
  end.
Definition real_sorder (l : list sop) : res (list sop) := Ok (pysorted super_lt l).

(** ** SuperOperatorPlus.create (also [s + t]): assoc, orderby, collect_summands
    (algebraic_properties.py:44-54, 107-118, 147-184), match_replace_binary without rules,
    super_operator_algebra.py:115-124 *)
Definition sflat_plus (ops : list sop) : list sop :=
  flat_map (fun o => match o with SPlus l => l | _ => [o] end) ops.
Definition scoeff_term (o : sop) : S * sop := match o with SScal c t => (c, t) | _ => (s1, o) end.
Fixpoint scmap_add (c : S) (t : sop) (m : list (sop * S)) : list (sop * S) :=
  match m with
  | [] => [(t, c)]
  | (t', c') :: m' => if sop_eqb t' t then (t', sadd c' c) :: m' else (t', c') :: scmap_add c t m'
  end.
Definition scollect (ops : list sop) : list (sop * S) :=
  fold_left (fun m o => let '(c, t) := scoeff_term o in scmap_add c t m) ops [].
Definition super_plus (ops : list sop) : sop :=
  match filter (fun o => negb (is_szero o))
               (map (fun tc : sop * S => let '(t, c) := tc in super_scal c t) (scollect (pysorted sfull_lt (sflat_plus ops)))) with
  | [] => SZero
  | [x] => x
  | fops => SPlus fops
  end.
(** [s - t], abstract_quantum_algebra.py:240-241 *)
Definition super_sub (s t : sop) : sop := super_plus [s; super_scal sm1 t].

Section Run.
(** The operator algebra, and the sorting of the factors of a product,
    [sorted(ops, key=SuperCommutativeHSOrder)] *)
Context (K : ocreators S) (sord : list sop -> res (list sop)).

(** ** SuperOperatorTimes.create (also [s * t]), super_operator_algebra.py:140-154:
    a factor ZeroSuperOperator makes the product ZeroSuperOperator; then assoc, orderby,
    filter_neutral, match_replace_binary with _rules.py:439-452. [fuel] bounds the
    recursion depth. *)
Definition sflat_times (ops : list sop) : list sop :=
  flat_map (fun o => match o with STimes l => l | _ => [o] end) ops.
Section Rules.
Context (times : list sop -> res sop).
Definition q001 (x y : sop) : outcome sop :=
  match x with SScal u a => olift (do p <- times [a; y]; Ok (super_scal u p)) | _ => NoMatch end.
Definition q002 (x y : sop) : outcome sop :=
  match y with SScal u b => olift (do p <- times [x; b]; Ok (super_scal u p)) | _ => NoMatch end.
Definition q003 (x y : sop) : outcome sop :=
  match x, y with SPre a, SPre b => olift (do p <- k_times K [a; b]; Ok (pre_create p)) | _, _ => NoMatch end.
Definition q004 (x y : sop) : outcome sop :=
  match x, y with SPost a, SPost b => olift (do p <- k_times K [b; a]; Ok (post_create p)) | _, _ => NoMatch end.
Definition stimes_cls : bincls sop :=
  {| binary_rules := [q001; q002; q003; q004]; is_neutral := is_sone; neutral := SOne;
     instance_args := fun o => match o with STimes l => Some l | _ => None end |}.
Definition stimes_step (fuel : nat) (ops : list sop) : res sop :=
  if existsb is_szero ops then Ok SZero
  else
  do l <- sord (sflat_times ops);
  match l with
  | [] => Ok SOne
  | x :: _ =>
    match filter (fun o => negb (is_sone o)) l with
    | [] => Ok x
    | [y] => Ok y
    | fops =>
      do r <- match_replace_binary stimes_cls fuel fops;
      match r with inl e => Ok e | inr l' => Ok (STimes l') end
    end
  end.
End Rules.
Fixpoint super_times (fuel : nat) (ops : list sop) : res sop :=
  match fuel with
  | 0 => Err OutOfFuel
  | Datatypes.S m => stimes_step (super_times m) m ops
  end.

(** ** SuperOperatorTimesOperator.create (also [s * B] for an operator B),
    _rules.py:480-512, in order. An application that no rule simplifies is an operator
    of its own, with the super-operator and the operator as operands; [app s B] is the
    expression that stands for it here and [unapp] recognises such expressions. *)
Context (app : sop -> op -> option op) (unapp : op -> option (sop * op)).
Definition last_prepost (l : list sop) : option (list sop * sop) :=
  match split_last l with
  | Some (x :: l', SPre a) => Some (x :: l', SPre a)
  | Some (x :: l', SPost a) => Some (x :: l', SPost a)
  | _ => None
  end.
Fixpoint super_apply (fuel : nat) (s : sop) (b : op) : res op :=
  match fuel with
  | 0 => Err OutOfFuel
  | Datatypes.S m =>
    match s with
    | SPlus l => do xs <- mapM (fun o => super_apply m o b) l; k_plus K xs
    | SOne => Ok b
    | SZero => Ok OZero
    | SScal u a => do p <- super_apply m a b; k_scal K u p
    | _ =>
      match b with
      | OScal u b' => do p <- super_apply m s b'; k_scal K u p
      | _ =>
        match unapp b with
        | Some (sB, c) => do st <- super_times m [s; sB]; super_apply m st c
        | None =>
          match s with
          | SPre a => k_times K [a; b]
          | SPost a => k_times K [b; a]
          | STimes l =>
            match last_prepost l with
            | Some (init, last) =>
              do x <- super_times m init;
              do y <- super_apply m last b;
              super_apply m x y
            | None => of_option Unmodelled (app s b)
            end
          | _ => of_option Unmodelled (app s b)
          end
        end
      end
    end
  end.

(** ** Adjoints: [s.adjoint()], also SuperAdjoint.create(s).
    super_operator_algebra.py:84-85, 108-109, 221-222, 255-256,
    abstract_quantum_algebra.py:391-392, 473-474, 501-502, 552-554. The adjoint of a
    multiple is Python's None (super_operator_algebra.py:161-162: the method body is [pass]);
    as an operand of a sum it fails the assertion of the constructor, as a factor of
    a product it has no [space]. The factors of a product are treated from right to
    left. *)
Fixpoint sadj (fuel : nat) (s : sop) : res (option sop) :=
  let adjs := fix go (l : list sop) : res (list (option sop)) :=
    match l with [] => Ok [] | x :: l' => do x' <- sadj fuel x; do r <- go l'; Ok (x' :: r) end in
  let rev_adjs := fix go (l : list sop) : res (list (option sop)) :=
    match l with [] => Ok [] | x :: l' => do r <- go l'; do x' <- sadj fuel x; Ok (r ++ [x']) end in
  match s with
  | SZero => Ok (Some SZero)
  | SOne => Ok (Some SOne)
  | SSym n h => Ok (Some (SAdj (SSym n h)))
  | SPre a => Ok (Some (SPost a))
  | SPost a => Ok (Some (SPre a))
  | SScal c t => Ok None
  | SPlus l =>
    do l' <- adjs l;
    do ops <- mapM (of_option AssertionError) l';
    Ok (Some (SPlus ops))
  | STimes l =>
    do l' <- rev_adjs l;
    if existsb (fun o => match o with Some SZero => true | _ => false end) l' then Ok (Some SZero)
    else
    do ops <- mapM (of_option AttributeError) l';
    do p <- super_times fuel ops;
    Ok (Some p)
  | SAdj t => Ok (Some t)
  end.

(** ** Expansion: [s.expand()], super_operator_algebra.py:87-88, 111-112, 209-213, 243-247,
    abstract_quantum_algebra.py:462-467, 493-495, 536-537, 615-616, 1104-1125.
    [sum(...)] starts from the number 0, which is turned into [0 * IdentitySuperOperator].
    An adjoint that is None is not followed further. *)
Definition ssummands (s : sop) : list sop := match s with SPlus l => l | _ => [s] end.
Definition smul_combo (fuel : nat) (combo : list sop) : res sop :=
  match combo with [] => Err IndexError | x :: rest => foldM (fun a b => super_times fuel [a; b]) x rest end.
Definition sadd_all (l : list sop) : res sop :=
  match l with [] => Err IndexError | x :: rest => Ok (fold_left (fun a b => super_plus [a; b]) rest x) end.
Definition ssum (l : list sop) : res sop :=
  match l with
  | [] => Err Unmodelled
  | x :: rest => Ok (fold_left (fun a b => super_plus [a; b]) rest (super_plus [x; super_scal s0 SOne]))
  end.
Fixpoint sexpand (n : nat) (s : sop) : res sop :=
  match n with
  | 0 => Err OutOfFuel
  | Datatypes.S m =>
    let finish ret := match ret with SPlus _ => sexpand m ret | _ => Ok ret end in
    match s with
    | SPre a => do a' <- expand K m a; match a' with OPlus l => ssum (map pre_create l) | _ => Ok (pre_create a') end
    | SPost a => do a' <- expand K m a; match a' with OPlus l => ssum (map post_create l) | _ => Ok (post_create a') end
    | SPlus l => do l' <- mapM (sexpand m) l; Ok (super_plus l')
    | STimes l =>
      do eops <- mapM (sexpand m) l;
      do summands <- mapM (smul_combo m) (cartesian (map ssummands eops));
      do ret <- sadd_all summands;
      finish ret
    | SScal c t =>
      do t' <- sexpand m t;
      do ret <- sadd_all (map (super_scal c) (ssummands t'));
      finish ret
    | SAdj t =>
      do t' <- sexpand m t;
      match t' with
      | SPlus _ => Err AttributeError
      | _ => do r <- sadj m t'; of_option Unmodelled r
      end
    | _ => Ok s
    end
  end.

(** ** commutator, anti_commutator, lindblad, liouvillian,
    super_operator_algebra.py:331-421 *)
(** the second argument: an operator or a Python number *)
Inductive arg := AOp (b : op) | ANum (c : S).
(** [if B:] *)
Definition truthy (b : option arg) : option arg :=
  match b with
  | Some (ANum c) => if seqb c s0 then None else b
  | _ => b
  end.
(** [A * B], [B * A] *)
Definition mul_arg (a : op) (b : arg) : res op := match b with AOp b => k_times K [a; b] | ANum c => k_scal K c a end.
Definition mul_arg' (b : arg) (a : op) : res op := match b with AOp b => k_times K [b; a] | ANum c => k_scal K c a end.
Definition commutator_super (a : op) : sop := super_sub (SPre a) (SPost a).
Definition anti_commutator_super (a : op) : sop := super_plus [SPre a; SPost a].
Definition commutator (a : op) (b : option arg) : res (sop + op) :=
  match truthy b with
  | Some b => do p <- mul_arg a b; do q <- mul_arg' b a; do r <- osub K p q; Ok (inr r)
  | None => Ok (inl (commutator_super a))
  end.
Definition anti_commutator (a : op) (b : option arg) : res (sop + op) :=
  match truthy b with
  | Some b => do p <- mul_arg a b; do q <- mul_arg' b a; do r <- k_plus K [p; q]; Ok (inr r)
  | None => Ok (inl (anti_commutator_super a))
  end.
Definition half : S := sQ (1 / qn 2)%Qc.
Definition lindblad (fuel : nat) (c : arg) : res sop :=
  match c with
  | ANum _ => Ok SZero
  | AOp c =>
    do cd <- oadj K c;
    do p <- super_times fuel [SPre c; SPost cd];
    do cd' <- oadj K c;
    do q <- k_times K [cd'; c];
    Ok (super_sub p (super_scal half (anti_commutator_super q)))
  end.
(** [-I * commutator(H)]: the number is [-I] *)
Definition liouvillian (fuel : nat) (h : op) (ls : list arg) : res sop :=
  do ds <- mapM (lindblad fuel) ls;
  Ok (super_plus (super_scal (sneg sI) (commutator_super h) :: ds)).
End Run.
End Sup.
