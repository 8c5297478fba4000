(** The state algebra: [create] of ScalarTimesKet, KetPlus, TensorKet, OperatorTimesKet,
    BraKet and KetBra with their simplifications and rules, products of kets and bras,
    and expansion.
    /repo/src/qnet/algebra/core/state_algebra.py and the state rules of
    /repo/src/qnet/algebra/_rules.py:515-802.
    Not modelled here: instance caching (see CreateModel), indexed sums (see IdxModel),
    derivatives, power series, symbolic labels. *)
From Coq Require Import QArith Qcanon.
From Verif Require Import Prelude SortModel BinModel OpModel.
Local Open Scope nat_scope.

(** Kets. BasisKet (state_algebra.py:236-357; the state is given by its index),
    CoherentStateKet (360-413), KetSymbol (169-177), ZeroKet, TrivialKet (199-233), and the
    operations (421-527). *)
Inductive ket (S : Type) :=
| KZero
| KTriv
| KBasis (j ls : nat)
| KCoh (u : S) (ls : nat)
| KSym (name : nat) (h : list nat)
| KScal (c : S) (t : ket S)
| KPlus (l : list (ket S))
| KTensor (l : list (ket S))
| KOp (a : op S) (t : ket S).
Arguments KZero {S}. Arguments KTriv {S}. Arguments KBasis {S} j ls. Arguments KCoh {S} u ls. Arguments KSym {S} name h.
Arguments KScal {S} c t. Arguments KPlus {S} l. Arguments KTensor {S} l. Arguments KOp {S} a t.

(** [ket.space]. The space of ZeroKet is FullSpace; here it is the empty list: the code
    below looks at the space of ZeroKet for sorting summands only. *)
Fixpoint kspace {S} (k : ket S) : list nat :=
  match k with
  | KZero | KTriv => []
  | KBasis _ l | KCoh _ l => [l]
  | KSym _ h => h
  | KScal _ t => kspace t
  | KPlus l | KTensor l => fold_right (fun o h => sp_union (kspace o) h) [] l
  | KOp _ t => kspace t
  end.
(** [a <= b], [a < b] for Hilbert spaces *)
Definition sp_incl (a b : list nat) : bool := forallb (fun x => sp_mem x b) a.
Definition sp_lt (a b : list nat) : bool := sp_incl a b && negb (sp_incl b a).

(** The mutually recursive entry points *)
Record kcreators (S : Type) := {
  kc_scal : S -> ket S -> res (ket S);           (* ScalarTimesKet.create, c * psi *)
  kc_plus : list (ket S) -> res (ket S);         (* KetPlus.create *)
  kc_tens : list (ket S) -> res (ket S);         (* TensorKet.create *)
  kc_op : op S -> ket S -> res (ket S);          (* OperatorTimesKet.create, A * psi *)
  kc_bk : ket S -> ket S -> res S;               (* BraKet.create(phi, psi), phi.dag() * psi *)
  kc_kb : ket S -> ket S -> res (op S)           (* KetBra.create(psi, phi), psi * phi.dag() *)
}.
Arguments kc_scal {S} k. Arguments kc_plus {S} k. Arguments kc_tens {S} k. Arguments kc_op {S} k. Arguments kc_bk {S} k. Arguments kc_kb {S} k.

Section Ket.
Context {S : scalars}.
Local Notation op := (op S).
Local Notation ket := (ket S).
Local Notation kcreators := (kcreators S).

(** Expression.__eq__ *)
Fixpoint keqb (a b : ket) {struct a} : bool :=
  let list_eqb := fix go (l m : list ket) {struct l} : bool :=
    match l, m with [], [] => true | x :: l', y :: m' => keqb x y && go l' m' | _, _ => false end in
  match a, b with
  | KZero, KZero => true
  | KTriv, KTriv => true
  | KBasis j l, KBasis j' l' => (j =? j') && (l =? l')
  | KCoh u l, KCoh u' l' => seqb u u' && (l =? l')
  | KSym n h, KSym n' h' => (n =? n') && eqb_list_nat h h'
  | KScal c t, KScal d u => seqb c d && keqb t u
  | KPlus l, KPlus m => list_eqb l m
  | KTensor l, KTensor m => list_eqb l m
  | KOp x t, KOp y u => oeqb x y && keqb t u
  | _, _ => false
  end.
Definition is_kzero (k : ket) : bool := match k with KZero => true | _ => false end.
Definition is_ktriv (k : ket) : bool := match k with KTriv => true | _ => false end.

(** What the code takes from its environment: dimensions, the operator algebra, the
    comparison of kets by [expr_order_key] and of spaces, and the objects BraKet(a, b) and
    KetBra(a, b) that no rule simplifies, as a scalar and as an operator. *)
Context (dim : nat -> option nat) (K : ocreators S).
Context (klt : ket -> ket -> bool) (slt : list nat -> list nat -> bool).
Context (bk : ket -> ket -> S) (kb : ket -> ket -> op).
(** Two monitors: [chk_phase u] before a phase operator is applied to a coherent state,
    [chk_split on off] before a product of operators is split; the code has none. *)
Context (chk_phase : S -> bool) (chk_split : list op -> list op -> list nat -> list nat -> bool).

(** FullCommutativeHSOrder.__lt__, ordering.py:146-153 *)
Definition kfull_lt (x y : ket) : bool :=
  if eqb_list_nat (kspace x) (kspace y) then klt x y else slt (kspace x) (kspace y).
(** BasisKet.next(n), BasisKet.prev(n), state_algebra.py:298-357 *)
Definition knext (j ls : nat) (d : Z) : ket :=
  let j' := (Z.of_nat j + d)%Z in if in_range dim ls j' then KBasis (Z.to_nat j') ls else KZero.

Section Step.
Context (Q : kcreators).

(** _rules.py:589-602 *)
Definition kscal_step (c : S) (t : ket) : res ket :=
  if seqb c s1 then Ok t
  else if seqb c s0 then Ok KZero
  else match t with
       | KZero => Ok KZero
       | KScal v b => kc_scal Q (smult c v) b
       | _ => Ok (KScal c t)
       end.

(** KetPlus.create, state_algebra.py:421-432: assoc, orderby, collect_summands; the
    constructor compares the spaces *)
Definition kflat_plus (ks : list ket) : list ket := flat_map (fun o => match o with KPlus l => l | _ => [o] end) ks.
Definition kcoeff_term (o : ket) : S * ket := match o with KScal c t => (c, t) | _ => (s1, o) end.
Fixpoint kmap_add (c : S) (t : ket) (m : list (ket * S)) : list (ket * S) :=
  match m with
  | [] => [(t, c)]
  | (t', c') :: m' => if keqb t' t then (t', sadd c' c) :: m' else (t', c') :: kmap_add c t m'
  end.
Definition kcollect (ks : list ket) : list (ket * S) :=
  fold_left (fun m o => let '(c, t) := kcoeff_term o in kmap_add c t m) ks [].
(** [_check_kets(same_space=True)], state_algebra.py:691-703 *)
Definition same_space (ks : list ket) : bool :=
  match filter (fun o => negb (is_kzero o)) ks with
  | [] => false
  | x :: l => forallb (fun o => eqb_list_nat (kspace o) (kspace x)) l
  end.
(** without operands, accept_bras (algebraic_properties.py:607-617) calls [create] again,
    without operands *)
Definition kplus_step (ks : list ket) : res ket :=
  match ks with
  | [] => do _ <- kc_plus Q []; Err Unmodelled
  | _ =>
    do l <- mapM (fun tc : ket * S => let '(t, c) := tc in kc_scal Q c t) (kcollect (pysorted kfull_lt (kflat_plus ks)));
    match filter (fun o => negb (is_kzero o)) l with
    | [] => Ok KZero
    | [x] => Ok x
    | fl => if same_space fl then Ok (KPlus fl) else Err UnequalSpaces
    end
  end.

(** TensorKet.create, state_algebra.py:435-456: accept_bras, assoc, orderby,
    filter_neutral, match_replace_binary with _rules.py:700-706 *)
Definition kflat_tens (ks : list ket) : list ket := flat_map (fun o => match o with KTensor l => l | _ => [o] end) ks.
Definition t001 (x y : ket) : outcome ket :=
  match x with KScal u a => olift (do p <- kc_tens Q [a; y]; kc_scal Q u p) | _ => NoMatch end.
Definition t002 (x y : ket) : outcome ket :=
  match y with KScal u b => olift (do p <- kc_tens Q [x; b]; kc_scal Q u p) | _ => NoMatch end.
Definition tens_cls : bincls ket :=
  {| binary_rules := [t001; t002]; is_neutral := is_ktriv; neutral := KTriv;
     instance_args := fun o => match o with KTensor l => Some l | _ => None end |}.
(** [_check_kets(disjunct_space=True)] *)
Fixpoint disjunct_from (spc : list nat) (ks : list ket) : bool :=
  match ks with
  | [] => true
  | x :: l => sp_disjoint (kspace x) spc && disjunct_from (sp_union spc (kspace x)) l
  end.
Definition ktens_step (fuel : nat) (ks : list ket) : res ket :=
  if existsb is_kzero ks then Ok KZero
  else
    match ks with
    | [] => do _ <- kc_tens Q []; Err Unmodelled
    | _ =>
      let l := pysorted kfull_lt (kflat_tens ks) in
      match l with
      | [] => Ok KTriv
      | x :: _ =>
        match filter (fun o => negb (is_ktriv o)) l with
        | [] => Ok x
        | [y] => Ok y
        | fl =>
          do r <- match_replace_binary tens_cls fuel fl;
          match r with
          | inl k => Ok k
          (* the space of ZeroKet meets every other space *)
          | inr l' => if negb (existsb is_kzero l') && disjunct_from [] l' then Ok (KTensor l') else Err OverlappingSpaces
          end
        end
      end
    end.

(** QuantumTimes.factor_for_space for a non-trivial space, abstract_quantum_algebra.py:515-534 *)
Definition kon (spc : list nat) (l : list ket) : list ket := filter (fun o => negb (sp_disjoint (kspace o) spc)) l.
Definition koff (spc : list nat) (l : list ket) : list ket := filter (fun o => sp_disjoint (kspace o) spc) l.
Definition kfactor (spc : list nat) (l : list ket) : res (ket * ket) :=
  do x <- kc_tens Q (kon spc l); do y <- kc_tens Q (koff spc l); Ok (x, y).
Definition oon (spc : list nat) (l : list op) : list op := filter (fun o => negb (sp_disjoint (space o) spc)) l.
Definition ooff (spc : list nat) (l : list op) : list op := filter (fun o => sp_disjoint (space o) spc) l.
Definition ofactor (spc : list nat) (l : list op) : res (op * op) :=
  do x <- k_times K (oon spc l); do y <- k_times K (ooff spc l); Ok (x, y).

(** the constructor of OperatorTimesKet, state_algebra.py:486-491 *)
Definition kop_new (a : op) (t : ket) : res ket := if sp_incl (space a) (kspace t) then Ok (KOp a t) else Err SpaceTooLargeError.
(** act_locally, _rules.py:516-520 *)
Definition act_locally (a : op) (l : list ket) : res ket :=
  do f <- kfactor (space a) l;
  let '(x, y) := f in
  if is_ktriv y then kop_new a (KTensor l) else do p <- kc_op Q a x; kc_tens Q [p; y].
(** act_locally_times_tensor, _rules.py:523-535: the while loop, and the loop over the
    local factors. [Ok None]: CannotSimplify *)
Fixpoint times_while (fuel : nat) (ops : list op) (l : list ket) (spc : list nat) : res (option ket) :=
  if sp_lt spc (kspace (KTensor l)) then
    match fuel with
    | 0 => Err OutOfFuel
    | Datatypes.S f =>
      do o <- ofactor spc ops; do k <- kfactor spc l;
      let '(o1, o2) := o in let '(k1, k2) := k in
      if sp_incl (space o1) (kspace k1) && sp_incl (space o2) (kspace k2) && negb (is_ktriv k2) then
        if chk_split (oon spc ops) (ooff spc ops) (kspace k1) (kspace k2) then
          rmap Some (do x <- kc_op Q o1 k1; do y <- kc_op Q o2 k2; kc_tens Q [x; y])
        else Err Unmodelled
      else times_while f ops l (sp_union (space o1) (kspace k1))
    end
  else Ok None.
Fixpoint first_some {A B} (f : A -> res (option B)) (l : list A) : res (option B) :=
  match l with [] => Ok None | x :: l' => do r <- f x; match r with Some y => Ok (Some y) | None => first_some f l' end end.
Definition act_times (fuel : nat) (ops : list op) (l : list ket) : res (option ket) :=
  first_some (fun s => times_while fuel ops l [s]) (space (OTimes ops)).

(** LocalOperator *)
Definition is_local (a : atom S) : bool := match a with ASym _ _ => false | _ => true end.
(** R005 to R011, R017, R019: a local operator and a basis state of the same space *)
Definition atom_basis (a : atom S) (j l : nat) : res ket :=
  let t := KBasis j l in
  let other := kop_new (OAtom a) t in
  match a with
  | ASigma n m l' => if l' =? l then kc_scal Q (if m =? j then s1 else s0) (KBasis n l) else other
  | ACreate l' => if l' =? l then kc_scal Q (ssqrt (qn j + 1)%Qc) (knext j l 1) else other
  | ADestroy l' => if l' =? l then kc_scal Q (ssqrt (qn j)) (knext j l (-1)) else other
  | AJp l' => if l' =? l then do c <- Jpjmcoeff dim l j; kc_scal Q c (knext j l 1) else other
  | AJm l' => if l' =? l then do c <- Jmjmcoeff dim l j; kc_scal Q c (knext j l (-1)) else other
  | AJz l' => if l' =? l then do c <- Jzjmcoeff dim l j; kc_scal Q c t else other
  | ADisp u l' =>
    (* a basis state of a space with basis labels is matched by its label, never 0 *)
    if (l' =? l) && (j =? 0) && match dim l with None => true | _ => false end then Ok (KCoh u l) else other
  | APhase u l' =>
    if l' =? l then
      match dim l with
      | None => kc_scal Q (sexp (smult (smult sI u) (sQ (qn j)))) t
      | Some _ => Err Unmodelled   (* the product of a number and a basis label *)
      end
    else other
  | _ => other
  end.
(** R008, R018, R020: a local operator and a coherent state of the same space *)
Definition atom_coh (a : atom S) (v : S) (l : nat) : res ket :=
  let t := KCoh v l in
  let other := kop_new (OAtom a) t in
  match a with
  | ADestroy l' => if l' =? l then kc_scal Q v t else other
  | ADisp u l' => if l' =? l then do d <- k_times K [OAtom (ADisp u l); OAtom (ADisp v l)]; kc_op Q d (KBasis 0 l) else other
  | APhase u l' => if l' =? l then (if chk_phase u then Ok (KCoh (smult v (sexp (smult sI u))) l) else Err Unmodelled) else other
  | _ => other
  end.
(** R015 *)
Definition times_local (ops : list op) (t : ket) : res ket :=
  match rev ops with
  | OAtom b :: (_ :: _) as r =>
    if is_local b then do p <- k_times K (removelast ops); do x <- kc_op Q (OAtom b) t; kc_op Q p x
    else kop_new (OTimes ops) t
  | _ => kop_new (OTimes ops) t
  end.
(** OperatorTimesKet.create, _rules.py:607-696 *)
Definition kop_step (fuel : nat) (a : op) (t : ket) : res ket :=
  match a with
  | OOne => Ok t
  | OZero => Ok KZero
  | _ =>
    match t with
    | KZero => Ok KZero
    | KScal v p => do x <- kc_op Q a p; kc_scal Q v x
    | KOp b p =>
      do x <- kc_op Q b p;
      if keqb x (KOp b p) then do ab <- k_times K [a; b]; kc_op Q ab p else kc_op Q a x
    | _ =>
      match a with
      | OScal u b => do x <- kc_op Q b t; kc_scal Q u x
      | OAtom x =>
        match t with
        | KBasis j l => atom_basis x j l
        | KCoh v l => atom_coh x v l
        | KTensor l => if is_local x then act_locally a l else kop_new a t
        | _ => kop_new a t
        end
      | OTimes ops =>
        match t with
        | KBasis _ _ | KCoh _ _ => times_local ops t
        | KTensor l => do r <- act_times fuel ops l; match r with Some x => Ok x | None => kop_new a t end
        | _ => kop_new a t
        end
      | _ => kop_new a t
      end
    end
  end.

(** tensor_decompose_kets, _rules.py:538-550 *)
Fixpoint decompose_while {B} (fuel : nat) (f : ket -> ket -> res B) (mul : B -> B -> res B) (l m : list ket) (spc : list nat) : res (option B) :=
  if sp_lt spc (sp_union (kspace (KTensor l)) (kspace (KTensor m))) then
    match fuel with
    | 0 => Err OutOfFuel
    | Datatypes.S n =>
      do p <- kfactor spc l; do q <- kfactor spc m;
      let '(p1, p2) := p in let '(q1, q2) := q in
      if eqb_list_nat (kspace p1) (kspace q1) && eqb_list_nat (kspace p2) (kspace q2) && negb (is_ktriv p2) then
        rmap Some (do x <- f p1 q1; do y <- f p2 q2; mul x y)
      else decompose_while n f mul l m (sp_union (kspace p1) (kspace q1))
    end
  else Ok None.
Definition decompose {B} (fuel : nat) (f : ket -> ket -> res B) (mul : B -> B -> res B) (l m : list ket) : res (option B) :=
  first_some (fun s => decompose_while fuel f mul l m [s]) (sp_union (kspace (KTensor l)) (kspace (KTensor m))).

(** BraKet.create(a, b), _rules.py:717-762, state_algebra.py:596-598 *)
Definition bk_new (a b : ket) : res S := if same_space [a; b] then Ok (bk a b) else Err UnequalSpaces.
Definition bk_step (fuel : nat) (a b : ket) : res S :=
  match a, b with
  | _, KZero => Ok s0
  | KZero, _ => Ok s0
  | KBasis j _, KBasis k _ => Ok (if j =? k then s1 else s0)
  | KTensor l, KTensor m => do r <- decompose fuel (kc_bk Q) (fun x y => Ok (smult x y)) l m; match r with Some x => Ok x | None => bk_new a b end
  | _, _ =>
    if (match a with KSym _ _ => true | _ => false end) && keqb a b then Ok s1
    else
      match a with
      | KScal u p => do x <- kc_bk Q p b; Ok (smult (sconj u) x)
      | KOp x p => do x' <- oadj K x; do y <- kc_op Q x' b; kc_bk Q p y
      | _ => match b with KScal u p => do x <- kc_bk Q a p; Ok (smult u x) | _ => bk_new a b end
      end
  end.

(** KetBra.create(a, b), _rules.py:764-802, state_algebra.py:638-640 *)
Definition kb_new (a b : ket) : res op := if same_space [a; b] then Ok (kb a b) else Err UnequalSpaces.
Definition kb_rest (fuel : nat) (a b : ket) : res op :=
  match a with
  | KCoh u l => do p <- kc_kb Q (KBasis 0 l) b; k_times K [OAtom (ADisp u l); p]
  | _ =>
    match b with
    | KCoh u l => do p <- kc_kb Q a (KBasis 0 l); k_times K [p; OAtom (ADisp (sneg u) l)]
    | _ =>
      match a, b with
      | KTensor l, KTensor m => do r <- decompose fuel (kc_kb Q) (fun x y => k_times K [x; y]) l m; match r with Some x => Ok x | None => kb_new a b end
      | KOp x p, _ => do y <- kc_kb Q p b; k_times K [x; y]
      | _, KOp x p => do y <- kc_kb Q a p; do x' <- oadj K x; k_times K [y; x']
      | KScal u p, _ => do y <- kc_kb Q p b; k_scal K u y
      | _, KScal u p => do y <- kc_kb Q a p; k_scal K (sconj u) y
      | _, _ => kb_new a b
      end
    end
  end.
Definition kb_step (fuel : nat) (a b : ket) : res op :=
  match a, b with
  | KBasis m l, KBasis n l' => if l =? l' then Ok (OAtom (ASigma m n l)) else kb_new a b
  | _, _ => kb_rest fuel a b
  end.
End Step.

(** all entry points with recursion depth at most [n] *)
Fixpoint kcreators_n (n : nat) : kcreators :=
  match n with
  | 0 => {| kc_scal := fun _ _ => Err OutOfFuel; kc_plus := fun _ => Err OutOfFuel; kc_tens := fun _ => Err OutOfFuel;
            kc_op := fun _ _ => Err OutOfFuel; kc_bk := fun _ _ => Err OutOfFuel; kc_kb := fun _ _ => Err OutOfFuel |}
  | Datatypes.S m =>
    let Q := kcreators_n m in
    {| kc_scal := kscal_step Q; kc_plus := kplus_step Q; kc_tens := ktens_step Q m;
       kc_op := kop_step Q m; kc_bk := bk_step Q m; kc_kb := kb_step Q m |}
  end.

(** ** Products of kets and bras: State.__mul__, state_algebra.py:86-148, without sums *)
Inductive state := Ket (k : ket) | Bra (k : ket).
Inductive product := PState (s : state) | POp (a : op) | PScal (c : S).
Section Mul.
Context (Q : kcreators).
Definition state_mul (x y : state) : res product :=
  match x, y with
  | Ket a, Ket b => rmap (fun k => PState (Ket k)) (kc_tens Q [a; b])
  | Ket a, Bra b => rmap POp (kc_kb Q a b)
  | Bra a, Ket b => rmap PScal (kc_bk Q a b)
  | Bra a, Bra b => rmap (fun k => PState (Bra k)) (kc_tens Q [a; b])
  end.
(** [state * A] and [A * state]; an operator on the left of a bra and on the right of a
    ket is a TypeError *)
Definition op_mul (a : op) (x : state) : res state := match x with Ket k => rmap Ket (kc_op Q a k) | Bra _ => Err TypeError end.
Definition mul_op (x : state) (a : op) : res state :=
  match x with Ket _ => Err TypeError | Bra k => do a' <- oadj K a; rmap Bra (kc_op Q a' k) end.
(** [c * state], 150-161; ScalarTimesKet.create, 469-474 *)
Definition scal_mul (c : S) (x : state) : res state := match x with Ket k => rmap Ket (kc_scal Q c k) | Bra k => rmap Bra (kc_scal Q (sconj c) k) end.
(** [state + state]: QuantumExpression.__add__, Bra.__add__, 565-568; the sum of a ket and a
    bra is a TypeError *)
Definition state_add (x y : state) : res state :=
  match x, y with
  | Ket a, Ket b => rmap Ket (kc_plus Q [a; b])
  | Bra a, Bra b => rmap Bra (kc_plus Q [a; b])
  | _, _ => Err TypeError
  end.

(** ** Expansion *)
Definition ksummands (k : ket) : list ket := match k with KPlus l => l | _ => [k] end.
Definition kmul_combo (combo : list ket) : res ket :=
  match combo with [] => Err IndexError | x :: rest => foldM (fun a b => kc_tens Q [a; b]) x rest end.
Definition kadd_all (l : list ket) : res ket :=
  match l with [] => Err IndexError | x :: rest => foldM (fun a b => kc_plus Q [a; b]) x rest end.
(** [sum(l, ZeroKet)] *)
Definition ksum (l : list ket) : res ket := foldM (fun a b => kc_plus Q [a; b]) KZero l.
(** abstract_quantum_algebra.py:493-495, 536-537, 615-616, 1104-1125, state_algebra.py:505-519 *)
Fixpoint kexpand (n : nat) (k : ket) : res ket :=
  match n with
  | 0 => Err OutOfFuel
  | Datatypes.S m =>
    let finish ret := match ret with KPlus _ => kexpand m ret | _ => Ok ret end in
    match k with
    | KPlus l => do l' <- mapM (kexpand m) l; kc_plus Q l'
    | KTensor l =>
      do ks <- mapM (kexpand m) l;
      do summands <- mapM kmul_combo (cartesian (map ksummands ks));
      do ret <- kadd_all summands;
      finish ret
    | KScal c t =>
      do t' <- kexpand m t;
      do summands <- mapM (kc_scal Q c) (ksummands t');
      do ret <- kadd_all summands;
      finish ret
    | KOp a t =>
      do a' <- expand K m a;
      do t' <- kexpand m t;
      match t' with
      | KPlus l =>
        match a' with
        | OPlus os => do s <- mapM (fun p : ket * op => kc_op Q (snd p) (fst p)) (list_prod l os); ksum s
        | _ => do s <- mapM (kc_op Q a) l; ksum s
        end
      | _ =>
        match a' with
        | OPlus os => do s <- mapM (fun o => kc_op Q o t') os; ksum s
        | _ => kc_op Q a' t'
        end
      end
    | _ => Ok k
    end
  end.
(** BraKet._expand, state_algebra.py:620-626; KetBra._expand, 675-683 *)
Definition bk_expand (n : nat) (a b : ket) : res S :=
  do a' <- kexpand n a; do b' <- kexpand n b;
  do l <- mapM (fun p : ket * ket => kc_bk Q (fst p) (snd p)) (list_prod (ksummands a') (ksummands b'));
  Ok (fold_left sadd l s0).
Definition kb_expand (n : nat) (a b : ket) : res op :=
  do b' <- kexpand n b; do a' <- kexpand n a;
  do l <- mapM (fun p : ket * ket => kc_kb Q (fst p) (snd p)) (list_prod (ksummands a') (ksummands b'));
  k_plus K l.
End Mul.
End Ket.
Arguments state S : clear implicits. Arguments Ket {S} k. Arguments Bra {S} k.
Arguments product S : clear implicits. Arguments PState {S} s. Arguments POp {S} a. Arguments PScal {S} c.

(** no monitors: the code *)
Definition any_phase {S : scalars} (u : S) : bool := true.
Definition any_split {S : scalars} (on off : list (op S)) (h h' : list nat) : bool := true.
(** Monitor: the factors of both parts act on the respective kets *)
Definition clean_split {S : scalars} (on off : list (op S)) (h h' : list nat) : bool :=
  forallb (fun o => sp_incl (space o) h) on && forallb (fun o => sp_incl (space o) h') off.
