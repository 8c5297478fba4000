(** Model of indexed sums: core/indexed_operations.py, the indexed-sum
    simplifications of core/algebraic_properties.py, QuantumIndexedSum
    (core/abstract_quantum_algebra.py) and ScalarIndexedSum (core/scalar_algebra.py).
    Expressions are modelled as syntax trees; [create] builds them without the
    simplifications, which are modelled as separate functions on sums. *)
From Verif Require Import Prelude SortModel HilbertModel BasisModel.

(** IdxSym (utils/indices.py:68-170): name and number of primes *)
Definition idx : Set := nat * nat.
Definition idx_eqb (a b : idx) : bool := (fst a =? fst b) && (snd a =? snd b).
Definition imem (x : idx) (l : list idx) : bool := existsb (idx_eqb x) l.
(** incr_primed, 144-148 *)
Definition incr_primed (x : idx) : idx := (fst x, S (snd x)).

(** SymPy expressions in index symbols. Simplification: linear over the integers. *)
Inductive iexpr := IVar (x : idx) | IConst (z : Z) | IAdd (a b : iexpr) | IMul (c : Z) (a : iexpr).
(** scalar (SymPy) factors: numbers, index expressions, indexed symbols, KroneckerDelta,
    Piecewise indicators of ranges, sums and products *)
Inductive scal :=
| SConst (z : Z) | SIdx (e : iexpr) | SSym (n : nat) (args : list iexpr)
| SDelta (a b : iexpr) | SPiece (r : irange) (e : iexpr)
| SAdd (l : list scal) | SMul (l : list scal).
Notation irange_of := (idx * irange)%type.
(** quantum expressions: symbols with indexed labels, scalar multiples, sums,
    products, indexed sums *)
Inductive term :=
| TAtom (n : nat) (args : list iexpr)
| TScale (c : scal) (t : term)
| TAdd (t u : term)
| TMul (t u : term)
| TSum (t : term) (rs : list irange_of).

Definition syms (rs : list irange_of) : list idx := map fst rs.
(** ** free symbols (abstract_algebra.py:629-639, indexed_operations.py:63-67) *)
Fixpoint ifree (e : iexpr) : list idx :=
  match e with
  | IVar x => [x]
  | IConst _ => []
  | IAdd a b => ifree a ++ ifree b
  | IMul _ a => ifree a
  end.
Fixpoint sfree (s : scal) : list idx :=
  match s with
  | SConst _ => []
  | SIdx e | SPiece _ e => ifree e
  | SSym _ args => flat_map ifree args
  | SDelta a b => ifree a ++ ifree b
  | SAdd l | SMul l => flat_map sfree l
  end.
Fixpoint tfree (t : term) : list idx :=
  match t with
  | TAtom _ args => flat_map ifree args
  | TScale c t => sfree c ++ tfree t
  | TAdd t u | TMul t u => tfree t ++ tfree u
  | TSum t rs => filter (fun x => negb (imem x (syms rs))) (tfree t)
  end.
(** bound symbols at any depth *)
Fixpoint tbound (t : term) : list idx :=
  match t with
  | TAtom _ _ => []
  | TScale _ t => tbound t
  | TAdd t u | TMul t u => tbound t ++ tbound u
  | TSum t rs => syms rs ++ tbound t
  end.
(** the property [bound_symbols] (abstract_algebra.py:641-652); for a sum
    (indexed_operations.py:54-60) only its own symbols *)
Fixpoint bound_symbols (t : term) : list idx :=
  match t with
  | TAtom _ _ => []
  | TScale _ t => bound_symbols t
  | TAdd t u | TMul t u => bound_symbols t ++ bound_symbols u
  | TSum _ rs => syms rs
  end.

(** ** substitution (abstract_algebra.py:387-419), by a dict *)
Notation vmap := (list (idx * iexpr)).
Fixpoint lookup {V} (x : idx) (m : list (idx * V)) : option V :=
  match m with
  | [] => None
  | (y, v) :: m' => if idx_eqb x y then Some v else lookup x m'
  end.
Fixpoint isubst (m : vmap) (e : iexpr) : iexpr :=
  match e with
  | IVar x => match lookup x m with Some v => v | None => IVar x end
  | IConst z => IConst z
  | IAdd a b => IAdd (isubst m a) (isubst m b)
  | IMul c a => IMul c (isubst m a)
  end.
Fixpoint ssubst (m : vmap) (s : scal) : scal :=
  match s with
  | SConst z => SConst z
  | SIdx e => SIdx (isubst m e)
  | SSym n args => SSym n (map (isubst m) args)
  | SDelta a b => SDelta (isubst m a) (isubst m b)
  | SPiece r e => SPiece r (isubst m e)
  | SAdd l => SAdd (map (ssubst m) l)
  | SMul l => SMul (map (ssubst m) l)
  end.
(** the ranges' own [substitute] (utils/indices.py:448, 494, 532) also replaces the
    index symbol, which attrs requires to be an IdxSym *)
Definition range_subst (m : vmap) (r : irange_of) : res irange_of :=
  match lookup (fst r) m with
  | None => Ok r
  | Some (IVar y) => Ok (y, snd r)
  | Some _ => Err TypeError
  end.
(** IndexedSum.__init__, indexed_operations.py:20-34 *)
Fixpoint distinct (l : list idx) : bool :=
  match l with [] => true | x :: l' => negb (imem x l') && distinct l' end.
Definition sum_init (t : term) (rs : list irange_of) : res term :=
  if distinct (syms rs) then Ok (TSum t rs) else Err ValueError.
Fixpoint tsubst (m : vmap) (t : term) : res term :=
  match t with
  | TAtom n args => Ok (TAtom n (map (isubst m) args))
  | TScale c t => do t' <- tsubst m t; Ok (TScale (ssubst m c) t')
  | TAdd t u => do t' <- tsubst m t; do u' <- tsubst m u; Ok (TAdd t' u')
  | TMul t u => do t' <- tsubst m t; do u' <- tsubst m u; Ok (TMul t' u')
  | TSum t rs =>
    do t' <- tsubst m t;
    do rs' <- mapM (range_subst m) rs;
    sum_init t' rs'
  end.

(** ** Writing out (indexed_operations.py:73-193) *)

(** the values yielded by [iter()]; of an endless range the first [n] *)
Definition range_values (n : nat) (r : irange) : res (list Z) :=
  do v <- irange_values r;
  Ok (match v with Some l => l | None => map Z.of_nat (seq 0 n) end).
(** yield_from_ranges (utils/indices.py:55-65): one dict per combination *)
Definition assignments (n : nat) (rs : list irange_of) : res (list (list (idx * Z))) :=
  do vs <- mapM (fun r => do l <- range_values n (snd r); Ok (map (pair (fst r)) l)) rs;
  Ok (cartesian vs).
Definition consts (a : list (idx * Z)) : vmap := map (fun p => (fst p, IConst (snd p))) a.
(** [terms] (73-88) *)
Definition terms (n : nat) (t : term) (rs : list irange_of) : res (list (res term)) :=
  do l <- assignments n rs; Ok (map (fun a => tsubst (consts a) t) l).
(** __len__ (90-98) *)
Definition sum_len (rs : list irange_of) : res nat :=
  do ls <- mapM (fun r => match irange_len (snd r) with Err TypeError => Err InfiniteSumError | x => x end) rs;
  Ok (fold_left Nat.mul ls 1).
(** [res += term]: indexed sums do not implement addition on their left
    (QuantumIndexedSum.__add__, abstract_quantum_algebra.py:895-896) *)
Definition is_sum (t : term) : bool := match t with TSum _ _ => true | _ => false end.
Definition plus (a b : term) : res term := if is_sum a then Err NotImplementedError else Ok (TAdd a b).
(** the loop of _doit_full (146-160); [None] is the result [None] *)
Fixpoint doit_loop (limit : nat) (max_terms : option nat) (i : nat) (acc : option term)
    (ts : list (res term)) : res (option term) :=
  match ts with
  | [] => Ok acc
  | rt :: ts' =>
    do t <- rt;
    if match max_terms with Some m => m <=? i | None => false end then Ok acc
    else
      do acc' <- (match acc with None => Ok t | Some a => plus a t end);
      if limit <? i then Err InfiniteSumError
      else doit_loop limit max_terms (S i) (Some acc') ts'
  end.
Section Limit.
  (** _expand_limit, line 18: 1000 *)
  Context (limit : nat).
  Definition doit_full (max_terms : option nat) (t : term) (rs : list irange_of) : res (option term) :=
    match max_terms with
    | None =>
      do _ <- sum_len rs;
      do ts <- terms 0 t rs; doit_loop limit None 0 None ts
    | Some m =>
      if limit <? m then Err ValueError
      else do ts <- terms (S m) t rs; doit_loop limit (Some m) 0 None ts
    end.
  (** _doit_over_indices (162-193). [Some] of the new expression; Python's sum over an
      empty range is None, on which [create] fails an assertion (kronecker, line
      687) when other ranges remain. The endless loop is cut off by the limit. *)
  Fixpoint doit_over (indices : list idx) (t : term) (rs : list irange_of) : res (option term) :=
    match indices with
    | [] => Ok (Some (TSum t rs))
    | x :: indices' =>
      match find (fun r => idx_eqb (fst r) x) rs with
      | None => Ok (Some (TSum t rs))
      | Some r =>
        let others := filter (fun r => negb (idx_eqb (fst r) x)) rs in
        do vs <- range_values (S (S limit)) (snd r);
        do s <- doit_loop limit None 0 None (map (fun v => tsubst [(x, IConst v)] t) vs);
        match others, s with
        | [], _ => Ok s
        | _, None => Err AssertionError
        | _, Some t' => do _ <- sum_init t' others; doit_over indices' t' others
        end
      end
    end.
End Limit.

(** ** make_disjunct_indices (195-235), for a set of index symbols *)
Fixpoint prime_until (fuel : nat) (others : list idx) (x : idx) : res idx :=
  match fuel with
  | 0 => Err OutOfFuel
  | S f => if imem x others then prime_until f others (incr_primed x) else Ok x
  end.
(** [_substitute({x: y}, safe=True)] on a sum *)
Definition rename (x y : idx) (s : term * list irange_of) : res (term * list irange_of) :=
  do t' <- tsubst [(x, IVar y)] (fst s);
  do rs' <- mapM (range_subst [(x, IVar y)]) (snd s);
  do _ <- sum_init t' rs';
  Ok (t', rs').
Fixpoint disjunct_loop (others : list idx) (todo : list irange_of) (s : term * list irange_of) :
    res (term * list irange_of) :=
  match todo with
  | [] => Ok s
  | r :: todo' =>
    if imem (fst r) others then
      do y <- prime_until (S (length others)) others (fst r);
      do s' <- rename (fst r) y s;
      disjunct_loop others todo' s'
    else disjunct_loop others todo' s
  end.
Definition make_disjunct (others : list idx) (t : term) (rs : list irange_of) :
    res (term * list irange_of) := disjunct_loop others rs (t, rs).

(** ** products: QuantumIndexedSum.__mul__ and __rmul__ (abstract_quantum_algebra.py:853-888) *)
Definition mul_sums (t : term) (rs : list irange_of) (t' : term) (rs' : list irange_of) : res term :=
  do o <- make_disjunct (syms rs) t' rs';
  sum_init (TMul t (fst o)) (rs ++ snd o).
Definition rmul_sums (t : term) (rs : list irange_of) (t' : term) (rs' : list irange_of) : res term :=
  do s <- make_disjunct (syms rs') t rs;
  sum_init (TMul t' (fst s)) (rs' ++ snd s).
Definition mul_other (t : term) (rs : list irange_of) (other : term) : res term :=
  do s <- make_disjunct (bound_symbols other) t rs;
  sum_init (TMul (fst s) other) (snd s).
Definition rmul_other (t : term) (rs : list irange_of) (other : term) : res term :=
  do s <- make_disjunct (bound_symbols other) t rs;
  sum_init (TMul other (fst s)) (snd s).
(** ScalarIndexedSum.__mul__ by a number or SymPy expression
    (scalar_algebra.py:980-994): the new ranges are those of [self] *)
Definition scalar_sum_mul (t : term) (rs : list irange_of) (c : scal) : res term :=
  do s <- (match sfree c with [] => Ok (t, rs) | l => make_disjunct l t rs end);
  sum_init (TScale c (fst s)) rs.

(** ** Simplifications of indexed sums *)

(** the result of a simplification: an expression, or new operands *)
Inductive simp := Done (t : term) | Ops (t : term) (rs : list irange_of).
(** assoc_indexed (algebraic_properties.py:57-90). [coeff == 1] is a missing coefficient. *)
Definition assoc_indexed (t : term) (rs : list irange_of) : res simp :=
  let go (coeff : option scal) (u : term) (us : list irange_of) :=
    do s <- make_disjunct (syms rs) u us;
    let combined := rs ++ snd s in
    match coeff with
    | None => do r <- sum_init (fst s) combined; Ok (Done r)
    | Some c =>
      if existsb (fun x => imem x (syms combined)) (sfree c)
      then do r <- sum_init (TScale c (fst s)) combined; Ok (Done r)
      else do r <- sum_init (fst s) combined; Ok (Done (TScale c r))
    end in
  match t with
  | TSum u us => go None u us
  | TScale c (TSum u us) => go (Some c) u us
  | _ => Ok (Ops t rs)
  end.
(** indexed_sum_over_const (634-668). A multiple of [n] is [TScale (SConst n)]. *)
Fixpoint const_loop (t : term) (new_term : term) (rs : list irange_of) : res (term * list irange_of) :=
  match rs with
  | [] => Ok (new_term, [])
  | r :: rs' =>
    if imem (fst r) (tfree t) then
      do s <- const_loop t new_term rs'; Ok (fst s, r :: snd s)
    else
      match irange_len (snd r) with
      | Ok n => const_loop t (TScale (SConst (Z.of_nat n)) new_term) rs'
      | Err TypeError => do s <- const_loop t new_term rs'; Ok (fst s, r :: snd s)
      | Err e => Err e
      end
  end.
Definition sum_over_const (t : term) (rs : list irange_of) : res simp :=
  do s <- const_loop t t rs;
  Ok (match snd s with [] => Done (fst s) | _ => Ops (fst s) (snd s) end).
(** the rule pull_constfactor_from_sum (_rules.py:389-405): [None] is CannotSimplify *)
Definition pull_constfactor (c : scal) (t : term) (rs : list irange_of) : res (option term) :=
  if existsb (fun x => imem x (syms rs)) (sfree c) then Ok None
  else do r <- sum_init t rs; Ok (Some (TScale c r)).

(** ** Kronecker deltas (671-944) *)

(** coefficient of [x], and the rest *)
Fixpoint coeff_of (x : idx) (e : iexpr) : Z :=
  match e with
  | IVar y => if idx_eqb x y then 1 else 0
  | IConst _ => 0
  | IAdd a b => coeff_of x a + coeff_of x b
  | IMul c a => c * coeff_of x a
  end.
Definition at_zero (x : idx) (e : iexpr) : iexpr := isubst [(x, IConst 0)] e.
(** SymPy's _is_simple_delta: the difference of the arguments has degree one in [x] *)
Definition is_simple_delta (x : idx) (s : scal) : bool :=
  match s with
  | SDelta a b => negb (coeff_of x a - coeff_of x b =? 0)%Z
  | _ => false
  end.
(** SymPy's _has_simple_delta *)
Fixpoint has_simple_delta (x : idx) (s : scal) : bool :=
  match s with
  | SAdd l | SMul l => existsb (has_simple_delta x) l
  | _ => is_simple_delta x s
  end.
(** [sympy.solve(delta.args[0] - delta.args[1], idx)]. Simplification: only
    coefficients 1 and -1; otherwise the solution is not an integer expression. *)
Definition solve (x : idx) (a b : iexpr) : res iexpr :=
  let c := (coeff_of x a - coeff_of x b)%Z in
  let d := IAdd (at_zero x a) (IMul (-1) (at_zero x b)) in
  if (c =? 1)%Z then Ok (IMul (-1) d)
  else if (c =? -1)%Z then Ok d
  else Err Unmodelled.

(** A summand of _expand_delta: the SymPy factors and the quantum factor.
    _factors_for_expand_delta (740-757): the factors of the coefficient *)
Definition mul_args (c : scal) : list scal := match c with SMul l => l | _ => [c] end.
Definition factors_of (t : term) : list scal * term :=
  match t with
  | TScale c t' => (mul_args c, t')
  | _ => ([], t)
  end.
(** _expand_delta (760-798): expand the first sum that has a simple delta *)
Fixpoint expand_loop (x : idx) (found : bool) (fs : list scal) (summands : list (list scal)) : list (list scal) :=
  match fs with
  | [] => summands
  | f :: fs' =>
    match f with
    | SAdd l =>
      if negb found && has_simple_delta x f
      then expand_loop x true fs' (map (fun a => hd [] summands ++ mul_args a) l)
      else expand_loop x found fs' (map (fun s => s ++ [f]) summands)
    | _ => expand_loop x found fs' (map (fun s => s ++ [f]) summands)
    end
  end.
Definition expand_delta (x : idx) (t : term) : list term :=
  let (fs, q) := factors_of t in
  map (fun s => TScale (SMul s) q) (expand_loop x false fs [[]]).
(** _extract_delta (801-868, with SymPy's _extract_delta): the first factor that is a simple delta *)
Fixpoint extract_loop (x : idx) (fs : list scal) : option (iexpr * iexpr * list scal) :=
  match fs with
  | [] => None
  | f :: fs' =>
    match f with
    | SDelta a b =>
      if is_simple_delta x f then Some (a, b, fs')
      else option_map (fun p => (fst p, f :: snd p)) (extract_loop x fs')
    | _ => option_map (fun p => (fst p, f :: snd p)) (extract_loop x fs')
    end
  end.
(** multiplying by a scalar merges the coefficients
    (ScalarTimesQuantumExpression, abstract_quantum_algebra.py:556-600) *)
Definition scale_by (c : scal) (t : term) : term :=
  match t with TScale d t' => TScale (SMul (c :: mul_args d)) t' | _ => TScale c t end.
Definition remove_nth {A} (i : nat) (l : list A) : list A := firstn i l ++ skipn (S i) l.
(** _deltasummation (871-944): result list and flag. [pw] is
    _RESOLVE_KRONECKER_WITH_PIECEWISE (line 27, False) *)
Definition deltasummation (pw : bool) (t : term) (rs : list irange_of) (i : nat) :
    res (list (term * list irange_of) * nat) :=
  do r <- of_option IndexError (nth_error rs i);
  let x := fst r in
  match expand_delta x t with
  | [s] =>
    let (fs, q) := factors_of s in
    match extract_loop x fs with
    | None => Ok ([(t, rs)], 2)
    | Some (a, b, rest) =>
      do value <- solve x a b;
      do nt <- tsubst [(x, value)] (TScale (SMul rest) q);
      Ok ([(if pw then scale_by (SPiece (snd r) value) nt else nt, remove_nth i rs)], 1)
    end
  | ss => Ok (map (fun s => (s, rs)) ss, 3)
  end.

(** all index symbols in the KroneckerDeltas of a term (689-694) *)
Fixpoint sdeltas (s : scal) : list idx :=
  match s with
  | SDelta a b => ifree a ++ ifree b
  | SAdd l | SMul l => flat_map sdeltas l
  | _ => []
  end.
Fixpoint tdeltas (t : term) : list idx :=
  match t with
  | TAtom _ _ => []
  | TScale c t => sdeltas c ++ tdeltas t
  | TAdd t u | TMul t u => tdeltas t ++ tdeltas u
  | TSum t _ => tdeltas t
  end.
(** _ranges_key (671-684), compared in descending order; names are compared as numbers *)
Definition ranges_key (ds : list idx) (r : irange_of) : nat * nat :=
  if imem (fst r) ds then (snd (fst r), S (fst (fst r))) else (0, 0).
Definition key_gt (ds : list idx) (r r' : irange_of) : bool :=
  let (p, n) := ranges_key ds r in let (p', n') := ranges_key ds r' in
  (p' <? p) || ((p' =? p) && (n' <? n)).
(** the buffer loop (702-728): finished items, remaining items, i_range *)
Fixpoint kron_loop (pw : bool) (ds : list idx) (fuel : nat) (finished buffer : list (term * list irange_of))
    (i_range : nat) : res (list (term * list irange_of)) :=
  match fuel with
  | 0 => Err OutOfFuel
  | S fuel' =>
    match buffer with
    | [] => Ok finished
    | (t, rs) :: rest =>
      do r <- of_option IndexError (nth_error rs i_range);
      do st <- (if imem (fst r) ds then
                  do d <- deltasummation pw t rs i_range;
                  Ok (fst d, if snd d =? 2 then S i_range else i_range)
                else Ok ([(t, rs)], S i_range));
      match fst st with
      | [] => Err IndexError
      | item :: items =>
        if length (snd item) <=? snd st
        then kron_loop pw ds fuel' (finished ++ [item]) (items ++ rest) 0
        else kron_loop pw ds fuel' finished (item :: items ++ rest) (snd st)
      end
    end
  end.
Section Kron.
  (** [cls.create], called for the remaining sums (any simplification of them) *)
  Context (create : term -> list irange_of -> res term).
  (** 729-740: the sum of the items *)
  Definition close_item (it : term * list irange_of) : res term :=
    match snd it with [] => Ok (fst it) | rs => create (fst it) rs end.
  Fixpoint add_items (acc : term) (items : list (term * list irange_of)) : res term :=
    match items with
    | [] => Ok acc
    | it :: items' => do t <- close_item it; do acc' <- plus acc t; add_items acc' items'
    end.
  (** equality of expressions and ranges, line 729 *)
  Context (same : term * list irange_of -> term * list irange_of -> bool).
  Definition sum_over_kronecker (pw : bool) (fuel : nat) (t : term) (rs : list irange_of) : res simp :=
    match tdeltas t with
    | [] => Ok (Ops t rs)
    | ds =>
      let rs' := pysorted (key_gt ds) rs in
      do buffer <- kron_loop pw ds fuel [] [(t, rs')] 0;
      match buffer with
      | [] => Err IndexError
      | it :: items =>
        if (match items with [] => true | _ => false end) && same it (t, rs') then Ok (Ops t rs)
        else do r <- close_item it; do r' <- add_items r items; Ok (Done r')
      end
    end.
End Kron.
