(** Circuit expressions and the channel-permutation part of
    /repo/src/qnet/algebra/core/circuit_algebra.py and
    /repo/src/qnet/algebra/_rules.py. *)
From Verif Require Import Prelude PermModel.

(** circuit_algebra.py:311-1320: the classes of circuit expressions.
    [CSym l n]: CircuitSymbol/Component with label (and symbolic arguments)
    [l] and cdim [n]; [CSlh s n]: an SLH literal with content [s] (any type
    [X]) and cdim [n]. *)
Inductive circ (X : Type) :=
| CSym (label n : nat)
| CSlh (s : X) (n : nat)
| CPerm (permutation : list nat)
| CId
| CZero
| CSeries (operands : list (circ X))
| CConcat (operands : list (circ X))
| CFeedback (operand : circ X) (out_port in_port : nat)
| CSInv (operand : circ X).
Arguments CSym {X} label n.
Arguments CSlh {X} s n.
Arguments CPerm {X} permutation.
Arguments CId {X}.
Arguments CZero {X}.
Arguments CSeries {X} operands.
Arguments CConcat {X} operands.
Arguments CFeedback {X} operand out_port in_port.
Arguments CSInv {X} operand.

Section Circ.
Context {X : Type}.
Local Notation circ := (circ X).

(** The cdim properties: circuit_algebra.py:621, 360, 816, 1031, 1057, 1090,
    1121, 1242, 1310. [SeriesProduct.cdim] reads [operands[0]]. *)
Fixpoint cdim (c : circ) : nat :=
  match c with
  | CSym _ n => n
  | CSlh _ n => n
  | CPerm p => length p
  | CId => 1
  | CZero => 0
  | CSeries ops => match ops with [] => 0 | o :: _ => cdim o end
  | CConcat ops => sum (map cdim ops)
  | CFeedback c _ _ => cdim c - 1
  | CSInv c => cdim c
  end.

(** circuit_algebra.py:1325-1338 *)
Definition circuit_identity (n : nat) : circ :=
  match n with
  | 0 => CZero
  | 1 => CId
  | _ => CConcat (repeat CId n)
  end.

(** circuit_algebra.py:780-787 CPermutation.create (on non-negative ints) *)
Definition cperm_create (permutation : list nat) : res circ :=
  if negb (checkp permutation) then Err BadPermutationError
  else if eqb_list_nat permutation (seq 0 (length permutation))
  then Ok (circuit_identity (length permutation))
  else Ok (CPerm permutation).

(** circuit_algebra.py:1365-1381 extract_channel, for 0 <= k < n *)
Definition extract_channel (k n : nat) : res circ :=
  cperm_create (seq 0 k ++ [n - 1] ++ seq k (n - 1 - k)).

(** Python [list.remove(v)] on the list [range(n)] remainder, v any int *)
Definition remove_Z (v : Z) (l : list nat) : res (list nat) :=
  if (v <? 0)%Z then Err ValueError else of_option ValueError (remove_first (Z.to_nat v) l).

(** circuit_algebra.py:1402-1406 *)
Fixpoint mc_values (n : nat) (values : list Z) (free : list nat) : res (list nat) :=
  match values with
  | [] => Ok free
  | v :: vs =>
    if (Z.of_nat n <=? v)%Z then Err ValueError
    else do free' <- remove_Z v free; mc_values n vs free'
  end.

(** circuit_algebra.py:1407-1410 *)
Fixpoint mc_keys (n : nat) (keys : list Z) : res unit :=
  match keys with
  | [] => Ok tt
  | k :: ks => if (Z.of_nat n <=? k)%Z then Err ValueError else mc_keys n ks
  end.

(** dict lookup *)
Fixpoint dict_get (k : Z) (mapping : list (Z * Z)) : option Z :=
  match mapping with
  | [] => None
  | (k', v) :: m => if (k =? k')%Z then Some v else dict_get k m
  end.

(** circuit_algebra.py:1411-1416 *)
Fixpoint mc_build (mapping : list (Z * Z)) (ks : list nat) (free : list nat) : res (list nat) :=
  match ks with
  | [] => Ok []
  | k :: ks' =>
    match dict_get (Z.of_nat k) mapping with
    | Some v => do r <- mc_build mapping ks' free; Ok (Z.to_nat v :: r)
    | None =>
      match free with
      | [] => Err IndexError
      | f :: free' => do r <- mc_build mapping ks' free'; Ok (f :: r)
      end
    end
  end.

(** circuit_algebra.py:1384-1418. [mapping] lists the dict items in insertion
    order, keys and values are arbitrary Python ints. *)
Definition map_channels (mapping : list (Z * Z)) (n : nat) : res circ :=
  do free <- mc_values n (map snd mapping) (seq 0 n);
  do _ <- mc_keys n (map fst mapping);
  do permutation <- mc_build mapping (seq 0 n) free;
  cperm_create permutation.

(** [{k: v}] *)
Definition mc1 (k v n : nat) : res circ := map_channels [(Z.of_nat k, Z.of_nat v)] n.

(** The image tuple of a circuit that is a channel permutation or an
    identity; [None] for every other circuit. *)
Fixpoint all_cid (ops : list circ) : bool :=
  match ops with [] => true | CId :: os => all_cid os | _ => false end.
Definition routing (c : circ) : option (list nat) :=
  match c with
  | CPerm p => Some p
  | CId => Some [0]
  | CZero => Some []
  | CConcat ops => if all_cid ops then Some (seq 0 (length ops)) else None
  | _ => None
  end.

Definition is_identity (c : circ) : bool :=
  match c with CId | CZero => true | CConcat ops => all_cid ops && (2 <=? length ops) | _ => false end.

(** circuit_algebra.py:822-834 *)
Definition series_with_permutation (self other : list nat) : res circ :=
  do combined <- mapM (fun p => of_option IndexError (nth_error self p)) other;
  cperm_create combined.

(** SeriesProduct.create on two operands that are channel permutations or
    identities of equal cdim (circuit_algebra.py:1077-1083 simplifications):
    [filter_cid] (algebraic_properties.py:431-446) drops identities, and rule
    R001 (_rules.py:1040) composes two permutations. *)
Definition series_perm (a b : circ) : res circ :=
  if negb (cdim a =? cdim b) then Err ValueError
  else if is_identity a then Ok b
  else if is_identity b then Ok a
  else match a, b with
       | CPerm p, CPerm q => series_with_permutation p q
       | _, _ => Err Unmodelled
       end.

(** circuit_algebra.py:836-837 *)
Definition cperm_series_inverse (p : list nat) : res circ :=
  do q <- invert_permutation p; Ok (CPerm q).

(** circuit_algebra.py:913-924 CPermutation._feedback *)
Definition cperm_feedback (p : list nat) (out_port in_port : nat) : res circ :=
  let n := length p in
  do m1 <- mc1 out_port (n - 1) n;
  do m2 <- mc1 (n - 1) in_port n;
  do a <- series_perm m1 (CPerm p);
  do new_perm_circuit <- series_perm a m2;
  match new_perm_circuit with
  | CPerm new_perm =>
    do n_inv <- of_option ValueError (index_of (n - 1) new_perm);
    do last <- of_option IndexError (nth_error new_perm (n - 1));
    do np <- of_option IndexError (set_nth n_inv last new_perm);
    cperm_create (removelast np)
  | _ => Ok (circuit_identity (n - 1))
  end.

(** circuit_algebra.py:926-972 CPermutation._factor_rhs *)
Definition factor_rhs (p : list nat) (in_port : nat) : res (nat * circ) :=
  let n := length p in
  if negb (in_port <? n) then Err PlainException
  else
    do in_im <- of_option IndexError (nth_error p in_port);
    do m1 <- mc1 in_im (n - 1) n;
    do m2 <- mc1 (n - 1) in_port n;
    do a <- series_perm m1 (CPerm p);
    do red_self_plus_cid1 <- series_perm a m2;
    match red_self_plus_cid1 with
    | CPerm q =>
      do l <- of_option IndexError (nth_error q (n - 1));
      if l =? n - 1 then do red_self <- cperm_create (removelast q); Ok (in_im, red_self)
      else Err AssertionError
    | _ => Ok (in_im, circuit_identity (n - 1))
    end.

(** circuit_algebra.py:974-1020 CPermutation._factor_lhs *)
Definition factor_lhs (p : list nat) (out_port : nat) : res (nat * circ) :=
  let n := length p in
  if negb (out_port <? n) then Err AssertionError
  else
    do out_inv <- of_option ValueError (index_of out_port p);
    do m1 <- mc1 out_port (n - 1) n;
    do m2 <- mc1 (n - 1) out_inv n;
    do a <- series_perm m1 (CPerm p);
    do red_self_plus_cid1 <- series_perm a m2;
    match red_self_plus_cid1 with
    | CPerm q =>
      do l <- of_option IndexError (nth_error q (n - 1));
      if l =? n - 1 then do red_self <- cperm_create (removelast q); Ok (out_inv, red_self)
      else Err AssertionError
    | _ => Ok (out_inv, circuit_identity (n - 1))
    end.

End Circ.

(** _rules.py:852-862: inner [while True] loop. Fuel bounds the loop; a
    Python slice [l[:i]] beyond the end is the whole list. *)
Fixpoint gcb_loop (fuel : nat) (l r : list nat) (i j : nat) : res (nat * nat * nat) :=
  match fuel with
  | 0 => Err OutOfFuel
  | S fuel' =>
    let lsum := sum (firstn i l) in
    let rsum := sum (firstn j r) in
    if lsum <? rsum then gcb_loop fuel' l r (S i) j
    else if rsum <? lsum then gcb_loop fuel' l r i (S j)
    else Ok (lsum, i, j)
  end.

(** _rules.py:824-864 _get_common_block_structure *)
Fixpoint gcb (fuel : nat) (l r : list nat) : res (list nat) :=
  match fuel with
  | 0 => Err OutOfFuel
  | S fuel' =>
    if negb (sum l =? sum r) then Err IncompatibleBlockStructures
    else match l, r with
         | [], [] => Ok []
         | _, _ =>
           do (lsum, i, j) <- gcb_loop (S (length l + length r)) l r 1 1;
           do rest <- gcb fuel' (skipn i l) (skipn j r);
           Ok (lsum :: rest)
         end
  end.
Definition get_common_block_structure (l r : list nat) : res (list nat) :=
  gcb (S (length l + length r)) l r.

(** circuit_algebra.py:102-128 index_in_block; the loop guard is
    [sum(struct[:i]) <= channel_index and i < self.cdim]. *)
Fixpoint iib_loop (fuel : nat) (struct : list nat) (n channel i : nat) : res nat :=
  match fuel with
  | 0 => Err OutOfFuel
  | S fuel' =>
    if (sum (firstn i struct) <=? channel) && (i <? n)
    then iib_loop fuel' struct n channel (S i) else Ok i
  end.
Definition index_in_block (struct : list nat) (n channel : nat) : res (nat * nat) :=
  if n <=? channel then Err ValueError
  else if length struct =? 1 then Ok (channel, 0)
  else
    do i <- iib_loop (S n) struct n channel 1;
    let block_index := i - 1 in
    Ok (channel - sum (firstn block_index struct), block_index).
