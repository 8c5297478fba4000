(** The circuit simplifier: SeriesProduct/Concatenation/Feedback/SeriesInverse
    [create], the methods they call, and the circuit rules,
    /repo/src/qnet/algebra/core/circuit_algebra.py and
    /repo/src/qnet/algebra/_rules.py:824-1120.
    Not modelled here: instance caching (see CreateModel), logging. *)
From Verif Require Import Prelude PermModel CircModel BinModel.

(** The operations of SLH literals (class SLH, circuit_algebra.py:315-505; the
    concrete ones are in SlhModel): cdim, equality, series_with_slh,
    concatenate_slh, _series_inverse, _feedback (out_port, in_port). *)
Record lits (X : Type) := {
  x_dim : X -> nat;
  x_eq : X -> X -> bool;
  x_ser : X -> X -> res X;
  x_cat : X -> X -> res X;
  x_inv : X -> res X;
  x_fb : X -> nat -> nat -> res X
}.
Arguments x_dim {X} l.
Arguments x_eq {X} l.
Arguments x_ser {X} l.
Arguments x_cat {X} l.
Arguments x_inv {X} l.
Arguments x_fb {X} l.

(** The mutually recursive entry points: [SeriesProduct.create(ops...)],
    [Concatenation.create(ops...)], [Feedback.create(c, out_port, in_port)],
    [SeriesInverse.create(c)], [c.series_inverse()],
    [c.feedback(out_port, in_port)]. *)
Record creators (X : Type) := {
  k_series : list (circ X) -> res (circ X);
  k_concat : list (circ X) -> res (circ X);
  k_fb : circ X -> nat -> nat -> res (circ X);
  k_inv : circ X -> res (circ X);
  k_minv : circ X -> res (circ X);
  k_mfb : circ X -> nat -> nat -> res (circ X)
}.
Arguments k_series {X} c.
Arguments k_concat {X} c.
Arguments k_fb {X} c.
Arguments k_inv {X} c.
Arguments k_minv {X} c.
Arguments k_mfb {X} c.

(** (sizes of) the block permutations of a permutation, circuit_algebra.py:794-804, 839-841 *)
Definition block_perms (p : list nat) : res (list (list nat)) := permutation_to_block_permutations p.

(** circuit_algebra.py:856-862: the inner [while] loop; [cur] is
    [current_perm], the second component of the result is what is left in
    [block_perm_iter]. *)
Fixpoint take_perms (l : nat) (cur : list nat) (bps : list (list nat)) : res (list nat * list (list nat)) :=
  if length cur <? l then
    match bps with
    | [] => Err StopIteration
    | b :: bps' => take_perms l (cur ++ map (fun p => p + length cur) b) bps'
    end
  else Ok (cur, bps).
(** circuit_algebra.py:855-868: the [for] loop *)
Fixpoint group_perms (bs : list nat) (bps : list (list nat)) : res (list (list nat)) :=
  match bs with
  | [] => Ok []
  | l :: bs' =>
    do (cur, bps') <- take_perms l [] bps;
    if length cur =? l then do r <- group_perms bs' bps'; Ok (cur :: r)
    else Err PlainException
  end.

Section Simp.
Context {X : Type} (lit : lits X).
Local Notation circ := (circ X).

Definition slh_of (s : X) : circ := CSlh s (x_dim lit s).

(** Expression.__eq__ (abstract_algebra.py:363-368) for circuits: same class and
    arguments. [Feedback.__init__] (circuit_algebra.py:1219-1223) passes only the
    operand to the instance key, so the ports are not compared. *)
Fixpoint ceqb (a b : circ) {struct a} : bool :=
  let list_eqb := fix go (l m : list circ) {struct l} : bool :=
    match l, m with [], [] => true | x :: l', y :: m' => ceqb x y && go l' m' | _, _ => false end in
  match a, b with
  | CSym l n, CSym l' n' => (l =? l') && (n =? n')
  | CSlh s n, CSlh s' n' => x_eq lit s s' && (n =? n')
  | CPerm p, CPerm q => eqb_list_nat p q
  | CId, CId => true
  | CZero, CZero => true
  | CSeries l, CSeries m => list_eqb l m
  | CConcat l, CConcat m => list_eqb l m
  | CFeedback c _ _, CFeedback d _ _ => ceqb c d
  | CSInv c, CSInv d => ceqb c d
  | _, _ => false
  end.

(** [c == circuit_identity(n)] *)
Definition is_cid (n : nat) (c : circ) : bool := ceqb c (circuit_identity n).

(** _block_structure: circuit_algebra.py:98-100, 839-841, 1131-1137. *)
Fixpoint block_structure (c : circ) : res (list nat) :=
  match c with
  | CPerm p => do bps <- block_perms p; Ok (map (@length nat) bps)
  | CConcat ops =>
    (fix go (l : list circ) : res (list nat) :=
       match l with
       | [] => Ok []
       | o :: l' => do b <- block_structure o; do r <- go l'; Ok (b ++ r)
       end) ops
  | _ => Ok [cdim c]
  end.

Section Step.
Context (K : creators X).

(** circuit_algebra.py:1146-1149: the inner [while] loop *)
Fixpoint take_ops (bl cur : nat) (cbo : list circ) (blocks : list circ) : res (list circ * nat * list circ) :=
  if cur <? bl then
    match blocks with
    | [] => Err StopIteration
    | o :: blocks' => take_ops bl (cur + cdim o) (cbo ++ [o]) blocks'
    end
  else Ok (cbo, cur, blocks).
(** circuit_algebra.py:1145-1157: the [for] loop *)
Fixpoint group_ops (bs : list nat) (blocks : list circ) : res (list circ) :=
  match bs with
  | [] => Ok []
  | bl :: bs' =>
    do (cbo, cur, blocks') <- take_ops bl 0 [] blocks;
    if cur =? bl then
      do b <- k_concat K cbo;
      do r <- group_ops bs' blocks';
      Ok (b :: r)
    else Err IncompatibleBlockStructures
  end.

(** CPermutation._get_blocks, circuit_algebra.py:843-868 *)
Definition perm_get_blocks (p : list nat) (bs : list nat) : res (list circ) :=
  do bps <- block_perms p;
  if eqb_list_nat bs (map (@length nat) bps) then mapM cperm_create bps
  else if length bps <? length bs then Err PlainException
  else if negb (sum bs =? length p) then Err PlainException
  else do gs <- group_perms bs bps; mapM cperm_create gs.

(** [c.get_blocks()], circuit_algebra.py:130-163 with the default structure *)
Fixpoint own_blocks (c : circ) : res (list circ) :=
  match c with
  | CPerm p => do bps <- block_perms p; mapM cperm_create bps
  | CConcat ops =>
    do blocks <- (fix go (l : list circ) : res (list circ) :=
       match l with
       | [] => Ok []
       | o :: l' => do b <- own_blocks o; do r <- go l'; Ok (b ++ r)
       end) ops;
    do bs <- block_structure c;
    group_ops bs blocks
  | _ => Ok [c]
  end.

(** [c.get_blocks(bs)]: circuit_algebra.py:159-163 (base class),
    843-868 (CPermutation), 1139-1157 (Concatenation) *)
Definition get_blocks (c : circ) (bs : list nat) : res (list circ) :=
  match c with
  | CPerm p => perm_get_blocks p bs
  | CConcat ops =>
    do blocks <- mapM own_blocks ops;
    group_ops bs (concat blocks)
  | _ => if eqb_list_nat bs [cdim c] then Ok [c] else Err IncompatibleBlockStructures
  end.

(** *** rules *)
Definition lift (r : res circ) : outcome circ :=
  match r with
  | Ok c => Replaces (Some c)
  | Err CannotSimplify => Refuses
  | Err e => Raises e
  end.

(** _rules.py:867-889 *)
Definition tensor_decompose_series (lhs rhs : circ) : res circ :=
  match rhs with
  | CPerm _ => Err CannotSimplify
  | _ =>
    do lhs_structure <- block_structure lhs;
    do rhs_structure <- block_structure rhs;
    do res_struct <- get_common_block_structure lhs_structure rhs_structure;
    if 1 <? length res_struct then
      do blocks <- get_blocks lhs res_struct;
      do oblocks <- get_blocks rhs res_struct;
      do parallel_series <- mapM (fun lr => k_series K [fst lr; snd lr]) (combine blocks oblocks);
      k_concat K parallel_series
    else Err CannotSimplify
  end.

(** circuit_algebra.py:870-911 CPermutation._factorize_for_rhs *)
Definition factorize_for_rhs (p : list nat) (rhs : circ) : res (circ * circ * circ) :=
  do bs <- block_structure rhs;
  do (block_perm, perms_within_blocks) <- block_perm_and_perms_within_blocks p bs;
  do fblockp <- full_block_perm block_perm bs;
  if negb (eqb_listZ (sortZ (map Z.of_nat fblockp)) (map Z.of_nat (seq 0 (length p))))
  then Err BadPermutationError
  else
    do new_rhs_circuit <- cperm_create fblockp;
    do within_blocks <- mapM cperm_create perms_within_blocks;
    do within_perm_circuit <- k_concat K within_blocks;
    do rhs_blocks <- get_blocks rhs bs;
    do ibp <- invert_permutation block_perm;
    do summands <- mapM (fun q =>
         do w <- of_option IndexError (nth_error within_blocks q);
         do r <- of_option IndexError (nth_error rhs_blocks q);
         k_series K [w; r]) ibp;
    do permuted_rhs_circuit <- k_concat K summands;
    do wi <- k_minv K within_perm_circuit;
    do t <- k_series K [CPerm p; wi];
    do ri <- k_minv K new_rhs_circuit;
    do new_lhs_circuit <- k_series K [t; ri];
    Ok (new_lhs_circuit, permuted_rhs_circuit, new_rhs_circuit).

(** _rules.py:892-912 *)
Definition factor_permutation_for_blocks (p : list nat) (rhs : circ) : res circ :=
  do rbs <- block_structure rhs;
  if is_cid (cdim rhs) rhs then Ok (CPerm p)
  else if 1 <? length rbs then
    do (residual_lhs, transformed_rhs, carried_through_lhs) <- factorize_for_rhs p rhs;
    if ceqb residual_lhs (CPerm p) then Err CannotSimplify
    else k_series K [residual_lhs; transformed_rhs; carried_through_lhs]
  else Err CannotSimplify.

(** _rules.py:1039-1057 SeriesProduct rules R001-R006 *)
Definition series_rules : list (circ -> circ -> outcome circ) := [
  (fun a b => match a, b with
              | CPerm p, CPerm q => lift (series_with_permutation p q)
              | _, _ => NoMatch end);
  (fun a b => match a, b with
              | CSlh s _, CSlh t _ => lift (do r <- x_ser lit s t; Ok (slh_of r))
              | _, _ => NoMatch end);
  (fun a b => lift (tensor_decompose_series a b));
  (fun a b => match a with CPerm p => lift (factor_permutation_for_blocks p b) | _ => NoMatch end);
  (fun a b => match b with
              | CSInv d => if ceqb a d then lift (Ok (circuit_identity (cdim a))) else NoMatch
              | _ => NoMatch end);
  (fun a b => match a with
              | CSInv d => if ceqb d b then lift (Ok (circuit_identity (cdim d))) else NoMatch
              | _ => NoMatch end)].

(** [pattern(SeriesProduct, A__Circuit, B_CPermutation)] *)
Definition series_perm_tail (c : circ) : option (list circ * list nat) :=
  match c with
  | CSeries ops =>
    match split_last ops with
    | Some (o :: a, CPerm p) => Some (o :: a, p)
    | _ => None
    end
  | _ => None
  end.

(** _rules.py:1059-1090 Concatenation rules R001-R007 *)
Definition concat_rules : list (circ -> circ -> outcome circ) := [
  (fun a b => match a, b with
              | CSlh s _, CSlh t _ => lift (do r <- x_cat lit s t; Ok (slh_of r))
              | _, _ => NoMatch end);
  (fun a b => match a, b with
              | CPerm p, CPerm q => lift (cperm_create (concatenate_permutations p q))
              | _, _ => NoMatch end);
  (fun a b => match a, b with
              | CPerm p, CId => lift (cperm_create (concatenate_permutations p [0]))
              | _, _ => NoMatch end);
  (fun a b => match a, b with
              | CId, CPerm q => lift (cperm_create (concatenate_permutations [0] q))
              | _, _ => NoMatch end);
  (fun a b => match series_perm_tail a, series_perm_tail b with
              | Some (A, p), Some (C, q) =>
                lift (do a' <- k_series K A; do c' <- k_series K C;
                      do l <- k_concat K [a'; c'];
                      do r <- k_concat K [CPerm p; CPerm q];
                      k_series K [l; r])
              | _, _ => NoMatch end);
  (fun a b => match series_perm_tail a with
              | Some (A, p) =>
                lift (do a' <- k_series K A;
                      do l <- k_concat K [a'; b];
                      do r <- k_concat K [CPerm p; circuit_identity (cdim b)];
                      k_series K [l; r])
              | None => NoMatch end);
  (fun a b => match series_perm_tail b with
              | Some (B, q) =>
                lift (do b' <- k_series K B;
                      do l <- k_concat K [a; b'];
                      do r <- k_concat K [circuit_identity (cdim a); CPerm q];
                      k_series K [l; r])
              | None => NoMatch end)].

(** circuit_algebra.py:1081-1088; isinstance and the neutral element *)
Definition series_cls : bincls circ := {|
  binary_rules := series_rules;
  is_neutral := fun c => ceqb c CId;
  neutral := CId;
  instance_args := fun c => match c with CSeries l => Some l | _ => None end |}.
(** circuit_algebra.py:1109-1115 *)
Definition concat_cls : bincls circ := {|
  binary_rules := concat_rules;
  is_neutral := fun c => ceqb c CZero;
  neutral := CZero;
  instance_args := fun c => match c with CConcat l => Some l | _ => None end |}.

(** algebraic_properties.py:44-54 assoc *)
Definition flat_series (ops : list circ) : list circ :=
  flat_map (fun o => match o with CSeries l => l | _ => [o] end) ops.
Definition flat_concat (ops : list circ) : list circ :=
  flat_map (fun o => match o with CConcat l => l | _ => [o] end) ops.

(** algebraic_properties.py:424-428 check_cdims *)
Definition same_cdims (ops : list circ) : bool :=
  match ops with [] => false | o :: os => forallb (fun o' => cdim o' =? cdim o) os end.

(** [SeriesProduct.create]: abstract_algebra.py:104-186 with
    [simplifications = [assoc, filter_cid, check_cdims, match_replace_binary]]
    (filter_cid: algebraic_properties.py:431-446). *)
Definition create_series (fuel : nat) (ops : list circ) : res circ :=
  let ops := flat_series ops in
  match ops with
  | [] => Ok CZero
  | o0 :: _ =>
    match filter (fun op => negb (is_cid (cdim op) op)) ops with
    | [] => Ok o0
    | [x] => Ok x
    | fops =>
      if same_cdims fops then
        do r <- match_replace_binary series_cls fuel fops;
        match r with inl c => Ok c | inr l => Ok (CSeries l) end
      else Err ValueError
    end
  end.

(** [Concatenation.create]: [simplifications = [assoc, filter_neutral,
    match_replace_binary]] (filter_neutral: algebraic_properties.py:121-144). *)
Definition create_concat (fuel : nat) (ops : list circ) : res circ :=
  let ops := flat_concat ops in
  match ops with
  | [] => Ok CZero
  | o0 :: _ =>
    match filter (fun op => negb (ceqb CZero op)) ops with
    | [] => Ok o0
    | [x] => Ok x
    | fops =>
      do r <- match_replace_binary concat_cls fuel fops;
      match r with inl c => Ok c | inr l => Ok (CConcat l) end
    end
  end.

(** circuit_algebra.py:1163-1201 Concatenation._feedback *)
Definition concat_feedback (ops : list circ) (out_port in_port : nat) : res circ :=
  let self := CConcat ops in
  let n := cdim self in
  if (out_port =? n - 1) && (in_port =? n - 1) then
    do (init, last) <- of_option IndexError (split_last ops);
    do f <- k_mfb K last (cdim last - 1) (cdim last - 1);
    k_concat K (init ++ [f])
  else
    do bs <- block_structure self;
    do (in_port_in_block, in_block) <- index_in_block bs n in_port;
    do (out_index_in_block, out_block) <- index_in_block bs n out_port;
    do blocks <- own_blocks self;
    if in_block =? out_block then
      do before <- k_concat K (firstn out_block blocks);
      do b <- of_option IndexError (nth_error blocks out_block);
      do f <- k_mfb K b out_index_in_block in_port_in_block;
      do l <- k_concat K [before; f];
      do after <- k_concat K (skipn (out_block + 1) blocks);
      k_concat K [l; after]
    else if in_block <? out_block then
      do b1 <- k_concat K (firstn out_block blocks);
      do b2 <- k_concat K (skipn out_block blocks);
      do l <- k_concat K [b1; circuit_identity (cdim b2 - 1)];
      do m <- mc1 (out_port - 1) in_port (n - 1);
      do lm <- k_series K [l; m];
      do r <- k_concat K [circuit_identity (cdim b1 - 1); b2];
      k_series K [lm; r]
    else
      do b1 <- k_concat K (firstn in_block blocks);
      do b2 <- k_concat K (skipn in_block blocks);
      do l <- k_concat K [circuit_identity (cdim b1 - 1); b2];
      do m <- mc1 out_port (in_port - 1) (n - 1);
      do lm <- k_series K [l; m];
      do r <- k_concat K [b1; circuit_identity (cdim b2 - 1)];
      k_series K [lm; r].

(** The [_feedback] methods of the three classes in
    [Feedback.delegate_to_method] (circuit_algebra.py:1214). Simplification:
    feeding back the only channel of an SLH literal is not modelled. *)
Definition fb_impl (c : circ) (out_port in_port : nat) : option (res circ) :=
  match c with
  | CConcat ops => Some (concat_feedback ops out_port in_port)
  | CSlh s n => Some (if n <=? 1 then Err Unmodelled
                      else do r <- x_fb lit s out_port in_port; Ok (slh_of r))
  | CPerm p => Some (cperm_feedback p out_port in_port)
  | _ => None
  end.
(** [c.feedback(out_port, in_port)], circuit_algebra.py:181-200 *)
Definition method_feedback (c : circ) (out_port in_port : nat) : res circ :=
  match fb_impl c out_port in_port with Some r => r | None => k_fb K c out_port in_port end.

(** the [_series_inverse] methods: circuit_algebra.py:178-179, 451-452,
    836-837, 1043-1044, 1100-1102, 1159-1161, 1268-1270 *)
Definition method_inverse (c : circ) : res circ :=
  match c with
  | CSeries ops => do factors <- mapM (k_minv K) (rev ops); k_series K factors
  | CConcat ops => do fs <- mapM (k_minv K) ops; k_concat K fs
  | CFeedback d out_port in_port => do di <- k_minv K d; k_fb K di in_port out_port
  | CSlh s _ => do r <- x_inv lit s; Ok (slh_of r)
  | CPerm p => cperm_series_inverse p
  | CId => Ok CId
  | CSym _ _ | CZero | CSInv _ => k_inv K c
  end.
(** circuit_algebra.py:1298-1303 SeriesInverse.create *)
Definition create_inv (c : circ) : res circ :=
  match c with
  | CSInv d => Ok d
  | CSym _ _ | CZero => Ok (CSInv c)
  | _ => method_inverse c
  end.

(** _rules.py:1006-1012 *)
Definition series_feedback (series : circ) (out_port in_port : nat) : res circ :=
  do i <- k_minv K series;
  do series_s <- k_minv K i;
  if ceqb series_s series then Err CannotSimplify
  else k_mfb K series_s out_port in_port.

(** _rules.py:915-931 *)
Definition pull_out_perm_lhs (p : list nat) (rest : list circ) (out_port in_port : nat) : res circ :=
  do (out_inv, lhs_red) <- factor_lhs p out_port;
  do s <- k_series K rest;
  do f <- k_fb K s out_inv in_port;
  k_series K [lhs_red; f].

(** _rules.py:972-978 *)
Definition pull_out_perm_rhs (rest : list circ) (p : list nat) (out_port in_port : nat) : res circ :=
  do (in_im, rhs_red) <- factor_rhs p in_port;
  do s <- k_series K rest;
  do f <- k_fb K s out_port in_im;
  k_series K [f; rhs_red].

(** _rules.py:948-956, 985-992: split a reducible circuit around the block that
    contains [port] *)
Definition split_blocks (c : circ) (port : nat) : res (nat * nat * nat * circ * circ * circ) :=
  do bs <- block_structure c;
  do (_, block_index) <- index_in_block bs (cdim c) port;
  do nblock <- of_option IndexError (nth_error bs block_index);
  let nbefore := sum (firstn block_index bs) in
  let nafter := sum (skipn (block_index + 1) bs) in
  do blocks <- get_blocks c [nbefore; nblock; nafter];
  match blocks with
  | [before; block; after] => Ok (nbefore, nblock, nafter, before, block, after)
  | _ => Err ValueError
  end.

(** _rules.py:934-969 *)
Definition pull_out_unaffected_blocks_lhs (lhs : circ) (rest : list circ) (out_port in_port : nat) : res circ :=
  do (nbefore, nblock, nafter, before, block, after) <- split_blocks lhs out_port;
  if negb (is_cid nbefore before) || negb (is_cid nafter after) then
    do t <- k_concat K [before; circuit_identity (nblock - 1)];
    do outer_lhs <- k_concat K [t; after];
    do u <- k_concat K [circuit_identity nbefore; block];
    do inner_lhs <- k_concat K [u; circuit_identity nafter];
    do s <- k_series K (inner_lhs :: rest);
    do f <- k_fb K s out_port in_port;
    k_series K [outer_lhs; f]
  else if is_cid nblock block then
    do t <- k_concat K [before; circuit_identity (nblock - 1)];
    do outer_lhs <- k_concat K [t; after];
    do s <- k_series K rest;
    do f <- k_fb K s out_port in_port;
    k_series K [outer_lhs; f]
  else Err CannotSimplify.

(** _rules.py:981-1003 *)
Definition pull_out_unaffected_blocks_rhs (rest : list circ) (rhs : circ) (out_port in_port : nat) : res circ :=
  do (nbefore, nblock, nafter, before, block, after) <- split_blocks rhs in_port;
  if negb (is_cid nbefore before) || negb (is_cid nafter after) then
    do t <- k_concat K [before; circuit_identity (nblock - 1)];
    do outer_rhs <- k_concat K [t; after];
    do u <- k_concat K [circuit_identity nbefore; block];
    do inner_rhs <- k_concat K [u; circuit_identity nafter];
    do s <- k_series K (rest ++ [inner_rhs]);
    do f <- k_fb K s out_port in_port;
    k_series K [f; outer_rhs]
  else if is_cid nblock block then
    do t <- k_concat K [before; circuit_identity (nblock - 1)];
    do outer_rhs <- k_concat K [t; after];
    do s <- k_series K rest;
    do f <- k_fb K s out_port in_port;
    k_series K [f; outer_rhs]
  else Err CannotSimplify.

(** _rules.py:1092-1118 Feedback rules R001-R005, tried on the operand *)
Definition fb_rules : list (circ -> nat -> nat -> outcome circ) := [
  (fun c o i => match c with CSeries _ => lift (series_feedback c o i) | _ => NoMatch end);
  (fun c o i => match c with
                | CSeries (CPerm p :: r :: rest) => lift (pull_out_perm_lhs p (r :: rest) o i)
                | _ => NoMatch end);
  (fun c o i => match c with
                | CSeries (CConcat ops :: r :: rest) => lift (pull_out_unaffected_blocks_lhs (CConcat ops) (r :: rest) o i)
                | _ => NoMatch end);
  (fun c o i => match c with
                | CSeries ops => match split_last ops with
                                 | Some (r :: rest, CPerm p) => lift (pull_out_perm_rhs (r :: rest) p o i)
                                 | _ => NoMatch end
                | _ => NoMatch end);
  (fun c o i => match c with
                | CSeries ops => match split_last ops with
                                 | Some (r :: rest, CConcat l) => lift (pull_out_unaffected_blocks_rhs (r :: rest) (CConcat l) o i)
                                 | _ => NoMatch end
                | _ => NoMatch end)].

(** algebraic_properties.py:296-320 match_replace *)
Fixpoint match_replace_fb (rules : list (circ -> nat -> nat -> outcome circ)) (c : circ) (o i : nat) : res circ :=
  match rules with
  | [] => Ok (CFeedback c o i)
  | rule :: rest =>
    match rule c o i with
    | NoMatch | Refuses | Replaces None => match_replace_fb rest c o i
    | Replaces (Some r) => Ok r
    | Raises e => Err e
    end
  end.

(** circuit_algebra.py:1245-1258 Feedback.create *)
Definition create_fb (c : circ) (out_port in_port : nat) : res circ :=
  if cdim c <=? 1 then Err ValueError
  else match fb_impl c out_port in_port with
       | Some r => r
       | None => match_replace_fb fb_rules c out_port in_port
       end.
End Step.

(** One unfolding of all entry points; [fuel] is handed to the rewriting loop. *)
Definition step (fuel : nat) (K : creators X) : creators X := {|
  k_series := create_series K fuel;
  k_concat := create_concat K fuel;
  k_fb := create_fb K;
  k_inv := create_inv K;
  k_minv := method_inverse K;
  k_mfb := method_feedback K |}.
Definition no_fuel : creators X := {|
  k_series := fun _ => Err OutOfFuel;
  k_concat := fun _ => Err OutOfFuel;
  k_fb := fun _ _ _ => Err OutOfFuel;
  k_inv := fun _ => Err OutOfFuel;
  k_minv := fun _ => Err OutOfFuel;
  k_mfb := fun _ _ _ => Err OutOfFuel |}.
(** The simplifier with recursion depth [fuel]. *)
Fixpoint simp (fuel : nat) : creators X :=
  match fuel with 0 => no_fuel | S f => step f (simp f) end.

(** circuit_algebra.py:1341-1357 FB *)
Definition FB (fuel : nat) (c : circ) (out_port in_port : option nat) : res circ :=
  let d o := match o with Some x => x | None => cdim c - 1 end in
  k_fb (simp fuel) c (d out_port) (d in_port).

(** the [_creduce] methods: circuit_algebra.py:360, 819, 1040, 1066, 1096-1097,
    1127-1128, 1264-1266, 1311-1312 *)
Fixpoint creduce (fuel : nat) (c : circ) : res circ :=
  let list_red := fix go (l : list circ) : res (list circ) :=
    match l with [] => Ok [] | o :: l' => do b <- creduce fuel o; do r <- go l'; Ok (b :: r) end in
  match c with
  | CSeries ops => do l <- list_red ops; k_series (simp fuel) l
  | CConcat ops => do l <- list_red ops; k_concat (simp fuel) l
  | CFeedback d o i => do e <- creduce fuel d; k_mfb (simp fuel) e o i
  | CSInv d => do e <- creduce fuel d; k_minv (simp fuel) e
  | _ => Ok c
  end.

(** circuit_algebra.py:1421-1452 *)
Definition pad_with_identity (fuel : nat) (c : circ) (k n : nat) : res circ :=
  let circuit_n := cdim c in
  do combined_circuit <- k_concat (simp fuel) [c; circuit_identity n];
  let permutation := seq 0 k ++ seq circuit_n n ++ seq k (circuit_n - k) in
  do ip <- invert_permutation permutation;
  do l <- cperm_create ip;
  do r <- cperm_create permutation;
  do t <- k_series (simp fuel) [l; combined_circuit];
  k_series (simp fuel) [t; r].
End Simp.
