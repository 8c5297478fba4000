(** Model of /repo/src/qnet/utils/permutations.py.
    Image tuples are lists of naturals; [check_permutation] is modelled on
    arbitrary (also negative) Python integers. *)
From Verif Require Import Prelude.

(** permutations.py:18-29  [list(sorted(permutation)) == list(range(len(permutation)))] *)
Definition check_permutation (permutation : list Z) : bool :=
  eqb_listZ (sortZ permutation) (map Z.of_nat (seq 0 (length permutation))).

(** The same test on a tuple of non-negative integers. *)
Definition checkp (permutation : list nat) : bool :=
  check_permutation (map Z.of_nat permutation).

(** permutations.py:32-39  [[permutation.index(p) for p in range(len(permutation))]] *)
Definition invert_permutation (permutation : list nat) : res (list nat) :=
  mapM (fun p => of_option ValueError (index_of p permutation))
       (seq 0 (length permutation)).

(** permutations.py:76-99: the [while True] loop. State: [p_index],
    [current_cycle] (in order), [permutation_nums] ([rest]), [cycles]. *)
Fixpoint cycles_loop (fuel : nat) (permutation : list nat) (p_index : nat)
    (current_cycle rest : list nat) (cycles : list (list nat))
  : res (list (list nat)) :=
  match fuel with
  | 0 => Err OutOfFuel
  | S fuel' =>
    do q <- of_option IndexError (nth_error permutation p_index);
    do c0 <- of_option IndexError (nth_error current_cycle 0);
    if q =? c0 then
      match rest with
      | [] => Ok (cycles ++ [current_cycle])
      | r :: rest' => cycles_loop fuel' permutation r [r] rest' (cycles ++ [current_cycle])
      end
    else
      do rest' <- of_option ValueError (remove_first q rest);
      cycles_loop fuel' permutation q (current_cycle ++ [q]) rest' cycles
  end.

(** permutations.py:42-101 *)
Definition permutation_to_disjoint_cycles (permutation : list nat)
  : res (list (list nat)) :=
  if negb (checkp permutation) then Err BadPermutationError
  else cycles_loop (S (length permutation)) permutation 0 [0]
         (seq 1 (length permutation - 1)) [].

(** [c_i - offset] where a negative result would be a (wrapping) negative
    Python index; simplification: that case is reported as [Unmodelled]. No
    caller in the repository reaches it (see [to_blocks_ok]). *)
Definition sub_offset (c offset : nat) : res nat :=
  if c <? offset then Err Unmodelled else Ok (c - offset).

(** permutations.py:116-119: inner loop of [permutation_from_disjoint_cycles] *)
Fixpoint close_cycle (c0 p1 : nat) (c : list nat) (offset : nat) (perm : list nat)
  : res (list nat) :=
  match c with
  | [] => do z <- sub_offset c0 offset; of_option IndexError (set_nth p1 z perm)
  | p2 :: c' =>
    do q <- sub_offset p2 offset;
    do perm' <- of_option IndexError (set_nth p1 q perm);
    close_cycle c0 q c' offset perm'
  end.

(** permutations.py:114-120: outer loop *)
Fixpoint fill_cycles (cycles : list (list nat)) (offset : nat) (perm : list nat)
  : res (list nat) :=
  match cycles with
  | [] => Ok perm
  | [] :: _ => Err IndexError
  | (c0 :: c) :: cycles' =>
    do p1 <- sub_offset c0 offset;
    do perm' <- close_cycle c0 p1 c offset perm;
    fill_cycles cycles' offset perm'
  end.

(** permutations.py:104-122 *)
Definition permutation_from_disjoint_cycles (cycles : list (list nat)) (offset : nat)
  : res (list nat) :=
  let perm_length := sum (map (@length nat) cycles) in
  do res_perm <- fill_cycles cycles offset (seq 0 perm_length);
  if eqb_listZ (sortZ (map Z.of_nat res_perm)) (map Z.of_nat (seq 0 perm_length))
  then Ok res_perm else Err AssertionError.

(** permutations.py:148-165: loop over [cycles[1:]] and the final append *)
Fixpoint blocks_loop (cycles : list (list nat)) (start end_ : nat)
    (cur : list (list nat)) (out : list (list nat)) : res (list (list nat)) :=
  match cycles with
  | [] =>
    do b <- permutation_from_disjoint_cycles cur start;
    if sum (map (@length nat) cur) + start =? end_ + 1 then Ok (out ++ [b])
    else Err AssertionError
  | c :: cycles' =>
    do c0 <- of_option IndexError (nth_error c 0);
    do m <- of_option ValueError (list_max1 c);
    if end_ <? c0 then
      do b <- permutation_from_disjoint_cycles cur start;
      if sum (map (@length nat) cur) + start =? end_ + 1 then
        blocks_loop cycles' c0 m [c] (out ++ [b])
      else Err AssertionError
    else blocks_loop cycles' start (if end_ <? m then m else end_) (cur ++ [c]) out
  end.

(** permutations.py:125-170 *)
Definition permutation_to_block_permutations (permutation : list nat)
  : res (list (list nat)) :=
  if (length permutation =? 0) || negb (checkp permutation)
  then Err BadPermutationError
  else
    do cycles <- permutation_to_disjoint_cycles permutation;
    if length cycles =? 1 then Ok [permutation]
    else
      match cycles with
      | [] => Err IndexError
      | c :: cycles' =>
        do c0 <- of_option IndexError (nth_error c 0);
        do m <- of_option ValueError (list_max1 c);
        do out <- blocks_loop cycles' c0 m [c] [];
        if sum (map (@length nat) out) =? length permutation then Ok out
        else Err AssertionError
      end.

(** permutations.py:173-191 *)
Fixpoint from_blocks_from (offset : nat) (permutations : list (list nat)) : list nat :=
  match permutations with
  | [] => []
  | p :: ps => map (fun p_i => p_i + offset) p ++ from_blocks_from (offset + length p) ps
  end.
Definition permutation_from_block_permutations (permutations : list (list nat)) : list nat :=
  from_blocks_from 0 permutations.

(** permutations.py:213-224 *)
Definition concatenate_permutations (a b : list nat) : list nat :=
  permutation_from_block_permutations [a; b].

(** permutations.py:227-246: [permute]. [sequence[p] for p in permutation] can
    only fail with an IndexError. *)
Definition permute {A} (sequence : list A) (permutation : list nat) : res (list A) :=
  if negb (length sequence =? length permutation) then Err ValueError
  else if negb (checkp permutation) then Err BadPermutationError
  else mapM (fun p => of_option IndexError (nth_error sequence p)) permutation.

(** [permute] on a tuple of arbitrary Python integers (same lines). After the
    check all entries are in range, hence non-negative. *)
Definition permute_int {A} (sequence : list A) (permutation : list Z) : res (list A) :=
  if negb (length sequence =? length permutation) then Err ValueError
  else if negb (check_permutation permutation) then Err BadPermutationError
  else mapM (fun p => if (p <? 0)%Z then Err Unmodelled
                      else of_option IndexError (nth_error sequence (Z.to_nat p)))
            permutation.

(** permutations.py:194-210 *)
Definition compose_permutations (alpha beta : list nat) : res (list nat) :=
  permute alpha beta.

(** permutations.py:265-270: loop body of [full_block_perm] for block [k] *)
Definition full_block_perm_body (bp bp_inv bs : list nat) (k block_length : nat)
  : res (list nat) :=
  do p_k <- of_option IndexError (nth_error bp k);
  do lens <- mapM (fun j =>
               do b <- of_option IndexError (nth_error bp_inv j);
               of_option IndexError (nth_error bs b)) (seq 0 p_k);
  Ok (seq (sum lens) block_length).

Fixpoint full_block_perm_loop (bp bp_inv bs : list nat) (k : nat) (todo : list nat)
  : res (list nat) :=
  match todo with
  | [] => Ok []
  | l :: todo' =>
    do r <- full_block_perm_body bp bp_inv bs k l;
    do rs <- full_block_perm_loop bp bp_inv bs (S k) todo';
    Ok (r ++ rs)
  end.

(** permutations.py:249-274 *)
Definition full_block_perm (block_permutation block_structure : list nat)
  : res (list nat) :=
  do bp_inv <- invert_permutation block_permutation;
  do f <- full_block_perm_loop block_permutation bp_inv block_structure 0 block_structure;
  if eqb_listZ (sortZ (map Z.of_nat f)) (map Z.of_nat (seq 0 (sum block_structure)))
  then Ok f else Err AssertionError.

(** permutations.py:293 [sum(block_structure[:k])] *)
Definition offset_of (bs : list nat) (k : nat) : nat := sum (firstn k bs).

(** permutations.py:294 Python slice [l[offset: offset + length]] *)
Definition slice {A} (l : list A) (offset len : nat) : list A := firstn len (skipn offset l).

(** [sorted(range(n), key = lambda i: keys[i])] *)
Definition argsort (keys : list nat) : list nat :=
  sort_by (fun i => Z.of_nat (nth i keys 0)) (seq 0 (length keys)).

(** permutations.py:313-319: the permutation within one block with images [image] *)
Definition within_block (permutation : list nat) (offset : nat) (image : list nat)
  : res (list nat) :=
  let within_inv := argsort image in
  do within <- invert_permutation within_inv;
  do first <- of_option IndexError (nth_error within_inv 0);
  do last <- of_option IndexError (nth_error within_inv (length within_inv - 1));
  do pf <- of_option IndexError (nth_error permutation (first + offset));
  do pl <- of_option IndexError (nth_error permutation (last + offset));
  do mn <- of_option ValueError (list_min1 image);
  do mx <- of_option ValueError (list_max1 image);
  if (pf =? mn) && (pl =? mx) then Ok within else Err AssertionError.

(** permutations.py:277-321. Simplification: a block slice that runs over the
    end of the permutation (sum of block sizes larger than the length) makes
    [image] shorter than [length]; Python would raise an IndexError from the
    sort key; the model's [argsort] ranges over the slice. All theorems assume
    matching totals, which every caller guarantees. *)
Definition block_perm_and_perms_within_blocks (permutation block_structure : list nat)
  : res (list nat * list (list nat)) :=
  let nblocks := length block_structure in
  let offsets := map (offset_of block_structure) (seq 0 nblocks) in
  let images := map (fun ol => slice permutation (fst ol) (snd ol))
                    (combine offsets block_structure) in
  do images_mins <- mapM (fun im => of_option ValueError (list_min1 im)) images;
  let block_perm_inv := argsort images_mins in
  do block_perm <- invert_permutation block_perm_inv;
  do b0 <- of_option IndexError (nth_error block_perm_inv 0);
  do bl <- of_option IndexError (nth_error block_perm_inv (length block_perm_inv - 1));
  do m0 <- of_option IndexError (nth_error images_mins b0);
  do ml <- of_option IndexError (nth_error images_mins bl);
  do mn <- of_option ValueError (list_min1 images_mins);
  do mx <- of_option ValueError (list_max1 images_mins);
  if (m0 =? mn) && (ml =? mx) then
    do ws <- mapM (fun oi => within_block permutation (fst oi) (snd oi))
                  (combine offsets images);
    Ok (block_perm, ws)
  else Err AssertionError.
