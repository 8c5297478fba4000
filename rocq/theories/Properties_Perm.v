(** C01-C05: permutation utilities. Statements only use the model functions of
    PermModel.v and the vocabulary of PermSpec.v. *)
From Verif Require Import Prelude ListFacts PermModel PermSpec PermProofs1 PermProofs2 PermProofs3 PermProofs4 PermProofs5.

(** *** C01 *)
Theorem C01_check_permutation : forall p : list Z,
  check_permutation p = true <-> bijectionZ p.
Proof. exact check_permutation_spec. Qed.
Print Assumptions C01_check_permutation.

Example C01_accepts : check_permutation [2; 0; 1]%Z = true. Proof. reflexivity. Qed.
Example C01_rejects : map check_permutation [[0;0]; [0;2]; [-1;0]]%Z = [false;false;false].
Proof. reflexivity. Qed.

(** *** C02 *)
Theorem C02_compose_is_composition : forall a b : list nat,
  bijection a -> bijection b -> length a = length b ->
  exists c, compose_permutations a b = Ok c /\ bijection c /\ length c = length a /\
    forall j, j < length c -> nth j c 0 = nth (nth j b 0) a 0.
Proof.
  intros a b Ha Hb Hl. apply is_perm_bij in Ha, Hb. exists (comp a b).
  split; [apply compose_ok; assumption|]. split; [apply is_perm_bij, comp_perm; assumption|].
  rewrite comp_length. split; [congruence|]. intros j Hj; apply comp_nth; exact Hj.
Qed.
Print Assumptions C02_compose_is_composition.

Theorem C02_inverse : forall p : list nat, bijection p ->
  exists q, invert_permutation p = Ok q /\ bijection q /\ length q = length p /\
    compose_permutations p q = Ok (seq 0 (length p)) /\
    compose_permutations q p = Ok (seq 0 (length p)) /\
    invert_permutation q = Ok p.
Proof.
  intros p Hp. apply is_perm_bij in Hp. exists (inv_of p).
  pose proof (inv_of_perm p Hp) as Hq. pose proof (inv_of_length p) as Hl.
  split; [apply invert_ok, Hp|]. split; [apply is_perm_bij, Hq|]. split; [exact Hl|].
  split; [rewrite compose_ok by (try assumption; congruence); rewrite comp_inv_r by exact Hp; reflexivity|].
  split; [rewrite compose_ok by (try assumption; congruence); rewrite comp_inv_l by exact Hp; reflexivity|].
  rewrite invert_ok by exact Hq. rewrite inv_of_inv by exact Hp. reflexivity.
Qed.
Print Assumptions C02_inverse.

Theorem C02_associative_with_unit : forall a b c : list nat,
  bijection a -> bijection b -> bijection c -> length a = length b -> length b = length c ->
  (do ab <- compose_permutations a b; compose_permutations ab c)
    = (do bc <- compose_permutations b c; compose_permutations a bc) /\
  compose_permutations (seq 0 (length a)) a = Ok a /\
  compose_permutations a (seq 0 (length a)) = Ok a.
Proof.
  intros a b c Ha Hb Hc Hab Hbc. apply is_perm_bij in Ha, Hb, Hc.
  split; [|split].
  - rewrite !compose_ok by assumption. cbn [bind].
    rewrite !compose_ok; try assumption; try (rewrite comp_length; congruence).
    + rewrite comp_assoc by assumption. reflexivity.
    + apply comp_perm; assumption.
  - rewrite compose_ok by (try assumption; apply seq_length). rewrite comp_id_l by assumption. reflexivity.
  - rewrite compose_ok; [rewrite comp_id_r; reflexivity|rewrite seq_length; reflexivity|apply is_perm_seq].
Qed.
Print Assumptions C02_associative_with_unit.

Theorem C02_permute : forall (A : Type) (s : list A) (p : list Z),
  match permute_int s p with
  | Ok t => length s = length p /\ bijectionZ p /\ length t = length s /\
      forall j, j < length s -> nth_error t j = nth_error s (Z.to_nat (nth j p 0%Z))
  | Err ValueError => length s <> length p
  | Err BadPermutationError => length s = length p /\ ~ bijectionZ p
  | Err _ => False
  end.
Proof. exact permute_int_spec. Qed.
Print Assumptions C02_permute.

Theorem C02_permute_compose : forall (A : Type) (s : list A) (a b : list nat),
  bijection a -> bijection b -> length a = length s -> length b = length s ->
  exists ab t u, compose_permutations a b = Ok ab /\ permute s a = Ok t /\
    permute s ab = Ok u /\ permute t b = Ok u.
Proof. exact @permute_compose. Qed.
Print Assumptions C02_permute_compose.

Example C02_hyps : bijection [1;2;0] /\ bijection [2;1;0] /\
  compose_permutations [1;2;0] [2;1;0] = Ok [0;2;1] /\ invert_permutation [1;2;0] = Ok [2;0;1].
Proof. rewrite <- !checkp_bij. repeat split; reflexivity. Qed.

(** *** C03 *)
Theorem C03_disjoint_cycles : forall p : list nat, p <> [] -> bijection p ->
  exists cs, permutation_to_disjoint_cycles p = Ok cs /\ cycles_normal_form p cs /\
             permutation_from_disjoint_cycles cs 0 = Ok p.
Proof.
  intros p Hne Hp. apply is_perm_bij in Hp. destruct (to_cycles_ok p Hne Hp) as (cs & H1 & H2).
  exists cs; split; [exact H1|]. split; [exact H2|]. apply cycles_roundtrip; assumption.
Qed.
Print Assumptions C03_disjoint_cycles.

Theorem C03_rejects : forall p : list nat, ~ bijection p ->
  permutation_to_disjoint_cycles p = Err BadPermutationError.
Proof. intros p H. apply to_cycles_bad. rewrite is_perm_bij. exact H. Qed.
Print Assumptions C03_rejects.

(** The normal form determines the cycle list, so the function result is the
    only possible answer. *)
Theorem C03_normal_form_unique : forall p cs ds,
  bijection p -> cycles_normal_form p cs -> cycles_normal_form p ds -> cs = ds.
Proof. exact cycles_normal_form_unique. Qed.
Print Assumptions C03_normal_form_unique.

(** The hypothesis [p <> []] is forced: on the empty permutation the code
    indexes past the end. *)
Theorem C03_empty_refuted : bijection [] /\ permutation_to_disjoint_cycles [] = Err IndexError.
Proof. split; [rewrite <- checkp_bij|]; reflexivity. Qed.
Print Assumptions C03_empty_refuted.

Example C03_hyps : bijection [2;3;0;1;4] /\
  permutation_to_disjoint_cycles [2;3;0;1;4] = Ok [[0;2];[1;3];[4]].
Proof. rewrite <- checkp_bij. split; reflexivity. Qed.

(** *** C04 *)
Theorem C04_block_permutations : forall p : list nat, p <> [] -> bijection p ->
  exists bs, permutation_to_block_permutations p = Ok bs /\
    permutation_from_block_permutations bs = p /\
    (forall b, In b bs -> bijection b /\ indecomposable b).
Proof.
  intros p Hne Hp. apply is_perm_bij in Hp.
  destruct (to_blocks_ok p Hne Hp) as (bs & H1 & H2 & _ & H3 & H4). exists bs.
  split; [exact H1|]. split; [exact H2|]. rewrite Forall_forall in H3, H4.
  intros b Hb. split; [apply is_perm_bij, H3, Hb|apply H4, Hb].
Qed.
Print Assumptions C04_block_permutations.

Theorem C04_rejects : forall p : list nat, (p = [] \/ ~ bijection p) ->
  permutation_to_block_permutations p = Err BadPermutationError.
Proof. intros p H. apply to_blocks_bad. rewrite is_perm_bij. exact H. Qed.
Print Assumptions C04_rejects.

Theorem C04_concatenate : forall a b : list nat,
  side_by_side (concatenate_permutations a b) a b /\
  (bijection a -> bijection b -> bijection (concatenate_permutations a b)).
Proof.
  intros a b. split; [apply concatenate_side|]. intros Ha Hb.
  apply is_perm_bij. apply from_blocks_is_perm. repeat constructor; apply is_perm_bij; assumption.
Qed.
Print Assumptions C04_concatenate.

Example C04_hyps : bijection [1;0;2;4;3] /\
  permutation_to_block_permutations [1;0;2;4;3] = Ok [[1;0];[0];[1;0]].
Proof. rewrite <- checkp_bij. split; reflexivity. Qed.

(** *** C05 *)
(** Channel [i] of block [k] goes to channel [i] of the block now at position
    [b[k]]; the first channel of that block is the total size of all blocks
    that are moved in front of it. *)
Theorem C05_full_block_perm : forall b s : list nat, bijection b -> length b = length s ->
  exists f, full_block_perm b s = Ok f /\ bijection f /\ length f = sum s /\
    forall k i, k < length s -> i < nth k s 0 ->
      nth (block_start s k + i) f 0
      = sum (map (fun l => nth l s 0) (filter (fun l => nth l b 0 <? nth k b 0) (seq 0 (length s)))) + i.
Proof. exact full_block_perm_main. Qed.
Print Assumptions C05_full_block_perm.

Theorem C05_factorisation : forall p s : list nat,
  bijection p -> sum s = length p -> s <> [] -> (forall x, In x s -> 0 < x) ->
  exists b ws f, block_perm_and_perms_within_blocks p s = Ok (b, ws) /\
    bijection b /\ length b = length s /\ map (@length nat) ws = s /\ (forall w, In w ws -> bijection w) /\
    (* blocks are ordered by their smallest image *)
    (forall k l, k < length s -> l < length s ->
       (nth k b 0 < nth l b 0 <->
        exists i, i < nth k s 0 /\ forall j, j < nth l s 0 ->
           nth (block_start s k + i) p 0 < nth (block_start s l + j) p 0)) /\
    (* within a block, the order of the images is kept *)
    (forall k i j, k < length s -> i < nth k s 0 -> j < nth k s 0 ->
       (nth i (nth k ws []) 0 < nth j (nth k ws []) 0 <->
        nth (block_start s k + i) p 0 < nth (block_start s k + j) p 0)) /\
    (* if every block is mapped onto a contiguous interval, p factorises *)
    full_block_perm b s = Ok f /\
    ((forall k, k < length s -> exists t, forall i, i < nth k s 0 ->
        t <= nth (block_start s k + i) p 0 < t + nth k s 0) ->
     compose_permutations f (permutation_from_block_permutations ws) = Ok p).
Proof. exact block_perm_within_main. Qed.
Print Assumptions C05_factorisation.

Theorem C05_roundtrip : forall b ws s f p,
  bijection b -> length b = length s -> s <> [] -> (forall x, In x s -> 0 < x) ->
  map (@length nat) ws = s -> (forall w, In w ws -> bijection w) ->
  full_block_perm b s = Ok f ->
  compose_permutations f (permutation_from_block_permutations ws) = Ok p ->
  block_perm_and_perms_within_blocks p s = Ok (b, ws).
Proof. exact block_factor_roundtrip_main. Qed.
Print Assumptions C05_roundtrip.

Example C05_hyps : block_perm_and_perms_within_blocks [3;2;4;0;1] [3;2] = Ok ([1;0],[[1;0;2];[0;1]]) /\
  full_block_perm [1;0] [3;2] = Ok [2;3;4;0;1] /\
  compose_permutations [2;3;4;0;1] (permutation_from_block_permutations [[1;0;2];[0;1]]) = Ok [3;2;4;0;1].
Proof. repeat split; reflexivity. Qed.
