(** C06-C08 and the index part of C14: channel maps, permutation circuits,
    block structures. *)
From Verif Require Import Prelude ListFacts PermModel PermSpec PermProofs1 PermProofs3 PermProofs4 PermProofs5 CircModel CircSpec CircProofs1 CircProofs2.

(** *** C06 *)
(** A dict has distinct keys. [map_channels] returns a circuit exactly for the
    valid mappings, and then the routing is as requested; all other mappings
    raise ValueError, except that a negative key can raise IndexError. *)
Theorem C06_map_channels : forall (X : Type) (mapping : list (Z * Z)) (n : nat), NoDup (map fst mapping) ->
  match @map_channels X mapping n with
  | Ok c => valid_mapping mapping n /\ cdim c = n /\
            exists p, routing c = Some p /\ routes_as mapping n p
  | Err ValueError => ~ valid_mapping mapping n
  | Err IndexError => ~ valid_mapping mapping n /\ exists k, In k (map fst mapping) /\ (k < 0)%Z
  | Err _ => False
  end.
Proof.
  intros X m n Hnd. pose proof (@map_channels_spec X m n Hnd) as H.
  destruct (@map_channels X m n) as [c|e]; [|exact H]. destruct H as [Hv (p & -> & Hp)].
  split; [exact Hv|]. split; [rewrite cdim_pc; apply Hp|]. exists p. split; [apply routing_pc|exact Hp].
Qed.
Print Assumptions C06_map_channels.

Theorem C06_routing_unique : forall mapping n p q, valid_mapping mapping n -> NoDup (map fst mapping) ->
  routes_as mapping n p -> routes_as mapping n q -> p = q.
Proof. exact routes_as_unique. Qed.
Print Assumptions C06_routing_unique.

Theorem C06_extract_channel : forall (X : Type) k n, k < n -> @extract_channel X k n = mc1 k (n - 1) n.
Proof. exact (@extract_channel_ok). Qed.
Print Assumptions C06_extract_channel.

(** "otherwise ValueError" is false of the code for a negative key. *)
Theorem C06_negative_key_refuted : exists mapping n, NoDup (map fst mapping) /\
  ~ valid_mapping mapping n /\ @map_channels nat mapping n = Err IndexError.
Proof.
  exists [(-1, 0)]%Z, 2. split; [repeat constructor; intros []|]. split; [|reflexivity].
  intros [H _]. destruct (H (-1)%Z 0%Z (or_introl eq_refl)). lia.
Qed.
Print Assumptions C06_negative_key_refuted.

Example C06_hyps : @map_channels nat [(0, 2); (2, 1)]%Z 4 = Ok (CPerm [2; 0; 1; 3]) /\
  valid_mapping [(0, 2); (2, 1)]%Z 4.
Proof.
  split; [reflexivity|]. pose proof (C06_map_channels nat [(0, 2); (2, 1)]%Z 4) as H.
  apply H. repeat constructor; cbn; intuition lia.
Qed.

(** *** C07 *)
(** Series products of permutation circuits compose the routings; a trivial
    result is the identity circuit and nothing else is. *)
Theorem C07_create : forall (X : Type) p,
  (bijection p -> exists c : circ X, cperm_create p = Ok c /\ routing c = Some p /\ cdim c = length p /\
     (c = circuit_identity (length p) <-> p = seq 0 (length p))) /\
  (~ bijection p -> @cperm_create X p = Err BadPermutationError).
Proof.
  intros X p. split; intros Hp.
  - apply is_perm_bij in Hp. exists (pc p). split; [apply cperm_create_ok; exact Hp|].
    split; [apply routing_pc|]. split; [apply cdim_pc|].
    destruct (@pc_cases X p) as [[H1 H2]|[H1 H2]]; rewrite H2; [tauto|].
    split; intros H; [|contradiction]. destruct (circuit_identity_not_perm (length p) p (eq_sym H)).
  - apply cperm_create_bad. rewrite is_perm_bij. exact Hp.
Qed.
Print Assumptions C07_create.

Theorem C07_series : forall (X : Type) p q (a b : circ X), bijection p -> bijection q -> length p = length q ->
  cperm_create p = Ok a -> cperm_create q = Ok b ->
  exists c r, series_perm a b = Ok c /\ compose_permutations p q = Ok r /\ cperm_create r = Ok c.
Proof.
  intros X p q a b Hp Hq Hl Ha Hb. apply is_perm_bij in Hp, Hq.
  rewrite cperm_create_ok in Ha, Hb by assumption. injection Ha as <-. injection Hb as <-.
  destruct (series_perm_ok (X := X) (pc p) (pc q) p q) as (c & H1 & _ & _ & H2); auto; [left; reflexivity|left; reflexivity|].
  exists c, (comp p q). split; [exact H1|]. split; [apply compose_ok; assumption|].
  rewrite H2 by reflexivity. apply cperm_create_ok, comp_perm; assumption.
Qed.
Print Assumptions C07_series.

Theorem C07_series_inverse : forall (X : Type) p, bijection p -> p <> seq 0 (length p) ->
  exists q, @cperm_series_inverse X p = Ok (CPerm q) /\ invert_permutation p = Ok q /\
    @series_perm X (CPerm p) (CPerm q) = Ok (circuit_identity (length p)) /\
    @series_perm X (CPerm q) (CPerm p) = Ok (circuit_identity (length p)).
Proof.
  intros X p Hp Hne. apply is_perm_bij in Hp. exists (inv_of p).
  unfold cperm_series_inverse. rewrite invert_ok by exact Hp. split; [reflexivity|]. split; [reflexivity|].
  unfold series_perm. cbn [cdim is_identity]. rewrite inv_of_length, Nat.eqb_refl. cbn [negb].
  rewrite !series_with_perm_ok; try assumption; try apply inv_of_perm; try assumption; try (rewrite inv_of_length; reflexivity).
  rewrite comp_inv_r, comp_inv_l by exact Hp. unfold pc.
  rewrite seq_length, (proj2 (eqb_list_nat_eq _ _) eq_refl). split; reflexivity.
Qed.
Print Assumptions C07_series_inverse.

(** Feedback from output [o] to input [i]: an external input follows the
    permutation and, if it arrives at [o], re-enters at [i]. *)
Theorem C07_feedback : forall (X : Type) p o i, bijection p -> o < length p -> i < length p ->
  exists (c : circ X) q, cperm_feedback p o i = Ok c /\ routing c = Some q /\ bijection q /\
    length q = length p - 1 /\ cdim c = length p - 1 /\
    forall a, a < length p - 1 ->
      let y := nth (keep i a) p 0 in
      nth a q 0 = drop o (if y =? o then nth i p 0 else y).
Proof.
  intros X p o i Hp Ho Hi. apply is_perm_bij in Hp. exists (pc (fb_perm p o i)), (fb_perm p o i).
  assert (length (fb_perm p o i) = length p - 1) as Hl by (unfold fb_perm; rewrite map_length, seq_length; reflexivity).
  split; [apply cperm_feedback_ok; assumption|]. split; [apply routing_pc|].
  split; [apply is_perm_bij, fb_perm_perm; assumption|]. split; [exact Hl|]. split; [rewrite cdim_pc; exact Hl|].
  intros a Ha. unfold fb_perm. rewrite map_seq_nth by exact Ha. reflexivity.
Qed.
Print Assumptions C07_feedback.

Theorem C07_feedback_bad_port : forall (X : Type) p o i, bijection p -> (length p <= o \/ length p <= i) ->
  @cperm_feedback X p o i = Err ValueError.
Proof.
  intros X p o i Hp [H|H]; unfold cperm_feedback.
  - rewrite mc1_bad by (left; exact H). reflexivity.
  - destruct (Nat.lt_ge_cases o (length p)) as [Ho|Ho].
    + rewrite mc1_out by exact Ho. cbn [bind]. rewrite mc1_bad by (right; exact H). reflexivity.
    + rewrite mc1_bad by (left; exact Ho). reflexivity.
Qed.
Print Assumptions C07_feedback_bad_port.

(** self << m_{n-1 -> in} == m_{n-1 -> in_im} << (red_self + cid(1)),
    as an equation between composed permutations; the two channel maps are
    the ones returned by [map_channels]. *)
Theorem C07_factor_rhs : forall (X : Type) p i, bijection p -> i < length p ->
  exists (red_self : circ X) r (m1 : circ X) m1p (m2 : circ X) m2p lhs,
    factor_rhs p i = Ok (nth i p 0, red_self) /\ routing red_self = Some r /\
    bijection r /\ length r = length p - 1 /\
    mc1 (length p - 1) i (length p) = Ok m1 /\ routing m1 = Some m1p /\
    mc1 (length p - 1) (nth i p 0) (length p) = Ok m2 /\ routing m2 = Some m2p /\
    compose_permutations p m1p = Ok lhs /\
    compose_permutations m2p (concatenate_permutations r [0]) = Ok lhs.
Proof.
  intros X p i Hp Hi. apply is_perm_bij in Hp.
  assert (nth i p 0 < length p) as Ho by (apply is_perm_nth_lt; assumption).
  assert (is_perm (red p (nth i p 0) i)) as Hr.
  { apply red_perm; [apply mid_perm; assumption|rewrite mid_length; lia|rewrite mid_length; apply mid_last; auto]. }
  assert (length (red p (nth i p 0) i) = length p - 1) as Hrl by (unfold red; rewrite removelast_length, mid_length; reflexivity).
  exists (pc (red p (nth i p 0) i)), (red p (nth i p 0) i), (pc (m_in i (length p))), (m_in i (length p)),
    (pc (m_in (nth i p 0) (length p))), (m_in (nth i p 0) (length p)), (comp p (m_in i (length p))).
  split; [apply factor_rhs_ok; assumption|]. split; [apply routing_pc|]. split; [apply is_perm_bij; exact Hr|].
  split; [exact Hrl|]. split; [apply mc1_in; exact Hi|]. split; [apply routing_pc|].
  split; [apply mc1_in; exact Ho|]. split; [apply routing_pc|].
  split; [apply compose_ok; [symmetry; apply m_in_length|apply m_in_perm; exact Hi]|].
  rewrite compose_ok.
  - rewrite factor_rhs_eq by assumption. reflexivity.
  - rewrite m_in_length. destruct (concatenate_side (red p (nth i p 0) i) [0]) as [E _]. rewrite E, Hrl. cbn. lia.
  - apply from_blocks_is_perm. apply Forall_cons; [exact Hr|]. apply Forall_cons; [exact (is_perm_seq 1)|constructor].
Qed.
Print Assumptions C07_factor_rhs.

(** m_{out -> n-1} << self == (red_self + cid(1)) << m_{out_inv -> n-1} *)
Theorem C07_factor_lhs : forall (X : Type) p o, bijection p -> o < length p ->
  exists out_inv (red_self : circ X) r (m1 : circ X) m1p (m2 : circ X) m2p lhs,
    factor_lhs p o = Ok (out_inv, red_self) /\ out_inv < length p /\ nth out_inv p 0 = o /\
    routing red_self = Some r /\ bijection r /\ length r = length p - 1 /\
    mc1 o (length p - 1) (length p) = Ok m1 /\ routing m1 = Some m1p /\
    mc1 out_inv (length p - 1) (length p) = Ok m2 /\ routing m2 = Some m2p /\
    compose_permutations m1p p = Ok lhs /\
    compose_permutations (concatenate_permutations r [0]) m2p = Ok lhs.
Proof.
  intros X p o Hp Ho. apply is_perm_bij in Hp. destruct (inv_of_nth p o Hp Ho) as [Hi He].
  set (i := nth o (inv_of p) 0) in *.
  assert (is_perm (red p o i)) as Hr.
  { apply red_perm; [apply mid_perm; assumption|rewrite mid_length; lia|rewrite mid_length; apply mid_last; auto]. }
  assert (length (red p o i) = length p - 1) as Hrl by (unfold red; rewrite removelast_length, mid_length; reflexivity).
  exists i, (pc (red p o i)), (red p o i), (pc (m_out o (length p))), (m_out o (length p)),
    (pc (m_out i (length p))), (m_out i (length p)), (comp (m_out o (length p)) p).
  split; [apply factor_lhs_ok; assumption|]. split; [exact Hi|]. split; [exact He|].
  split; [apply routing_pc|]. split; [apply is_perm_bij; exact Hr|].
  split; [exact Hrl|]. split; [apply mc1_out; exact Ho|]. split; [apply routing_pc|].
  split; [apply mc1_out; exact Hi|]. split; [apply routing_pc|].
  split; [apply compose_ok; [apply m_out_length|exact Hp]|].
  rewrite compose_ok; [|rewrite m_out_length|apply m_out_perm; exact Hi].
  - rewrite (factor_lhs_eq p o Hp Ho). reflexivity.
  - destruct (concatenate_side (red p o i) [0]) as [E _]. rewrite E, Hrl. cbn. lia.
Qed.
Print Assumptions C07_factor_lhs.

Example C07_hyps : bijection [2;0;3;1] /\ @cperm_feedback nat [2;0;3;1] 1 0 = Ok (CPerm [0;2;1]) /\
  @factor_rhs nat [2;0;3;1] 1 = Ok (0, CPerm [1;2;0]) /\ @factor_lhs nat [2;0;3;1] 3 = Ok (2, CPerm [2;0;1]).
Proof. rewrite <- checkp_bij. repeat split; reflexivity. Qed.

(** *** C08 *)
Theorem C08_common_block_structure : forall l r, positive l -> positive r -> sum l = sum r ->
  exists c, get_common_block_structure l r = Ok c /\ positive c /\
    refines l c /\ refines r c /\
    (forall d, refines l d -> refines r d -> refines c d).
Proof. exact common_block_main. Qed.
Print Assumptions C08_common_block_structure.

Theorem C08_rejects : forall l r, sum l <> sum r ->
  get_common_block_structure l r = Err IncompatibleBlockStructures.
Proof. exact common_block_bad. Qed.
Print Assumptions C08_rejects.

Example C08_hyps : positive [1;1;2;1] /\ positive [2;1;2] /\
  get_common_block_structure [1;1;2;1] [2;1;2] = Ok [2;3].
Proof. split; [|split]; [| |reflexivity]; intros x H; cbn in H; lia. Qed.

(** *** C14 (index part) *)
Theorem C14_index_in_block : forall struct ch, positive struct -> ch < sum struct ->
  exists idx b, index_in_block struct (sum struct) ch = Ok (idx, b) /\
    b < length struct /\ idx < nth b struct 0 /\ block_start struct b + idx = ch.
Proof. intros struct ch Hp Hc. exact (index_in_block_ok struct (sum struct) ch Hp eq_refl Hc). Qed.
Print Assumptions C14_index_in_block.

Theorem C14_index_in_block_inverse : forall struct b idx, positive struct ->
  b < length struct -> idx < nth b struct 0 ->
  index_in_block struct (sum struct) (block_start struct b + idx) = Ok (idx, b).
Proof.
  intros struct b idx Hp Hb Hi. pose proof (block_start_end struct b Hb) as He.
  destruct (index_in_block_ok struct (sum struct) (block_start struct b + idx) Hp eq_refl ltac:(lia))
    as (idx' & b' & H1 & H2 & H3 & H4).
  apply block_start_inj in H4; try assumption. destruct H4 as [-> ->]. exact H1.
Qed.
Print Assumptions C14_index_in_block_inverse.

Theorem C14_index_out_of_range : forall struct n ch, n <= ch -> index_in_block struct n ch = Err ValueError.
Proof.
  intros struct n ch H. unfold index_in_block. destruct (Nat.leb_spec n ch); [reflexivity|lia].
Qed.
Print Assumptions C14_index_out_of_range.

Example C14_index_hyps : positive [2;1;3] /\ index_in_block [2;1;3] 6 4 = Ok (1, 2).
Proof. split; [|reflexivity]. intros x H; cbn in H; lia. Qed.
