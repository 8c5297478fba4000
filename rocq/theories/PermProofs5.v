(** Final forms of the permutation lemmas. *)
From Verif Require Import Prelude ListFacts PermModel PermSpec PermProofs1 PermProofs2 PermProofs3 PermProofs4.

Lemma permute_int_spec : forall (A : Type) (s : list A) (p : list Z),
  match permute_int s p with
  | Ok t => length s = length p /\ bijectionZ p /\ length t = length s /\
      forall j, j < length s -> nth_error t j = nth_error s (Z.to_nat (nth j p 0%Z))
  | Err ValueError => length s <> length p
  | Err BadPermutationError => length s = length p /\ ~ bijectionZ p
  | Err _ => False
  end.
Proof.
  intros A s p. unfold permute_int.
  destruct (Nat.eqb_spec (length s) (length p)) as [Hl|Hl]; cbn [negb]; [|exact Hl].
  destruct (check_permutation p) eqn:E; cbn [negb].
  2:{ split; [exact Hl|]. intros H. apply check_permutation_spec in H. congruence. }
  apply check_permutation_spec in E. pose proof E as (E1 & _ & _).
  destruct s as [|d s'] eqn:Es.
  - destruct p; [|discriminate]. split; [reflexivity|]. split; [exact E|]. split; [reflexivity|]. intros j Hj; cbn in Hj; lia.
  - rewrite <- Es in *. clear Es s'.
    rewrite (mapM_ok _ (fun z => nth (Z.to_nat z) s d)).
    + split; [exact Hl|]. split; [exact E|]. rewrite map_length. split; [congruence|].
      intros j Hj. rewrite nth_error_map.
      rewrite (nth_error_nth' p 0%Z) by lia. cbn [option_map].
      symmetry. apply nth_error_nth'. specialize (E1 j). lia.
    + intros z Hz. apply In_nth with (d := 0%Z) in Hz as (i & Hi & <-). specialize (E1 i Hi).
      destruct (Z.ltb_spec (nth i p 0%Z) 0) as [H|_]; [lia|].
      rewrite (nth_error_nth' s d) by lia. reflexivity.
Qed.

Lemma permute_compose : forall (A : Type) (s : list A) (a b : list nat),
  bijection a -> bijection b -> length a = length s -> length b = length s ->
  exists ab t u, compose_permutations a b = Ok ab /\ permute s a = Ok t /\
    permute s ab = Ok u /\ permute t b = Ok u.
Proof.
  intros A s a b Ha Hb Hla Hlb. apply is_perm_bij in Ha, Hb.
  destruct s as [|d s'] eqn:Es.
  - destruct a, b; try discriminate. exists [], [], []. repeat split; reflexivity.
  - rewrite <- Es in *. clear Es s'.
    exists (comp a b), (map (fun j => nth j s d) a), (map (fun j => nth j s d) (comp a b)).
    split; [apply compose_ok; congruence|].
    split; [apply permute_ok; congruence|].
    split; [apply permute_ok; [rewrite comp_length; congruence|apply comp_perm; congruence]|].
    rewrite (permute_ok _ _ d); [|rewrite map_length; congruence|exact Hb].
    f_equal. unfold comp. rewrite map_map. apply map_ext_in. intros j Hj.
    apply (is_perm_In b) in Hj; [|exact Hb].
    rewrite (nth_map_lt _ _ j d 0) by congruence. reflexivity.
Qed.

(** Uniqueness of the cycle normal form *)
Lemma cycle_same_head_le p c d : is_cycle p c -> is_cycle p d -> NoDup d -> hd 0 c = hd 0 d ->
  length c <= length d -> c = d.
Proof.
  intros [Hc1 Hc] [Hd1 Hd] Hnd Hh Hle.
  assert (0 < length c) as Hcl by (destruct c; [congruence|cbn; lia]).
  assert (nth 0 c 0 = nth 0 d 0) as H0 by (destruct c, d; try congruence; exact Hh).
  assert (forall i, i < length c -> nth i c 0 = nth i d 0) as Hi.
  { induction i as [|i IH]; intros Hil; [exact H0|].
    pose proof (Hc i ltac:(lia)) as H1. pose proof (Hd i ltac:(lia)) as H2.
    rewrite Nat.mod_small in H1, H2 by lia. rewrite Nat.add_1_r in H1, H2.
    rewrite <- H1, <- H2. rewrite IH by lia. reflexivity. }
  destruct (Nat.eq_dec (length c) (length d)) as [He|Hne].
  - apply list_eq_nth with (d := 0); assumption.
  - exfalso. pose proof (Hc (length c - 1) ltac:(lia)) as H1. pose proof (Hd (length c - 1) ltac:(lia)) as H2.
    replace (length c - 1 + 1) with (length c) in H1, H2 by lia.
    rewrite Nat.mod_same in H1 by lia. rewrite Nat.mod_small in H2 by lia.
    rewrite Hi in H1 by lia. rewrite H1 in H2. rewrite H0 in H2.
    apply (proj1 (NoDup_nth d 0) Hnd) in H2; lia.
Qed.

Lemma cycle_back p c d x : bijection p -> is_cycle p c -> is_cycle p d ->
  (forall y, In y c -> y < length p) -> (forall y, In y d -> y < length p) ->
  In x c -> In x d -> In (hd 0 d) c.
Proof.
  intros (_ & Hinj & _) Hc Hd Hcb Hdb Hxc Hxd.
  apply In_nth with (d := 0) in Hxd as (i & Hi & <-).
  assert (hd 0 d = nth 0 d 0) as -> by (destruct d; reflexivity).
  revert Hi Hxc. induction i as [|i IH]; intros Hi Hxc; [exact Hxc|].
  apply IH; [lia|].
  destruct (is_cycle_pred p c _ Hc Hxc) as (y & Hy & Hpy).
  pose proof (proj2 Hd i ltac:(lia)) as H. rewrite Nat.mod_small in H by lia. rewrite Nat.add_1_r in H.
  assert (y = nth i d 0) as <-; [|exact Hy].
  apply Hinj; [apply Hcb, Hy|apply Hdb, nth_In; lia|congruence].
Qed.

Lemma sorted_lt_ext (a b : list nat) : StronglySorted lt a -> StronglySorted lt b ->
  (forall x, In x a <-> In x b) -> a = b.
Proof.
  intros Ha; revert b; induction Ha as [|x a Ha IH Hx]; intros b Hb Hin.
  - destruct b as [|y b]; [reflexivity|]. exfalso. apply (Hin y); left; reflexivity.
  - destruct Hb as [|y b Hb Hy]; [exfalso; apply (Hin x); left; reflexivity|].
    rewrite Forall_forall in Hx, Hy.
    assert (x = y) as ->.
    { destruct (proj1 (Hin x) (or_introl eq_refl)) as [?|H1]; [congruence|].
      destruct (proj2 (Hin y) (or_introl eq_refl)) as [?|H2]; [congruence|].
      apply Hx in H2. apply Hy in H1. lia. }
    f_equal. apply IH; [exact Hb|]. intros z; split; intros Hz.
    + destruct (proj1 (Hin z) (or_intror Hz)) as [<-|H]; [|exact H]. apply Hx in Hz; lia.
    + destruct (proj2 (Hin z) (or_intror Hz)) as [<-|H]; [|exact H]. apply Hy in Hz; lia.
Qed.

Lemma NoDup_concat_In {A} (l : list (list A)) c : NoDup (concat l) -> In c l -> NoDup c.
Proof.
  induction l as [|d l IH]; intros Hnd Hin; [destruct Hin|]. cbn in Hnd.
  destruct Hin as [->|Hin]; [eapply NoDup_app_remove_r; exact Hnd|].
  apply IH; [eapply NoDup_app_remove_l; exact Hnd|exact Hin].
Qed.

Lemma cycles_heads p cs ds : bijection p -> cycles_normal_form p cs -> cycles_normal_form p ds ->
  forall x, In x (map (hd 0) cs) -> In x (map (hd 0) ds).
Proof.
  intros Hp (C1 & C2 & C3 & C4 & C5) (D1 & D2 & D3 & D4 & D5) x Hx.
  apply in_map_iff in Hx as (c & <- & Hc).
  assert (In (hd 0 c) c) as Hh by (eapply cycle_hd_in, C1, Hc).
  assert (In (hd 0 c) (concat ds)) as Hd.
  { apply D3, C3, in_concat. exists c; split; assumption. }
  apply in_concat in Hd as (d & Hd & Hin).
  assert (In (hd 0 d) c) as Hdc.
  { apply (cycle_back p c d (hd 0 c)); auto.
    - intros y Hy. apply C3, in_concat. exists c; split; assumption.
    - intros y Hy. apply D3, in_concat. exists d; split; assumption. }
  pose proof (C4 c _ Hc Hdc). pose proof (D4 d _ Hd Hin).
  assert (hd 0 c = hd 0 d) as -> by lia. apply in_map; exact Hd.
Qed.

Lemma cycles_normal_form_unique : forall p cs ds,
  bijection p -> cycles_normal_form p cs -> cycles_normal_form p ds -> cs = ds.
Proof.
  intros p cs ds Hp Hcs Hds.
  assert (map (hd 0) cs = map (hd 0) ds) as Hh.
  { apply sorted_lt_ext; [apply Hcs|apply Hds|]. intros x; split.
    - exact (cycles_heads p cs ds Hp Hcs Hds x).
    - exact (cycles_heads p ds cs Hp Hds Hcs x). }
  destruct Hcs as (C1 & C2 & _). destruct Hds as (D1 & D2 & _).
  assert (forall c, In c cs -> NoDup c) as Cn by (intros c Hc; exact (NoDup_concat_In cs c C2 Hc)).
  assert (forall c, In c ds -> NoDup c) as Dn by (intros c Hc; exact (NoDup_concat_In ds c D2 Hc)).
  clear C2 D2. revert ds Hh D1 Dn. induction cs as [|c cs IH]; intros [|d ds] Hh D1 Dn; try discriminate; [reflexivity|].
  cbn in Hh. injection Hh as Hh1 Hh2. f_equal.
  - destruct (Nat.le_ge_cases (length c) (length d)) as [H|H].
    + apply (cycle_same_head_le p); auto; [apply C1|apply D1|apply Dn]; left; reflexivity.
    + symmetry. apply (cycle_same_head_le p); auto; [apply D1|apply C1|apply Cn]; left; reflexivity.
  - apply IH; auto; intros z Hz; auto using in_cons.
Qed.

Lemma NoDup_map_inj_in {A B} (f : A -> B) l :
  (forall x y, In x l -> In y l -> f x = f y -> x = y) -> NoDup l -> NoDup (map f l).
Proof.
  intros Hf Hnd. induction Hnd as [|x l Hx Hnd IH]; cbn; [constructor|]. constructor.
  - intros Hin. apply in_map_iff in Hin as (y & He & Hy). apply Hf in He; [|right; exact Hy|left; reflexivity].
    subst; contradiction.
  - apply IH. intros a b Ha Hb; apply Hf; right; assumption.
Qed.

(** full_block_perm *)
Lemma block_start_moved bp bs k : is_perm bp -> length bp = length bs -> k < length bs ->
  block_start (moved bp bs) (nth k bp 0) =
  sum (map (fun l => nth l bs 0) (filter (fun l => nth l bp 0 <? nth k bp 0) (seq 0 (length bs)))).
Proof.
  intros Hp Hl Hk. assert (nth k bp 0 < length bs) as Hb by (rewrite <- Hl; apply is_perm_nth_lt; [exact Hp|lia]).
  unfold moved. rewrite <- sum_firstn_map by lia.
  rewrite <- (map_map (fun j => nth j (inv_of bp) 0) (fun l => nth l bs 0)).
  apply sum_perm, Permutation_map. apply NoDup_Permutation.
  - apply NoDup_map_inj_in; [|apply seq_NoDup].
    intros x y Hx Hy He. apply in_seq in Hx, Hy.
    apply (is_perm_inj (inv_of bp)); [apply inv_of_perm; exact Hp| | |exact He]; rewrite inv_of_length; lia.
  - apply NoDup_filter, seq_NoDup.
  - intros x. rewrite in_map_iff, filter_In. split.
    + intros (j & <- & Hj). apply in_seq in Hj. destruct (inv_of_nth bp j Hp ltac:(lia)) as [H1 H2].
      split; [apply in_seq; lia|]. rewrite H2. apply Nat.ltb_lt. lia.
    + intros [Hx Hlt]. apply in_seq in Hx. apply Nat.ltb_lt in Hlt.
      exists (nth x bp 0). split; [apply inv_of_nth'; [exact Hp|lia]|apply in_seq; lia].
Qed.

Lemma full_block_perm_main : forall b s : list nat, bijection b -> length b = length s ->
  exists f, full_block_perm b s = Ok f /\ bijection f /\ length f = sum s /\
    forall k i, k < length s -> i < nth k s 0 ->
      nth (block_start s k + i) f 0
      = sum (map (fun l => nth l s 0) (filter (fun l => nth l b 0 <? nth k b 0) (seq 0 (length s)))) + i.
Proof.
  intros b s Hb Hl. apply is_perm_bij in Hb. exists (fbp b s).
  split; [apply full_block_perm_ok; assumption|].
  split; [apply is_perm_bij, fbp_is_perm; assumption|].
  split; [apply fbp_length; assumption|].
  intros k i Hk Hi. rewrite fbp_nth by assumption. rewrite block_start_moved by assumption. reflexivity.
Qed.

Lemma block_perm_within_main : forall p s : list nat,
  bijection p -> sum s = length p -> s <> [] -> (forall x, In x s -> 0 < x) ->
  exists b ws f, block_perm_and_perms_within_blocks p s = Ok (b, ws) /\
    bijection b /\ length b = length s /\ map (@length nat) ws = s /\ (forall w, In w ws -> bijection w) /\
    (forall k l, k < length s -> l < length s ->
       (nth k b 0 < nth l b 0 <->
        exists i, i < nth k s 0 /\ forall j, j < nth l s 0 ->
           nth (block_start s k + i) p 0 < nth (block_start s l + j) p 0)) /\
    (forall k i j, k < length s -> i < nth k s 0 -> j < nth k s 0 ->
       (nth i (nth k ws []) 0 < nth j (nth k ws []) 0 <->
        nth (block_start s k + i) p 0 < nth (block_start s k + j) p 0)) /\
    full_block_perm b s = Ok f /\
    ((forall k, k < length s -> exists t, forall i, i < nth k s 0 ->
        t <= nth (block_start s k + i) p 0 < t + nth k s 0) ->
     compose_permutations f (permutation_from_block_permutations ws) = Ok p).
Proof.
  intros p s Hp Hsum Hne Hpos. apply is_perm_bij in Hp.
  set (b := rank (map (block_min p s) (seq 0 (length s)))).
  set (ws := map (fun k => rank (block_image p s k)) (seq 0 (length s))).
  assert (length b = length s) as Hbl by (unfold b; rewrite rank_length, map_length, seq_length; reflexivity).
  assert (is_perm b) as Hb by apply rank_perm.
  assert (forall k, k < length s -> length (block_image p s k) = nth k s 0) as Hil.
  { intros k Hk. apply slice_length. rewrite <- Hsum. apply block_start_end; exact Hk. }
  assert (forall k, k < length s -> nth k ws [] = rank (block_image p s k)) as Hwn.
  { intros k Hk. unfold ws. rewrite (nth_map_lt _ _ _ [] 0) by (rewrite seq_length; exact Hk).
    rewrite seq_nth by exact Hk. reflexivity. }
  assert (map (@length nat) ws = s) as Hws.
  { unfold ws. rewrite map_map. transitivity (map (fun k => nth k s 0) (seq 0 (length s)));
      [|apply map_nth_self; reflexivity].
    apply map_ext_in. intros k Hk. apply in_seq in Hk. rewrite rank_length. apply Hil. lia. }
  assert (forall w, In w ws -> is_perm w) as Hwp.
  { intros w Hw. unfold ws in Hw. apply in_map_iff in Hw as (k & <- & _). apply rank_perm. }
  exists b, ws, (fbp b s).
  split; [apply block_perm_within_ok; assumption|].
  split; [apply is_perm_bij; exact Hb|]. split; [exact Hbl|]. split; [exact Hws|].
  split; [intros w Hw; apply is_perm_bij, Hwp, Hw|].
  split; [|split; [|split]].
  - intros k l Hk Hl. unfold b. rewrite rank_order;
      [|apply mins_NoDup; assumption|rewrite map_length, seq_length; exact Hk
       |rewrite map_length, seq_length; exact Hl].
    rewrite !(nth_map_lt _ _ _ 0 0) by (rewrite seq_length; assumption).
    rewrite !seq_nth by assumption. cbn [Nat.add].
    assert (0 < nth k s 0) as Hk0 by (apply Hpos, nth_In; exact Hk).
    assert (0 < nth l s 0) as Hl0 by (apply Hpos, nth_In; exact Hl).
    destruct (block_min_spec p s k Hp Hsum Hk Hk0) as [(i0 & Hi0 & H1) H2].
    destruct (block_min_spec p s l Hp Hsum Hl Hl0) as [(j0 & Hj0 & H3) H4]. split.
    + intros Hlt. exists i0. split; [exact Hi0|]. intros j Hj. specialize (H4 j Hj). lia.
    + intros (i & Hi & H). specialize (H j0 Hj0). specialize (H2 i Hi). lia.
  - intros k i j Hk Hi Hj. rewrite Hwn by exact Hk.
    rewrite rank_order; [|apply slice_NoDup, is_perm_NoDup; exact Hp|rewrite Hil by exact Hk; exact Hi|rewrite Hil by exact Hk; exact Hj].
    unfold block_image. rewrite !slice_nth by assumption. reflexivity.
  - apply full_block_perm_ok; assumption.
  - intros Hcont. rewrite compose_ok.
    + f_equal. apply contiguous_factor; assumption.
    + rewrite fbp_length by assumption. unfold permutation_from_block_permutations.
      rewrite from_blocks_from_length, Hws. reflexivity.
    + apply from_blocks_is_perm. apply Forall_forall. exact Hwp.
Qed.

Lemma block_factor_roundtrip_main : forall b ws s f p,
  bijection b -> length b = length s -> s <> [] -> (forall x, In x s -> 0 < x) ->
  map (@length nat) ws = s -> (forall w, In w ws -> bijection w) ->
  full_block_perm b s = Ok f ->
  compose_permutations f (permutation_from_block_permutations ws) = Ok p ->
  block_perm_and_perms_within_blocks p s = Ok (b, ws).
Proof.
  intros b ws s f p Hb Hl Hne Hpos Hws Hwp Hf Hc. apply is_perm_bij in Hb.
  assert (Forall is_perm ws) as Hwf by (apply Forall_forall; intros w Hw; apply is_perm_bij, Hwp, Hw).
  rewrite full_block_perm_ok in Hf by assumption. injection Hf as <-.
  apply block_factor_roundtrip; try assumption.
  rewrite compose_ok in Hc; [congruence| |apply from_blocks_is_perm; exact Hwf].
  rewrite fbp_length by assumption. unfold permutation_from_block_permutations.
  rewrite from_blocks_from_length, Hws. reflexivity.
Qed.
