(** full_block_perm and block_perm_and_perms_within_blocks. *)
From Verif Require Import Prelude ListFacts PermModel PermSpec PermProofs1 PermProofs2 PermProofs3.

Lemma block_start_S l k : k < length l -> block_start l (S k) = block_start l k + nth k l 0.
Proof.
  unfold block_start. revert k; induction l as [|x xs IH]; intros k Hk; cbn in Hk; [lia|].
  destruct k as [|k]; [cbn; lia|].
  change (firstn (S (S k)) (x :: xs)) with (x :: firstn (S k) xs).
  change (firstn (S k) (x :: xs)) with (x :: firstn k xs).
  cbn [nth]. rewrite !sum_cons, IH by lia. lia.
Qed.

Lemma block_start_0 l : block_start l 0 = 0.
Proof. reflexivity. Qed.

Lemma block_start_all l : block_start l (length l) = sum l.
Proof. unfold block_start; rewrite firstn_all; reflexivity. Qed.

Lemma block_start_mono l a b : a <= b -> b <= length l -> block_start l a <= block_start l b.
Proof.
  intros Hab. induction Hab as [|b Hab IH]; intros Hb; [lia|].
  rewrite block_start_S by lia. specialize (IH ltac:(lia)). lia.
Qed.

Lemma block_start_lt l a b : a < b -> b <= length l -> (forall x, In x l -> 0 < x) ->
  block_start l a < block_start l b.
Proof.
  intros Hab Hb Hpos. pose proof (block_start_mono l (S a) b ltac:(lia) Hb) as H.
  rewrite block_start_S in H by lia.
  assert (0 < nth a l 0) by (apply Hpos, nth_In; lia). lia.
Qed.

Lemma block_start_end l k : k < length l -> block_start l k + nth k l 0 <= sum l.
Proof.
  intros Hk. rewrite <- block_start_S by exact Hk. rewrite <- block_start_all.
  apply block_start_mono; lia.
Qed.

(** Every channel lies in exactly one block. *)
Lemma block_locate l x : x < sum l ->
  exists k i, k < length l /\ i < nth k l 0 /\ x = block_start l k + i.
Proof.
  revert x; induction l as [|a l IH]; intros x Hx; [cbn in Hx; lia|].
  rewrite sum_cons in Hx. destruct (Nat.lt_ge_cases x a) as [Hlt|Hge].
  - exists 0, x. cbn. repeat split; lia.
  - destruct (IH (x - a) ltac:(lia)) as (k & i & H1 & H2 & H3).
    exists (S k), i. cbn [length nth]. repeat split; [lia|exact H2|].
    unfold block_start in *. cbn [firstn]. rewrite sum_cons. lia.
Qed.

Lemma concat_map_seq_blocks l :
  concat (map (fun j => seq (block_start l j) (nth j l 0)) (seq 0 (length l))) = seq 0 (sum l).
Proof.
  assert (forall n, n <= length l ->
    concat (map (fun j => seq (block_start l j) (nth j l 0)) (seq 0 n)) = seq 0 (block_start l n)) as H.
  { induction n as [|n IH]; intros Hn; [reflexivity|].
    rewrite seq_S, map_app, concat_app, IH by lia. cbn [map concat]. rewrite app_nil_r.
    rewrite block_start_S by lia. rewrite seq_app. f_equal. }
  rewrite H by lia. rewrite block_start_all; reflexivity.
Qed.

Lemma sum_firstn_map (f : nat -> nat) n : forall m, m <= n ->
  sum (map f (seq 0 m)) = block_start (map f (seq 0 n)) m.
Proof.
  intros m Hm. unfold block_start. rewrite firstn_map, firstn_seq, Nat.min_l by exact Hm. reflexivity.
Qed.

(** The channel layout after moving blocks. *)
Definition moved (bp bs : list nat) : list nat :=
  map (fun j => nth (nth j (inv_of bp) 0) bs 0) (seq 0 (length bs)).

Lemma moved_length bp bs : length (moved bp bs) = length bs.
Proof. unfold moved; rewrite map_length, seq_length; reflexivity. Qed.

Lemma moved_nth bp bs j : j < length bs -> nth j (moved bp bs) 0 = nth (nth j (inv_of bp) 0) bs 0.
Proof.
  intros Hj. unfold moved. rewrite (nth_map_lt _ _ j 0 0) by (rewrite seq_length; exact Hj).
  rewrite seq_nth by exact Hj. reflexivity.
Qed.

Lemma moved_at bp bs k : is_perm bp -> length bp = length bs -> k < length bs ->
  nth (nth k bp 0) (moved bp bs) 0 = nth k bs 0.
Proof.
  intros Hp Hl Hk. rewrite moved_nth.
  - rewrite inv_of_nth' by (try assumption; lia). reflexivity.
  - rewrite <- Hl. apply is_perm_nth_lt; [exact Hp|lia].
Qed.

Lemma map_nth_self (l : list nat) n : length l = n -> map (fun k => nth k l 0) (seq 0 n) = l.
Proof.
  intros <-. apply list_eq_nth with (d := 0); rewrite map_length, seq_length; [reflexivity|].
  intros i Hi. rewrite (nth_map_lt _ _ i 0 0) by (rewrite seq_length; exact Hi).
  rewrite seq_nth by exact Hi. reflexivity.
Qed.

Lemma moved_perm bp bs : is_perm bp -> length bp = length bs -> Permutation (moved bp bs) bs.
Proof.
  intros Hp Hl. unfold moved.
  apply Permutation_trans with (map (fun k => nth k bs 0) (seq 0 (length bs)));
    [|rewrite map_nth_self by reflexivity; apply Permutation_refl].
  rewrite <- (map_map (fun j => nth j (inv_of bp) 0) (fun k => nth k bs 0)).
  apply Permutation_map.
  rewrite map_nth_self by (rewrite inv_of_length; exact Hl).
  rewrite <- Hl. rewrite <- (inv_of_length bp). apply inv_of_perm; exact Hp.
Qed.

Lemma skipn_S {A} (l : list A) k x t : skipn k l = x :: t -> skipn (S k) l = t.
Proof.
  revert l; induction k as [|k IH]; intros l H; destruct l as [|y l]; try discriminate.
  - cbn in *. congruence.
  - cbn [skipn] in H. apply IH in H. exact H.
Qed.

Lemma full_block_perm_loop_ok bp bs : is_perm bp -> length bp = length bs ->
  forall todo k, skipn k bs = todo -> k + length todo = length bs ->
  full_block_perm_loop bp (inv_of bp) bs k todo =
  Ok (concat (map (fun j => seq (block_start (moved bp bs) (nth j bp 0)) (nth j bs 0))
             (seq k (length todo)))).
Proof.
  intros Hp Hl. induction todo as [|l todo IH]; intros k Hsk Hk; [reflexivity|].
  cbn [full_block_perm_loop length seq map concat].
  cbn in Hk. unfold full_block_perm_body.
  rewrite (nth_error_nth' bp 0) by lia. cbn [of_option bind].
  assert (nth k bp 0 < length bs) as Hpk by (rewrite <- Hl; apply is_perm_nth_lt; [exact Hp|lia]).
  rewrite (mapM_ok _ (fun j => nth (nth j (inv_of bp) 0) bs 0)).
  2:{ intros j Hj. apply in_seq in Hj.
      rewrite (nth_error_nth' (inv_of bp) 0) by (rewrite inv_of_length; lia). cbn [of_option bind].
      rewrite (nth_error_nth' bs 0); [reflexivity|]. rewrite <- Hl. apply inv_of_nth; [exact Hp|lia]. }
  cbn [bind]. rewrite (sum_firstn_map _ (length bs)) by lia.
  fold (moved bp bs).
  rewrite IH; [|destruct bs as [|? ?]; [cbn in *; lia|]|lia].
  - cbn [bind]. do 2 f_equal. f_equal.
    rewrite <- (nth_skipn_add bs 0 k 0) || idtac.
    assert (nth k bs 0 = nth 0 (skipn k bs) 0) as ->; [|rewrite Hsk; reflexivity].
    rewrite nth_skipn_add, Nat.add_0_r. reflexivity.
  - eapply skipn_S; exact Hsk.
Qed.

Definition fbp (bp bs : list nat) : list nat :=
  concat (map (fun j => seq (block_start (moved bp bs) (nth j bp 0)) (nth j bs 0))
             (seq 0 (length bs))).

Lemma fbp_perm bp bs : is_perm bp -> length bp = length bs ->
  Permutation (fbp bp bs) (seq 0 (sum bs)).
Proof.
  intros Hp Hl. unfold fbp.
  set (g := fun j => seq (block_start (moved bp bs) j) (nth j (moved bp bs) 0)).
  assert (map (fun j => seq (block_start (moved bp bs) (nth j bp 0)) (nth j bs 0)) (seq 0 (length bs))
          = map g bp) as ->.
  { transitivity (map g (map (fun k => nth k bp 0) (seq 0 (length bs))));
      [|rewrite (map_nth_self bp (length bs) Hl); reflexivity].
    rewrite map_map. apply map_ext_in.
    intros k Hk. apply in_seq in Hk. unfold g. rewrite moved_at by (try assumption; lia). reflexivity. }
  assert (Permutation (concat (map g bp)) (concat (map g (seq 0 (length bs))))) as ->.
  { assert (forall a b : list nat, Permutation a b -> Permutation (concat (map g a)) (concat (map g b))) as Hcm.
    { induction 1 as [|x a b Hab IH|x y a|a b c Hab IH1 Hbc IH2]; cbn [map concat].
      - constructor.
      - apply Permutation_app_head; exact IH.
      - rewrite !app_assoc. apply Permutation_app_tail, Permutation_app_comm.
      - etransitivity; eauto. }
    apply Hcm. rewrite <- Hl. exact Hp. }
  rewrite <- (moved_length bp bs) at 1. unfold g. rewrite concat_map_seq_blocks.
  rewrite (sum_perm _ _ (moved_perm bp bs Hp Hl)). reflexivity.
Qed.

Lemma full_block_perm_ok bp bs : is_perm bp -> length bp = length bs ->
  full_block_perm bp bs = Ok (fbp bp bs).
Proof.
  intros Hp Hl. unfold full_block_perm. rewrite (invert_ok bp Hp). cbn [bind].
  rewrite (full_block_perm_loop_ok bp bs Hp Hl bs 0); [|reflexivity|reflexivity].
  cbn [bind]. fold (fbp bp bs).
  assert (eqb_listZ (sortZ (map Z.of_nat (fbp bp bs))) (map Z.of_nat (seq 0 (sum bs))) = true) as ->.
  { apply sort_eq_range_iff. apply Permutation_map. apply fbp_perm; assumption. }
  reflexivity.
Qed.

Lemma fbp_length bp bs : is_perm bp -> length bp = length bs -> length (fbp bp bs) = sum bs.
Proof.
  intros Hp Hl. rewrite (Permutation_length (fbp_perm bp bs Hp Hl)), seq_length. reflexivity.
Qed.

Lemma fbp_is_perm bp bs : is_perm bp -> length bp = length bs -> is_perm (fbp bp bs).
Proof.
  intros Hp Hl. unfold is_perm. rewrite fbp_length by assumption. apply fbp_perm; assumption.
Qed.

(** Indexing into a concatenation of blocks. *)
Lemma nth_concat_blocks (g : nat -> list nat) (bs : list nat) :
  (forall k, k < length bs -> length (g k) = nth k bs 0) ->
  forall k i, k < length bs -> i < nth k bs 0 ->
  nth (block_start bs k + i) (concat (map g (seq 0 (length bs)))) 0 = nth i (g k) 0.
Proof.
  revert g; induction bs as [|b bs IH]; intros g Hg k i Hk Hi; [cbn in Hk; lia|].
  cbn [length seq map concat].
  destruct k as [|k].
  - rewrite block_start_0. cbn [Nat.add]. rewrite app_nth1; [reflexivity|].
    rewrite (Hg 0) by (cbn; lia). exact Hi.
  - unfold block_start. cbn [firstn]. rewrite sum_cons. fold (block_start bs k).
    rewrite app_nth2 by (rewrite (Hg 0) by (cbn; lia); cbn; lia).
    rewrite (Hg 0) by (cbn; lia). cbn [nth].
    replace (b + block_start bs k + i - b) with (block_start bs k + i) by lia.
    rewrite <- seq_shift, map_map.
    apply (IH (fun k => g (S k))); [|cbn in Hk; lia|exact Hi].
    intros j Hj. apply (Hg (S j)). cbn; lia.
Qed.

Lemma fbp_nth bp bs k i : k < length bs -> i < nth k bs 0 ->
  nth (block_start bs k + i) (fbp bp bs) 0 = block_start (moved bp bs) (nth k bp 0) + i.
Proof.
  intros Hk Hi. unfold fbp.
  rewrite (nth_concat_blocks _ bs); [| |exact Hk|exact Hi].
  - rewrite seq_nth by exact Hi. reflexivity.
  - intros j Hj. apply seq_length.
Qed.

(** Ranking by sorting *)
Lemma argsort_length ks : length (argsort ks) = length ks.
Proof. unfold argsort; rewrite sort_by_length, seq_length; reflexivity. Qed.

Lemma argsort_perm ks : is_perm (argsort ks).
Proof.
  unfold is_perm. rewrite argsort_length. symmetry. apply sort_by_perm.
Qed.

Lemma argsort_nth_lt ks a : a < length ks -> nth a (argsort ks) 0 < length ks.
Proof.
  intros H. rewrite <- (argsort_length ks). apply is_perm_nth_lt; [apply argsort_perm|].
  rewrite argsort_length; exact H.
Qed.

Lemma StronglySorted_nth {A} (R : A -> A -> Prop) l d i j :
  StronglySorted R l -> i < j -> j < length l -> R (nth i l d) (nth j l d).
Proof.
  intros H; revert i j; induction H as [|x xs Hs IH Hf]; intros i j Hij Hj; cbn in Hj; [lia|].
  destruct j as [|j]; [lia|]. destruct i as [|i]; cbn [nth].
  - rewrite Forall_forall in Hf. apply Hf, nth_In; lia.
  - apply IH; lia.
Qed.

Lemma argsort_le ks a b : a < b -> b < length ks ->
  nth (nth a (argsort ks) 0) ks 0 <= nth (nth b (argsort ks) 0) ks 0.
Proof.
  intros Hab Hb.
  pose proof (sort_by_sorted (fun i => Z.of_nat (nth i ks 0)) (seq 0 (length ks))) as Hs.
  pose proof (StronglySorted_nth _ _ 0 a b Hs Hab) as H.
  fold (argsort ks) in H. rewrite argsort_length in H. specialize (H Hb).
  unfold key_le in H. lia.
Qed.

Definition rank (ks : list nat) : list nat := inv_of (argsort ks).

Lemma rank_length ks : length (rank ks) = length ks.
Proof. unfold rank; rewrite inv_of_length, argsort_length; reflexivity. Qed.

Lemma rank_perm ks : is_perm (rank ks).
Proof. apply inv_of_perm, argsort_perm. Qed.

Lemma rank_order ks i j : NoDup ks -> i < length ks -> j < length ks ->
  (nth i (rank ks) 0 < nth j (rank ks) 0 <-> nth i ks 0 < nth j ks 0).
Proof.
  intros Hnd Hi Hj. unfold rank.
  destruct (inv_of_nth (argsort ks) i (argsort_perm ks)) as [Hi1 Hi2]; [rewrite argsort_length; exact Hi|].
  destruct (inv_of_nth (argsort ks) j (argsort_perm ks)) as [Hj1 Hj2]; [rewrite argsort_length; exact Hj|].
  set (a := nth i (inv_of (argsort ks)) 0) in *. set (b := nth j (inv_of (argsort ks)) 0) in *.
  rewrite argsort_length in Hi1, Hj1.
  assert (nth i ks 0 = nth j ks 0 -> i = j) as Hinj.
  { intros He. apply (proj1 (NoDup_nth ks 0) Hnd); assumption. }
  split; intros Hlt.
  - pose proof (argsort_le ks a b Hlt Hj1) as H. rewrite Hi2, Hj2 in H.
    assert (nth i ks 0 <> nth j ks 0); [|lia]. intros He. apply Hinj in He. unfold a, b in Hlt. rewrite He in Hlt. lia.
  - destruct (Nat.lt_trichotomy a b) as [H|[H|H]]; [exact H| |].
    + rewrite H in Hi2. assert (i = j) as He by congruence. rewrite He in Hlt. lia.
    + pose proof (argsort_le ks b a H Hi1) as H'. rewrite Hi2, Hj2 in H'. lia.
Qed.

(** first / last entries of argsort are argmin / argmax *)
Lemma argsort_first ks : ks <> [] ->
  list_min1 ks = Some (nth (nth 0 (argsort ks) 0) ks 0).
Proof.
  intros Hne. assert (0 < length ks) as Hl by (destruct ks; [congruence|cbn; lia]).
  apply list_min1_spec. split.
  - apply nth_In. rewrite <- (argsort_length ks). apply is_perm_nth_lt; [apply argsort_perm|].
    rewrite argsort_length; exact Hl.
  - intros y Hy. apply In_nth with (d := 0) in Hy as (i & Hi & <-).
    destruct (inv_of_nth (argsort ks) i (argsort_perm ks)) as [H1 H2]; [rewrite argsort_length; exact Hi|].
    rewrite argsort_length in H1.
    destruct (Nat.eq_dec (nth i (inv_of (argsort ks)) 0) 0) as [He|Hn].
    + rewrite He in H2. rewrite H2. lia.
    + rewrite <- H2. apply argsort_le; lia.
Qed.

Lemma argsort_last ks : ks <> [] ->
  list_max1 ks = Some (nth (nth (length ks - 1) (argsort ks) 0) ks 0).
Proof.
  intros Hne. assert (0 < length ks) as Hl by (destruct ks; [congruence|cbn; lia]).
  apply list_max1_spec. split.
  - apply nth_In. rewrite <- (argsort_length ks). apply is_perm_nth_lt; [apply argsort_perm|].
    rewrite argsort_length; lia.
  - intros y Hy. apply In_nth with (d := 0) in Hy as (i & Hi & <-).
    destruct (inv_of_nth (argsort ks) i (argsort_perm ks)) as [H1 H2]; [rewrite argsort_length; exact Hi|].
    rewrite argsort_length in H1.
    destruct (Nat.eq_dec (nth i (inv_of (argsort ks)) 0) (length ks - 1)) as [He|Hn].
    + rewrite He in H2. rewrite H2. lia.
    + rewrite <- H2 at 1. apply argsort_le; lia.
Qed.

(** Uniqueness: a permutation is determined by the order of its values *)
Lemma filter_perm {A} (f : A -> bool) a b : Permutation a b -> Permutation (filter f a) (filter f b).
Proof.
  induction 1 as [|x a b Hab IH|x y a|a b c Hab IH1 Hbc IH2]; cbn.
  - constructor.
  - destruct (f x); [apply perm_skip|]; exact IH.
  - destruct (f x), (f y); try reflexivity. apply perm_swap.
  - etransitivity; eauto.
Qed.

Lemma filter_lt_seq y n : y <= n -> length (filter (fun x => x <? y) (seq 0 n)) = y.
Proof.
  intros Hy. replace n with (y + (n - y)) by lia. rewrite seq_app, filter_app, app_length.
  assert (forall a b, (forall x, In x (seq a b) -> x < y) -> filter (fun x => x <? y) (seq a b) = seq a b) as H1.
  { intros a b H. induction (seq a b) as [|z zs IH]; [reflexivity|]. cbn [filter].
    rewrite (proj2 (Nat.ltb_lt z y)) by (apply H; left; reflexivity).
    f_equal. apply IH. intros x Hx; apply H; right; exact Hx. }
  assert (forall l, (forall x, In x l -> y <= x) -> filter (fun x => x <? y) l = []) as H2.
  { induction l as [|z zs IH]; intros H; [reflexivity|]. cbn [filter].
    rewrite (proj2 (Nat.ltb_ge z y)) by (apply H; left; reflexivity).
    apply IH. intros x Hx; apply H; right; exact Hx. }
  rewrite H1, H2.
  - rewrite seq_length; cbn; lia.
  - intros x Hx; apply in_seq in Hx; lia.
  - intros x Hx; apply in_seq in Hx; lia.
Qed.

Lemma perm_value_count a i : is_perm a -> i < length a ->
  nth i a 0 = length (filter (fun j => nth j a 0 <? nth i a 0) (seq 0 (length a))).
Proof.
  intros Ha Hi. set (y := nth i a 0).
  assert (y < length a) as Hy by (apply is_perm_nth_lt; assumption).
  assert (length (filter (fun x => x <? y) a) = y) as H.
  { rewrite (Permutation_length (filter_perm _ _ _ Ha)). apply filter_lt_seq; lia. }
  transitivity (length (filter (fun x => x <? y) (map (fun k => nth k a 0) (seq 0 (length a))))).
  { rewrite map_nth_self by reflexivity. symmetry; exact H. }
  clearbody y. clear.
  induction (seq 0 (length a)) as [|z zs IH]; [reflexivity|]. cbn [map filter].
  destruct (nth z a 0 <? y); cbn [length]; rewrite IH; reflexivity.
Qed.

Lemma perm_order_unique a b : is_perm a -> is_perm b -> length a = length b ->
  (forall i j, i < length a -> j < length a -> (nth i a 0 < nth j a 0 <-> nth i b 0 < nth j b 0)) ->
  a = b.
Proof.
  intros Ha Hb Hl Hord. apply list_eq_nth with (d := 0); [exact Hl|]. intros i Hi.
  rewrite (perm_value_count a i Ha Hi). rewrite (perm_value_count b i Hb) by lia.
  rewrite <- Hl. f_equal. apply filter_ext_in. intros j Hj. apply in_seq in Hj.
  specialize (Hord j i ltac:(lia) Hi).
  destruct (Nat.ltb_spec (nth j a 0) (nth i a 0)), (Nat.ltb_spec (nth j b 0) (nth i b 0));
    try reflexivity; exfalso; lia.
Qed.

(** main function *)
Lemma slice_length {A} (l : list A) o n : o + n <= length l -> length (slice l o n) = n.
Proof. intros H. unfold slice. rewrite firstn_length, skipn_length. lia. Qed.

Lemma slice_nth {A} (l : list A) o n i d : i < n -> nth i (slice l o n) d = nth (o + i) l d.
Proof. intros H. unfold slice. rewrite nth_firstn_lt by exact H. apply nth_skipn_add. Qed.

Lemma slice_NoDup (l : list nat) o n : NoDup l -> NoDup (slice l o n).
Proof.
  intros H. unfold slice. rewrite <- (firstn_skipn o l) in H. apply NoDup_app_remove_l in H.
  rewrite <- (firstn_skipn n (skipn o l)) in H. apply NoDup_app_remove_r in H. exact H.
Qed.

Lemma within_block_ok p o n : NoDup p -> 0 < n -> o + n <= length p ->
  within_block p o (slice p o n) = Ok (rank (slice p o n)).
Proof.
  intros Hnd Hn Hl. unfold within_block.
  set (im := slice p o n).
  assert (length im = n) as Him by (apply slice_length; exact Hl).
  assert (im <> []) as Hne by (destruct im; [cbn in Him; lia|discriminate]).
  rewrite (invert_ok _ (argsort_perm im)). cbn [bind]. fold (rank im).
  rewrite (nth_error_nth' (argsort im) 0) by (rewrite argsort_length; lia). cbn [of_option bind].
  rewrite (nth_error_nth' (argsort im) 0) by (rewrite argsort_length; lia). cbn [of_option bind].
  rewrite argsort_length, Him.
  set (f := nth 0 (argsort im) 0). set (g := nth (n - 1) (argsort im) 0).
  assert (f < n) as Hf.
  { pose proof (argsort_nth_lt im 0 ltac:(lia)) as H0. rewrite Him in H0. exact H0. }
  assert (g < n) as Hg.
  { pose proof (argsort_nth_lt im (n - 1) ltac:(lia)) as H0. rewrite Him in H0. exact H0. }
  rewrite (nth_error_nth' p 0) by lia. cbn [of_option bind].
  rewrite (nth_error_nth' p 0) by lia. cbn [of_option bind].
  rewrite (argsort_first im Hne), (argsort_last im Hne). cbn [of_option bind].
  rewrite Him. fold f g.
  unfold im. rewrite !slice_nth by assumption.
  rewrite (Nat.add_comm f o), (Nat.add_comm g o), !Nat.eqb_refl. reflexivity.
Qed.

Definition block_image (p bs : list nat) (k : nat) : list nat :=
  slice p (block_start bs k) (nth k bs 0).
Definition block_min (p bs : list nat) (k : nat) : nat :=
  match list_min1 (block_image p bs k) with Some m => m | None => 0 end.

Lemma combine_map_seq {A B} (f : nat -> A) (g : nat -> B) n s :
  combine (map f (seq s n)) (map g (seq s n)) = map (fun k => (f k, g k)) (seq s n).
Proof. revert s; induction n as [|n IH]; intros s; cbn; [reflexivity|]. rewrite IH; reflexivity. Qed.

Lemma block_perm_within_ok p bs : is_perm p -> sum bs = length p -> bs <> [] ->
  (forall x, In x bs -> 0 < x) ->
  block_perm_and_perms_within_blocks p bs =
  Ok (rank (map (block_min p bs) (seq 0 (length bs))),
      map (fun k => rank (block_image p bs k)) (seq 0 (length bs))).
Proof.
  intros Hp Hsum Hne Hpos. unfold block_perm_and_perms_within_blocks.
  set (n := length bs). assert (0 < n) as Hn by (unfold n; destruct bs; [congruence|cbn; lia]).
  assert (combine (map (offset_of bs) (seq 0 n)) bs
          = map (fun k => (block_start bs k, nth k bs 0)) (seq 0 n)) as ->.
  { transitivity (combine (map (offset_of bs) (seq 0 n)) (map (fun k => nth k bs 0) (seq 0 n)));
      [rewrite (map_nth_self bs n eq_refl); reflexivity|].
    apply (combine_map_seq (offset_of bs) (fun k => nth k bs 0)). }
  rewrite map_map. cbn [fst snd].
  change (fun x => slice p (block_start bs x) (nth x bs 0)) with (block_image p bs).
  assert (forall k, k < n -> block_start bs k + nth k bs 0 <= length p) as Hbnd.
  { intros k Hk. rewrite <- Hsum. apply block_start_end; exact Hk. }
  assert (forall k, k < n -> 0 < nth k bs 0) as Hp0 by (intros k Hk; apply Hpos, nth_In; exact Hk).
  assert (forall k, k < n -> length (block_image p bs k) = nth k bs 0) as Hbl.
  { intros k Hk. apply slice_length. apply Hbnd; exact Hk. }
  assert (mapM (fun im => of_option ValueError (list_min1 im)) (map (block_image p bs) (seq 0 n))
          = Ok (map (block_min p bs) (seq 0 n))) as ->.
  { rewrite (mapM_ok _ (fun im => match list_min1 im with Some m => m | None => 0 end)).
    - rewrite map_map. reflexivity.
    - intros im Him. apply in_map_iff in Him as (k & <- & Hk). apply in_seq in Hk.
      destruct (list_min1_Some (block_image p bs k)) as [m Hm].
      + specialize (Hbl k ltac:(lia)); specialize (Hp0 k ltac:(lia)).
        destruct (block_image p bs k); [cbn in Hbl; lia|discriminate].
      + rewrite Hm; reflexivity. }
  cbn [bind]. set (mins := map (block_min p bs) (seq 0 n)).
  assert (length mins = n) as Hml by (unfold mins; rewrite map_length, seq_length; reflexivity).
  assert (mins <> []) as Hmne by (destruct mins; [cbn in Hml; lia|discriminate]).
  rewrite (invert_ok _ (argsort_perm mins)). cbn [bind]. fold (rank mins).
  rewrite (nth_error_nth' (argsort mins) 0) by (rewrite argsort_length; lia). cbn [of_option bind].
  rewrite (nth_error_nth' (argsort mins) 0) by (rewrite argsort_length; lia). cbn [of_option bind].
  rewrite argsort_length.
  assert (forall a, a < n -> nth a (argsort mins) 0 < n) as Ha.
  { intros a Hal. pose proof (argsort_nth_lt mins a ltac:(lia)) as H0. rewrite Hml in H0. exact H0. }
  rewrite (nth_error_nth' mins 0) by (rewrite Hml; apply Ha; lia). cbn [of_option bind].
  rewrite (nth_error_nth' mins 0) by (rewrite Hml; apply Ha; lia). cbn [of_option bind].
  rewrite (argsort_first mins Hmne), (argsort_last mins Hmne). cbn [of_option bind].
  rewrite !Nat.eqb_refl. cbn [andb].
  rewrite (combine_map_seq (offset_of bs) (block_image p bs)).
  rewrite (mapM_ok _ (fun oi => rank (snd oi))).
  - cbn [bind]. rewrite map_map. cbn [snd]. reflexivity.
  - intros oi Hoi. apply in_map_iff in Hoi as (k & <- & Hk). apply in_seq in Hk. cbn [fst snd].
    unfold block_image. apply within_block_ok; [apply is_perm_NoDup; exact Hp|apply Hp0; lia|].
    apply Hbnd; lia.
Qed.

Lemma block_min_spec p bs k : is_perm p -> sum bs = length p -> k < length bs -> 0 < nth k bs 0 ->
  (exists i, i < nth k bs 0 /\ block_min p bs k = nth (block_start bs k + i) p 0) /\
  (forall i, i < nth k bs 0 -> block_min p bs k <= nth (block_start bs k + i) p 0).
Proof.
  intros Hp Hsum Hk Hpos. unfold block_min.
  assert (length (block_image p bs k) = nth k bs 0) as Hl.
  { apply slice_length. rewrite <- Hsum. apply block_start_end; exact Hk. }
  destruct (list_min1_Some (block_image p bs k)) as [m Hm].
  { destruct (block_image p bs k); [cbn in Hl; lia|discriminate]. }
  rewrite Hm. apply list_min1_spec in Hm as [H1 H2]. split.
  - apply In_nth with (d := 0) in H1 as (i & Hi & <-). rewrite Hl in Hi.
    exists i. split; [exact Hi|]. unfold block_image. rewrite slice_nth by exact Hi. reflexivity.
  - intros i Hi. rewrite <- (slice_nth p (block_start bs k) (nth k bs 0) i 0 Hi).
    apply H2, nth_In. fold (block_image p bs k). rewrite Hl; exact Hi.
Qed.

Lemma block_start_inj bs k i l j : k < length bs -> l < length bs ->
  i < nth k bs 0 -> j < nth l bs 0 -> block_start bs k + i = block_start bs l + j -> k = l /\ i = j.
Proof.
  intros Hk Hl Hi Hj He. destruct (Nat.lt_trichotomy k l) as [H|[H|H]].
  - pose proof (block_start_mono bs (S k) l H ltac:(lia)) as Hm. rewrite block_start_S in Hm by lia. lia.
  - subst. lia.
  - pose proof (block_start_mono bs (S l) k H ltac:(lia)) as Hm. rewrite block_start_S in Hm by lia. lia.
Qed.

Lemma mins_NoDup p bs : is_perm p -> sum bs = length p -> (forall x, In x bs -> 0 < x) ->
  NoDup (map (block_min p bs) (seq 0 (length bs))).
Proof.
  intros Hp Hsum Hpos. apply (NoDup_nth _ 0). rewrite map_length, seq_length.
  intros k l Hk Hl. rewrite !(nth_map_lt _ _ _ 0 0) by (rewrite seq_length; assumption).
  rewrite !seq_nth by assumption. cbn [Nat.add]. intros He.
  destruct (block_min_spec p bs k Hp Hsum Hk) as [(i & Hi & H1) _]; [apply Hpos, nth_In; exact Hk|].
  destruct (block_min_spec p bs l Hp Hsum Hl) as [(j & Hj & H2) _]; [apply Hpos, nth_In; exact Hl|].
  pose proof (block_start_end bs k Hk); pose proof (block_start_end bs l Hl).
  assert (block_start bs k + i = block_start bs l + j) as Hx.
  { eapply is_perm_inj; eauto; lia. }
  apply block_start_inj in Hx; tauto.
Qed.

(** Round trip: a block permutation preceded by within-block permutations is
    recovered exactly. *)
Lemma nth_from_blocks ws bs : map (@length nat) ws = bs ->
  forall k i, k < length bs -> i < nth k bs 0 ->
  nth (block_start bs k + i) (permutation_from_block_permutations ws) 0
  = block_start bs k + nth i (nth k ws []) 0.
Proof.
  intros <-. unfold permutation_from_block_permutations.
  assert (forall ws off k i, k < length ws -> i < nth k (map (@length nat) ws) 0 ->
    nth (block_start (map (@length nat) ws) k + i) (from_blocks_from off ws) 0 =
    off + block_start (map (@length nat) ws) k + nth i (nth k ws []) 0) as H.
  { clear ws. induction ws as [|w ws IH]; intros off k i Hk Hi; [cbn in Hk; lia|].
    cbn [from_blocks_from map]. destruct k as [|k].
    - rewrite block_start_0; cbn in Hi |- *. rewrite app_nth1 by (rewrite map_length; exact Hi).
      rewrite (nth_map_lt _ _ _ 0 0) by exact Hi. lia.
    - cbn [map nth] in Hi |- *. unfold block_start. cbn [firstn]. rewrite sum_cons.
      fold (block_start (map (@length nat) ws) k).
      rewrite app_nth2 by (rewrite map_length; lia). rewrite map_length.
      replace (length w + block_start (map (length (A:=nat)) ws) k + i - length w)
        with (block_start (map (length (A:=nat)) ws) k + i) by lia.
      rewrite IH; [lia|cbn in Hk; lia|exact Hi]. }
  intros k i Hk Hi. rewrite map_length in Hk. rewrite H by assumption. lia.
Qed.

Lemma block_factor_roundtrip bp ws bs p :
  is_perm bp -> length bp = length bs -> bs <> [] -> (forall x, In x bs -> 0 < x) ->
  map (@length nat) ws = bs -> Forall is_perm ws ->
  p = comp (fbp bp bs) (permutation_from_block_permutations ws) ->
  block_perm_and_perms_within_blocks p bs = Ok (bp, ws).
Proof.
  intros Hbp Hl Hne Hpos Hws Hwp ->.
  set (W := permutation_from_block_permutations ws).
  set (p := comp (fbp bp bs) W).
  assert (length W = sum bs) as HWl.
  { unfold W, permutation_from_block_permutations. rewrite from_blocks_from_length, Hws. reflexivity. }
  assert (is_perm W) as HWp by (apply from_blocks_is_perm; exact Hwp).
  assert (length (fbp bp bs) = sum bs) as HFl by (apply fbp_length; assumption).
  assert (is_perm p) as Hp.
  { apply comp_perm; [congruence| apply fbp_is_perm; assumption|exact HWp]. }
  assert (length p = sum bs) as Hpl by (unfold p; rewrite comp_length; exact HWl).
  assert (length ws = length bs) as Hwl by (rewrite <- Hws, map_length; reflexivity).
  assert (forall k, k < length bs -> length (nth k ws []) = nth k bs 0) as Hwk.
  { intros k Hk. rewrite <- Hws. rewrite (nth_map_lt _ _ k 0 []) by lia. reflexivity. }
  assert (forall k, k < length bs -> is_perm (nth k ws [])) as Hwkp.
  { intros k Hk. rewrite Forall_forall in Hwp. apply Hwp, nth_In; lia. }
  assert (forall k i, k < length bs -> i < nth k bs 0 ->
    nth (block_start bs k + i) p 0 = block_start (moved bp bs) (nth k bp 0) + nth i (nth k ws []) 0) as Hpn.
  { intros k i Hk Hi. unfold p. pose proof (block_start_end bs k Hk).
    rewrite comp_nth by (rewrite HWl; lia).
    unfold W. rewrite (nth_from_blocks ws bs Hws k i Hk Hi).
    apply fbp_nth; [exact Hk|]. rewrite <- (Hwk k Hk). apply is_perm_nth_lt; [apply Hwkp; exact Hk|].
    rewrite Hwk; assumption. }
  rewrite block_perm_within_ok; try assumption; [|congruence].
  assert (forall k, k < length bs -> block_min p bs k = block_start (moved bp bs) (nth k bp 0)) as Hmin.
  { intros k Hk. assert (0 < nth k bs 0) as Hk0 by (apply Hpos, nth_In; exact Hk).
    destruct (block_min_spec p bs k Hp ltac:(congruence) Hk Hk0) as [(i & Hi & H1) H2].
    destruct (proj1 (is_perm_bij _) (Hwkp k Hk)) as (_ & _ & Hsurj).
    destruct (Hsurj 0) as (z & Hz & Hz0); [rewrite Hwk; assumption|]. rewrite Hwk in Hz by exact Hk.
    specialize (H2 z Hz). rewrite Hpn, Hz0 in H2 by assumption.
    rewrite Hpn in H1 by assumption. lia. }
  f_equal. f_equal.
  - symmetry. apply perm_order_unique; [exact Hbp|apply rank_perm| |].
    + rewrite rank_length, map_length, seq_length. exact Hl.
    + intros i j Hi Hj. rewrite Hl in Hi, Hj.
      rewrite rank_order;
        [|apply mins_NoDup; [exact Hp|congruence|exact Hpos]|rewrite map_length, seq_length; exact Hi
         |rewrite map_length, seq_length; exact Hj].
      rewrite !(nth_map_lt _ _ _ 0 0) by (rewrite seq_length; assumption).
      rewrite !seq_nth by assumption. cbn [Nat.add]. rewrite !Hmin by assumption.
      assert (forall x, In x (moved bp bs) -> 0 < x) as Hmp.
      { intros x Hx. apply Hpos. exact (Permutation_in _ (moved_perm bp bs Hbp Hl) Hx). }
      assert (forall k, k < length bs -> nth k bp 0 < length (moved bp bs)) as Hbl.
      { intros k Hk. rewrite moved_length, <- Hl. apply is_perm_nth_lt; [exact Hbp|lia]. }
      split; intros H.
      * apply block_start_lt; [exact H|apply Nat.lt_le_incl, Hbl; exact Hj|exact Hmp].
      * destruct (Nat.lt_ge_cases (nth i bp 0) (nth j bp 0)) as [H'|H']; [exact H'|].
        pose proof (block_start_mono (moved bp bs) _ _ H' (Nat.lt_le_incl _ _ (Hbl i Hi))). lia.
  - apply nth_ext with (d := []) (d' := []); [rewrite map_length, seq_length; congruence|].
    intros k Hk. rewrite map_length, seq_length in Hk.
    rewrite (nth_map_lt _ _ _ [] 0) by (rewrite seq_length; exact Hk).
    rewrite seq_nth by exact Hk. cbn [Nat.add].
    assert (length (block_image p bs k) = nth k bs 0) as Hbi.
    { apply slice_length. rewrite Hpl. apply block_start_end; exact Hk. }
    symmetry. apply perm_order_unique; [apply Hwkp; exact Hk|apply rank_perm| |].
    + rewrite rank_length, Hbi. apply Hwk; exact Hk.
    + intros i j Hi Hj. rewrite Hwk in Hi, Hj by exact Hk.
      rewrite rank_order; [|apply slice_NoDup, is_perm_NoDup; exact Hp|rewrite Hbi; exact Hi|rewrite Hbi; exact Hj].
      unfold block_image. rewrite !slice_nth by assumption. rewrite !Hpn by assumption. lia.
Qed.

(** Every block is mapped onto a contiguous interval. *)
Lemma contiguous_factor p bs :
  is_perm p -> sum bs = length p -> bs <> [] -> (forall x, In x bs -> 0 < x) ->
  (forall k, k < length bs -> exists s, forall i, i < nth k bs 0 ->
     s <= nth (block_start bs k + i) p 0 < s + nth k bs 0) ->
  let bp := rank (map (block_min p bs) (seq 0 (length bs))) in
  let ws := map (fun k => rank (block_image p bs k)) (seq 0 (length bs)) in
  comp (fbp bp bs) (permutation_from_block_permutations ws) = p.
Proof.
  intros Hp Hsum Hne Hpos Hcont bp ws.
  set (n := length bs).
  assert (forall k, k < n -> length (block_image p bs k) = nth k bs 0) as Hbl.
  { intros k Hk. apply slice_length. rewrite <- Hsum. apply block_start_end; exact Hk. }
  assert (forall k, k < n -> 0 < nth k bs 0) as Hp0 by (intros k Hk; apply Hpos, nth_In; exact Hk).
  assert (length bp = n) as Hbpl by (unfold bp; rewrite rank_length, map_length, seq_length; reflexivity).
  assert (is_perm bp) as Hbp by apply rank_perm.
  assert (map (@length nat) ws = bs) as Hws.
  { unfold ws. rewrite map_map. transitivity (map (fun k => nth k bs 0) (seq 0 (length bs)));
      [|apply map_nth_self; reflexivity].
    apply map_ext_in. intros k Hk. apply in_seq in Hk. rewrite rank_length. apply Hbl. unfold n; lia. }
  assert (Forall is_perm ws) as Hwp.
  { apply Forall_forall. intros w Hw. unfold ws in Hw. apply in_map_iff in Hw as (k & <- & _). apply rank_perm. }
  set (W := permutation_from_block_permutations ws).
  assert (length W = sum bs) as HWl.
  { unfold W, permutation_from_block_permutations. rewrite from_blocks_from_length, Hws. reflexivity. }
  assert (is_perm W) as HWp by (apply from_blocks_is_perm; exact Hwp).
  assert (length (fbp bp bs) = sum bs) as HFl by (apply fbp_length; assumption).
  assert (forall k, k < n -> nth k ws [] = rank (block_image p bs k)) as Hwn.
  { intros k Hk. unfold ws. rewrite (nth_map_lt _ _ _ [] 0) by (rewrite seq_length; exact Hk).
    rewrite seq_nth by exact Hk. reflexivity. }
  assert (forall k i, k < n -> i < nth k bs 0 -> nth i (rank (block_image p bs k)) 0 < nth k bs 0) as Hrl.
  { intros k i Hk Hi. rewrite <- (Hbl k Hk), <- rank_length. apply is_perm_nth_lt; [apply rank_perm|].
    rewrite rank_length, Hbl; assumption. }
  assert (forall k i, k < n -> i < nth k bs 0 ->
    nth (block_start bs k + i) (comp (fbp bp bs) W) 0
    = block_start (moved bp bs) (nth k bp 0) + nth i (rank (block_image p bs k)) 0) as Hpn.
  { intros k i Hk Hi. pose proof (block_start_end bs k Hk).
    rewrite comp_nth by (rewrite HWl; lia).
    unfold W. rewrite (nth_from_blocks ws bs Hws k i Hk Hi).
    rewrite Hwn by exact Hk. apply fbp_nth; [exact Hk|]. apply Hrl; assumption. }
  assert (forall x, In x (moved bp bs) -> 0 < x) as Hmp.
  { intros x Hx. apply Hpos. exact (Permutation_in _ (moved_perm bp bs Hbp Hbpl) Hx). }
  assert (forall k, k < n -> nth k bp 0 < length (moved bp bs)) as Hbk.
  { intros k Hk. rewrite moved_length. fold n. rewrite <- Hbpl. apply is_perm_nth_lt; [exact Hbp|lia]. }
  assert (forall k l i j, k < n -> l < n -> i < nth k bs 0 -> j < nth l bs 0 ->
    block_min p bs k < block_min p bs l ->
    nth (block_start bs k + i) p 0 < nth (block_start bs l + j) p 0 /\
    nth (block_start bs k + i) (comp (fbp bp bs) W) 0
      < nth (block_start bs l + j) (comp (fbp bp bs) W) 0) as Hdiff.
  { intros k l i j Hk Hl Hi Hj Hm. split.
    - destruct (Hcont k Hk) as [sk Hsk], (Hcont l Hl) as [sl Hsl].
      pose proof (Hsk i Hi); pose proof (Hsl j Hj).
      destruct (block_min_spec p bs k Hp Hsum Hk (Hp0 k Hk)) as [(i0 & Hi0 & H1) H2].
      destruct (block_min_spec p bs l Hp Hsum Hl (Hp0 l Hl)) as [(j0 & Hj0 & H3) H4].
      pose proof (Hsk i0 Hi0); pose proof (Hsl j0 Hj0).
      (* sizes: the block of k fills its interval *)
      assert (forall y, sk <= y < sk + nth k bs 0 -> exists z, z < nth k bs 0 /\ nth (block_start bs k + z) p 0 = y) as Hfill.
      { intros y Hy.
        assert (incl (seq sk (nth k bs 0)) (block_image p bs k)) as Hincl.
        { apply (NoDup_length_incl (l := block_image p bs k) (l' := seq sk (nth k bs 0))).
          - apply slice_NoDup, is_perm_NoDup; exact Hp.
          - rewrite seq_length, Hbl by exact Hk. lia.
          - intros z Hz. apply In_nth with (d := 0) in Hz as (t & Ht & <-). rewrite Hbl in Ht by exact Hk.
            unfold block_image. rewrite slice_nth by exact Ht. apply in_seq. apply Hsk; exact Ht. }
        assert (In y (block_image p bs k)) as Hin by (apply Hincl, in_seq; lia).
        apply In_nth with (d := 0) in Hin as (t & Ht & Hte). rewrite Hbl in Ht by exact Hk.
        exists t; split; [exact Ht|]. rewrite <- Hte. unfold block_image. rewrite slice_nth by exact Ht. reflexivity. }
      assert (block_min p bs k = sk) as Hmk.
      { destruct (Hfill sk) as (z & Hz & Hze); [specialize (Hp0 k Hk); lia|]. pose proof (H2 z Hz). lia. }
      destruct (Nat.le_gt_cases (sk + nth k bs 0) (block_min p bs l)) as [Hge|Hlt].
      + pose proof (H4 j Hj). lia.
      + exfalso. destruct (Hfill (block_min p bs l)) as (z & Hz & Hze); [lia|].
        pose proof (block_start_end bs k Hk); pose proof (block_start_end bs l Hl).
        assert (block_start bs k + z = block_start bs l + j0) as He.
        { eapply is_perm_inj; [exact Hp|lia|lia|lia]. }
        apply block_start_inj in He; try assumption. destruct He as [-> _]. lia.
    - rewrite !Hpn by assumption.
      assert (nth k bp 0 < nth l bp 0) as Hb.
      { unfold bp. rewrite rank_order;
          [|apply mins_NoDup; [exact Hp|congruence|exact Hpos]|rewrite map_length, seq_length; exact Hk
           |rewrite map_length, seq_length; exact Hl].
        rewrite !(nth_map_lt _ _ _ 0 0) by (rewrite seq_length; assumption).
        rewrite !seq_nth by assumption. cbn [Nat.add]. exact Hm. }
      pose proof (block_start_mono (moved bp bs) (S (nth k bp 0)) (nth l bp 0) Hb (Nat.lt_le_incl _ _ (Hbk l Hl))) as Hmono.
      rewrite block_start_S in Hmono by (apply Hbk; exact Hk).
      rewrite moved_at in Hmono by (try assumption; exact Hk).
      pose proof (Hrl k i Hk Hi). lia. }
  apply perm_order_unique.
  - apply comp_perm; [congruence|apply fbp_is_perm; assumption|exact HWp].
  - exact Hp.
  - rewrite comp_length; congruence.
  - rewrite comp_length, HWl. intros x y Hx Hy.
    destruct (block_locate bs x Hx) as (k & i & Hk & Hi & ->).
    destruct (block_locate bs y Hy) as (l & j & Hl & Hj & ->).
    destruct (Nat.lt_trichotomy (block_min p bs k) (block_min p bs l)) as [H|[H|H]].
    + destruct (Hdiff k l i j) as [Ha Hb]; auto. lia.
    + assert (k = l) as ->.
      { pose proof (proj1 (NoDup_nth _ 0) (mins_NoDup p bs Hp Hsum Hpos) k l) as Hnd.
        rewrite map_length, seq_length in Hnd. apply Hnd; try assumption.
        rewrite !(nth_map_lt _ _ _ 0 0) by (rewrite seq_length; assumption).
        rewrite !seq_nth by assumption. exact H. }
      rewrite !Hpn by assumption.
      pose proof (rank_order (block_image p bs l) i j) as Hro.
      rewrite Hbl in Hro by exact Hl.
      specialize (Hro (slice_NoDup _ _ _ (is_perm_NoDup _ Hp)) Hi Hj).
      unfold block_image in Hro at 3 4. rewrite !slice_nth in Hro by assumption. lia.
    + destruct (Hdiff l k j i) as [Ha Hb]; auto. lia.
Qed.
