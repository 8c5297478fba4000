(** Block decomposition of permutations. *)
From Verif Require Import Prelude ListFacts PermModel PermSpec PermProofs1 PermProofs2.

Definition cut (p : list nat) (k : nat) : Prop :=
  k <= length p /\ forall i, i < k -> nth i p 0 < k.

Lemma cycle_iter_below p c k : is_cycle p c -> cut p k ->
  forall ix, ix < length c -> nth ix c 0 < k ->
  forall j, nth ((ix + j) mod length c) c 0 < k.
Proof.
  intros [Hne Hc] [_ Hk] ix Hix Hx j.
  assert (length c <> 0) as Hl by (destruct c; [congruence|discriminate]).
  induction j as [|j IH].
  - rewrite Nat.add_0_r, Nat.mod_small by exact Hix. exact Hx.
  - replace (ix + S j) with (ix + j + 1) by lia.
    rewrite Nat.add_mod by exact Hl.
    set (m := (ix + j) mod length c) in *.
    assert (m < length c) as Hm by (apply Nat.mod_upper_bound; exact Hl).
    assert (nth ((m + 1) mod length c) c 0 < k) as H.
    { rewrite <- Hc by exact Hm. apply Hk; exact IH. }
    rewrite Nat.add_mod in H by exact Hl. rewrite (Nat.mod_small m) in H by exact Hm. exact H.
Qed.

Lemma cycle_crosses p c x y k :
  is_cycle p c -> In x c -> In y c -> x < k -> k <= y -> ~ cut p k.
Proof.
  intros Hc Hx Hy Hxk Hky Hcut.
  apply In_nth with (d := 0) in Hx as (ix & Hix & Hx).
  apply In_nth with (d := 0) in Hy as (iy & Hiy & Hy).
  assert (length c <> 0) as Hl by lia.
  pose proof (cycle_iter_below p c k Hc Hcut ix Hix ltac:(lia) (iy + length c - ix)) as H.
  replace (ix + (iy + length c - ix)) with (iy + 1 * length c) in H by lia.
  rewrite Nat.mod_add, Nat.mod_small in H by lia. lia.
Qed.

Lemma from_blocks_from_length off bs : length (from_blocks_from off bs) = sum (map (@length nat) bs).
Proof.
  revert off; induction bs as [|b bs IH]; intros off; cbn [from_blocks_from map]; [reflexivity|].
  rewrite app_length, map_length, IH, sum_cons. reflexivity.
Qed.

Lemma from_blocks_from_app off a b :
  from_blocks_from off (a ++ b) =
  from_blocks_from off a ++ from_blocks_from (off + sum (map (@length nat) a)) b.
Proof.
  revert off; induction a as [|x xs IH]; intros off; cbn [app from_blocks_from map].
  - cbn. rewrite Nat.add_0_r; reflexivity.
  - rewrite IH, sum_cons, <- app_assoc. do 2 f_equal. f_equal. lia.
Qed.

Definition sub_perm (p : list nat) (s n : nat) : list nat :=
  map (fun i => nth (s + i) p 0 - s) (seq 0 n).

Lemma sub_perm_length p s n : length (sub_perm p s n) = n.
Proof. unfold sub_perm; rewrite map_length, seq_length; reflexivity. Qed.

Lemma sub_perm_nth p s n i : i < n -> nth i (sub_perm p s n) 0 = nth (s + i) p 0 - s.
Proof.
  intros Hi. unfold sub_perm. rewrite (nth_map_lt _ _ i 0 0) by (rewrite seq_length; exact Hi).
  rewrite seq_nth by exact Hi. reflexivity.
Qed.

Lemma sub_perm_perm p s n : is_perm p -> s + n <= length p ->
  (forall i, i < n -> s <= nth (s + i) p 0 < s + n) -> is_perm (sub_perm p s n).
Proof.
  intros Hp Hl Hr. apply is_perm_intro.
  - apply (NoDup_nth _ 0). rewrite sub_perm_length. intros i j Hi Hj.
    rewrite !sub_perm_nth by assumption. intros He.
    pose proof (Hr i Hi); pose proof (Hr j Hj).
    assert (s + i = s + j) as He'; [|lia]. eapply is_perm_inj; eauto; lia.
  - intros x Hx. rewrite sub_perm_length. unfold sub_perm in Hx.
    apply in_map_iff in Hx as (i & <- & Hi). apply in_seq in Hi. specialize (Hr i ltac:(lia)). lia.
Qed.

Lemma sub_perm_indec p s n : cut p s -> 0 < n -> s + n <= length p ->
  (forall i, i < n -> s <= nth (s + i) p 0 < s + n) ->
  (forall k, s < k -> k < s + n -> ~ cut p k) -> indecomposable (sub_perm p s n).
Proof.
  intros [Hsl Hs] Hn Hl Hr Hnc. split.
  - intros He. apply (f_equal (@length nat)) in He. rewrite sub_perm_length in He; cbn in He; lia.
  - intros a b Ha Hb Hane Hbne (Hlen & H1 & _). rewrite sub_perm_length in Hlen.
    assert (0 < length a) by (destruct a; [congruence|cbn; lia]).
    assert (0 < length b) by (destruct b; [congruence|cbn; lia]).
    apply (Hnc (s + length a)); [lia|lia|]. split; [lia|]. intros i Hi.
    destruct (Nat.lt_ge_cases i s) as [Hlt|Hge]; [specialize (Hs i Hlt); lia|].
    specialize (H1 (i - s) ltac:(lia)). rewrite sub_perm_nth in H1 by lia.
    replace (s + (i - s)) with i in H1 by lia.
    pose proof (proj1 Ha (i - s) ltac:(lia)).
    specialize (Hr (i - s) ltac:(lia)). replace (s + (i - s)) with i in Hr by lia. lia.
Qed.

Lemma firstn_extend p s n : is_perm p -> s + n <= length p ->
  (forall i, i < n -> s <= nth (s + i) p 0 < s + n) ->
  firstn s p ++ map (fun x => x + s) (sub_perm p s n) = firstn (s + n) p.
Proof.
  intros Hp Hl Hr. apply list_eq_nth with (d := 0).
  - rewrite app_length, map_length, sub_perm_length, !firstn_length. lia.
  - intros i Hi. rewrite app_length, map_length, sub_perm_length, firstn_length in Hi.
    destruct (Nat.lt_ge_cases i s) as [Hlt|Hge].
    + rewrite app_nth1 by (rewrite firstn_length; lia).
      rewrite !nth_firstn_lt by lia. reflexivity.
    + rewrite app_nth2 by (rewrite firstn_length; lia). rewrite firstn_length, Nat.min_l by lia.
      rewrite (nth_map_lt _ _ _ 0 0) by (rewrite sub_perm_length; lia).
      rewrite sub_perm_nth by lia. specialize (Hr (i - s) ltac:(lia)).
      replace (s + (i - s)) with i in * by lia.
      rewrite nth_firstn_lt by lia. lia.
Qed.

Record blk_inv (p : list nat) (todo : list (list nat)) (s e : nat) (cur out : list (list nat)) : Prop := {
  bi_cyc : forall c, In c (cur ++ todo) -> is_cycle p c;
  bi_nd : NoDup (concat (cur ++ todo));
  bi_cov : forall x, In x (concat (cur ++ todo)) <-> s <= x < length p;
  bi_min : forall c x, In c todo -> In x c -> hd 0 c <= x;
  bi_sorted : StronglySorted lt (map (hd 0) todo);
  bi_cur : forall x, In x (concat cur) -> s <= x <= e;
  bi_e : In e (concat cur);
  bi_heads : forall c, In c cur -> hd 0 c <= e;
  bi_nocut : forall k, s < k -> k <= e -> ~ cut p k;
  bi_cut : cut p s;
  bi_out : permutation_from_block_permutations out = firstn s p;
  bi_outlen : sum (map (@length nat) out) = s;
  bi_outp : Forall is_perm out;
  bi_outi : Forall indecomposable out
}.

Definition blocks_good (p : list nat) (out : list (list nat)) : Prop :=
  permutation_from_block_permutations out = p /\ sum (map (@length nat) out) = length p /\
  Forall is_perm out /\ Forall indecomposable out.

Lemma cycle_hd_in p c : is_cycle p c -> In (hd 0 c) c.
Proof. intros [Hne _]; destruct c; [congruence|left; reflexivity]. Qed.

(** emitting the current block when it covers [s, e] *)
Lemma emit_block p s e cur out :
  is_perm p -> (forall c, In c cur -> is_cycle p c) -> NoDup (concat cur) ->
  (forall x, In x (concat cur) <-> s <= x < s + (e + 1 - s)) -> s <= e -> e < length p ->
  cut p s -> (forall k, s < k -> k <= e -> ~ cut p k) ->
  permutation_from_block_permutations out = firstn s p ->
  sum (map (@length nat) out) = s -> Forall is_perm out -> Forall indecomposable out ->
  exists b, permutation_from_disjoint_cycles cur s = Ok b /\
    sum (map (@length nat) cur) + s = e + 1 /\
    permutation_from_block_permutations (out ++ [b]) = firstn (e + 1) p /\
    sum (map (@length nat) (out ++ [b])) = e + 1 /\
    Forall is_perm (out ++ [b]) /\ Forall indecomposable (out ++ [b]) /\ cut p (e + 1).
Proof.
  intros Hp Hcyc Hnd Hcov Hse Hel Hcut Hnc Hout Hlen Hperm Hind.
  destruct (from_cycles_ok p cur s (e + 1 - s)) as (H1 & H2 & H3); try assumption.
  { intros i j Hi Hj He; eapply is_perm_inj; eauto. }
  { lia. }
  exists (sub_perm p s (e + 1 - s)). split; [exact H2|]. split; [lia|].
  assert (s + (e + 1 - s) = e + 1) as Hse' by lia.
  split; [|split; [|split; [|split]]].
  - unfold permutation_from_block_permutations in *. rewrite from_blocks_from_app, Hout, Hlen.
    cbn [from_blocks_from]. rewrite app_nil_r, Nat.add_0_l.
    rewrite firstn_extend; [rewrite Hse'; reflexivity|exact Hp|lia|exact H3].
  - rewrite map_app, sum_app, Hlen. cbn [map]. rewrite sum_cons, sub_perm_length. cbn; lia.
  - apply Forall_app; split; [exact Hperm|]. constructor; [|constructor].
    apply sub_perm_perm; [exact Hp|lia|exact H3].
  - apply Forall_app; split; [exact Hind|]. constructor; [|constructor].
    apply sub_perm_indec; [exact Hcut|lia|lia|exact H3|]. intros k Hk1 Hk2; apply Hnc; lia.
  - split; [lia|]. intros i Hi. destruct Hcut as [_ Hcut].
    destruct (Nat.lt_ge_cases i s) as [Hlt|Hge]; [specialize (Hcut i Hlt); lia|].
    specialize (H3 (i - s) ltac:(lia)). replace (s + (i - s)) with i in H3 by lia. lia.
Qed.

Lemma blocks_loop_ok p todo : is_perm p -> forall s e cur out,
  blk_inv p todo s e cur out ->
  exists bs, blocks_loop todo s e cur out = Ok bs /\ blocks_good p bs.
Proof.
  intros Hp. induction todo as [|c todo IH]; intros s e cur out Inv;
    destruct Inv as [Hcyc Hnd Hcov Hmin Hsort Hcur He Hheads Hnc Hcut Hout Hlen Hperm Hind];
    cbn [blocks_loop].
  - rewrite app_nil_r in *.
    assert (e < length p) as Hel by (apply Hcov in He; lia).
    assert (s <= e) as Hse by (apply Hcur in He; lia).
    assert (length p = e + 1) as Hpe.
    { destruct (Nat.eq_dec (length p) (e + 1)) as [H|H]; [exact H|]. exfalso.
      assert (In (e + 1) (concat cur)) as Hin by (apply Hcov; lia).
      apply Hcur in Hin; lia. }
    destruct (emit_block p s e cur out) as (b & H1 & H2 & H3 & H4 & H5 & H6 & _); try assumption.
    { intros x; rewrite Hcov; lia. }
    rewrite H1. cbn [bind]. rewrite (proj2 (Nat.eqb_eq _ _) H2).
    eexists; split; [reflexivity|]. split; [|split; [|split]]; try assumption.
    + rewrite H3, <- Hpe. apply firstn_all.
    + lia.
  - assert (is_cycle p c) as Hc by (apply Hcyc, in_or_app; right; left; reflexivity).
    destruct c as [|c0 c']; [exfalso; apply (proj1 Hc); reflexivity|].
    set (c := c0 :: c') in *.
    cbn [nth_error of_option bind c].
    destruct (list_max1_Some c ltac:(discriminate)) as [m Hm]. change (c0 :: c') with c. rewrite Hm.
    cbn [of_option bind]. apply list_max1_spec in Hm as [Hmin' Hmax].
    assert (concat (cur ++ c :: todo) = concat cur ++ c ++ concat todo) as Hcat
      by (rewrite concat_app; reflexivity).
    assert (forall x, In x c -> c0 <= x) as Hc0.
    { intros x Hx. apply (Hmin c x); [left; reflexivity|exact Hx]. }
    assert (forall x, In x (concat todo) -> c0 < x) as Htd.
    { intros x Hx. apply in_concat in Hx as (d & Hd & Hx).
      pose proof (Hmin d x (or_intror Hd) Hx).
      cbn [map] in Hsort. inversion Hsort as [|? ? Hs1 Hs2]; subst.
      rewrite Forall_forall in Hs2.
      assert (hd 0 c < hd 0 d) by (apply Hs2, in_map; exact Hd). cbn [hd c] in *. lia. }
    assert (e < length p) as Hel.
    { assert (In e (concat (cur ++ c :: todo))) as H by (rewrite Hcat; apply in_or_app; left; exact He).
      apply Hcov in H; lia. }
    assert (s <= e) as Hse by (apply Hcur in He; lia).
    destruct (Nat.ltb_spec e c0) as [Hlt|Hge].
    + (* split *)
      assert (forall x, In x (concat cur) <-> s <= x < s + (e + 1 - s)) as Hcovc.
      { intros x. split.
        - intros Hx; apply Hcur in Hx; lia.
        - intros Hx. assert (In x (concat (cur ++ c :: todo))) as Hin by (apply Hcov; lia).
          rewrite Hcat in Hin. apply in_app_or in Hin as [Hin|Hin]; [exact Hin|].
          apply in_app_or in Hin as [Hin|Hin]; [apply Hc0 in Hin|apply Htd in Hin]; lia. }
      rewrite Hcat in Hnd.
      destruct (emit_block p s e cur out) as (b & H1 & H2 & H3 & H4 & H5 & H6 & H7); try assumption.
      { intros d Hd; apply Hcyc, in_or_app; left; exact Hd. }
      { apply NoDup_app_remove_r in Hnd; exact Hnd. }
      rewrite H1. cbn [bind]. rewrite (proj2 (Nat.eqb_eq _ _) H2).
      assert (c0 = e + 1) as Hc0e.
      { assert (In (e + 1) (concat (cur ++ c :: todo))) as Hin.
        { apply Hcov. assert (In c0 (concat (cur ++ c :: todo))) as Hx.
          { rewrite Hcat; apply in_or_app; right; apply in_or_app; left; left; reflexivity. }
          apply Hcov in Hx; lia. }
        rewrite Hcat in Hin. apply in_app_or in Hin as [Hin|Hin]; [apply Hcur in Hin; lia|].
        apply in_app_or in Hin as [Hin|Hin]; [apply Hc0 in Hin|apply Htd in Hin]; lia. }
      rewrite <- Hc0e in *.
      apply IH. constructor; try assumption.
      * intros d Hd; apply Hcyc, in_or_app; right; exact Hd.
      * apply NoDup_app_remove_l in Hnd. exact Hnd.
      * intros x. split.
        -- intros Hx. split; [|apply Hcov; rewrite Hcat; apply in_or_app; right; exact Hx].
           change (concat ([c] ++ todo)) with (c ++ concat todo) in Hx. apply in_app_or in Hx as [Hx|Hx]; [apply Hc0; exact Hx|].
           apply Htd in Hx; lia.
        -- intros Hx. assert (In x (concat (cur ++ c :: todo))) as Hin by (apply Hcov; lia).
           rewrite Hcat in Hin. apply in_app_or in Hin as [Hin|Hin]; [apply Hcur in Hin; lia|].
           exact Hin.
      * intros d x Hd; apply Hmin; right; exact Hd.
      * inversion Hsort; assumption.
      * intros x Hx. cbn [concat] in Hx. rewrite app_nil_r in Hx. auto.
      * cbn [concat]. rewrite app_nil_r. exact Hmin'.
      * intros d [<-|[]]. cbn. apply Hmax; left; reflexivity.
      * intros k Hk1 Hk2. apply (cycle_crosses p c c0 m); try assumption; left; reflexivity.
    + (* extend *)
      assert (m < length p) as Hml.
      { assert (In m (concat (cur ++ c :: todo))) as H
          by (rewrite Hcat; apply in_or_app; right; apply in_or_app; left; exact Hmin').
        apply Hcov in H; lia. }
      set (e' := if e <? m then m else e).
      assert (e <= e' /\ m <= e') as [He1 He2] by (unfold e'; destruct (Nat.ltb_spec e m); lia).
      apply IH. constructor; try assumption.
      * intros d Hd. apply Hcyc. rewrite <- app_assoc in Hd. exact Hd.
      * rewrite <- app_assoc. exact Hnd.
      * intros x. rewrite <- app_assoc. apply Hcov.
      * intros d x Hd; apply Hmin; right; exact Hd.
      * inversion Hsort; assumption.
      * intros x Hx. rewrite concat_snoc in Hx. apply in_app_or in Hx as [Hx|Hx].
        -- apply Hcur in Hx; lia.
        -- split; [|apply Hmax in Hx; lia].
           apply Hcov. rewrite Hcat. apply in_or_app; right; apply in_or_app; left; exact Hx.
      * rewrite concat_snoc. unfold e'. destruct (Nat.ltb_spec e m); apply in_or_app; auto.
      * intros d Hd. apply in_app_or in Hd as [Hd|[<-|[]]]; [apply Hheads in Hd; lia|].
        cbn. lia.
      * intros k Hk1 Hk2. destruct (Nat.le_gt_cases k e) as [Hke|Hke]; [apply Hnc; assumption|].
        assert (k <= m) as Hkm by (unfold e' in Hk2; destruct (Nat.ltb_spec e m); lia).
        apply (cycle_crosses p c c0 m); try assumption; [left; reflexivity|lia].
Qed.

Lemma to_blocks_ok p : p <> [] -> is_perm p ->
  exists bs, permutation_to_block_permutations p = Ok bs /\ blocks_good p bs.
Proof.
  intros Hne Hp. unfold permutation_to_block_permutations.
  destruct (Nat.eqb_spec (length p) 0) as [H|Hl]; [destruct p; [congruence|discriminate]|].
  rewrite (proj2 (checkp_spec p) Hp). cbn [negb orb].
  destruct (to_cycles_ok p Hne Hp) as (cs & Hcs & Hnf). rewrite Hcs. cbn [bind].
  destruct Hnf as (Hcyc & Hnd & Hcov & Hmin & Hsort).
  destruct cs as [|c cs'].
  { exfalso. cbn in Hcov. apply (Hcov 0); lia. }
  assert (is_cycle p c) as Hc by (apply Hcyc; left; reflexivity).
  assert (hd 0 c = 0) as Hhd.
  { assert (In 0 (concat (c :: cs'))) as Hin by (apply Hcov; lia).
    cbn [concat] in Hin. apply in_app_or in Hin as [Hin|Hin].
    - pose proof (Hmin c 0 (or_introl eq_refl) Hin). lia.
    - apply in_concat in Hin as (d & Hd & Hin). pose proof (Hmin d 0 (or_intror Hd) Hin).
      cbn [map] in Hsort. inversion Hsort as [|? ? Hs1 Hs2]; subst. rewrite Forall_forall in Hs2.
      assert (hd 0 c < hd 0 d) by (apply Hs2, in_map; exact Hd). lia. }
  destruct (Nat.eqb_spec (length (c :: cs')) 1) as [Hone|Hmany].
  - destruct cs'; [|discriminate]. exists [p]. split; [reflexivity|].
    split; [|split; [|split]].
    + cbn. rewrite app_nil_r. rewrite (map_ext _ id) by (intros; cbn; unfold id; lia). apply map_id.
    + cbn; lia.
    + repeat constructor; exact Hp.
    + constructor; [|constructor].
      assert (sub_perm p 0 (length p) = p) as Hsub.
      { apply list_eq_nth with (d := 0); rewrite sub_perm_length; [reflexivity|].
        intros i Hi. rewrite sub_perm_nth by exact Hi. cbn; lia. }
      rewrite <- Hsub. apply sub_perm_indec; [split; [lia|intros i Hi; lia]|lia|lia| |].
      * intros i Hi; cbn. pose proof (is_perm_nth_lt p i Hp Hi); lia.
      * intros k Hk1 Hk2. assert (In (length p - 1) c) as Hlast.
        { assert (In (length p - 1) (concat [c])) as Hin by (apply Hcov; lia).
          cbn in Hin. rewrite app_nil_r in Hin; exact Hin. }
        apply (cycle_crosses p c 0 (length p - 1)); try assumption; try lia.
        rewrite <- Hhd. eapply cycle_hd_in; exact Hc.
  - assert (nth_error c 0 = Some 0) as Hc0.
    { destruct c as [|a c']; [exfalso; apply (proj1 Hc); reflexivity|]. cbn in *; congruence. }
    rewrite Hc0. cbn [of_option bind].
    destruct (list_max1_Some c (proj1 Hc)) as [m Hm]. rewrite Hm. cbn [of_option bind].
    apply list_max1_spec in Hm as [Hm1 Hm2].
    destruct (blocks_loop_ok p cs' Hp 0 m [c] []) as (bs & Hbs & Hg).
    { constructor.
      - intros d Hd; apply Hcyc; exact Hd.
      - exact Hnd.
      - intros x. cbn [app]. rewrite <- Hcov. lia.
      - intros d x Hd; apply Hmin; right; exact Hd.
      - inversion Hsort; assumption.
      - intros x Hx. cbn [concat] in Hx. rewrite app_nil_r in Hx. apply Hm2 in Hx. lia.
      - cbn [concat]; rewrite app_nil_r; exact Hm1.
      - intros d [<-|[]]. lia.
      - intros k Hk1 Hk2. apply (cycle_crosses p c 0 m); try assumption; try lia.
        rewrite <- Hhd. eapply cycle_hd_in; exact Hc.
      - split; [lia|intros i Hi; lia].
      - reflexivity.
      - reflexivity.
      - constructor.
      - constructor. }
    rewrite Hbs. cbn [bind]. rewrite (proj2 (Nat.eqb_eq _ _) (proj1 (proj2 Hg))).
    exists bs; split; [reflexivity|exact Hg].
Qed.

Lemma to_blocks_bad p : (p = [] \/ ~ is_perm p) ->
  permutation_to_block_permutations p = Err BadPermutationError.
Proof.
  intros H. unfold permutation_to_block_permutations.
  destruct (Nat.eqb_spec (length p) 0) as [Hl|Hl]; [reflexivity|].
  destruct (checkp p) eqn:E; [|reflexivity]. apply checkp_spec in E.
  destruct H as [->|H]; [cbn in Hl; lia|contradiction].
Qed.

(** concatenation of permutations *)
Lemma concatenate_side a b : side_by_side (concatenate_permutations a b) a b.
Proof.
  unfold concatenate_permutations, permutation_from_block_permutations. cbn [from_blocks_from].
  rewrite app_nil_r, Nat.add_0_l. split; [|split].
  - rewrite app_length, !map_length; reflexivity.
  - intros i Hi. rewrite app_nth1 by (rewrite map_length; exact Hi).
    rewrite (nth_map_lt _ _ _ 0 0) by exact Hi. lia.
  - intros i Hi. rewrite app_nth2 by (rewrite map_length; lia). rewrite map_length.
    replace (length a + i - length a) with i by lia.
    rewrite (nth_map_lt _ _ _ 0 0) by exact Hi. lia.
Qed.

Lemma from_blocks_perm off bs : Forall is_perm bs ->
  Permutation (from_blocks_from off bs) (seq off (sum (map (@length nat) bs))).
Proof.
  intros H. revert off; induction H as [|b bs Hb Hbs IH]; intros off; cbn [from_blocks_from map].
  - constructor.
  - rewrite sum_cons, seq_app. apply Permutation_app; [|apply IH].
    unfold is_perm in Hb. apply (Permutation_map (fun x => x + off)) in Hb.
    rewrite Hb.
    assert (forall n s, map (fun x => x + off) (seq s n) = seq (s + off) n) as Hm.
    { induction n as [|n IHn]; intros s; cbn; [reflexivity|]. rewrite IHn. reflexivity. }
    rewrite Hm. reflexivity.
Qed.

Lemma from_blocks_is_perm bs : Forall is_perm bs -> is_perm (permutation_from_block_permutations bs).
Proof.
  intros H. unfold is_perm, permutation_from_block_permutations.
  rewrite from_blocks_from_length. apply from_blocks_perm; exact H.
Qed.
