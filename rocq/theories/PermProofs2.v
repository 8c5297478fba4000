(** Disjoint cycles. *)
From Verif Require Import Prelude ListFacts PermModel PermSpec PermProofs1.

Definition chain (p c : list nat) : Prop :=
  forall i, S i < length c -> nth (nth i c 0) p 0 = nth (S i) c 0.

Lemma is_cycle_pred p c q : is_cycle p c -> In q c -> exists x, In x c /\ nth x p 0 = q.
Proof.
  intros [Hne Hc] Hq. apply In_nth with (d := 0) in Hq as (i & Hi & <-).
  destruct i as [|i].
  - exists (nth (length c - 1) c 0). split; [apply nth_In; lia|].
    rewrite Hc by lia. f_equal. replace (length c - 1 + 1) with (length c) by lia.
    apply Nat.mod_same; lia.
  - exists (nth i c 0). split; [apply nth_In; lia|].
    rewrite Hc by lia. f_equal. rewrite Nat.mod_small by lia. lia.
Qed.

Lemma is_cycle_succ p c x : is_cycle p c -> In x c -> In (nth x p 0) c.
Proof.
  intros [Hne Hc] Hq. apply In_nth with (d := 0) in Hq as (i & Hi & <-).
  rewrite Hc by lia. apply nth_In. apply Nat.mod_upper_bound. lia.
Qed.

Lemma chain_close p c : c <> [] -> chain p c ->
  nth (nth (length c - 1) c 0) p 0 = nth 0 c 0 -> is_cycle p c.
Proof.
  intros Hne Hch Hl. split; [exact Hne|]. intros i Hi.
  destruct (Nat.eq_dec i (length c - 1)) as [->|Hn].
  - rewrite Hl. f_equal. replace (length c - 1 + 1) with (length c) by lia.
    symmetry; apply Nat.mod_same; lia.
  - rewrite Nat.mod_small by lia. replace (i + 1) with (S i) by lia. apply Hch; lia.
Qed.

Lemma chain_snoc p c q : c <> [] -> chain p c ->
  nth (nth (length c - 1) c 0) p 0 = q -> chain p (c ++ [q]).
Proof.
  intros Hne Hch Hl i Hi. rewrite app_length in Hi; cbn in Hi.
  rewrite (app_nth1 c [q]) by lia.
  destruct (Nat.eq_dec (S i) (length c)) as [He|Hn].
  - rewrite (app_nth2 c [q]) by lia. rewrite He, Nat.sub_diag; cbn.
    replace i with (length c - 1) by lia. exact Hl.
  - rewrite app_nth1 by lia. apply Hch; lia.
Qed.

Record cyc_inv (p : list nat) (p_index : nat) (cur rest : list nat) (cycles : list (list nat)) : Prop := {
  ci_part : Permutation (concat cycles ++ cur ++ rest) (seq 0 (length p));
  ci_ne : cur <> [];
  ci_last : nth (length cur - 1) cur 0 = p_index;
  ci_chain : chain p cur;
  ci_cyc : forall c, In c cycles -> is_cycle p c;
  ci_sorted : StronglySorted lt rest;
  ci_min : forall x, In x cur -> hd 0 cur <= x;
  ci_rest : forall x, In x rest -> hd 0 cur < x;
  ci_cmin : forall c x, In c cycles -> In x c -> hd 0 c <= x;
  ci_heads : StronglySorted lt (map (hd 0) cycles ++ [hd 0 cur])
}.

Lemma StronglySorted_snoc (l : list nat) a b :
  StronglySorted lt (l ++ [a]) -> a < b -> StronglySorted lt ((l ++ [a]) ++ [b]).
Proof.
  induction l as [|x xs IH]; cbn; intros Hs Hab.
  - repeat constructor; exact Hab.
  - inversion Hs as [|? ? H1 H2]; subst. constructor; [apply IH; assumption|].
    apply Forall_app; split; [exact H2|]. constructor; [|constructor].
    apply Forall_app in H2 as [_ H2]. inversion H2; subst. lia.
Qed.

Lemma StronglySorted_app_l (l m : list nat) : StronglySorted lt (l ++ m) -> StronglySorted lt l.
Proof.
  induction l as [|x xs IH]; cbn; intros H; [constructor|].
  inversion H as [|? ? H1 H2]; subst. constructor; [auto|]. apply Forall_app in H2; tauto.
Qed.

Lemma StronglySorted_remove (l1 l2 : list nat) x :
  StronglySorted lt (l1 ++ x :: l2) -> StronglySorted lt (l1 ++ l2).
Proof.
  induction l1 as [|y ys IH]; cbn; intros H; inversion H as [|? ? H1 H2]; subst; [exact H1|].
  constructor; [auto|]. apply Forall_app in H2 as [H2 H3]. inversion H3; subst.
  apply Forall_app; split; assumption.
Qed.

Lemma concat_snoc {A} (l : list (list A)) c : concat (l ++ [c]) = concat l ++ c.
Proof. rewrite concat_app; cbn; rewrite app_nil_r; reflexivity. Qed.

Lemma hd_app (l m : list nat) : l <> [] -> hd 0 (l ++ m) = hd 0 l.
Proof. destruct l; [congruence|reflexivity]. Qed.

Lemma cycles_loop_ok p fuel p_index cur rest cycles :
  is_perm p -> cyc_inv p p_index cur rest cycles -> length rest < fuel ->
  exists cs, cycles_loop fuel p p_index cur rest cycles = Ok cs /\ cycles_normal_form p cs.
Proof.
  intros Hp. revert p_index cur rest cycles.
  induction fuel as [|fuel IH]; intros p_index cur rest cycles Inv Hf; [lia|].
  destruct Inv as [Hpart Hne Hlast Hch Hcyc Hsort Hmin Hrest Hcmin Hheads].
  assert (NoDup (concat cycles ++ cur ++ rest)) as Hnd.
  { eapply Permutation_NoDup; [symmetry; exact Hpart|apply seq_NoDup]. }
  assert (forall x, x < length p <-> In x (concat cycles ++ cur ++ rest)) as Hcov.
  { intros x. rewrite (Permutation_in' eq_refl Hpart). rewrite in_seq. lia. }
  assert (Hlen : 0 < length cur) by (destruct cur; [congruence|cbn; lia]).
  assert (In p_index cur) as Hin.
  { rewrite <- Hlast. apply nth_In. lia. }
  assert (p_index < length p) as Hlt.
  { apply Hcov. apply in_or_app; right; apply in_or_app; left; exact Hin. }
  cbn [cycles_loop].
  rewrite (nth_error_nth' p 0) by exact Hlt. cbn [of_option bind].
  rewrite (nth_error_nth' cur 0) by exact Hlen. cbn [of_option bind].
  destruct (Nat.eqb_spec (nth p_index p 0) (nth 0 cur 0)) as [Heq|Hneq].
  - (* close the cycle *)
    assert (is_cycle p cur) as Hcc.
    { apply chain_close; try assumption. rewrite Hlast; exact Heq. }
    destruct rest as [|r rest'].
    + eexists; split; [reflexivity|]. rewrite app_nil_r in *.
      split; [|split; [|split; [|split]]].
      * intros c Hc. apply in_app_or in Hc as [Hc|[<-|[]]]; auto.
      * rewrite concat_snoc; exact Hnd.
      * intros x; rewrite concat_snoc; apply Hcov.
      * intros c x Hc Hx. apply in_app_or in Hc as [Hc|[<-|[]]]; eauto.
      * rewrite map_app; exact Hheads.
    + apply IH; [|cbn in Hf; lia]. constructor.
      * rewrite concat_snoc, <- app_assoc. exact Hpart.
      * discriminate.
      * reflexivity.
      * intros i Hi; cbn in Hi; lia.
      * intros c Hc. apply in_app_or in Hc as [Hc|[<-|[]]]; auto.
      * inversion Hsort; assumption.
      * intros x [<-|[]]; cbn; lia.
      * intros x Hx; cbn. inversion Hsort as [|? ? H1 H2]; subst.
        rewrite Forall_forall in H2; auto.
      * intros c x Hc Hx. apply in_app_or in Hc as [Hc|[<-|[]]]; eauto.
      * rewrite map_app; cbn. apply StronglySorted_snoc; [exact Hheads|].
        apply Hrest; left; reflexivity.
  - (* extend the cycle *)
    set (q := nth p_index p 0) in *.
    assert (q < length p) as Hq by (apply is_perm_nth_lt; assumption).
    assert (In q rest) as Hqr.
    { apply Hcov in Hq. apply in_app_or in Hq as [Hq|Hq].
      - exfalso. apply in_concat in Hq as (c & Hc & Hqc).
        destruct (is_cycle_pred p c q (Hcyc c Hc) Hqc) as (x & Hx & Hxq).
        assert (x = p_index) as ->.
        { eapply (is_perm_inj p); eauto. apply Hcov. apply in_or_app; left.
          apply in_concat; eauto. }
        assert (In p_index (concat cycles)) as H1 by (apply in_concat; eauto).
        clear - Hnd H1 Hin. induction (concat cycles) as [|y ys IH]; [destruct H1|].
        cbn in Hnd. inversion Hnd as [|? ? H2 H3]; subst. destruct H1 as [->|H1]; [|auto].
        apply H2. apply in_or_app; right; apply in_or_app; left; exact Hin.
      - apply in_app_or in Hq as [Hq|Hq]; [|exact Hq]. exfalso.
        apply In_nth with (d := 0) in Hq as (i & Hi & Hiq).
        destruct i as [|i]; [congruence|].
        assert (nth i cur 0 = p_index) as He.
        { eapply (is_perm_inj p); eauto.
          - apply Hcov. apply in_or_app; right; apply in_or_app; left. apply nth_In; lia.
          - rewrite Hch by exact Hi. exact Hiq. }
        assert (NoDup cur) as Hndc.
        { apply NoDup_app_remove_l in Hnd. apply NoDup_app_remove_r in Hnd; exact Hnd. }
        assert (i = length cur - 1) as ->; [|lia].
        apply (proj1 (NoDup_nth cur 0) Hndc); [lia|lia|congruence]. }
    destruct (remove_first_In q rest Hqr) as [rest' Hr]. rewrite Hr. cbn [of_option bind].
    pose proof (remove_first_perm _ _ _ Hr) as Hrp.
    destruct (remove_first_Some _ _ _ Hr) as (l1 & l2 & Hr1 & Hr2 & _).
    apply IH.
    + constructor.
      * rewrite <- Hpart. apply Permutation_app_head. rewrite <- app_assoc; cbn.
        apply Permutation_app_head. symmetry; exact Hrp.
      * destruct cur; discriminate.
      * rewrite app_length; cbn. replace (length cur + 1 - 1) with (length cur) by lia.
        rewrite app_nth2, Nat.sub_diag by lia. reflexivity.
      * apply chain_snoc; try assumption. rewrite Hlast; reflexivity.
      * exact Hcyc.
      * subst. eapply StronglySorted_remove; exact Hsort.
      * intros x Hx. rewrite hd_app by exact Hne. apply in_app_or in Hx as [Hx|[<-|[]]]; [auto|].
        apply Nat.lt_le_incl, Hrest; exact Hqr.
      * intros x Hx. rewrite hd_app by exact Hne. apply Hrest.
        eapply Permutation_in; [symmetry; exact Hrp|]. right; exact Hx.
      * exact Hcmin.
      * rewrite hd_app by exact Hne. exact Hheads.
    + apply Permutation_length in Hrp. cbn in Hrp. lia.
Qed.

Lemma seq_sorted_lt n m : StronglySorted lt (seq m n).
Proof.
  revert m; induction n as [|n IH]; intros m; cbn; constructor; [apply IH|].
  rewrite Forall_forall; intros x Hx; apply in_seq in Hx; lia.
Qed.

Lemma to_cycles_ok p : p <> [] -> is_perm p ->
  exists cs, permutation_to_disjoint_cycles p = Ok cs /\ cycles_normal_form p cs.
Proof.
  intros Hne Hp. unfold permutation_to_disjoint_cycles.
  rewrite (proj2 (checkp_spec p) Hp). cbn [negb].
  assert (0 < length p) by (destruct p; [congruence|cbn; lia]).
  apply cycles_loop_ok; [exact Hp| |rewrite seq_length; lia].
  constructor.
  - cbn [concat app]. replace (length p) with (S (length p - 1)) at 2 by lia. reflexivity.
  - discriminate.
  - reflexivity.
  - intros i Hi; cbn in Hi; lia.
  - intros c [].
  - apply seq_sorted_lt.
  - intros x [<-|[]]; cbn; lia.
  - intros x Hx; apply in_seq in Hx; cbn; lia.
  - intros c x [].
  - repeat constructor.
Qed.

Lemma to_cycles_bad p : ~ is_perm p -> permutation_to_disjoint_cycles p = Err BadPermutationError.
Proof.
  intros H. unfold permutation_to_disjoint_cycles.
  destruct (checkp p) eqn:E; [apply checkp_spec in E; contradiction|reflexivity].
Qed.

(** Rebuilding *)
Definition cycle_map (q off : nat) : nat := q - off.

(** After closing a cycle [c0 :: c] starting at [p1], position x of the result is the
    successor in the cycle for cycle elements, unchanged otherwise. *)
Lemma close_cycle_ok c : forall c0 prev offset perm,
  NoDup (prev :: c) -> offset <= prev -> offset <= c0 ->
  (forall x, In x (prev :: c) -> offset <= x /\ x - offset < length perm) ->
  exists perm', close_cycle c0 (prev - offset) c offset perm = Ok perm' /\
    length perm' = length perm /\
    (forall j, ~ In (j + offset) (prev :: c) -> nth_error perm' j = nth_error perm j) /\
    (forall i, i < length c ->
        nth_error perm' (nth i (prev :: c) 0 - offset) = Some (nth i c 0 - offset)) /\
    nth_error perm' (nth (length c) (prev :: c) 0 - offset) = Some (c0 - offset).
Proof.
  induction c as [|y ys IH]; intros c0 prev offset perm Hnd Hpo Hco Hb; cbn [close_cycle].
  - unfold sub_offset. destruct (Nat.ltb_spec c0 offset) as [Hx|_]; [lia|]. cbn [bind].
    destruct (Hb prev (or_introl eq_refl)) as [_ Hl].
    destruct (set_nth_Some (prev - offset) (c0 - offset) perm Hl) as (perm' & Hs & Hlen & Hn).
    rewrite Hs. exists perm'. cbn [of_option]. repeat split.
    + exact Hlen.
    + intros j Hj. rewrite Hn. destruct (Nat.eqb_spec j (prev - offset)) as [->|]; [|reflexivity].
      exfalso; apply Hj; left; lia.
    + intros i Hi; cbn in Hi; lia.
    + cbn. rewrite Hn, Nat.eqb_refl; reflexivity.
  - destruct (Hb y (or_intror (or_introl eq_refl))) as [Hyo Hyl].
    unfold sub_offset at 1. destruct (Nat.ltb_spec y offset) as [Hx|_]; [lia|]. cbn [bind].
    destruct (Hb prev (or_introl eq_refl)) as [_ Hl].
    destruct (set_nth_Some (prev - offset) (y - offset) perm Hl) as (perm1 & Hs & Hlen & Hn).
    rewrite Hs. cbn [of_option bind].
    inversion Hnd as [|? ? Hnp Hnd']; subst.
    destruct (IH c0 y offset perm1) as (perm' & H1 & H2 & H3 & H4 & H5); try assumption.
    { intros x Hx. destruct (Hb x (or_intror Hx)) as [Ha Hc]. rewrite Hlen. auto. }
    exists perm'. split; [exact H1|]. split; [lia|]. split; [|split].
    + intros j Hj. rewrite H3 by (intros Hin; apply Hj; right; exact Hin).
      rewrite Hn. destruct (Nat.eqb_spec j (prev - offset)) as [->|]; [|reflexivity].
      exfalso; apply Hj; left; lia.
    + intros [|i] Hi; cbn [nth].
      * rewrite H3.
        -- rewrite Hn, Nat.eqb_refl; reflexivity.
        -- replace (prev - offset + offset) with prev by lia. exact Hnp.
      * apply H4. cbn in Hi; lia.
    + cbn [length nth]. exact H5.
Qed.

Definition in_cycles_bound (offset n : nat) (c : list nat) : Prop :=
  forall x, In x c -> offset <= x /\ x - offset < n.

Lemma fill_cycles_ok cs : forall offset perm,
  (forall c, In c cs -> c <> []) -> NoDup (concat cs) ->
  (forall x, In x (concat cs) -> offset <= x /\ x - offset < length perm) ->
  exists perm', fill_cycles cs offset perm = Ok perm' /\
    length perm' = length perm /\
    (forall j, ~ In (j + offset) (concat cs) -> nth_error perm' j = nth_error perm j) /\
    (forall c i, In c cs -> i < length c ->
       nth_error perm' (nth i c 0 - offset) = Some (nth ((i + 1) mod length c) c 0 - offset)).
Proof.
  induction cs as [|c cs IH]; intros offset perm Hne Hnd Hb; cbn [fill_cycles].
  - exists perm. repeat split; auto. intros c i [].
  - destruct c as [|c0 c]; [exfalso; apply (Hne [] (or_introl eq_refl)); reflexivity|].
    cbn [concat app] in Hnd, Hb.
    assert (NoDup (c0 :: c)) as Hnd1.
    { change (c0 :: c ++ concat cs) with ((c0 :: c) ++ concat cs) in Hnd.
      apply NoDup_app_remove_r in Hnd; exact Hnd. }
    assert (NoDup (concat cs)) as Hnd2.
    { change (c0 :: c ++ concat cs) with ((c0 :: c) ++ concat cs) in Hnd.
      apply NoDup_app_remove_l in Hnd; exact Hnd. }
    assert (forall x, In x (c0 :: c) -> ~ In x (concat cs)) as Hdis.
    { clear - Hnd. change (c0 :: c ++ concat cs) with ((c0 :: c) ++ concat cs) in Hnd.
      induction (c0 :: c) as [|y ys IH]; intros x Hx; [destruct Hx|].
      cbn in Hnd; inversion Hnd as [|? ? H1 H2]; subst. destruct Hx as [->|Hx]; [|auto].
      intros Hin; apply H1, in_or_app; right; exact Hin. }
    destruct (Hb c0 (or_introl eq_refl)) as [Hc0 _].
    unfold sub_offset at 1. destruct (Nat.ltb_spec c0 offset) as [Hx|_]; [lia|]. cbn [bind].
    destruct (close_cycle_ok c c0 c0 offset perm) as (perm1 & H1 & H2 & H3 & H4 & H5);
      try assumption.
    { intros x Hx. apply Hb. destruct Hx as [->|Hx]; [left; reflexivity|].
      right; apply in_or_app; left; exact Hx. }
    rewrite H1. cbn [bind].
    destruct (IH offset perm1) as (perm' & G1 & G2 & G3 & G4).
    { intros d Hd; apply Hne; right; exact Hd. }
    { exact Hnd2. }
    { intros x Hx. rewrite H2. apply Hb. right; apply in_or_app; right; exact Hx. }
    exists perm'. split; [exact G1|]. split; [lia|]. split.
    + intros j Hj. cbn [concat] in Hj. rewrite G3.
      * apply H3. intros Hin; apply Hj. apply in_or_app; left; exact Hin.
      * intros Hin; apply Hj. apply in_or_app; right; exact Hin.
    + intros d i [<-|Hd] Hi; [|apply G4; assumption].
      assert (In (nth i (c0 :: c) 0) (c0 :: c)) as Hini by (apply nth_In; exact Hi).
      assert (offset <= nth i (c0 :: c) 0) as Hoi.
      { apply Hb. change (In (nth i (c0 :: c) 0) ((c0 :: c) ++ concat cs)).
        apply in_or_app; left; exact Hini. }
      rewrite G3.
      * cbn [length] in *. destruct (Nat.eq_dec i (length c)) as [->|Hn].
        -- rewrite H5. f_equal. replace (length c + 1) with (S (length c)) by lia.
           rewrite Nat.mod_same by lia. reflexivity.
        -- rewrite H4 by lia. f_equal. rewrite Nat.mod_small by lia.
           replace (i + 1) with (S i) by lia. reflexivity.
      * replace (nth i (c0 :: c) 0 - offset + offset) with (nth i (c0 :: c) 0) by lia.
        apply Hdis; exact Hini.
Qed.

Lemma NoDup_interval_length (l : list nat) s n :
  NoDup l -> (forall x, In x l <-> s <= x < s + n) -> length l = n.
Proof.
  intros Hnd H. rewrite <- (seq_length n s). apply Permutation_length.
  apply NoDup_Permutation; [exact Hnd|apply seq_NoDup|]. intros x; rewrite in_seq; apply H.
Qed.

(** Rebuilding a permutation on the interval [s, s+n) from cycles of p that cover it. *)
Lemma from_cycles_ok p cs s n :
  (forall c, In c cs -> is_cycle p c) -> NoDup (concat cs) ->
  (forall x, In x (concat cs) <-> s <= x < s + n) ->
  (forall i j, i < length p -> j < length p -> nth i p 0 = nth j p 0 -> i = j) ->
  s + n <= length p ->
  sum (map (@length nat) cs) = n /\
  permutation_from_disjoint_cycles cs s
    = Ok (map (fun i => nth (s + i) p 0 - s) (seq 0 n)) /\
  (forall i, i < n -> s <= nth (s + i) p 0 < s + n).
Proof.
  intros Hc Hnd Hcov Hinj Hlen.
  assert (sum (map (@length nat) cs) = n) as Hsum.
  { rewrite <- length_concat. apply (NoDup_interval_length _ s); assumption. }
  split; [exact Hsum|].
  assert (forall i, i < n -> s <= nth (s + i) p 0 < s + n) as Hrange.
  { intros i Hi. apply Hcov. assert (In (s + i) (concat cs)) as Hin by (apply Hcov; lia).
    apply in_concat in Hin as (c & H1 & H2). apply in_concat. exists c; split; [exact H1|].
    apply is_cycle_succ; auto. }
  split; [|exact Hrange].
  unfold permutation_from_disjoint_cycles. rewrite Hsum.
  destruct (fill_cycles_ok cs s (seq 0 n)) as (perm' & H1 & H2 & _ & H4).
  { intros c Hin; apply Hc; exact Hin. }
  { exact Hnd. }
  { intros x Hx. apply Hcov in Hx. rewrite seq_length. lia. }
  rewrite seq_length in H2.
  rewrite H1. cbn [bind].
  assert (perm' = map (fun i => nth (s + i) p 0 - s) (seq 0 n)) as ->.
  { apply list_eq_nth with (d := 0); [rewrite map_length, seq_length; exact H2|].
    intros i Hi. rewrite H2 in Hi.
    rewrite (nth_map_lt _ _ i 0 0) by (rewrite seq_length; exact Hi).
    rewrite seq_nth by exact Hi. cbn [Nat.add].
    assert (In (s + i) (concat cs)) as Hin by (apply Hcov; lia).
    apply in_concat in Hin as (c & Hcin & Hx).
    apply In_nth with (d := 0) in Hx as (k & Hk & Hkx).
    specialize (H4 c k Hcin Hk). rewrite Hkx in H4.
    replace (s + i - s) with i in H4 by lia.
    rewrite (nth_error_nth _ _ 0 H4).
    rewrite <- Hkx. rewrite (proj2 (Hc c Hcin) k Hk). reflexivity. }
  match goal with |- (if ?b then _ else _) = _ => assert (b = true) as -> end; [|reflexivity].
  apply sort_eq_range_iff. apply Permutation_map.
  set (r := map (fun i => nth (s + i) p 0 - s) (seq 0 n)).
  assert (length r = n) as Hr by (unfold r; rewrite map_length, seq_length; reflexivity).
  rewrite <- Hr. apply is_perm_intro.
  - apply (NoDup_nth r 0). rewrite Hr. intros i j Hi Hj. unfold r.
    rewrite !(nth_map_lt _ _ _ 0 0) by (rewrite seq_length; assumption).
    rewrite !seq_nth by assumption. cbn [Nat.add]. intros He.
    pose proof (Hrange i Hi); pose proof (Hrange j Hj).
    assert (s + i = s + j) as He'; [|lia]. apply Hinj; lia.
  - intros x Hx. unfold r in Hx. apply in_map_iff in Hx as (i & <- & Hi). apply in_seq in Hi.
    specialize (Hrange i ltac:(lia)). lia.
Qed.

Lemma cycles_roundtrip p cs : is_perm p -> cycles_normal_form p cs ->
  permutation_from_disjoint_cycles cs 0 = Ok p.
Proof.
  intros Hp (Hc & Hnd & Hcov & _).
  destruct (from_cycles_ok p cs 0 (length p)) as (_ & H & _); try assumption.
  - intros x; rewrite <- Hcov; lia.
  - intros i j Hi Hj He; eapply is_perm_inj; eauto.
  - lia.
  - rewrite H. f_equal. apply list_eq_nth with (d := 0); [rewrite map_length, seq_length; reflexivity|].
    intros i Hi. rewrite map_length, seq_length in Hi.
    rewrite (nth_map_lt _ _ i 0 0) by (rewrite seq_length; exact Hi).
    rewrite seq_nth by exact Hi. cbn [Nat.add]. lia.
Qed.
