(** Block structure of square matrices, and products/adjoints of matrices. *)
From Verif Require Import Prelude ListFacts PermModel PermSpec PermProofs1 AlgSpec CAlg MatModel SlhModel MatSpec MatProofs SlhProofs1 SlhProofs2 SlhProofs5.

Section B.
  Context {M : calgebra}.
  Notation A := (A M).
  Context (zb : A -> bool).
  Implicit Types a : matrix A.

  Notation split_at := (split_at zb).
  Lemma all_zero_spec a r0 r1 c0 c1 : all_zero zb a r0 r1 c0 c1 = true <->
    forall i j, r0 <= i < r1 -> c0 <= j < c1 -> zb (ent a i j) = true.
  Proof.
    unfold all_zero. rewrite forallb_forall. split.
    - intros H i j Hi Hj. specialize (H i). rewrite forallb_forall in H. apply H; apply in_seq; lia.
    - intros H i Hi. rewrite forallb_forall. intros j Hj. apply in_seq in Hi. apply in_seq in Hj. apply H; lia.
  Qed.
  Lemma split_test a n k : k <= n -> (all_zero zb a 0 k k n && all_zero zb a k n 0 k = true <-> split_at a n k).
  Proof.
    intros Hk. rewrite andb_true_iff, !all_zero_spec. unfold split_at. split.
    - intros [H1 H2] i j Hi Hj [H|H]; [apply H1|apply H2]; lia.
    - intros H. split; intros i j Hi Hj; apply H; lia.
  Qed.
  Lemma first_split_spec a n ks : Forall (fun k => k <= n) ks ->
    match first_split zb a n ks with
    | Some k => In k ks /\ split_at a n k /\ (exists l1 l2, ks = l1 ++ k :: l2 /\ forall k', In k' l1 -> ~ split_at a n k')
    | None => forall k, In k ks -> ~ split_at a n k
    end.
  Proof.
    induction ks as [|k ks IH]; cbn [first_split]; intros H; [intros ? []|].
    pose proof (Forall_inv H) as Hk. specialize (IH (Forall_inv_tail H)).
    pose proof (split_test a n k Hk) as Ht.
    destruct (_ && _).
    - split; [now left|]. split; [now apply Ht|]. exists [], ks. split; [reflexivity|intros ? []].
    - assert (~ split_at a n k) as Hn by (rewrite <- Ht; discriminate).
      destruct (first_split zb a n ks) as [k'|].
      + destruct IH as (I1 & I2 & l1 & l2 & -> & I3). split; [now right|]. split; [exact I2|].
        exists (k :: l1), l2. split; [reflexivity|]. intros x [<-|Hx]; auto.
      + intros x [<-|Hx]; auto.
  Qed.
  Lemma first_split_range a n :
    match first_split zb a n (seq 1 (n - 1)) with
    | Some k => 0 < k < n /\ split_at a n k /\ (forall k', 0 < k' < k -> ~ split_at a n k')
    | None => forall k, 0 < k < n -> ~ split_at a n k
    end.
  Proof.
    pose proof (first_split_spec a n (seq 1 (n - 1))) as H.
    assert (Forall (fun k => k <= n) (seq 1 (n - 1))) as Hf by (apply Forall_forall; intros k Hk; apply in_seq in Hk; lia).
    specialize (H Hf). destruct (first_split _ _ _ _) as [k|].
    - destruct H as (H1 & H2 & l1 & l2 & E & H3). pose proof (proj1 (in_seq _ _ _) H1) as H1'. split; [lia|]. split; [exact H2|].
      intros k' Hk'. apply H3.
      assert (In k' (seq 1 (n - 1))) as Hin by (apply in_seq; lia).
      assert (k = 1 + length l1) as El.
      { assert (length l1 < n - 1) as Hl. { apply (f_equal (@length nat)) in E. rewrite seq_length, app_length in E. cbn in E. lia. }
        pose proof (seq_nth 1 0 Hl) as Hn. rewrite E, app_nth2, Nat.sub_diag in Hn by lia. cbn [nth] in Hn. exact Hn. }
      assert (l1 = seq 1 (length l1)) as Es.
      { pose proof (f_equal (firstn (length l1)) E) as E'. rewrite firstn_app, Nat.sub_diag, firstn_all, firstn_O, app_nil_r in E'.
        assert (length l1 <= n - 1) as Hl. { apply (f_equal (@length nat)) in E. rewrite seq_length, app_length in E. lia. }
        replace (n - 1) with (length l1 + (n - 1 - length l1)) in E' by lia.
        rewrite seq_app, firstn_app, seq_length, Nat.sub_diag, firstn_O, app_nil_r in E'.
        rewrite firstn_all2 in E' by (now rewrite seq_length). now rewrite E'. }
      rewrite Es.
      apply in_seq. lia.
    - intros k Hk. apply H, in_seq. lia.
  Qed.
  Lemma ent_sub a r0 r1 c0 c1 i j : i < r1 - r0 -> j < c1 - c0 -> ent (msub_block a r0 r1 c0 c1) i j = ent a (r0 + i) (c0 + j).
  Proof. intros. unfold msub_block. now rewrite ent_tab. Qed.
  Lemma split_sub a n k l : k <= n -> l <= n - k -> split_at a n k ->
    (split_at (msub_block a k n k n) (n - k) l <-> split_at a n (k + l)).
  Proof.
    intros Hk Hl Hs. unfold split_at in *. split.
    - intros H i j Hi Hj Hc.
      destruct (le_lt_dec k i), (le_lt_dec k j).
      + specialize (H (i - k) (j - k)). rewrite ent_sub in H by lia.
        replace (k + (i - k)) with i in H by lia. replace (k + (j - k)) with j in H by lia. apply H; lia.
      + apply Hs; lia.
      + apply Hs; lia.
      + lia.
    - intros H i j Hi Hj Hc. rewrite ent_sub by lia. apply H; lia.
  Qed.
  (** *** the loop *)
  Lemma bs_loop_ok : forall fuel a n, nrows a = n -> ncols a = n -> n < fuel ->
    exists bs, bs_loop zb fuel a = Ok bs /\ sum bs = n /\ (0 < n -> Forall (fun b => 0 < b) bs) /\ bs <> [] /\
      (forall k, (exists r, r <= length bs /\ k = sum (firstn r bs)) <-> k = 0 \/ k = n \/ (0 < k < n /\ split_at a n k)).
  Proof.
    induction fuel as [|fuel IH]; intros a n Hr Hc Hf; [lia|]. cbn [bs_loop]. rewrite Hr, Hc, Nat.eqb_refl. cbn [negb].
    pose proof (first_split_range a n) as H. destruct (first_split zb a n (seq 1 (n - 1))) as [k|].
    - destruct H as (Hk & Hs & Hmin).
      destruct (IH (msub_block a k n k n) (n - k)) as (bs & E & Hsum & Hpos & Hne & Hch); [reflexivity|reflexivity|lia|].
      rewrite E. cbn [bind]. exists (k :: bs). split; [reflexivity|]. split; [cbn [sum fold_right]; unfold sum in Hsum; lia|].
      split; [intros _; constructor; [lia|apply Hpos; lia]|]. split; [discriminate|].
      intros x. split.
      + intros ([|r] & Hl & ->); [now left|]. cbn [firstn]. cbn [length] in Hl.
        assert (exists r0, r0 <= length bs /\ sum (firstn r bs) = sum (firstn r0 bs)) as Hx by (exists r; split; [lia|reflexivity]).
        apply Hch in Hx. change (sum (k :: firstn r bs)) with (k + sum (firstn r bs)).
        destruct Hx as [Hx|[Hx|[Hx Hx']]].
        * right. right. rewrite Hx, Nat.add_0_r. auto.
        * right. left. lia.
        * right. right. split; [lia|]. apply split_sub; try assumption; lia.
      + intros [->|[->|[Hx Hx']]].
        * exists 0. split; [lia|reflexivity].
        * exists (S (length bs)). split; [cbn; lia|]. cbn [firstn]. rewrite firstn_all. change (sum (k :: bs)) with (k + sum bs). lia.
        * destruct (Nat.eq_dec x k) as [->|Hxk].
          { exists 1. split; [cbn; lia|]. cbn. lia. }
          assert (k < x) as Hlt. { destruct (le_lt_dec x k); [|lia]. exfalso. apply (Hmin x); [lia|exact Hx']. }
          destruct (proj2 (Hch (x - k))) as (r & Hr1 & Hr2).
          { right. right. split; [lia|]. apply split_sub; try lia; [exact Hs|]. now replace (k + (x - k)) with x by lia. }
          exists (S r). split; [cbn; lia|]. cbn [firstn]. change (sum (k :: firstn r bs)) with (k + sum (firstn r bs)). lia.
    - exists [n]. split; [reflexivity|]. split; [cbn; lia|]. split; [intros; repeat constructor; lia|]. split; [discriminate|].
      intros x. split.
      + intros ([|[|r]] & Hl & ->); cbn; [now left|right; left; lia|cbn in Hl; lia].
      + intros [->|[->|[Hx Hx']]]; [exists 0; split; [lia|reflexivity]|exists 1; split; cbn; lia|exfalso; now apply (H x)].
  Qed.
  Lemma firstn_nth_sum (bs : list nat) : forall r, sum (firstn r bs) + nth r bs 0 <= sum bs.
  Proof.
    induction bs as [|b bs IH]; intros [|r]; cbn [firstn nth]; try (cbn; lia).
    - change (sum (b :: bs)) with (b + sum bs). change (sum (b :: firstn r bs)) with (b + sum (firstn r bs)). specialize (IH r). lia.
  Qed.
  (** *** get_blocks *)
  Lemma get_blocks_eq a bs : get_blocks zb a bs =
    let n := nrows a in let m := ncols a in
    if n =? m then
      if negb (sum bs =? n) then Err ValueError
      else match bs with
           | [] => Ok []
           | j :: bs' =>
             if all_zero zb a 0 j j n && all_zero zb a j n 0 j
             then do rest <- get_blocks zb (msub_block a j n j n) bs';
                  Ok (msub_block a 0 j 0 j :: rest)
             else Err ValueError
           end
    else if m =? 1 then
      match bs with
      | [] => Ok []
      | b0 :: bs' =>
        do rest <- get_blocks zb (msub_block a 0 (Nat.min b0 n) 0 1) bs';
        Ok (msub_block a 0 (Nat.min b0 n) 0 1 :: rest)
      end
    else Err ValueError.
  Proof. destruct bs; reflexivity. Qed.
  Lemma get_blocks_ok : forall bs a n, nrows a = n -> ncols a = n -> sum bs = n ->
    (forall r, r <= length bs -> split_at a n (sum (firstn r bs))) ->
    exists bl, get_blocks zb a bs = Ok bl /\ length bl = length bs /\
      forall r b, nth_error bl r = Some b -> b = tab (nth r bs 0) (nth r bs 0)
         (fun i j => ent a (sum (firstn r bs) + i) (sum (firstn r bs) + j)).
  Proof.
    induction bs as [|j bs IH]; intros a n Hr Hc Hs Hsp; rewrite get_blocks_eq; cbn zeta; rewrite Hr, Hc, Nat.eqb_refl.
    - rewrite Hs, Nat.eqb_refl. cbn [negb]. exists []. split; [reflexivity|]. split; [reflexivity|]. intros [|r] b H; discriminate.
    - rewrite Hs, Nat.eqb_refl. cbn [negb]. change (sum (j :: bs)) with (j + sum bs) in Hs.
      assert (split_at a n j) as Hj. { specialize (Hsp 1). cbn [length firstn] in Hsp. change (sum [j]) with (j + 0) in Hsp. rewrite Nat.add_0_r in Hsp. apply Hsp. lia. }
      rewrite (proj2 (split_test a n j ltac:(lia)) Hj).
      destruct (IH (msub_block a j n j n) (n - j)) as (bl & E & Hl & Hb); try reflexivity; [lia| |].
      { intros r Hr'. apply split_sub; [lia| |exact Hj|].
        - rewrite <- (firstn_skipn r bs) in Hs. unfold sum in *. rewrite fold_right_app in Hs.
          clear - Hs. assert (forall l x, fold_right Nat.add x l = fold_right Nat.add 0 l + x) as G.
          { induction l; intros; cbn; [reflexivity|]. rewrite IHl. lia. }
          rewrite G in Hs. lia.
        - apply (Hsp (S r)). cbn. lia. }
      rewrite E. cbn [bind]. eexists. split; [reflexivity|]. split; [cbn; lia|].
      intros [|r] b Hn; cbn [nth_error] in Hn.
      + injection Hn as <-. cbn [nth firstn]. unfold msub_block. rewrite !Nat.sub_0_r. reflexivity.
      + apply Hb in Hn. rewrite Hn. cbn [nth firstn]. apply tab_ext. intros i k Hi Hk.
        change (sum (j :: firstn r bs)) with (j + sum (firstn r bs)).
        assert (sum (firstn r bs) + nth r bs 0 <= sum bs) as Hle.
        { apply firstn_nth_sum. }
        rewrite ent_sub by lia. now rewrite !Nat.add_assoc.
  Qed.
  Lemma get_blocks_inv : forall bs a n bl, nrows a = n -> ncols a = n -> get_blocks zb a bs = Ok bl ->
    sum bs = n /\ forall r, r <= length bs -> split_at a n (sum (firstn r bs)).
  Proof.
    induction bs as [|j bs IH]; intros a n bl Hr Hc E; rewrite get_blocks_eq in E; cbn zeta in E; rewrite Hr, Hc, Nat.eqb_refl in E.
    - destruct (Nat.eqb_spec (sum []) n) as [Hs|]; [|discriminate]. split; [exact Hs|]. intros [|r] H; cbn in H; [|lia].
      cbn [firstn]. intros i k Hi Hk. cbn. lia.
    - destruct (Nat.eqb_spec (sum (j :: bs)) n) as [Hs|]; [|discriminate]. cbn [negb] in E. change (sum (j :: bs)) with (j + sum bs) in Hs.
      pose proof (split_test a n j ltac:(lia)) as Ht. destruct (_ && _); [|discriminate].
      destruct (get_blocks zb (msub_block a j n j n) bs) as [rest|] eqn:Er; [|discriminate].
      apply (IH _ (n - j)) in Er; try reflexivity. destruct Er as [Hs' Hr'].
      split; [exact Hs|]. intros [|r] Hl; [intros i k Hi Hk; cbn; lia|]. cbn [firstn]. change (sum (j :: firstn r bs)) with (j + sum (firstn r bs)).
      cbn [length] in Hl. apply split_sub; [lia| |now apply Ht|apply Hr'; lia].
      pose proof (firstn_nth_sum bs r). lia.
  Qed.
End B.

Section P.
  Context {M : calgebra}.
  Notation A := (A M).
  Implicit Types a b c : matrix A.
  Lemma has_shape_tab n m (f : nat -> nat -> A) : has_shape (tab n m f) n m.
  Proof. apply tab_shape. Qed.
  Lemma mmul_shape a b n m k : has_shape a n m -> has_shape b m k ->
    mmul a b = Ok (tab n k (fun i j => bigsum m (fun l => amul (ent a i l) (ent b l j)))).
  Proof.
    intros (H1 & H2 & _) (H3 & H4 & _). unfold mmul. rewrite H1, H2, H3, H4, Nat.eqb_refl. reflexivity.
  Qed.
End P.
