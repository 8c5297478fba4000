(** Feedback of channel permutations, and block permutations moving past a
    concatenation. *)
From Verif Require Import Prelude ListFacts PermModel PermSpec PermProofs1 PermProofs3 PermProofs4 AlgSpec CAlg NcRing MatModel SlhModel MatProofs MatSpec CircSpec CircProofs2 SlhProofs1 SlhProofs2 SlhProofs3 SlhProofs4 SlhProofs5 SlhProofs6.

Section F.
  Context {M : calgebra}.
  Add Ring Kr : (kring M).
  Notation A := (A M). Notation K := (K M). Notation slh := (slh M).
  Notation "x + y" := (aadd x y). Notation "x * y" := (amul x y).
  Implicit Types x y z : A. Implicit Types u v w : nat -> A. Implicit Types s t : nat -> nat -> A.
  Implicit Types n m : nat. Implicit Types a b c : slh.
  Notation sm := (@bigsum M).
  Local Notation pdelta := (@pdelta M).

  Lemma trivial_alg : @a0 M = a1 -> forall x y : A, x = y.
  Proof. intros H x y. rewrite <- (amul_1l M x), <- (amul_1l M y), <- H, !amul_0l. reflexivity. Qed.
  Lemma invs_0 y : invs a0 y -> y = a1.
  Proof. intros [H _]. rewrite <- H. ncr. Qed.
  Lemma invs_1 y : invs a1 y -> @a0 M = a1.
  Proof. intros [H _]. rewrite <- H. ncr. Qed.
  Lemma Sf_prm p i j : i < length p -> j < length p -> Sf (prm p) i j = pdelta p i j.
  Proof. intros Hi Hj. unfold prm. now apply Sf_mkS. Qed.
  Lemma Lf_prm p i : i < length p -> Lf (prm p) i = @a0 M.
  Proof. intros Hi. unfold prm. rewrite Lf_mkS by assumption. reflexivity. Qed.
  Lemma sH_prm p : sH (prm p) = @a0 M.
  Proof. reflexivity. Qed.
  Lemma fb_prm n p y : is_perm p -> length p = S n -> invs (Sf (prm p) n n) y ->
    fbl n (prm p) y = prm (fb_perm p n n).
  Proof.
    intros Hp Hl Hy. rewrite Sf_prm in Hy by lia. unfold SlhProofs2.pdelta in Hy.
    assert (length (fb_perm p n n) = n) as Hfl by (unfold fb_perm; rewrite map_length, seq_length; lia).
    assert (system (prm (fb_perm p n n) : slh) n) as Hsys by (pose proof (@prm_system M (fb_perm p n n)) as H; rewrite Hfl in H; exact H).
    apply (mkS_slh_eq _ _ n); [apply fbl_system|exact Hsys|..].
    2:{ intros i Hi. rewrite Lf_fbl by assumption. unfold red. rewrite !Lf_prm by lia. ncr. }
    2:{ unfold fbl, ffb. rewrite sH_mkS, !sH_prm, Lf_prm by lia. rewrite amul_0r, imp_selfadj by apply star_0. ncr. }
    intros i j Hi Hj. rewrite Sf_fbl by assumption. rewrite !Sf_prm by lia. unfold SlhProofs2.pdelta.
    unfold fb_perm. rewrite map_seq_nth by lia. unfold fb_route. cbn zeta.
    assert (keep n j = j) as -> by (unfold keep; destruct (Nat.ltb_spec j n); lia).
    destruct (Nat.eq_dec (nth n p 0) n) as [E|E].
    - rewrite E, delta_refl in Hy. apply trivial_alg. now apply (invs_1 y).
    - rewrite delta_neq in Hy by auto. apply invs_0 in Hy as ->.
      pose proof (is_perm_nth_lt p j Hp ltac:(lia)) as Hjl. pose proof (is_perm_nth_lt p n Hp ltac:(lia)) as Hnl.
      destruct (Nat.eqb_spec (nth j p 0) n) as [E'|E'].
      + rewrite E'. rewrite delta_refl. rewrite (delta_neq i n) by lia.
        assert (drop n (nth n p 0) = nth n p 0) as -> by (unfold drop; destruct (Nat.ltb_spec (nth n p 0) n); lia). ncr.
      + rewrite (delta_neq n (nth j p 0)) by auto.
        assert (drop n (nth j p 0) = nth j p 0) as -> by (unfold drop; destruct (Nat.ltb_spec (nth j p 0) n); lia). ncr.
  Qed.

  (** *** concatenation of a list of systems, with their channel numbers *)
  Fixpoint catl (l : list (nat * slh)) : slh :=
    match l with [] => ident 0 | (n, a) :: l' => cat n (sum (map fst l')) a (catl l') end.
  Local Notation dflt := (0, @ident M 0).
  Lemma catl_system l : system (catl l) (sum (map fst l)).
  Proof. destruct l as [|[n a] l]; [apply ident_system|]. cbn [catl map fst]. rewrite sum_cons. apply cat_system. Qed.
  Lemma bstart_S_cons (b : nat) (bs : list nat) k : block_start (b :: bs) (S k) = Nat.add b (block_start bs k).
  Proof. unfold block_start. cbn [firstn]. apply sum_cons. Qed.
  Lemma in_blk l k i : k < length l -> i < fst (nth k l dflt) -> Nat.add (block_start (map fst l) k) i < sum (map fst l).
  Proof.
    intros Hk Hi. pose proof (block_start_end (map fst l) k) as H. rewrite map_length in H. specialize (H Hk).
    change 0 with (fst dflt) in H. rewrite map_nth in H. cbn [fst] in *. lia.
  Qed.
  Lemma Sf_catl l : forall k i k' j, k < length l -> k' < length l -> i < fst (nth k l dflt) -> j < fst (nth k' l dflt) ->
    Sf (catl l) (Nat.add (block_start (map fst l) k) i) (Nat.add (block_start (map fst l) k') j)
    = if k =? k' then Sf (snd (nth k l dflt)) i j else a0.
  Proof.
    induction l as [|[n a] l IH]; intros k i k' j Hk Hk' Hi Hj; [cbn in Hk; lia|].
    pose proof (in_blk ((n, a) :: l) k i Hk Hi) as B. pose proof (in_blk ((n, a) :: l) k' j Hk' Hj) as B'.
    cbn [map fst] in B, B'. rewrite sum_cons in B, B'. cbn [catl]. rewrite Sf_cat by assumption. cbn [map fst].
    destruct k as [|k], k' as [|k']; rewrite ?block_start_0, ?bstart_S_cons; cbn [Nat.add nth fst snd] in *.
    - now rewrite fcat_ll.
    - rewrite fcat_lr by lia. reflexivity.
    - rewrite fcat_rl by lia. reflexivity.
    - rewrite <- !Nat.add_assoc, fcat_rr. cbn [Nat.eqb]. apply IH; cbn in *; try lia; assumption.
  Qed.
  Lemma Lf_catl l : forall k i, k < length l -> i < fst (nth k l dflt) ->
    Lf (catl l) (Nat.add (block_start (map fst l) k) i) = Lf (snd (nth k l dflt)) i.
  Proof.
    induction l as [|[n a] l IH]; intros k i Hk Hi; [cbn in Hk; lia|].
    pose proof (in_blk ((n, a) :: l) k i Hk Hi) as B.
    cbn [map fst] in B. rewrite sum_cons in B. cbn [catl]. rewrite Lf_cat by assumption. cbn [map fst].
    destruct k as [|k]; rewrite ?block_start_0, ?bstart_S_cons; cbn [Nat.add nth fst snd] in *.
    - now rewrite vcat_l.
    - rewrite <- !Nat.add_assoc, vcat_r. apply IH; cbn in *; try lia; assumption.
  Qed.
  Lemma sH_catl l : sH (catl l) = asum (fun p => sH (snd p)) l.
  Proof. induction l as [|[n a] l IH]; [reflexivity|]. cbn [catl]. unfold cat. rewrite sH_mkS, IH, asum_cons. reflexivity. Qed.
  Lemma asum_perm {B} (f : B -> A) l l' : Permutation.Permutation l l' -> asum f l = asum f l'.
  Proof.
    induction 1 as [|b l l' H IH|b b' l|l l' l'' H IH H' IH']; rewrite ?asum_cons; try reflexivity.
    - now rewrite IH.
    - rewrite !aadd_assoc, (aadd_comm M (f b') (f b)). reflexivity.
    - congruence.
  Qed.
  (** [mvl bp l] is the list in which block [k] of [l] stands at position [bp k] *)
  Definition mvl {B} (d : B) (bp : list nat) (l : list B) : list B :=
    map (fun j => nth (nth j (inv_of bp) 0) l d) (seq 0 (length l)).
  Lemma mvl_length {B} (d : B) bp l : length (mvl d bp l) = length l.
  Proof. unfold mvl. now rewrite map_length, seq_length. Qed.
  Lemma mvl_nth {B} (d : B) bp l k : is_perm bp -> length bp = length l -> k < length l ->
    nth (nth k bp 0) (mvl d bp l) d = nth k l d.
  Proof.
    intros Hp Hl Hk. unfold mvl. pose proof (is_perm_nth_lt bp k Hp ltac:(lia)) as H.
    rewrite (nth_map_lt _ _ _ d 0) by (rewrite seq_length; lia). rewrite seq_nth by lia. cbn [Nat.add].
    rewrite inv_of_nth' by (try assumption; lia). reflexivity.
  Qed.
  Lemma mvl_Permutation {B} (d : B) bp l : is_perm bp -> length bp = length l -> Permutation.Permutation (mvl d bp l) l.
  Proof.
    intros Hp Hl. pose proof (inv_of_perm bp Hp) as Hi.
    assert (mvl d bp l = map (fun k => nth k l d) (inv_of bp)) as ->.
    { unfold mvl. rewrite <- Hl, <- (inv_of_length bp). rewrite <- (map_map (fun j => nth j (inv_of bp) 0) (fun k => nth k l d)).
      now rewrite nth_seq_map. }
    transitivity (map (fun k => nth k l d) (seq 0 (length l))).
    - apply Permutation.Permutation_map. rewrite <- Hl, <- (inv_of_length bp). exact Hi.
    - now rewrite nth_seq_map.
  Qed.
  Lemma mvl_map {B C} (f : B -> C) d bp l : map f (mvl d bp l) = mvl (f d) bp (map f l).
  Proof. unfold mvl. rewrite map_map, map_length. apply map_ext. intros j. symmetry. apply map_nth. Qed.
  Lemma mvl_moved bp bs : mvl 0 bp bs = moved bp bs.
  Proof. reflexivity. Qed.

  Lemma nat_block l bp : is_perm bp -> length bp = length l ->
    ser (sum (map fst l)) (prm (fbp bp (map fst l))) (catl l)
    = ser (sum (map fst l)) (catl (mvl dflt bp l)) (prm (fbp bp (map fst l))).
  Proof.
    intros Hp Hl. set (bs := map fst l). set (N := sum bs). set (F := fbp bp bs).
    assert (length bs = length l) as Hbl by apply map_length.
    assert (is_perm F) as HF by (apply fbp_is_perm; congruence).
    assert (length F = N) as HFl by (apply fbp_length; congruence).
    assert (map fst (mvl dflt bp l) = moved bp bs) as Hmv by (rewrite mvl_map; apply mvl_moved).
    assert (sum (map fst (mvl dflt bp l)) = N) as Hs.
    { rewrite Hmv. unfold N. apply sum_perm. apply moved_perm; [exact Hp|congruence]. }
    (* F sends channel (k, i) to (bp k, i) *)
    assert (forall k i, k < length l -> i < fst (nth k l dflt) ->
      nth (Nat.add (block_start bs k) i) F 0 = Nat.add (block_start (map fst (mvl dflt bp l)) (nth k bp 0)) i) as HFn.
    { intros k i Hk Hi. unfold F. rewrite fbp_nth; [now rewrite Hmv|congruence|].
      unfold bs. rewrite (nth_map_lt fst l k 0 dflt) by exact Hk. exact Hi. }
    assert (forall x : nat, x < N -> exists k i, k < length l /\ i < fst (nth k l dflt) /\ x = Nat.add (block_start bs k) i) as Hdec.
    { intros x Hx. destruct (block_locate bs x Hx) as (k & i & Hk & Hi & E). exists k, i. split; [congruence|]. split; [|exact E].
      unfold bs in Hi, Hk. rewrite map_length in Hk. now rewrite (nth_map_lt fst l k 0 dflt) in Hi by exact Hk. }
    assert (forall k, k < length l -> nth k bp 0 < length (mvl dflt bp l)) as Hb.
    { intros k Hk. rewrite mvl_length, <- Hl. apply is_perm_nth_lt; [exact Hp|lia]. }
    assert (system (prm F : slh) N) as HsF by (rewrite <- HFl; apply prm_system).
    apply (mkS_slh_eq _ _ N); try apply ser_system.
    - intros p q Hpp Hq. rewrite !Sf_ser by assumption.
      destruct (perm_surj F N p HF HFl Hpp) as (x & Hx & <-).
      rewrite (mm_ext N (Sf (prm F)) (Sf (catl l)) (pdelta F) (Sf (catl l)) (nth x F 0) q)
        by (intros; try reflexivity; apply Sf_prm; lia).
      rewrite mm_pdelta_l by assumption.
      rewrite (mm_ext N (Sf (catl (mvl dflt bp l))) (Sf (prm F)) (Sf (catl (mvl dflt bp l))) (pdelta F) (nth x F 0) q)
        by (intros; try reflexivity; apply Sf_prm; lia).
      rewrite mm_pdelta_r by (rewrite <- HFl; apply is_perm_nth_lt; [exact HF|lia]).
      destruct (Hdec x Hx) as (k & i & Hk & Hi & ->). destruct (Hdec q Hq) as (k' & j & Hk' & Hj & ->).
      rewrite !HFn by assumption. unfold bs. rewrite Sf_catl by assumption.
      rewrite Sf_catl; try (now apply Hb); try (rewrite mvl_nth by assumption; assumption).
      rewrite mvl_nth by assumption.
      destruct (Nat.eqb_spec k k') as [E|E], (Nat.eqb_spec (nth k bp 0) (nth k' bp 0)) as [E'|E']; try reflexivity.
      + subst. contradiction.
      + exfalso. apply E. apply (is_perm_inj bp); try assumption; lia.
    - intros p Hpp. rewrite !Lf_ser by assumption.
      destruct (perm_surj F N p HF HFl Hpp) as (x & Hx & <-).
      rewrite (mv_ext N (Sf (prm F)) (Lf (catl l)) (pdelta F) (Lf (catl l)) (nth x F 0))
        by (intros; try reflexivity; apply Sf_prm; lia).
      rewrite mv_pdelta by assumption.
      rewrite (mv_ext N (Sf (catl (mvl dflt bp l))) (Lf (prm F)) (Sf (catl (mvl dflt bp l))) (fun _ => a0) (nth x F 0))
        by (intros; try reflexivity; apply Lf_prm; lia).
      rewrite Lf_prm by lia. unfold mv. rewrite sm_zero by (intros; apply amul_0r). rewrite aadd_0r, aadd_0.
      destruct (Hdec x Hx) as (k & i & Hk & Hi & ->). rewrite HFn by assumption. unfold bs. rewrite Lf_catl by assumption.
      rewrite Lf_catl; try (now apply Hb); try (rewrite mvl_nth by assumption; assumption).
      now rewrite mvl_nth.
    - unfold ser, fseries. rewrite !sH_mkS, !sH_catl, sH_prm.
      rewrite (asum_perm _ _ _ (mvl_Permutation dflt bp l Hp Hl)).
      rewrite (dot_ext N (Lf (prm F)) (mv N (Sf (prm F)) (Lf (catl l))) (fun _ => a0) (mv N (Sf (prm F)) (Lf (catl l))))
        by (intros; try reflexivity; apply Lf_prm; lia).
      rewrite (dot_ext N (Lf (catl (mvl dflt bp l))) (mv N (Sf (catl (mvl dflt bp l))) (Lf (prm F))) (Lf (catl (mvl dflt bp l))) (fun _ => a0)).
      2:{ reflexivity. }
      2:{ intros k Hk. apply sm_zero. intros j Hj. rewrite Lf_prm by lia. apply amul_0r. }
      unfold dot. rewrite (sm_zero N (fun k => star a0 * _)) by (intros; rewrite star_0; apply amul_0l).
      rewrite (sm_zero N (fun k => _ * a0)) by (intros; apply amul_0r).
      rewrite imp_selfadj by apply star_0. set (p := asum _ _). ncr.
  Qed.
End F.
