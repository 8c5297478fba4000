(** Soundness of feedback and inversion; one unfolding; the whole simplifier. *)
From Verif Require Import Prelude ListFacts PermModel PermSpec PermProofs1 PermProofs3 PermProofs4 CircModel CircSpec CircProofs1 CircProofs2 BinModel BinSpec BinProofs CSimpModel CSimpSpec CSimpProofs1 CSimpProofs2 CSimpProofs3 CSimpProofs4 CSimpProofs5.

Lemma mapM_app_inv {A B} (f : A -> res B) l1 l2 r : mapM f (l1 ++ l2) = Ok r ->
  exists r1 r2, mapM f l1 = Ok r1 /\ mapM f l2 = Ok r2 /\ r = r1 ++ r2.
Proof.
  revert r. induction l1 as [|x l1 IH]; intros r H; cbn [app mapM] in H.
  - exists [], r. now split.
  - step H y Ey. step H ys Eys. injection H as <-. destruct (IH _ eq_refl) as (r1 & r2 & E1 & E2 & ->).
    exists (y :: r1), r2. cbn [mapM]. rewrite Ey, E1. now split.
Qed.

Section Sem.
  Context (M : cmodel) {X : Type} (lit : lits X) (sym : nat -> nat -> dom M) (lden : X -> dom M).
  Local Notation ok := (mok M). Local Notation ser := (mser M). Local Notation cat := (mcat M).
  Local Notation inv := (minv M). Local Notation prm := (mprm M). Local Notation fb := (mfb M).
  Local Notation idn := (idn M). Local Notation cat3 := (cat3 M).
  Local Notation mports := (mports M). Local Notation loop := (loop M).
  Local Notation mean := (mean M sym lden). Local Notation smean := (smean M sym lden). Local Notation cmean := (cmean M sym lden).
  Local Notation circ := (circ X).
  Implicit Types (a b d : dom M) (n m : nat) (c : circ).
  Context (HL : lits_sound M lit lden).
  Context (K : creators X) (HK : sound M sym lden K).

  Lemma k_concat3 c1 c2 c3 n1 n2 n3 x y z N t r : mean c1 n1 x -> mean c2 n2 y -> mean c3 n3 z -> N = n1 + (n2 + n3) ->
    k_concat K [c1; c2] = Ok t -> k_concat K [t; c3] = Ok r -> mean r N (cat3 n1 n2 n3 x y z).
  Proof.
    intros H1 H2 H3 -> E1 E2. pose proof (k_concat2 M sym lden K HK _ _ _ _ _ _ _ H1 H2 E1) as Mt.
    pose proof (k_concat2 M sym lden K HK _ _ _ _ _ _ _ Mt H3 E2) as Mr.
    rewrite cat_assoc in Mr by (eapply mean_ok; eassumption). now rewrite <- Nat.add_assoc in Mr.
  Qed.

  Lemma cmean_split k l n a : cmean l n a -> exists x y, let n1 := block_start (map cdim l) k in
    n1 <= n /\ cmean (firstn k l) n1 x /\ cmean (skipn k l) (n - n1) y /\ a = cat n1 (n - n1) x y.
  Proof.
    intros H. rewrite <- (firstn_skipn k l) in H. apply cmean_app_inv in H. destruct H as (n1 & n2 & x & y & -> & H1 & H2 & ->).
    assert (block_start (map cdim l) k = n1) as E.
    { unfold block_start. rewrite firstn_map. eapply cmean_cdim. exact H1. }
    exists x, y. cbn zeta. rewrite E. replace (n1 + n2 - n1) with n2 by lia. split; [lia|]. now repeat split.
  Qed.
  Lemma cmean_at k l n a o : cmean l n a -> nth_error l k = Some o -> exists B Y A, let nb := block_start (map cdim l) k in
    exists nx na, n = nb + (nx + na) /\ nx = nth k (map cdim l) 0 /\ cmean (firstn k l) nb B /\ mean o nx Y /\ cmean (skipn (k + 1) l) na A /\
      a = cat3 nb nx na B Y A.
  Proof.
    intros H Ho. destruct (cmean_split k l n a H) as (B & y & Hle & H1 & H2 & ->). cbn zeta in *.
    set (nb := block_start (map cdim l) k) in *.
    assert (skipn k l = o :: skipn (k + 1) l) as Es.
    { clear - Ho. revert k Ho. induction l as [|x l IH]; intros [|k] Ho; try discriminate; cbn in *; [now injection Ho as <-|]. now apply IH. }
    rewrite Es in H2. remember (n - nb) as q eqn:Eq. inversion H2 as [|? ? nx na Y A Hm Hc E1 E2 E3]; subst c l0. exists B, Y, A, nx, na.
    split; [lia|]. split.
    { rewrite (nth_map_lt _ _ _ 0 CZero) by (apply nth_error_Some; congruence). rewrite (nth_error_nth _ _ _ Ho).
      symmetry. eapply mean_cdim. exact Hm. }
    split; [exact H1|]. split; [exact Hm|]. split; [exact Hc|]. reflexivity.
  Qed.

  Lemma concat_feedback_ok ops n a o i b r : mean (CConcat ops) (S n) a -> o <= n -> i <= n -> loop n a o i b ->
    concat_feedback K ops o i = Ok r -> mean r n b.
  Proof.
    intros Hm Ho Hi Hl H. unfold concat_feedback in H. cbv zeta in H.
    rewrite (mean_cdim _ _ _ _ _ _ Hm) in H. replace (S n - 1) with n in H by lia.
    destruct ((o =? n) && (i =? n)) eqn:Eoi.
    - apply andb_prop in Eoi as [E1 E2]. apply Nat.eqb_eq in E1, E2. subst o i.
      destruct (split_last ops) as [[init last]|] eqn:Es; [|discriminate]. cbn [of_option bind] in H.
      apply split_last_app in Es. subst ops. inversion Hm as [| | | | | |? ? ? Hne Hc Hp| |]; subst.
      apply Forall_app in Hp. destruct Hp as [Hp1 Hp2]. apply Forall_inv in Hp2.
      apply cmean_app_inv in Hc. destruct Hc as (n1 & n2 & x & y & En & H1 & H2 & ->). apply cmean_1_inv in H2.
      rewrite (mean_cdim _ _ _ _ _ _ H2) in *. destruct n2 as [|k]; [lia|]. assert (n = n1 + k) as -> by lia.
      replace (S k - 1) with k in H by lia. step H f Ef.
      apply loop_last in Hl; [|eapply cmean_ok; exact H1|eapply mean_ok; exact H2]. destruct Hl as (y' & Hl & ->).
      pose proof (s_mfb _ _ _ K HK _ _ _ _ _ _ _ H2 (le_n k) (le_n k) Hl Ef) as Mf.
      eapply (s_concat _ _ _ K HK); [|exact H]. apply cmean_app; [exact H1|now apply cmean_1].
    - clear Eoi. destruct (block_structure_ok M sym lden _ _ _ Hm ltac:(lia)) as (bs & Ebs & Sbs & Pbs). rewrite Ebs in H. cbn [bind] in H.
      destruct (index_in_block_ok bs (S n) i Pbs Sbs ltac:(lia)) as (ii & ib & Ei & Lib & Lii & Si). rewrite Ei in H. cbn [bind] in H.
      destruct (index_in_block_ok bs (S n) o Pbs Sbs ltac:(lia)) as (oi & ob & Eo & Lob & Loi & So). rewrite Eo in H. cbn [bind] in H.
      step H blocks Ebl. destruct (own_blocks_ok M sym lden K HK _ _ _ _ Hm ltac:(lia) Ebl) as (Hc & Hp & Hd). specialize (Hd bs Ebs).
      destruct (Nat.eqb_spec ib ob) as [E|Hne].
      + subst ib. step H bef Ebef. destruct (nth_error blocks ob) as [blk|] eqn:Eblk; [|discriminate]. cbn [of_option bind] in H.
        step H f Ef. step H l El. step H aft Eaft.
        destruct (cmean_at ob blocks _ _ blk Hc Eblk) as (B & Y & A & nx & na & En & Enx & HB & HY & HA & ->).
        rewrite Hd in *. destruct nx as [|k]; [lia|]. rewrite <- Enx in *.
        set (nb := block_start bs ob) in *. assert (n = nb + (k + na)) as Enn by lia. rewrite Enn in Hl |- *. rewrite <- So, <- Si in Hl.
        apply loop_same in Hl; try lia; try (eapply cmean_ok; eassumption); try (eapply mean_ok; eassumption).
        destruct Hl as (y' & Hl & ->).
        pose proof (s_mfb _ _ _ K HK blk k Y oi ii y' f HY ltac:(lia) ltac:(lia) Hl Ef) as Mf.
        pose proof (s_concat _ _ _ K HK _ _ _ _ HB Ebef) as Mb. pose proof (s_concat _ _ _ K HK _ _ _ _ HA Eaft) as Ma.
        eapply k_concat3; try eassumption. reflexivity.
      + assert (forall k, k < length bs -> 0 < k -> forall b1 b2 : circ, k_concat K (firstn k blocks) = Ok b1 -> k_concat K (skipn k blocks) = Ok b2 ->
                  exists x y, let k1 := block_start bs k in let k2 := S n - k1 in
                   0 < k1 /\ 0 < k2 /\ S n = k1 + k2 /\ mean b1 k1 x /\ mean b2 k2 y /\ a = cat k1 k2 x y) as Hsplit.
        { intros k Hk Hk0 b1 b2 E1 E2. destruct (cmean_split k blocks _ _ Hc) as (x & y & Hle & G1 & G2 & ->). rewrite Hd in *.
          exists x, y. cbn zeta.
          pose proof (block_start_lt bs 0 k Hk0 ltac:(lia) Pbs) as Q1. rewrite block_start_0 in Q1.
          pose proof (block_start_lt bs k (length bs) Hk ltac:(lia) Pbs) as Q2. rewrite block_start_all in Q2.
          split; [exact Q1|]. split; [lia|]. split; [lia|].
          split; [eapply (s_concat _ _ _ K HK); [exact G1|exact E1]|]. split; [eapply (s_concat _ _ _ K HK); [exact G2|exact E2]|]. reflexivity. }
        destruct (Nat.ltb_spec ib ob) as [G|G].
        * step H b1 E1. step H b2 E2. step H l El. step H m Em. step H lm Elm. step H q Eqq.
          destruct (Hsplit ob Lob ltac:(lia) b1 b2 E1 E2) as (x & y & P1 & P2 & Ek & M1 & M2 & ->).
          set (k1 := block_start bs ob) in *. set (k2 := S n - k1) in *.
          rewrite (mean_cdim _ _ _ _ _ _ M2) in El. rewrite (mean_cdim _ _ _ _ _ _ M1) in Eqq.
          assert (i < k1) as Hi1.
          { unfold k1. rewrite <- Si. pose proof (block_start_mono bs (S ib) ob ltac:(lia) ltac:(lia)) as Q.
            rewrite block_start_S in Q by exact Lib. lia. }
          assert (k1 <= o) as Ho1 by lia.
          destruct (loop_eff M n k1 k2 x y o i b Ek) as [L1 _]; try assumption; try (eapply mean_ok; eassumption).
          rewrite (L1 Hi1 Ho1 Ho) in *. clear L1.
          rewrite (mc1_ok (o - 1) i n (fb_perm (seq 0 (S n)) o i)) in Em; [|lia|lia|apply fb_identity_lt; lia]. injection Em as <-.
          assert (mean (pc (fb_perm (seq 0 (S n)) o i)) n (prm (fb_perm (seq 0 (S n)) o i))) as Mm.
          { apply mean_pc; [apply fb_perm_perm; [apply is_perm_seq|rewrite seq_length; lia|rewrite seq_length; lia]|].
            unfold fb_perm. rewrite map_length, !seq_length. lia. }
          pose proof (k_concat2 M sym lden K HK _ _ _ _ _ _ _ M1 (mean_cid M sym lden (k2 - 1)) El) as Ml.
          pose proof (k_concat2 M sym lden K HK _ _ _ _ _ _ _ (mean_cid M sym lden (k1 - 1)) M2 Eqq) as Mq.
          replace (k1 + (k2 - 1)) with n in Ml by lia. replace (k1 - 1 + k2) with n in Mq by lia.
          pose proof (k_series2 M sym lden K HK _ _ _ _ _ _ Ml Mm Elm) as Mlm.
          exact (k_series2 M sym lden K HK _ _ _ _ _ _ Mlm Mq H).
        * step H b1 E1. step H b2 E2. step H l El. step H m Em. step H lm Elm. step H q Eqq.
          destruct (Hsplit ib Lib ltac:(lia) b1 b2 E1 E2) as (x & y & P1 & P2 & Ek & M1 & M2 & ->).
          set (k1 := block_start bs ib) in *. set (k2 := S n - k1) in *.
          rewrite (mean_cdim _ _ _ _ _ _ M1) in El. rewrite (mean_cdim _ _ _ _ _ _ M2) in Eqq.
          assert (o < k1) as Ho1.
          { unfold k1. rewrite <- So. pose proof (block_start_mono bs (S ob) ib ltac:(lia) ltac:(lia)) as Q.
            rewrite block_start_S in Q by exact Lob. lia. }
          assert (k1 <= i) as Hi1 by lia.
          destruct (loop_eff M n k1 k2 x y o i b Ek) as [_ L1]; try assumption; try (eapply mean_ok; eassumption).
          rewrite (L1 Ho1 Hi1 Hi) in *. clear L1.
          rewrite (mc1_ok o (i - 1) n (fb_perm (seq 0 (S n)) o i)) in Em; [|lia|lia|apply fb_identity_gt; lia]. injection Em as <-.
          assert (mean (pc (fb_perm (seq 0 (S n)) o i)) n (prm (fb_perm (seq 0 (S n)) o i))) as Mm.
          { apply mean_pc; [apply fb_perm_perm; [apply is_perm_seq|rewrite seq_length; lia|rewrite seq_length; lia]|].
            unfold fb_perm. rewrite map_length, !seq_length. lia. }
          pose proof (k_concat2 M sym lden K HK _ _ _ _ _ _ _ (mean_cid M sym lden (k1 - 1)) M2 El) as Ml.
          pose proof (k_concat2 M sym lden K HK _ _ _ _ _ _ _ M1 (mean_cid M sym lden (k2 - 1)) Eqq) as Mq.
          replace (k1 + (k2 - 1)) with n in Mq by lia. replace (k1 - 1 + k2) with n in Ml by lia.
          pose proof (k_series2 M sym lden K HK _ _ _ _ _ _ Ml Mm Elm) as Mlm.
          exact (k_series2 M sym lden K HK _ _ _ _ _ _ Mlm Mq H).
  Qed.

  Lemma fb_impl_ok c n a o i b r : mean c (S n) a -> o <= n -> i <= n -> loop n a o i b -> fb_impl lit K c o i = Some (Ok r) -> mean r n b.
  Proof.
    intros Hm Ho Hi Hl H. destruct c; try discriminate; cbn [fb_impl] in H; injection H as H.
    - destruct (Nat.leb_spec n0 1) as [|Hn]; [discriminate|]. step H x Ex. injection H as <-.
      inversion Hm; subst. apply (l_fb M lit lden HL n _ _ o i b) in Ex; try assumption; [|lia]. destruct Ex as [D E].
      unfold slh_of. rewrite D, <- E. apply mean_slh; [lia|]. rewrite E. eapply ok_loop; [|exact Ho|exact Hi|exact Hl]. assumption.
    - inversion Hm; subst. rewrite cperm_feedback_ok in H by (try assumption; lia). injection H as <-.
      apply loop_prm in Hl; try assumption; try congruence; try lia. subst b. apply mean_pc; [apply fb_perm_perm; try assumption; lia|].
      unfold fb_perm. rewrite map_length, seq_length. lia.
    - exact (concat_feedback_ok operands n a o i b r Hm Ho Hi Hl H).
  Qed.
  Lemma method_feedback_ok c n a o i b r : mean c (S n) a -> o <= n -> i <= n -> loop n a o i b ->
    method_feedback lit K c o i = Ok r -> mean r n b.
  Proof.
    intros Hm Ho Hi Hl H. unfold method_feedback in H. destruct (fb_impl lit K c o i) as [x|] eqn:E.
    - subst x. exact (fb_impl_ok c n a o i b r Hm Ho Hi Hl E).
    - exact (s_fb _ _ _ K HK _ _ _ _ _ _ _ Hm Ho Hi Hl H).
  Qed.

  (** *** inversion *)
  Lemma series_inverse_ok l : forall n a fs, 0 < n -> smean l n a -> mapM (k_minv K) (rev l) = Ok fs -> smean fs n (inv n a).
  Proof.
    induction l as [|c l IH]; intros n a fs Hn H Hf.
    - injection Hf as <-. inversion H; subst. fold (idn n). rewrite inv_idn. constructor.
    - inversion H as [|? ? ? x y Hc Hl]; subst. cbn [rev] in Hf. apply mapM_app_inv in Hf. destruct Hf as (r1 & r2 & E1 & E2 & ->).
      cbn [mapM] in E2. step E2 z Ez. injection E2 as <-.
      rewrite inv_ser by (first [eapply mean_ok; eassumption|eapply smean_ok; eassumption]).
      apply smean_app; [now apply IH|]. apply smean_1. eapply (s_minv _ _ _ K HK); eassumption.
  Qed.
  Lemma concat_inverse_ok l : forall n a fs, cmean l n a -> pos_ops l -> mapM (k_minv K) l = Ok fs -> cmean fs n (inv n a).
  Proof.
    induction l as [|c l IH]; intros n a fs H Hp Hf.
    - injection Hf as <-. inversion H; subst. pose proof (inv_idn M 0) as E. unfold CSimpProofs1.idn in E. cbn [seq] in E. rewrite E. constructor.
    - inversion H as [|? ? n1 n2 x y Hc Hl]; subst. cbn [mapM] in Hf. step Hf z Ez. step Hf zs Ezs. injection Hf as <-.
      rewrite inv_cat by (first [eapply mean_ok; eassumption|eapply cmean_ok; eassumption]).
      pose proof (Forall_inv Hp) as P1. cbn beta in P1. rewrite (mean_cdim _ _ _ _ _ _ Hc) in P1.
      constructor; [eapply (s_minv _ _ _ K HK); eassumption|]. apply IH; [exact Hl|exact (Forall_inv_tail Hp)|reflexivity].
  Qed.
  Lemma method_inverse_ok c n a r : mean c n a -> 0 < n -> method_inverse lit K c = Ok r -> mean r n (inv n a).
  Proof.
    intros Hm Hn H. destruct c; cbn [method_inverse] in H; try (eapply (s_inv _ _ _ K HK); eassumption).
    - step H x Ex. injection H as <-. inversion Hm; subst. apply (l_inv M lit lden HL n) in Ex; try assumption. destruct Ex as [D E].
      unfold slh_of. rewrite D, <- E. apply mean_slh; [exact Hn|]. rewrite E. now apply ok_inv.
    - inversion Hm; subst. unfold cperm_series_inverse in H. rewrite invert_ok in H by assumption. cbn [bind] in H. injection H as <-.
      rewrite (inv_prm M) by (try assumption; reflexivity). apply mean_perm'; [now apply inv_of_perm|apply inv_of_length|exact Hn].
    - injection H as <-. inversion Hm; subst. pose proof (inv_idn M 1) as E. unfold CSimpProofs1.idn in E. cbn [seq] in E. rewrite E. constructor.
    - step H fs Ef. inversion Hm; subst. eapply (s_series _ _ _ K HK); [| |exact H].
      + intros ->. apply mapM_ok_inv in Ef. destruct Ef as [E _]. rewrite rev_length in E. destruct operands; [easy|discriminate].
      + eapply series_inverse_ok; eassumption.
    - step H fs Ef. inversion Hm; subst. eapply (s_concat _ _ _ K HK); [|exact H]. eapply concat_inverse_ok; eassumption.
    - step H di Ed. inversion Hm as [| | | | | | |? ? x ? ? ? Hd Hk Ho Hi Hl|]; subst.
      pose proof (s_minv _ _ _ K HK _ _ _ _ Hd (Nat.lt_0_succ n) Ed) as Mi.
      apply loop_inv in Hl; [|eapply mean_ok; exact Hd|exact Ho|exact Hi].
      eapply (s_fb _ _ _ K HK); [exact Mi|exact Hi|exact Ho|exact Hl|exact H].
  Qed.
  Lemma create_inv_ok c n a r : mean c n a -> 0 < n -> create_inv lit K c = Ok r -> mean r n (inv n a).
  Proof.
    intros Hm Hn H. destruct c; cbn [create_inv] in H; try (eapply method_inverse_ok; eassumption).
    - injection H as <-. apply mean_sinv; [exact Hm|exact Hn|exact I].
    - inversion Hm; subst. lia.
    - injection H as <-. inversion Hm; subst. rewrite inv_inv by (eapply mean_ok; eassumption). assumption.
  Qed.

  (** *** Feedback rules *)
  Lemma split_blocks_ok c n a port nb nx na B Y A : mean c n a -> 0 < n -> port < n ->
    split_blocks K c port = Ok (nb, nx, na, B, Y, A) ->
    exists x y z, mean B nb x /\ mean Y nx y /\ mean A na z /\ a = cat3 nb nx na x y z /\ n = nb + (nx + na) /\ nb <= port < nb + nx.
  Proof.
    intros Hm Hn Hp H. unfold split_blocks in H. destruct (block_structure_ok M sym lden _ _ _ Hm Hn) as (bs & Ebs & Sbs & Pbs).
    rewrite Ebs in H. cbn [bind] in H. rewrite (mean_cdim _ _ _ _ _ _ Hm) in H.
    destruct (index_in_block_ok bs n port Pbs Sbs Hp) as (ii & ib & Ei & Lib & Lii & Si). rewrite Ei in H. cbn [bind] in H.
    rewrite (nth_error_nth_lt bs ib 0 Lib) in H. cbn [of_option bind] in H. cbv zeta in H.
    fold (block_start bs ib) in H.
    assert (block_start bs ib + (nth ib bs 0 + sum (skipn (ib + 1) bs)) = n) as En.
    { rewrite Nat.add_assoc, <- block_start_S by exact Lib. rewrite <- Sbs. replace (ib + 1) with (S ib) by lia.
      unfold block_start. rewrite <- sum_app. now rewrite firstn_skipn. }
    step H bl Ebl. apply (get_blocks_ok M sym lden K HK c _ n a) in Ebl; try assumption.
    2: { rewrite !sum_cons. cbn. rewrite Nat.add_0_r. exact En. }
    destruct Ebl as [Hc Hd]. destruct bl as [|u [|v [|w [|? ?]]]]; try discriminate. injection H as <- <- <- <- <- <-.
    inversion Hc as [|? ? n1 n23 x yz Hu Hc']; subst. inversion Hc' as [|? ? n2 n3' y z Hv Hc'']; subst. apply cmean_1_inv in Hc''.
    injection Hd as D1 D2 D3. rewrite (mean_cdim _ _ _ _ _ _ Hu) in D1. rewrite (mean_cdim _ _ _ _ _ _ Hv) in D2. rewrite (mean_cdim _ _ _ _ _ _ Hc'') in D3.
    subst n1 n2 n3'. exists x, y, z. repeat (split; [first [assumption|reflexivity|lia]|]). lia.
  Qed.

  Lemma series_head c l n a : mean (CSeries (c :: l)) n a -> exists x y, mean c n x /\ smean l n y /\ a = ser n x y.
  Proof. inversion 1 as [| | | | |? ? ? _ _ Hs| | |]; subst. inversion Hs as [|? ? ? x y H1 H2]; subst. now exists x, y. Qed.
  Lemma series_last c l n a : mean (CSeries (l ++ [c])) n a -> exists x y, smean l n x /\ mean c n y /\ a = ser n x y.
  Proof.
    inversion 1 as [| | | | |? ? ? _ _ Hs| | |]; subst. apply smean_app_inv in Hs. destruct Hs as (x & y & H1 & H2 & ->).
    apply smean_1_inv in H2. now exists x, y.
  Qed.

  Lemma pull_lhs_ok lhs rest n x y o i b r : 0 < n -> mean lhs (S n) x -> rest <> [] -> smean rest (S n) y -> o <= n -> i <= n ->
    loop n (ser (S n) x y) o i b -> pull_out_unaffected_blocks_lhs lit K lhs rest o i = Ok r -> mean r n b.
  Proof.
    intros Hn Hx Hne Hy Ho Hi Hl H. unfold pull_out_unaffected_blocks_lhs in H.
    destruct (split_blocks K lhs o) as [[[[[[nb nx] na] B] Y] A]|] eqn:Es; [|discriminate]. cbn [bind] in H.
    apply (split_blocks_ok lhs (S n) x) in Es; try assumption; try lia.
    destruct Es as (u & v & w & MB & MY & MA & -> & En & Hob).
    pose proof (mean_ok _ _ _ _ _ _ MB) as OB. pose proof (mean_ok _ _ _ _ _ _ MY) as OY. pose proof (mean_ok _ _ _ _ _ _ MA) as OA.
    pose proof (smean_ok _ _ _ _ _ _ Hy) as Oy.
    apply loop_blk_l in Hl; try assumption; try lia. destruct Hl as (b' & Hl & ->).
    destruct (negb (is_cid lit nb B) || negb (is_cid lit na A)) eqn:Ec.
    - step H t Et. step H ol Eol. step H u' Eu. step H il Eil. step H s Es. step H f Ef.
      pose proof (k_concat3 _ _ _ _ _ _ _ _ _ n _ _ MB (mean_cid M sym lden (nx - 1)) MA ltac:(lia) Et Eol) as Mol.
      pose proof (k_concat3 _ _ _ _ _ _ _ _ _ (S n) _ _ (mean_cid M sym lden nb) MY (mean_cid M sym lden na) ltac:(lia) Eu Eil) as Mil.
      assert (mean s (S n) (ser (S n) (cat3 nb nx na (idn nb) v (idn na)) y)) as Ms.
      { eapply (s_series _ _ _ K HK); [| |exact Es]; [discriminate|]. now constructor. }
      pose proof (s_fb _ _ _ K HK _ _ _ _ _ _ _ Ms Ho Hi Hl Ef) as Mf.
      eapply k_series2; eassumption.
    - destruct (is_cid lit nx Y) eqn:Ex; [|discriminate]. step H t Et. step H ol Eol. step H s Es. step H f Ef.
      pose proof (k_concat3 _ _ _ _ _ _ _ _ _ n _ _ MB (mean_cid M sym lden (nx - 1)) MA ltac:(lia) Et Eol) as Mol.
      apply is_cid_eq in Ex. subst Y. apply mean_cid_inv in MY. destruct MY as [_ ->].
      rewrite (cat3_id M nb nx na (S n)), idn_l in Hl by (try assumption; lia).
      pose proof (s_series _ _ _ K HK _ _ _ _ Hne Hy Es) as Ms.
      pose proof (s_fb _ _ _ K HK _ _ _ _ _ _ _ Ms Ho Hi Hl Ef) as Mf.
      eapply k_series2; eassumption.
  Qed.
  Lemma pull_rhs_ok rhs rest n x y o i b r : 0 < n -> mean rhs (S n) x -> rest <> [] -> smean rest (S n) y -> o <= n -> i <= n ->
    loop n (ser (S n) y x) o i b -> pull_out_unaffected_blocks_rhs lit K rest rhs o i = Ok r -> mean r n b.
  Proof.
    intros Hn Hx Hne Hy Ho Hi Hl H. unfold pull_out_unaffected_blocks_rhs in H.
    destruct (split_blocks K rhs i) as [[[[[[nb nx] na] B] Y] A]|] eqn:Es; [|discriminate]. cbn [bind] in H.
    apply (split_blocks_ok rhs (S n) x) in Es; try assumption; try lia.
    destruct Es as (u & v & w & MB & MY & MA & -> & En & Hob).
    pose proof (mean_ok _ _ _ _ _ _ MB) as OB. pose proof (mean_ok _ _ _ _ _ _ MY) as OY. pose proof (mean_ok _ _ _ _ _ _ MA) as OA.
    pose proof (smean_ok _ _ _ _ _ _ Hy) as Oy.
    apply loop_blk_r in Hl; try assumption; try lia. destruct Hl as (b' & Hl & ->).
    destruct (negb (is_cid lit nb B) || negb (is_cid lit na A)) eqn:Ec.
    - step H t Et. step H ol Eol. step H u' Eu. step H il Eil. step H s Es. step H f Ef.
      pose proof (k_concat3 _ _ _ _ _ _ _ _ _ n _ _ MB (mean_cid M sym lden (nx - 1)) MA ltac:(lia) Et Eol) as Mol.
      pose proof (k_concat3 _ _ _ _ _ _ _ _ _ (S n) _ _ (mean_cid M sym lden nb) MY (mean_cid M sym lden na) ltac:(lia) Eu Eil) as Mil.
      assert (mean s (S n) (ser (S n) y (cat3 nb nx na (idn nb) v (idn na)))) as Ms.
      { eapply (s_series _ _ _ K HK); [| |exact Es]; [destruct rest; discriminate|]. apply smean_app; [exact Hy|now apply smean_1]. }
      pose proof (s_fb _ _ _ K HK _ _ _ _ _ _ _ Ms Ho Hi Hl Ef) as Mf.
      eapply k_series2; eassumption.
    - destruct (is_cid lit nx Y) eqn:Ex; [|discriminate]. step H t Et. step H ol Eol. step H s Es. step H f Ef.
      pose proof (k_concat3 _ _ _ _ _ _ _ _ _ n _ _ MB (mean_cid M sym lden (nx - 1)) MA ltac:(lia) Et Eol) as Mol.
      apply is_cid_eq in Ex. subst Y. apply mean_cid_inv in MY. destruct MY as [_ ->].
      rewrite (cat3_id M nb nx na (S n)), idn_r in Hl by (try assumption; lia).
      pose proof (s_series _ _ _ K HK _ _ _ _ Hne Hy Es) as Ms.
      pose proof (s_fb _ _ _ K HK _ _ _ _ _ _ _ Ms Ho Hi Hl Ef) as Mf.
      eapply k_series2; eassumption.
  Qed.

  Lemma fb_rules_sound rule c n a o i b r : In rule (fb_rules lit K) -> 0 < n -> mean c (S n) a -> o <= n -> i <= n -> loop n a o i b ->
    rule c o i = Replaces (Some r) -> mean r n b.
  Proof.
    intros Hin Hn Hm Ho Hi Hl H. cbn [fb_rules In] in Hin. destruct Hin as [<-|[<-|[<-|[<-|[<-|[]]]]]]; destruct c; try discriminate.
    - apply lift_ok in H. unfold series_feedback in H. step H x Ex. step H y Ey. destruct (ceqb lit y (CSeries operands)); [discriminate|].
      pose proof (s_minv _ _ _ K HK _ _ _ _ Hm (Nat.lt_0_succ n) Ex) as M1.
      pose proof (s_minv _ _ _ K HK _ _ _ _ M1 (Nat.lt_0_succ n) Ey) as M2.
      rewrite inv_inv in M2 by (eapply mean_ok; exact Hm). exact (s_mfb _ _ _ K HK _ _ _ _ _ _ _ M2 Ho Hi Hl H).
    - destruct operands as [|c0 [|c1 rest]]; try discriminate; [destruct c0; discriminate|]. destruct c0 as [| |p| | | | | |]; try discriminate. apply lift_ok in H.
      apply series_head in Hm. destruct Hm as (x & y & Hx & Hy & ->). inversion Hx; subst. rename H2 into Ex.
      unfold pull_out_perm_lhs in H. rewrite factor_lhs_ok in H by (try assumption; lia). cbn [bind] in H.
      step H s Es. step H f Ef.
      apply loop_perm_l in Hl; try assumption; [|eapply smean_ok; exact Hy]. destruct Hl as (L1 & L2 & L3 & b' & Hl & ->).
      pose proof (s_series _ _ _ K HK (c1 :: rest) _ _ _ ltac:(discriminate) Hy Es) as Ms.
      pose proof (s_fb _ _ _ K HK _ _ _ _ _ _ _ Ms L1 Hi Hl Ef) as Mf.
      eapply (k_series2 M sym lden K HK); [apply mean_pc; eassumption|exact Mf|exact H].
    - destruct operands as [|c0 [|c1 rest]]; try discriminate; [destruct c0; discriminate|]. destruct c0 as [| | | | | |ops| |]; try discriminate. apply lift_ok in H.
      apply series_head in Hm. destruct Hm as (x & y & Hx & Hy & ->).
      eapply (pull_lhs_ok (CConcat ops) (c1 :: rest) n x y o i); try assumption. discriminate.
    - destruct (split_last operands) as [[[|c1 rest] z]|] eqn:Es; try discriminate. destruct z as [| |p| | | | | |]; try discriminate. apply lift_ok in H.
      apply split_last_app in Es. subst operands. apply series_last in Hm. destruct Hm as (x & y & Hx & Hy & ->). inversion Hy; subst.
      unfold pull_out_perm_rhs in H. rewrite factor_rhs_ok in H by (try assumption; lia). cbn [bind] in H.
      step H s Es. step H f Ef.
      apply loop_perm_r in Hl; try assumption; [|eapply smean_ok; exact Hx]. destruct Hl as (L1 & L2 & L3 & b' & Hl & ->).
      pose proof (s_series _ _ _ K HK (c1 :: rest) _ _ _ ltac:(discriminate) Hx Es) as Ms.
      pose proof (s_fb _ _ _ K HK _ _ _ _ _ _ _ Ms Ho L1 Hl Ef) as Mf.
      eapply (k_series2 M sym lden K HK); [exact Mf|apply mean_pc; eassumption|exact H].
    - destruct (split_last operands) as [[[|c1 rest] z]|] eqn:Es; try discriminate. destruct z as [| | | | | |ops| |]; try discriminate. apply lift_ok in H.
      apply split_last_app in Es. subst operands. apply series_last in Hm. destruct Hm as (x & y & Hx & Hy & ->).
      eapply (pull_rhs_ok (CConcat ops) (c1 :: rest) n y x o i); try assumption. discriminate.
  Qed.
  Lemma create_fb_ok c n a o i b r : mean c (S n) a -> o <= n -> i <= n -> loop n a o i b -> create_fb lit K c o i = Ok r -> mean r n b.
  Proof.
    intros Hm Ho Hi Hl H. unfold create_fb in H. rewrite (mean_cdim _ _ _ _ _ _ Hm) in H.
    destruct (Nat.leb_spec (S n) 1) as [|Hn]; [discriminate|].
    destruct (fb_impl lit K c o i) as [x|] eqn:E.
    - subst x. exact (fb_impl_ok c n a o i b r Hm Ho Hi Hl E).
    - assert (forall rules, incl rules (fb_rules lit K) -> match_replace_fb rules c o i = Ok r -> mean r n b) as G.
      { induction rules as [|rule rules IH]; intros Hin Hr; cbn [match_replace_fb] in Hr.
        - injection Hr as <-. apply (mean_fb M sym lden c n a o i b Hm); try assumption. lia.
        - assert (incl rules (fb_rules lit K)) as Hin' by (intros q Hq; apply Hin; now right).
          destruct (rule c o i) as [| |[z|]|e] eqn:Er; try (now apply IH). injection Hr as <-.
          eapply (fb_rules_sound rule c n a o i b z); try assumption; [apply Hin; now left|lia]. }
      apply (G (fb_rules lit K)); [apply incl_refl|exact H].
  Qed.

  Lemma step_sound fuel : sound M sym lden (step lit fuel K).
  Proof.
    constructor; cbn [step k_series k_concat k_fb k_inv k_minv k_mfb].
    - intros l n a r. apply (create_series_ok M lit sym lden HL K HK).
    - intros l n a r. apply (create_concat_ok M lit sym lden HL K HK).
    - exact create_fb_ok.
    - exact create_inv_ok.
    - exact method_inverse_ok.
    - exact method_feedback_ok.
  Qed.
End Sem.

Section Simp.
  Context (M : cmodel) {X : Type} (lit : lits X) (sym : nat -> nat -> dom M) (lden : X -> dom M).
  Context (HL : lits_sound M lit lden).
  Lemma simp_sound fuel : sound M sym lden (simp lit fuel).
  Proof.
    induction fuel as [|f IH]; cbn [simp].
    - constructor; cbn; intros; discriminate.
    - now apply step_sound.
  Qed.
  Lemma creduce_ok fuel c : forall n a r, mean M sym lden c n a -> creduce lit fuel c = Ok r -> mean M sym lden r n a.
  Proof.
    pose proof (simp_sound fuel) as HK.
    induction c using circ_ind'; intros k a r Hm Hr; cbn [creduce] in Hr; try (injection Hr as <-; exact Hm).
    - step Hr l El. inversion Hm as [| | | | |? ? ? Hne Hk Hs| | |]; subst ops0 n a0.
      set (go := fix go (l : list (circ X)) : res (list (circ X)) :=
        match l with [] => Ok [] | o :: l' => do b <- creduce lit fuel o; do r <- go l'; Ok (b :: r) end) in El.
      assert (smean M sym lden l k a /\ length l = length ops) as [G1 G2].
      { clear - H Hs El. revert l a Hs El. induction H as [|o ops Ho Hl IH]; intros l a Hs El.
        - injection El as <-. now split.
        - inversion Hs as [|? ? ? x y Hc Hs']; subst. cbn in El. fold go in El. step El u Eu. step El v Ev. injection El as <-.
          destruct (IH _ _ Hs' eq_refl) as [I1 I2]. split; [|cbn; now f_equal]. constructor; [|exact I1]. now apply Ho. }
      eapply (s_series _ _ _ _ HK); [| |exact Hr]; [|exact G1]. intros ->. destruct ops; [easy|discriminate].
    - step Hr l El. inversion Hm as [| | | | | |? ? ? Hne Hs _| |]; subst ops0 n a0.
      set (go := fix go (l : list (circ X)) : res (list (circ X)) :=
        match l with [] => Ok [] | o :: l' => do b <- creduce lit fuel o; do r <- go l'; Ok (b :: r) end) in El.
      eapply (s_concat _ _ _ _ HK); [|exact Hr].
      clear - H Hs El. revert k l a Hs El. induction H as [|o ops Ho Hl IH]; intros k l a Hs El.
      + injection El as <-. exact Hs.
      + inversion Hs as [|? ? ? ? x y Hc Hs']; subst. cbn in El. fold go in El. step El u Eu. step El v Ev. injection El as <-.
        constructor; [now apply Ho|now apply IH].
    - step Hr e Ee. inversion Hm as [| | | | | | |? ? x ? ? ? Hd Hk Ho Hi Hl|]; subst.
      eapply (s_mfb _ _ _ _ HK); [apply IHc; [exact Hd|reflexivity]|exact Ho|exact Hi|exact Hl|exact Hr].
    - step Hr e Ee. inversion Hm as [| | | | | | | |? ? x Hd Hk Hnf]; subst.
      eapply (s_minv _ _ _ _ HK); [apply IHc; [exact Hd|reflexivity]|exact Hk|exact Hr].
  Qed.
End Simp.
