From Verif Require Import Prelude ListFacts PermModel PermSpec CircModel CSimpModel CSimpSpec.
From Verif Require Import AlgSpec CAlg NcRing MatModel SlhModel MatSpec MatProofs SlhProofs1 SlhProofs2 SlhProofs3 SlhProofs4 SlhProofs5 SlhProofs6 SlhProofs7 SlhProofs8 CSimpSlh ToSlhModel ToSlhSpec ToSlhProofs LibModel LibSpec LibProofs.
Local Open Scope nat_scope.

Section P.
  Context {M : calgebra}.
  Notation A := (A M). Notation K := (K M). Notation slh := (slh M).
  Add Ring Kr : (kring M).
  Implicit Types (s : slh).
  Definition m2 (a b c d : K) (i j : nat) : K := match i, j with 0, 0 => a | 0, _ => b | _, 0 => c | _, _ => d end.
  Definition scat2 (a b c d : K) : slh := mkS 2 (fun i j => smul (m2 a b c d i j) a1) (fun _ => a0) a0.
  Definition scat1 (a : K) : slh := mkS 1 (fun _ _ => smul a a1) (fun _ => a0) a0.
  Lemma scatters_iff s a b c d : scatters s a b c d <-> s = scat2 a b c d.
  Proof.
    split.
    - intros (Hs & H00 & H01 & H10 & H11 & HL0 & HL1 & HH). apply (mkS_slh_eq _ _ 2); [exact Hs|apply mkS_system| | |exact HH].
      + intros [|[|i]] [|[|j]] Hi Hj; try lia; assumption.
      + intros [|[|i]] Hi; try lia; assumption.
    - intros ->. split; [apply mkS_system|]. repeat split.
  Qed.
  Lemma smul_prod (x y : K) : amul (smul x (a1 : A)) (smul y a1) = smul (kmul x y) a1.
  Proof. rewrite smul_amul_l, smul_amul_r, amul_1l. now rewrite smul_mul. Qed.
  Lemma sum2 (f : nat -> A) : bigsum 2 f = aadd (f 0) (f 1).
  Proof. rewrite !sm_S. change (bigsum 0 f) with (a0 : A). now rewrite aadd_0. Qed.
  Lemma ser_scat2 a b c d a' b' c' d' : ser 2 (scat2 a b c d) (scat2 a' b' c' d') =
    scat2 (kadd (kmul a a') (kmul b c')) (kadd (kmul a b') (kmul b d')) (kadd (kmul c a') (kmul d c')) (kadd (kmul c b') (kmul d d')).
  Proof.
    unfold ser, fseries. apply mkS_ext.
    - intros i j Hi Hj. unfold mm. rewrite sum2. unfold scat2. rewrite !Sf_mkS by lia. rewrite !smul_prod, <- smul_addl. f_equal.
      destruct i as [|[|i]], j as [|[|j]]; try lia; reflexivity.
    - intros i Hi. unfold mv. unfold scat2 at 3. rewrite Lf_mkS by exact Hi. rewrite aadd_0r. apply sm_zero. intros k Hk.
      unfold scat2. rewrite Lf_mkS by exact Hk. apply amul_0r.
    - unfold scat2 at 1 2. rewrite !sH_mkS, aadd_0. transitivity (aadd (a0:A) (imp a0)); [|].
      + f_equal. f_equal. unfold dot. apply sm_zero. intros k Hk. unfold scat2 at 1. rewrite Lf_mkS by exact Hk. rewrite star_0. apply amul_0l.
      + rewrite aadd_0. apply imp_selfadj, star_0.
  Qed.
  Lemma cat_scat1 a b : cat 1 1 (scat1 a) (scat1 b) = scat2 a k0 k0 b.
  Proof.
    unfold cat. apply mkS_ext.
    - intros [|[|i]] [|[|j]] Hi Hj; try lia; unfold fcat; cbn [Nat.ltb Nat.leb andb]; try (unfold scat1; rewrite Sf_mkS by lia; reflexivity); cbn; now rewrite smul_0.
    - intros [|[|i]] Hi; try lia; reflexivity.
    - cbn. apply aadd_0.
  Qed.
  Lemma cid_scat1 : prm [0] = scat1 k1 :> slh.
  Proof. rewrite id1. apply mkS_ext; try reflexivity. intros i j Hi Hj. replace i with 0 by lia. replace j with 0 by lia. now rewrite smul_1'. Qed.
  Lemma sum1 (f : nat -> A) : bigsum 1 f = f 0.
  Proof. rewrite sm_S. change (bigsum 0 f) with (a0 : A). now rewrite aadd_0. Qed.
  Lemma star_num (x : K) : star (smul x (a1 : A)) = smul (kconj x) a1.
  Proof. now rewrite star_smul, star_1. Qed.
  Lemma num_1 : smul k1 a1 = a1 :> A.
  Proof. apply smul_1'. Qed.
  Lemma num_0 : smul k0 a1 = a0 :> A.
  Proof. apply smul_0. Qed.
  Lemma scat1_phys a : kmul (kconj a) a = k1 -> physical (scat1 a) 1.
  Proof.
    intros H. split; [apply mkS_system|]. split; [|split; [|apply star_0]].
    - intros [|i] [|j] Hi Hj; try lia. rewrite sum1. change (amul (star (smul a (a1:A))) (smul a a1) = a1).
      rewrite star_num, smul_prod, H. apply num_1.
    - intros [|i] [|j] Hi Hj; try lia. rewrite sum1. change (amul (smul a (a1:A)) (star (smul a a1)) = a1).
      rewrite star_num, smul_prod. replace (kmul a (kconj a)) with (kmul (kconj a) a) by ring. rewrite H. apply num_1.
  Qed.
  (** the second column of a unitary matrix follows from the first and the determinant *)
  Lemma unitary_col (a b c d : K) : unitary2 a b c d -> let D := kadd (kmul a d) (kopp (kmul b c)) in
    b = kopp (kmul D (kconj c)) /\ d = kmul D (kconj a) /\ kmul (kconj D) D = k1.
  Proof.
    intros (H1 & H2 & H3) D.
    assert (b = kopp (kmul D (kconj c))) as Hb.
    { transitivity (kadd (kmul b (kadd (kmul (kconj a) a) (kmul (kconj c) c))) (kopp (kmul a (kadd (kmul (kconj a) b) (kmul (kconj c) d))))).
      - rewrite H1, H3. ring.
      - unfold D. ring. }
    assert (d = kmul D (kconj a)) as Hd.
    { transitivity (kadd (kmul d (kadd (kmul (kconj a) a) (kmul (kconj c) c))) (kopp (kmul c (kadd (kmul (kconj a) b) (kmul (kconj c) d))))).
      - rewrite H1, H3. ring.
      - unfold D. ring. }
    split; [exact Hb|]. split; [exact Hd|]. rewrite <- H2. clearbody D. subst b d.
    rewrite kconj_opp, !kconj_mul, !kconj_conj. transitivity (kmul (kmul (kconj D) D) (kadd (kmul (kconj a) a) (kmul (kconj c) c))).
    - rewrite H1. ring.
    - ring.
  Qed.
  Lemma scat2_phys (a b c d : K) : unitary2 a b c d -> physical (scat2 a b c d) 2.
  Proof.
    intros HU. pose proof (unitary_col _ _ _ _ HU) as HD. cbn zeta in HD. set (D := kadd (kmul a d) (kopp (kmul b c))) in HD.
    destruct HD as (Hb & Hd & HD). destruct HU as (H1 & H2 & H3).
    split; [apply mkS_system|]. split; [|split; [|apply star_0]].
    - assert (forall i j, i < 2 -> j < 2 -> bigsum 2 (fun k => amul (star (ent (sS (scat2 a b c d)) k i)) (ent (sS (scat2 a b c d)) k j)) =
        smul (kadd (kmul (kconj (m2 a b c d 0 i)) (m2 a b c d 0 j)) (kmul (kconj (m2 a b c d 1 i)) (m2 a b c d 1 j))) a1) as G.
      { intros i j Hi Hj. rewrite sum2. rewrite smul_addl, <- !smul_prod, <- !star_num.
        change (ent (sS (scat2 a b c d))) with (Sf (scat2 a b c d)). unfold scat2. now rewrite !Sf_mkS by lia. }
      intros i j Hi Hj. rewrite G by assumption. destruct i as [|[|i]], j as [|[|j]]; try lia; cbn [m2].
      + rewrite H1. apply num_1.
      + rewrite H3. apply num_0.
      + transitivity (smul (kconj (kadd (kmul (kconj a) b) (kmul (kconj c) d))) (a1:A)).
        * f_equal. rewrite kconj_add, !kconj_mul, !kconj_conj. ring.
        * rewrite H3, kconj_0. apply num_0.
      + rewrite H2. apply num_1.
    - assert (forall i j, i < 2 -> j < 2 -> bigsum 2 (fun k => amul (ent (sS (scat2 a b c d)) i k) (star (ent (sS (scat2 a b c d)) j k))) =
        smul (kadd (kmul (m2 a b c d i 0) (kconj (m2 a b c d j 0))) (kmul (m2 a b c d i 1) (kconj (m2 a b c d j 1)))) a1) as G.
      { intros i j Hi Hj. rewrite sum2. rewrite smul_addl, <- !smul_prod, <- !star_num.
        change (ent (sS (scat2 a b c d))) with (Sf (scat2 a b c d)). unfold scat2. now rewrite !Sf_mkS by lia. }
      clearbody D. subst b d.
      assert (forall x, kmul (kmul (kconj D) D) x = x) as HD' by (intros x; rewrite HD; ring).
      intros i j Hi Hj. rewrite G by assumption. destruct i as [|[|i]], j as [|[|j]]; try lia; cbn [m2].
      + transitivity (smul k1 (a1:A)); [f_equal|apply num_1]. rewrite kconj_opp, kconj_mul, kconj_conj.
        rewrite <- H1. transitivity (kadd (kmul (kconj a) a) (kmul (kmul (kconj D) D) (kmul (kconj c) c))); [ring|]. now rewrite HD'.
      + transitivity (smul k0 (a1:A)); [f_equal|apply num_0]. rewrite kconj_mul, kconj_conj.
        transitivity (kadd (kmul a (kconj c)) (kopp (kmul (kmul (kconj D) D) (kmul a (kconj c))))); [ring|]. rewrite HD'. ring.
      + transitivity (smul k0 (a1:A)); [f_equal|apply num_0]. rewrite kconj_opp, kconj_mul, kconj_conj.
        transitivity (kadd (kmul c (kconj a)) (kopp (kmul (kmul (kconj D) D) (kmul c (kconj a))))); [ring|]. rewrite HD'. ring.
      + transitivity (smul k1 (a1:A)); [f_equal|apply num_1]. rewrite kconj_mul, kconj_conj.
        rewrite <- H1. transitivity (kadd (kmul (kmul (kconj D) D) (kmul (kconj a) a)) (kmul (kconj c) c)); [ring|]. now rewrite HD'.
  Qed.

  Context (kexp kcos ksin : K -> K) (HC : circular kexp kcos ksin).
  Lemma bs_ok t : comp_slh kexp kcos ksin (Beamsplitter t) = Ok (scat2 (kcos t) (kopp (ksin t)) (ksin t) (kcos t)).
  Proof. unfold comp_slh, mk_slh, num_op. cbn [nrows ncols Nat.eqb negb]. rewrite smul_0. reflexivity. Qed.
  Lemma ph_ok t : comp_slh kexp kcos ksin (PhaseCC t) = Ok (scat1 (kexp (kmul iu t))).
  Proof. unfold comp_slh, mk_slh, num_op. cbn [nrows ncols Nat.eqb negb]. rewrite smul_0. reflexivity. Qed.
  Lemma bs_unitary t : real t -> unitary2 (kcos t) (kopp (ksin t)) (ksin t) (kcos t).
  Proof.
    intros Ht. pose proof (cos_real _ _ _ HC t Ht) as Hc. pose proof (sin_real _ _ _ HC t Ht) as Hs. pose proof (cos_sin _ _ _ HC t Ht) as H1.
    unfold real in *. unfold unitary2. rewrite kconj_opp, Hc, Hs, <- H1. repeat split; ring.
  Qed.
  Lemma exp_unit t : real t -> kmul (kconj (kexp (kmul iu t))) (kexp (kmul iu t)) = k1.
  Proof.
    intros Ht. pose proof (cos_real _ _ _ HC t Ht) as Hc. pose proof (sin_real _ _ _ HC t Ht) as Hs. pose proof (cos_sin _ _ _ HC t Ht) as H1.
    unfold real in *. rewrite (exp_euler _ _ _ HC t Ht), kconj_add, kconj_mul, iu_conj, Hc, Hs, <- H1.
    transitivity (kadd (kmul (kcos t) (kcos t)) (kopp (kmul (kmul iu iu) (kmul (ksin t) (ksin t))))); [ring|]. rewrite iu_sq. ring.
  Qed.
  Lemma exp_add (s t : K) : real s -> real t -> kmul (kexp (kmul iu s)) (kexp (kmul iu t)) = kexp (kmul iu (kadd s t)).
  Proof.
    intros Hs Ht. assert (real (kadd s t)) as Hst by (unfold real in *; now rewrite kconj_add, Hs, Ht).
    rewrite !(exp_euler _ _ _ HC) by assumption. rewrite (cos_add _ _ _ HC), (sin_add _ _ _ HC) by assumption.
    transitivity (kadd (kadd (kmul (kcos s) (kcos t)) (kmul (kmul iu iu) (kmul (ksin s) (ksin t)))) (kmul iu (kadd (kmul (ksin s) (kcos t)) (kmul (kcos s) (ksin t))))); [ring|].
    rewrite iu_sq. ring.
  Qed.
  Lemma exp_0 : kexp (kmul iu k0) = k1.
  Proof. rewrite (exp_euler _ _ _ HC) by apply kconj_0. rewrite (cos_0 _ _ _ HC), (sin_0 _ _ _ HC). ring. Qed.
End P.
