(** Adiabatic elimination: the functions of the model. *)
From Verif Require Import Prelude ListFacts AlgSpec CAlg NcRing MatModel SlhModel MatProofs MatSpec MatProofs2 SlhProofs1 AdModel AdSpec AdProofs.

Section Prep.
  Context {M : calgebra}.
  Notation A := (A M). Notation K := (K M).
  Notation "x + y" := (aadd x y). Notation "x * y" := (amul x y). Notation "- x" := (aopp x).
  Notation sm := (@bigsum M).
  Add Ring Kr : (kring M).
  Definition nhalf (x : A) : A := smul khalf (smul (kopp k1) x).
  Lemma nhalf_add x z : nhalf (x + z) = nhalf x + nhalf z.
  Proof. unfold nhalf. now rewrite !smul_addr. Qed.
  Lemma nhalf_smul c x : nhalf (smul c x) = smul c (nhalf x).
  Proof. unfold nhalf. rewrite <- !smul_mul. f_equal. ring. Qed.
  Lemma nhalf_two x : nhalf x + nhalf x = - x.
  Proof. unfold nhalf. rewrite <- smul_addr. exact (half_half (- x)). Qed.
  Lemma star_nhalf x : star (nhalf x) = nhalf (star x).
  Proof. unfold nhalf. rewrite !star_smul, khalf_conj, kconj_opp, kconj_1. reflexivity. Qed.
  Lemma smul_swap c d (x : A) : smul c (smul d x) = smul d (smul c x).
  Proof. rewrite <- !smul_mul. f_equal. ring. Qed.

  Context (C : scaling M) (ser : nat -> A -> res (list A)) (a : slh M) (n : nat) (h0 h1 h2 : A) (f g : nat -> A).
  Context (Hsys : system a n) (Hsc : scales C a n h0 h1 h2 f g) (Hser : series_ok C ser).
  Notation k := (kk C).
  Lemma const_opp x : const C x -> const C (- x).
  Proof.
    intros H. replace (- x) with (smul iu (smul iu x)); [now do 2 apply const_i|]. unfold aopp. rewrite <- smul_mul. f_equal. apply iu_sq.
  Qed.
  Lemma const_zero : const C a0.
  Proof. destruct Hsc as (H0 & _). rewrite <- (aadd_opp M h0). apply const_add; [exact H0|now apply const_opp]. Qed.
  Lemma const_nhalf x : const C x -> const C (nhalf x).
  Proof. intros H. apply const_half. now apply const_opp. Qed.
  Lemma const_sum m (F : nat -> A) : (forall j, j < m -> const C (F j)) -> const C (sm m F).
  Proof.
    induction m as [|m IH]; intros H; [exact const_zero|]. rewrite sm_S. apply const_add; [apply IH; auto|apply H; lia].
  Qed.
  Definition yy := nhalf (FF n f) + smul iu h2.
  Definition aa := nhalf (FG n f g + GF n f g) + smul iu h1.
  Definition bb := nhalf (GG n g) + smul iu h0.
  Lemma const_FF : const C (FF n f). Proof. apply const_sum. intros j Hj. destruct Hsc as (_ & _ & _ & H & _). apply const_mul; [|apply const_star]; now apply H. Qed.
  Lemma const_FG : const C (FG n f g). Proof. apply const_sum. intros j Hj. destruct Hsc as (_ & _ & _ & H & _). apply const_mul; [|apply const_star]; now apply H. Qed.
  Lemma const_GF : const C (GF n f g). Proof. apply const_sum. intros j Hj. destruct Hsc as (_ & _ & _ & H & _). apply const_mul; [|apply const_star]; now apply H. Qed.
  Lemma const_GG : const C (GG n g). Proof. apply const_sum. intros j Hj. destruct Hsc as (_ & _ & _ & H & _). apply const_mul; [|apply const_star]; now apply H. Qed.
  Lemma const_yy : const C yy. Proof. apply const_add; [apply const_nhalf, const_FF|apply const_i; apply Hsc]. Qed.
  Lemma const_aa : const C aa. Proof. apply const_add; [apply const_nhalf, const_add; [apply const_FG|apply const_GF]|apply const_i; apply Hsc]. Qed.
  Lemma const_bb : const C bb. Proof. apply const_add; [apply const_nhalf, const_GG|apply const_i; apply Hsc]. Qed.
  Lemma LL : sm n (fun j => star (ent (sL a) j 0) * ent (sL a) j 0) = GG n g + smul k (FG n f g + GF n f g) + smul (kmul k k) (FF n f).
  Proof.
    unfold GG, FG, GF, FF. rewrite <- sm_add, <- !sm_smul, <- !sm_add. apply sm_ext. intros j Hj.
    destruct Hsc as (_ & _ & _ & _ & _ & H). rewrite <- (star_star M (ent (sL a) j 0)) at 2. rewrite (H j Hj), star_add, star_smul, (kk_real _ C).
    rewrite amul_addl, !amul_addr, !smul_amul_l, !smul_amul_r, <- smul_mul, smul_addr.
    rewrite <- !aadd_assoc. f_equal. rewrite !aadd_assoc. f_equal. apply aadd_comm.
  Qed.
  Lemma K_eq : nhalf (sm n (fun j => star (ent (sL a) j 0) * ent (sL a) j 0)) + smul iu (sH a) = bb + smul k aa + smul (kmul k k) yy.
  Proof.
    rewrite LL. destruct Hsc as (_ & _ & _ & _ & -> & _). rewrite !nhalf_add, !nhalf_smul. unfold bb, aa, yy. rewrite !nhalf_add, !smul_addr.
    rewrite !(smul_swap iu). ncr.
  Qed.
  Lemma ent_Ld j : j < n -> ent (madj (sL a)) 0 j = star (ent (sL a) j 0).
  Proof.
    intros Hj. destruct Hsys as (_ & H1 & H2 & _). unfold madj, element_wise, mtranspose. cbn [nrows ncols tab]. rewrite H1, H2.
    rewrite ent_tab by lia. now rewrite ent_tab by lia.
  Qed.
  Lemma shape_Ld : has_shape (madj (sL a)) 1 n.
  Proof. destruct Hsys as (_ & H1 & H2 & _). unfold madj, element_wise, mtranspose. cbn [nrows ncols tab]. rewrite H1, H2. apply has_shape_tab. Qed.
  Lemma row_Ld : concat (rows (madj (sL a))) = map (fun j => g j + smul k (f j)) (seq 0 n).
  Proof.
    destruct Hsys as (_ & H1 & H2 & _). unfold madj, element_wise, mtranspose, tab. cbn [nrows ncols rows concat map seq]. rewrite H1, H2.
    cbn [seq map concat]. rewrite app_nil_r. apply map_ext_in. intros j Hj. apply in_seq in Hj.
    destruct Hsc as (_ & _ & _ & _ & _ & H). rewrite <- (H j) by lia. rewrite <- ent_Ld by lia.
    unfold madj, element_wise, mtranspose. cbn [nrows ncols tab]. rewrite H1, H2. now rewrite ent_tab by lia.
  Qed.
  Lemma mapM_ser js t : (forall j, In j js -> j < n) -> mapM (ser 1) (map (fun j => g j + smul k (f j)) js) = Ok t ->
    t = map (fun j => [g j; f j]) js.
  Proof.
    revert t. induction js as [|j js IH]; intros t Hin; cbn [map mapM].
    - intros E. now injection E as <-.
    - destruct (ser 1 (g j + smul k (f j))) as [l|e] eqn:E1; [|discriminate]. cbn [bind].
      destruct (mapM _ _) as [ls|e] eqn:E2; [|discriminate]. cbn [bind]. intros E. injection E as <-.
      rewrite (IH ls (fun x Hx => Hin x (or_intror Hx)) eq_refl). f_equal.
      destruct Hsc as (_ & _ & _ & Hc & _). apply (proj2 Hser (g j) (f j) l); try apply Hc; try apply Hin; cbn; auto.
  Qed.
  Lemma prepare_parts p : prepare ser a = Ok p ->
    pY p = yy /\ pA p = aa /\ pB p = bb /\ has_shape (pF p) 1 n /\ has_shape (pG p) 1 n /\
    (forall j, j < n -> ent (pF p) 0 j = f j) /\ (forall j, j < n -> ent (pG p) 0 j = g j) /\ pN p = madj (sS a).
  Proof.
    unfold prepare. rewrite (mmul_shape _ _ 1 n 1 shape_Ld (proj2 Hsys)). cbn [bind].
    rewrite ent_tab by lia.
    replace (bigsum n (fun l => ent (madj (sL a)) 0 l * ent (sL a) l 0)) with (sm n (fun j => star (ent (sL a) j 0) * ent (sL a) j 0))
      by (apply sm_ext; intros j Hj; now rewrite ent_Ld).
    change (smul khalf (smul (kopp k1) ?x)) with (nhalf x). rewrite K_eq.
    destruct (ser 2 _) as [cs|e] eqn:E1; [|discriminate]. cbn [bind].
    apply (proj1 Hser) in E1; [|apply const_bb|apply const_aa|apply const_yy]. subst cs.
    rewrite row_Ld. destruct (mapM _ _) as [t|e] eqn:E2; [|discriminate]. cbn [bind].
    apply mapM_ser in E2; [|intros j Hj; apply in_seq in Hj; lia].
    destruct t as [|t0 t1] eqn:Et; [discriminate|]. rewrite <- Et. rewrite <- Et in E2. clear Et t0 t1.
    destruct (forallb _ t); [|discriminate]. intros E. injection E as <-. cbn [pY pA pB pF pG pN].
    destruct shape_Ld as (S1 & S2 & _). change (nrows (madj (sL a))) with (ncols (sL a)) in S1. change (ncols (madj (sL a))) with (nrows (sL a)) in S2. rewrite S1, S2. repeat (split; [reflexivity|]).
    split; [apply has_shape_tab|]. split; [apply has_shape_tab|].
    assert (forall j, j < n -> nth j t [] = [g j; f j]) as Hn.
    { intros j Hj. rewrite E2. rewrite (nth_indep _ [] [g 0; f 0]) by (rewrite map_length, seq_length; lia).
      rewrite (map_nth (fun j => [g j; f j]) (seq 0 n) 0 j). now rewrite seq_nth. }
    split; [|split; [|reflexivity]]; intros j Hj; rewrite ent_tab by lia; change (0 * n + j)%nat with j; now rewrite Hn.
  Qed.
  (** conversely it succeeds when series_expand does and there is a channel *)
  Lemma prepare_ok : 0 < n -> (exists cs, ser 2 (bb + smul k aa + smul (kmul k k) yy) = Ok cs) ->
    (forall j, j < n -> exists cs, ser 1 (g j + smul k (f j)) = Ok cs) -> exists p, prepare ser a = Ok p.
  Proof.
    intros Hn [cs E1] H2. unfold prepare. rewrite (mmul_shape _ _ 1 n 1 shape_Ld (proj2 Hsys)). cbn [bind].
    rewrite ent_tab by lia.
    replace (bigsum n (fun l => ent (madj (sL a)) 0 l * ent (sL a) l 0)) with (sm n (fun j => star (ent (sL a) j 0) * ent (sL a) j 0))
      by (apply sm_ext; intros j Hj; now rewrite ent_Ld).
    change (smul khalf (smul (kopp k1) ?x)) with (nhalf x). rewrite K_eq, E1. cbn [bind].
    apply (proj1 Hser) in E1; [|apply const_bb|apply const_aa|apply const_yy]. subst cs.
    rewrite row_Ld. assert (exists t, mapM (ser 1) (map (fun j => g j + smul k (f j)) (seq 0 n)) = Ok t) as [t Et].
    { assert (forall js, (forall j, In j js -> j < n) -> exists t, mapM (ser 1) (map (fun j => g j + smul k (f j)) js) = Ok t) as G.
      { induction js as [|j js IH]; intros Hin; cbn [map mapM]; [now eexists|].
        destruct (H2 j) as [c ->]; [apply Hin; now left|]. cbn [bind]. destruct IH as [t ->]; [intros; apply Hin; now right|]. cbn [bind]. now eexists. }
      apply G. intros j Hj. apply in_seq in Hj. lia. }
    rewrite Et. cbn [bind]. apply mapM_ser in Et; [|intros j Hj; apply in_seq in Hj; lia].
    replace (forallb (fun l => length l =? 2) t) with true.
    2:{ symmetry. apply forallb_forall. intros l Hl. rewrite Et in Hl. apply in_map_iff in Hl as (j & <- & _). reflexivity. }
    destruct t as [|t0 t1]; [|now eexists]. apply (f_equal (@length _)) in Et. rewrite map_length, seq_length in Et. cbn in Et. lia.
  Qed.
  (** H self-adjoint *)
  Lemma parts_sym : star (sH a) = sH a -> star h0 = h0 /\ star h1 = h1 /\ star h2 = h2.
  Proof.
    intros H. destruct Hsc as (c0 & c1 & c2 & _ & E & _). rewrite E in H. rewrite !star_add, !star_smul, kconj_mul, (kk_real _ C) in H.
    apply (const_unique _ C) in H; auto using const_star.
  Qed.
  Lemma star_FF : star (FF n f) = FF n f.
  Proof. unfold FF. rewrite star_sm. apply sm_ext. intros. now rewrite star_mul, star_star. Qed.
  Lemma star_GG : star (GG n g) = GG n g.
  Proof. unfold GG. rewrite star_sm. apply sm_ext. intros. now rewrite star_mul, star_star. Qed.
  Lemma star_FG : star (FG n f g) = GF n f g.
  Proof. unfold FG. rewrite star_sm. apply sm_ext. intros. now rewrite star_mul, star_star. Qed.
  Lemma star_GF : star (GF n f g) = FG n f g.
  Proof. rewrite <- star_FG. apply star_star. Qed.
  Lemma diss x h : star x = x -> star h = h -> (nhalf x + smul iu h) + star (nhalf x + smul iu h) = - x.
  Proof.
    intros Hx Hh. rewrite star_add, star_nhalf, star_smul, iu_conj, Hx, Hh.
    transitivity ((nhalf x + nhalf x) + (smul iu h + smul (kopp iu) h)); [ncr|].
    rewrite nhalf_two, <- smul_addl. replace (kadd iu (kopp iu)) with (@k0 M) by ring. rewrite smul_0. ncr.
  Qed.
  Lemma HY : star (sH a) = sH a -> yy + star yy = - FF n f.
  Proof. intros H. apply parts_sym in H as (_ & _ & H). apply diss; [apply star_FF|exact H]. Qed.
  Lemma HA : star (sH a) = sH a -> aa + star aa = - (FG n f g + GF n f g).
  Proof. intros H. apply parts_sym in H as (_ & H & _). apply diss; [|exact H]. rewrite star_add, star_FG, star_GF. apply aadd_comm. Qed.
  Lemma HB : star (sH a) = sH a -> bb + star bb = - GG n g.
  Proof. intros H. apply parts_sym in H as (H & _). apply diss; [apply star_GG|exact H]. Qed.
  (** the slow space is not coupled to the fields at order k *)
  Lemma dark yt p0 : definite (M := M) -> star (sH a) = sH a -> slow_space yy yt p0 -> forall j, j < n -> star (f j) * p0 = a0.
  Proof.
    intros HD HH HP. apply (HD n (fun j => star (f j) * p0)).
    transitivity (p0 * FF n f * p0).
    - unfold FF. rewrite <- sm_mul_l, <- sm_mul_r. apply sm_ext. intros j _. rewrite star_mul, star_star. destruct HP as (_ & -> & _). ncr.
    - assert (FF n f = - (yy + star yy)) as -> by (rewrite (HY HH); ncr).
      destruct HP as (_ & ps & yp & py & _). transitivity (- (p0 * (yy * p0) + p0 * star (p0 * yy))); [rewrite star_mul, ps; ncr|].
      rewrite yp, py, star_0. ncr.
  Qed.
End Prep.
