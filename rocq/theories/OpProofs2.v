(** Soundness of the operator rules. *)
From Coq Require Import QArith Qcanon.
From Verif Require Import Prelude ListFacts SortModel SortProofs BinModel BinSpec BinProofs AlgSpec CAlg OpModel OpSpec OpProofs1.
Local Open Scope nat_scope.

Ltac step H x E := match type of H with bind ?r _ = _ => destruct r as [x|] eqn:E; [cbn [bind] in H|discriminate H] end.

(** the radicands of the ladder coefficients *)
Lemma half_split n : qn n = ((qn n - 1) / qn 2 + (qn n - 1) / qn 2 + 1)%Qc.
Proof.
  replace (qn 2) with (1 + 1)%Qc by (now rewrite <- qn_1, <- qn_add). field. intros H. discriminate H.
Qed.
Lemma jp_radicand_nat n m : m < n -> jp_radicand n m = qn ((m + 1) * (n - 1 - m)).
Proof.
  intros H. unfold jp_radicand, spin_of. rewrite qn_mul, qn_add, !qn_sub by lia. rewrite qn_1.
  pose proof (half_split n) as E. revert E. set (h := ((qn n - 1) / qn 2)%Qc). clearbody h. intros ->. ring.
Qed.
Lemma jm_radicand_nat n m : m < n -> jm_radicand n m = qn (m * (n - m)).
Proof.
  intros H. unfold jm_radicand, spin_of. rewrite qn_mul, !qn_sub by lia.
  pose proof (half_split n) as E. revert E. set (h := ((qn n - 1) / qn 2)%Qc). clearbody h. intros ->. ring.
Qed.

Section Laws.
  Context {S : scalars} {dim : nat -> option nat} (I : interp S dim).
  Add Ring Kr : (kring I).
  Local Notation star := (@star I).

  Lemma kconj_iu_neg u : kconj (kmul iu (kopp (kconj u))) = kmul (@iu I) u.
  Proof. rewrite kconj_mul, iu_conj, kconj_opp, kconj_conj. ring. Qed.

  Lemma destroy_star l : boson (i:=I) l -> star (idestroy l) = icreate l.
  Proof. intros H. rewrite <- (create_star _ _ I l H). apply star_star. Qed.
  Lemma jm_star l : spin (i:=I) l -> star (ijm l) = ijp l.
  Proof. intros H. rewrite <- (jp_star _ _ I l H). apply star_star. Qed.

  Lemma sigma_destroy j k l : boson (i:=I) l ->
    amul (isigma (i:=I) j k l) (idestroy l) = smul (ksqrt (qn (k + 1))) (isigma j (k + 1) l).
  Proof.
    intros H. rewrite <- (sigma_star _ _ I k j l), <- (create_star _ _ I l H), <- star_mul, create_sigma, star_smul, ksqrt_real, sigma_star by exact H. reflexivity.
  Qed.
  Lemma sigma_create_0 j l : boson (i:=I) l -> amul (isigma (i:=I) j 0 l) (icreate l) = a0.
  Proof.
    intros H. rewrite <- (sigma_star _ _ I 0 j l), <- (destroy_star l H), <- star_mul, destroy_sigma_0 by exact H. apply star_0.
  Qed.
  Lemma sigma_create j k l : boson (i:=I) l ->
    amul (isigma (i:=I) j (k + 1) l) (icreate l) = smul (ksqrt (qn (k + 1))) (isigma j k l).
  Proof.
    intros H. rewrite <- (sigma_star _ _ I (k + 1) j l), <- (destroy_star l H), <- star_mul, destroy_sigma, star_smul, ksqrt_real, sigma_star by exact H. reflexivity.
  Qed.
  Lemma phase_create_law u l : boson (i:=I) l ->
    amul (iphase (i:=I) u l) (icreate l) = smul (kexp (kmul iu u)) (amul (icreate l) (iphase u l)).
  Proof.
    intros H. pose proof (destroy_phase _ _ I (kopp (kconj u)) l H) as E. apply (f_equal star) in E.
    rewrite star_smul, !star_mul, (destroy_star l H), (phase_star _ _ I _ _ H), kexp_conj, kconj_iu_neg in E.
    replace (kopp (kconj (kopp (kconj u)))) with u in E by (rewrite kconj_opp, kconj_conj; ring). exact E.
  Qed.
  Lemma sigma_phase u j k l : boson (i:=I) l ->
    amul (isigma (i:=I) j k l) (iphase u l) = smul (kexp (kmul (kmul iu u) (kQ (qn k)))) (isigma j k l).
  Proof.
    intros H. pose proof (phase_sigma _ _ I (kopp (kconj u)) k j l H) as E. apply (f_equal star) in E.
    rewrite star_smul, !star_mul, sigma_star, (phase_star _ _ I _ _ H), kexp_conj, kconj_mul, kconj_iu_neg, kQ_real in E.
    replace (kopp (kconj (kopp (kconj u)))) with u in E by (rewrite kconj_opp, kconj_conj; ring). exact E.
  Qed.
  Lemma disp_create_law u l : displ (i:=I) l ->
    amul (idisp (i:=I) u l) (icreate l) = amul (aadd (icreate l) (smul (kmul (kopp k1) (kconj u)) a1)) (idisp u l).
  Proof.
    intros H. pose proof (displ_boson _ _ I l H) as Hb. pose proof (destroy_disp _ _ I (kopp u) l H) as E. apply (f_equal star) in E.
    rewrite !star_mul, star_add, star_smul, star_1, (destroy_star l Hb), (disp_star _ _ I _ _ H) in E.
    replace (kopp (kopp u)) with u in E by ring. rewrite E. do 3 f_equal. rewrite kconj_opp. ring.
  Qed.
  Lemma sigma_jp n j k l : spin (i:=I) l -> dim l = Some n -> k < n ->
    amul (isigma (i:=I) j k l) (ijp l) = if k =? 0 then a0 else smul (ksqrt (qn (k * (n - k)))) (isigma j (k - 1) l).
  Proof.
    intros H Hd Hk. rewrite <- (sigma_star _ _ I k j l), <- (jm_star l H), <- star_mul, (jm_sigma _ _ I n k j l H Hd Hk).
    destruct (k =? 0); [apply star_0|]. rewrite star_smul, ksqrt_real, sigma_star. reflexivity.
  Qed.
  Lemma sigma_jm n j k l : spin (i:=I) l -> dim l = Some n -> k < n ->
    amul (isigma (i:=I) j k l) (ijm l) = if k + 1 <? n then smul (ksqrt (qn ((k + 1) * (n - 1 - k)))) (isigma j (k + 1) l) else a0.
  Proof.
    intros H Hd Hk. rewrite <- (sigma_star _ _ I k j l), <- (jp_star _ _ I l H), <- star_mul, (jp_sigma _ _ I n k j l H Hd Hk).
    destruct (k + 1 <? n); [|apply star_0]. rewrite star_smul, ksqrt_real, sigma_star. reflexivity.
  Qed.
  Lemma sigma_jz n j k l : spin (i:=I) l -> dim l = Some n -> k < n ->
    amul (isigma (i:=I) j k l) (ijz l) = smul (kQ (qn k - (qn n - 1) / qn 2)%Qc) (isigma j k l).
  Proof.
    intros H Hd Hk. rewrite <- (sigma_star _ _ I k j l), <- (jz_star _ _ I l H), <- star_mul, (jz_sigma _ _ I n k j l H Hd Hk).
    rewrite star_smul, kQ_real. reflexivity.
  Qed.
  Lemma jm_jz l : spin (i:=I) l -> amul (ijm (i:=I) l) (ijz l) = aadd (amul (ijz l) (ijm l)) (ijm l).
  Proof.
    intros H. pose proof (jz_jp _ _ I l H) as E. apply (f_equal star) in E.
    rewrite star_add, !star_mul, (jz_star _ _ I l H), (jp_star _ _ I l H) in E. exact E.
  Qed.
End Laws.

Section Sound.
  Context {S : scalars} {dim : nat -> option nat} (I : interp S dim).
  Local Notation op := (op S).
  Local Notation legal := (legal I).
  Local Notation value := (value I).
  Local Notation means := (means I).
  Add Ring Kr2 : (kring I).

  Record soundK (K : ocreators S) : Prop := {
    s_scal : forall c a e, legal a -> k_scal K c a = Ok e -> means e (smul (ev c) (value a));
    s_plus : forall l e, Forall legal l -> k_plus K l = Ok e -> means e (msum I (map value l));
    s_times : forall l e, Forall legal l -> k_times K l = Ok e -> means e (mprod I (map value l));
    s_comm : forall a b e, legal a -> legal b -> k_comm K a b = Ok e -> means e (mcomm I (value a) (value b))
  }.
  Context (K : ocreators S) (HK : soundK K).

  Lemma m_plus2 a b e : legal a -> legal b -> k_plus K [a; b] = Ok e -> means e (aadd (value a) (value b)).
  Proof. intros Ha Hb H. rewrite <- (msum_2 I). apply (s_plus K HK [a; b] e); [now repeat constructor|exact H]. Qed.
  Lemma m_times2 a b e : legal a -> legal b -> k_times K [a; b] = Ok e -> means e (amul (value a) (value b)).
  Proof. intros Ha Hb H. rewrite <- (mprod_2 I). apply (s_times K HK [a; b] e); [now repeat constructor|exact H]. Qed.
  Lemma m_sub a b e : legal a -> legal b -> osub K a b = Ok e -> means e (aadd (value a) (smul (kopp k1) (value b))).
  Proof.
    intros Ha Hb H. unfold osub in H. step H b' Eb. destruct (s_scal K HK _ _ _ Hb Eb) as [Lb Vb]. rewrite (ev_sm1 I) in Vb. rewrite <- Vb.
    now apply m_plus2.
  Qed.
  Lemma m_addscal a u e : legal a -> add_scalar K a u = Ok e -> means e (aadd (value a) (smul (ev u) a1)).
  Proof.
    intros Ha H. unfold add_scalar in H. step H b' Eb. destruct (s_scal K HK _ OOne _ Logic.I Eb) as [Lb Vb]. change (value OOne) with (@a1 I) in Vb. rewrite <- Vb.
    now apply m_plus2.
  Qed.
  Lemma m_phase u l : boson (i:=I) l -> means (phase_create u l) (iphase (ev u) l).
  Proof.
    intros H. unfold phase_create. destruct (seqb u s0) eqn:E; [|now split]. apply (ev_eq _ I) in E. split; [exact Logic.I|].
    rewrite E, (ev_s0 I). symmetry. now apply phase_0.
  Qed.
  Lemma m_disp u l : displ (i:=I) l -> means (disp_create u l) (idisp (ev u) l).
  Proof.
    intros H. unfold disp_create. destruct (seqb u s0) eqn:E; [|now split]. apply (ev_eq _ I) in E. split; [exact Logic.I|].
    rewrite E, (ev_s0 I). symmetry. now apply disp_0.
  Qed.

  (** ScalarTimesOperator.create *)
  Lemma scal_sound c a e : legal a -> scal_step K c a = Ok e -> means e (smul (ev c) (value a)).
  Proof.
    intros Ha H. unfold scal_step in H.
    destruct (seqb c s1) eqn:E1.
    { injection H as <-. apply (ev_eq _ I) in E1. rewrite E1, (ev_s1 I), smul_1. now split. }
    destruct (seqb c s0) eqn:E0.
    { injection H as <-. apply (ev_eq _ I) in E0. rewrite E0, (ev_s0 I), smul_0. now split. }
    destruct a as [| |a|v b|l|l|a b|a|a h|s a]; try (injection H as <-; split; [exact Ha|reflexivity]).
    - injection H as <-. split; [exact Logic.I|]. symmetry. apply smul_zero.
    - cbn [OpSpec.value]. rewrite <- smul_mul, <- ev_mul. exact (s_scal K HK _ b _ Ha H).
    - destruct (seqb c sm1) eqn:Em; [|injection H as <-; split; [exact Ha|reflexivity]].
      step H l' El. apply (ev_eq _ I) in Em. rewrite Em, (ev_sm1 I). cbn [OpSpec.value].
      apply legal_plus in Ha.
      assert (Forall legal l' /\ map value l' = map (smul (kopp k1)) (map value l)) as [Ll Vl].
      { clear H. revert l' El. induction l as [|x l IH]; cbn [mapM]; intros l' El; [injection El as <-; split; [constructor|reflexivity]|].
        step El x' Ex. step El l2 El2. injection El as <-. destruct (IH (Forall_inv_tail Ha) l2 eq_refl) as [L2 V2].
        destruct (s_scal K HK _ _ _ (Forall_inv Ha) Ex) as [Lx Vx]. split; [now constructor|]. cbn [map]. rewrite Vx, V2, (ev_sm1 I). reflexivity. }
      rewrite <- msum_smul, <- Vl. exact (s_plus K HK _ _ Ll H).
  Qed.

  (** OperatorPlus.create *)
  Lemma flat_plus_sound l : Forall legal l -> Forall legal (flat_plus l) /\ msum I (map value (flat_plus l)) = msum I (map value l).
  Proof.
    induction l as [|x l IH]; intros H; [now split|]. destruct (IH (Forall_inv_tail H)) as [L V]. pose proof (Forall_inv H) as Hx.
    unfold flat_plus. cbn [flat_map]. fold (flat_plus l). split.
    - apply Forall_app. split; [|exact L]. destruct x; try (constructor; [exact Hx|constructor]). now apply legal_plus.
    - rewrite map_app, msum_app, V. cbn [map]. rewrite msum_cons. f_equal. destruct x; try apply msum_1. reflexivity.
  Qed.
  Lemma flat_times_sound l : Forall legal l -> Forall legal (flat_times l) /\ mprod I (map value (flat_times l)) = mprod I (map value l).
  Proof.
    induction l as [|x l IH]; intros H; [now split|]. destruct (IH (Forall_inv_tail H)) as [L V]. pose proof (Forall_inv H) as Hx.
    unfold flat_times. cbn [flat_map]. fold (flat_times l). split.
    - apply Forall_app. split; [|exact L]. destruct x; try (constructor; [exact Hx|constructor]). now apply legal_times.
    - rewrite map_app, mprod_app, V. cbn [map]. rewrite mprod_cons. f_equal. destruct x; try apply mprod_1. reflexivity.
  Qed.

  Definition mapval (m : list (op * S)) : A I := msum I (map (fun tc => smul (ev (snd tc)) (value (fst tc))) m).
  Lemma cmap_add_sound c t m : legal t -> Forall (fun tc => legal (fst tc)) m ->
    Forall (fun tc => legal (fst tc)) (cmap_add c t m) /\ mapval (cmap_add c t m) = aadd (smul (ev c) (value t)) (mapval m).
  Proof.
    intros Ht. induction m as [|[t' c'] m IH]; intros Hm; cbn [cmap_add].
    - split; [now constructor|]. reflexivity.
    - destruct (oeqb t' t) eqn:E.
      + split; [constructor; [exact (Forall_inv Hm)|exact (Forall_inv_tail Hm)]|]. unfold mapval. cbn [map fst snd]. rewrite !msum_cons.
        apply (oeqb_value I) in E. rewrite ev_add, smul_addl, E, aadd_assoc. f_equal. apply aadd_comm.
      + destruct (IH (Forall_inv_tail Hm)) as [L V]. split; [constructor; [exact (Forall_inv Hm)|exact L]|].
        unfold mapval in *. cbn [map fst snd]. rewrite !msum_cons, V, !aadd_assoc. f_equal. apply aadd_comm.
  Qed.
  Lemma coeff_term_sound o : legal o -> legal (snd (coeff_term o)) /\ smul (ev (fst (coeff_term o))) (value (snd (coeff_term o))) = value o.
  Proof.
    intros H. destruct o; cbn [coeff_term fst snd]; split; try exact H; try (rewrite (ev_s1 I); apply smul_1). reflexivity.
  Qed.
  Lemma collect_sound l : Forall legal l ->
    Forall (fun tc => legal (fst tc)) (collect l) /\ mapval (collect l) = msum I (map value l).
  Proof.
    intros H. unfold collect.
    assert (forall m, Forall (fun tc => legal (fst tc)) m ->
      Forall (fun tc => legal (fst tc)) (fold_left (fun m o => let '(c, t) := coeff_term o in cmap_add c t m) l m)
      /\ mapval (fold_left (fun m o => let '(c, t) := coeff_term o in cmap_add c t m) l m) = aadd (msum I (map value l)) (mapval m)) as G.
    { induction l as [|o l IH]; intros m Hm; cbn [fold_left map].
      - split; [exact Hm|]. symmetry. apply aadd_0.
      - destruct (coeff_term_sound o (Forall_inv H)) as [Lo Vo]. destruct (coeff_term o) as [c t]. cbn [fst snd] in Lo, Vo.
        destruct (cmap_add_sound c t m Lo Hm) as [Lm Vm]. destruct (IH (Forall_inv_tail H) _ Lm) as [L V]. split; [exact L|].
        rewrite V, Vm, msum_cons, Vo, !aadd_assoc. f_equal. apply aadd_comm. }
    destruct (G [] (Forall_nil _)) as [L V]. split; [exact L|]. rewrite V. apply aadd_0r.
  Qed.
  Lemma collect_summands_sound l fops : Forall legal l -> collect_summands K l = Ok fops ->
    Forall legal fops /\ msum I (map value fops) = msum I (map value l).
  Proof.
    intros H E. unfold collect_summands in E. step E r Er. injection E as <-. destruct (collect_sound l H) as [Lc Vc]. rewrite <- Vc. clear Vc.
    unfold mapval. revert r Er. induction (collect l) as [|[t c] m IH]; cbn [mapM]; intros r Er; [injection Er as <-; split; [constructor|reflexivity]|].
    step Er x Ex. step Er r2 Er2. injection Er as <-. destruct (IH (Forall_inv_tail Lc) r2 eq_refl) as [L V].
    destruct (s_scal K HK _ _ _ (Forall_inv Lc) Ex) as [Lx Vx]. cbn [fst snd] in Vx. cbn [map fst snd filter]. rewrite msum_cons, <- V, <- Vx.
    destruct x; cbn [is_zero negb]; (split; [|]); try (constructor; [exact Lx|exact L]); try exact L; try reflexivity.
    cbn [OpSpec.value]. symmetry. apply aadd_0.
  Qed.
  Lemma plus_sound olt slt l e : Forall legal l -> plus_step olt slt K l = Ok e -> means e (msum I (map value l)).
  Proof.
    intros H E. unfold plus_step in E. step E fops Ef. destruct (flat_plus_sound l H) as [L V]. rewrite <- V. clear V.
    set (fl := flat_plus l) in *. pose proof (pysorted_perm (ofull_lt olt slt) fl) as P.
    assert (Forall legal (pysorted (ofull_lt olt slt) fl)) as L'.
    { rewrite Forall_forall in *. intros x Hx. apply L. apply (Permutation_in _ (Permutation_sym P)). exact Hx. }
    destruct (collect_summands_sound _ _ L' Ef) as [Lf Vf].
    rewrite (msum_perm I _ _ (Permutation_map value P)), <- Vf.
    destruct fops as [|x [|y fops]].
    - injection E as <-. now split.
    - injection E as <-. split; [exact (Forall_inv Lf)|]. symmetry. apply msum_1.
    - injection E as <-. split; [now apply legal_plus|reflexivity].
  Qed.

  (** a rule that fires preserves the product *)
  Definition rule_sound (r : op -> op -> outcome op) : Prop :=
    forall x y e, legal x -> legal y -> r x y = Replaces (Some e) -> means e (amul (value x) (value y)).
  Lemma olift_ok {X} (r : res X) e : olift r = Replaces (Some e) -> r = Ok e.
  Proof. destruct r as [x|[]]; cbn; intros H; try discriminate. now injection H as <-. Qed.

  Lemma in_range_level l j : in_range dim l (Z.of_nat j) = true <-> level (dim:=dim) l j.
  Proof.
    unfold in_range, level. destruct (Z.leb_spec 0 (Z.of_nat j)); [|lia]. cbn [andb]. destruct (dim l); [|split; auto].
    rewrite Z.ltb_lt. lia.
  Qed.
  Lemma raise_up_l j k l : level (dim:=dim) l (j + 1) -> level (dim:=dim) l k -> raise_jk (S:=S) dim j k l 1 0 = OAtom (ASigma (j + 1) k l).
  Proof.
    intros H1 H2. unfold raise_jk. replace (Z.of_nat j + 1)%Z with (Z.of_nat (j + 1)) by lia. rewrite Z.add_0_r.
    apply in_range_level in H1. apply in_range_level in H2. rewrite H1, H2. cbn [andb]. now rewrite !Nat2Z.id.
  Qed.
  Lemma raise_up_r j k l : level (dim:=dim) l j -> level (dim:=dim) l (k + 1) -> raise_jk (S:=S) dim j k l 0 1 = OAtom (ASigma j (k + 1) l).
  Proof.
    intros H1 H2. unfold raise_jk. replace (Z.of_nat k + 1)%Z with (Z.of_nat (k + 1)) by lia. rewrite Z.add_0_r.
    apply in_range_level in H1. apply in_range_level in H2. rewrite H1, H2. cbn [andb]. now rewrite !Nat2Z.id.
  Qed.
  Lemma raise_down_l j k l : level (dim:=dim) l j -> level (dim:=dim) l k ->
    raise_jk (S:=S) dim j k l (-1) 0 = if j =? 0 then OZero else OAtom (ASigma (j - 1) k l).
  Proof.
    intros H1 H2. unfold raise_jk. rewrite Z.add_0_r. destruct (Nat.eqb_spec j 0) as [->|Hj]; [reflexivity|].
    replace (Z.of_nat j + -1)%Z with (Z.of_nat (j - 1)) by lia.
    assert (level (dim:=dim) l (j - 1)) as H1' by (unfold level in *; destruct (dim l); [lia|exact Logic.I]).
    apply in_range_level in H1'. apply in_range_level in H2. rewrite H1', H2. cbn [andb]. now rewrite !Nat2Z.id.
  Qed.
  Lemma raise_down_r j k l : level (dim:=dim) l j -> level (dim:=dim) l k ->
    raise_jk (S:=S) dim j k l 0 (-1) = if k =? 0 then OZero else OAtom (ASigma j (k - 1) l).
  Proof.
    intros H1 H2. unfold raise_jk. rewrite Z.add_0_r. destruct (Nat.eqb_spec k 0) as [->|Hk].
    { replace (Z.of_nat 0 + -1)%Z with (-1)%Z by lia. unfold in_range at 2. cbn. rewrite andb_false_r. reflexivity. }
    replace (Z.of_nat k + -1)%Z with (Z.of_nat (k - 1)) by lia.
    assert (level (dim:=dim) l (k - 1)) as H2' by (unfold level in *; destruct (dim l); [lia|exact Logic.I]).
    apply in_range_level in H2'. apply in_range_level in H1. rewrite H1, H2'. cbn [andb]. now rewrite !Nat2Z.id.
  Qed.
  Lemma raise_top_l n j k l : dim l = Some n -> n <= j + 1 -> raise_jk (S:=S) dim j k l 1 0 = OZero.
  Proof.
    intros Hd Hn. unfold raise_jk, in_range. rewrite Hd. destruct (Z.ltb_spec (Z.of_nat j + 1) (Z.of_nat n)); [lia|].
    rewrite andb_false_r. reflexivity.
  Qed.
  Lemma raise_top_r n j k l : dim l = Some n -> n <= k + 1 -> raise_jk (S:=S) dim j k l 0 1 = OZero.
  Proof.
    intros Hd Hn. unfold raise_jk, in_range. rewrite Hd. destruct (Z.ltb_spec (Z.of_nat k + 1) (Z.of_nat n)); [lia|].
    rewrite !andb_false_r. reflexivity.
  Qed.

  Ltac start := intros x y e Hx Hy H; destruct x as [| |x| | | | | | |]; try discriminate H; destruct y as [| |y| | | | | | |]; try discriminate H;
    cbn [r005 r009 r010 r011 r012 r013 r014 r015 r016 r017 r018 r019 r020 r021 r022 r023 r024 r025 r026 r027 r028 r029 r030 local_rule] in H; destruct x; try discriminate H; destruct y; try discriminate H;
    match type of H with (if ?a =? ?b then _ else _) = _ => destruct (Nat.eqb_spec a b) as [<-|_]; [|discriminate H] end;
    cbn [OpSpec.legal legal_atom] in Hx, Hy; cbn [OpSpec.value atom_val].

  Lemma r001_sound : rule_sound (r001 K).
  Proof.
    intros x y e Hx Hy H. unfold r001 in H. destruct x as [| |x|u a| | | | | |]; try discriminate H. apply olift_ok in H. step H p Ep.
    destruct (m_times2 a y _ Hx Hy Ep) as [Lp Vp]. destruct (s_scal K HK _ _ _ Lp H) as [Le Ve]. split; [exact Le|].
    rewrite Ve, Vp. cbn [OpSpec.value]. now rewrite smul_amul_l.
  Qed.
  Lemma r002_sound : rule_sound r002.
  Proof.
    intros x y e Hx Hy H. unfold r002 in H. destruct x; try discriminate H. injection H as <-. split; [exact Logic.I|]. symmetry. apply amul_0l.
  Qed.
  Lemma r003_sound : rule_sound r003.
  Proof.
    intros x y e Hx Hy H. unfold r003 in H. destruct y; try discriminate H. injection H as <-. split; [exact Logic.I|]. symmetry. apply amul_0r.
  Qed.
  Lemma r004_sound : rule_sound (r004 K).
  Proof.
    intros x y e Hx Hy H. unfold r004 in H. destruct y as [| |y|u b| | | | | |]; try discriminate H. apply olift_ok in H. step H p Ep.
    destruct (m_times2 x b _ Hx Hy Ep) as [Lp Vp]. destruct (s_scal K HK _ _ _ Lp H) as [Le Ve]. split; [exact Le|].
    rewrite Ve, Vp. cbn [OpSpec.value]. now rewrite smul_amul_r.
  Qed.
  Lemma r005_sound : rule_sound (r005 K).
  Proof.
    start. apply olift_ok in H. destruct Hx as [H1 H2], Hy as [H3 H4].
    destruct (s_scal K HK _ _ _ (conj H1 H4 : legal (OAtom (ASigma _ _ _))) H) as [Le Ve].
    split; [exact Le|]. rewrite Ve, sigma_sigma.
    2:{ intros n Hn. unfold level in *. rewrite Hn in *. repeat split; assumption. }
    cbn [OpSpec.value atom_val]. destruct (k =? j0); [rewrite (ev_s1 I); apply smul_1|rewrite (ev_s0 I); apply smul_0].
  Qed.
  Lemma boson_level l j : boson (i:=I) l -> level (dim:=dim) l j.
  Proof. intros H. unfold level. now rewrite (boson_dim _ _ I l H). Qed.
  Lemma r009_sound : rule_sound (r009 dim K).
  Proof.
    start. apply olift_ok in H. destruct Hy as [H1 H2]. rewrite raise_up_l in H by (now apply boson_level).
    destruct (s_scal K HK _ _ _ (conj (boson_level ls (j + 1) Hx) H2 : legal (OAtom (ASigma _ _ _))) H) as [Le Ve].
    split; [exact Le|]. rewrite Ve, ev_sqrt, create_sigma by exact Hx. cbn [OpSpec.value atom_val]. rewrite qn_add, qn_1. reflexivity.
  Qed.
  Lemma r010_sound : rule_sound (r010 dim K).
  Proof.
    start. apply olift_ok in H. destruct Hy as [H1 H2]. rewrite raise_down_l in H by assumption.
    destruct (Nat.eqb_spec j 0) as [->|Hj].
    - destruct (s_scal K HK _ OZero _ Logic.I H) as [Le Ve]. split; [exact Le|]. rewrite Ve, destroy_sigma_0 by exact Hx. apply smul_zero.
    - destruct (s_scal K HK _ _ _ (conj (boson_level ls (j - 1) Hx) H2 : legal (OAtom (ASigma _ _ _))) H) as [Le Ve].
      split; [exact Le|]. rewrite Ve, ev_sqrt. cbn [OpSpec.value atom_val]. replace j with (j - 1 + 1) at 1 3 by lia.
      now rewrite destroy_sigma.
  Qed.
  Lemma r011_sound : rule_sound (r011 dim K).
  Proof.
    start. apply olift_ok in H. destruct Hx as [H1 H2]. rewrite raise_up_r in H by (assumption || now apply boson_level).
    destruct (s_scal K HK _ _ _ (conj H1 (boson_level ls (k + 1) Hy) : legal (OAtom (ASigma _ _ _))) H) as [Le Ve].
    split; [exact Le|]. rewrite Ve, ev_sqrt, sigma_destroy by exact Hy. cbn [OpSpec.value atom_val]. rewrite qn_add, qn_1. reflexivity.
  Qed.
  Lemma r012_sound : rule_sound (r012 dim K).
  Proof.
    start. apply olift_ok in H. destruct Hx as [H1 H2]. rewrite raise_down_r in H by assumption.
    destruct (Nat.eqb_spec k 0) as [->|Hk].
    - destruct (s_scal K HK _ OZero _ Logic.I H) as [Le Ve]. split; [exact Le|]. rewrite Ve, sigma_create_0 by exact Hy. apply smul_zero.
    - destruct (s_scal K HK _ _ _ (conj H1 (boson_level ls (k - 1) Hy) : legal (OAtom (ASigma _ _ _))) H) as [Le Ve].
      split; [exact Le|]. rewrite Ve, ev_sqrt. cbn [OpSpec.value atom_val]. replace k with (k - 1 + 1) at 1 3 by lia.
      now rewrite sigma_create.
  Qed.
  Lemma r013_sound : rule_sound (r013 K).
  Proof.
    start. apply olift_ok in H. step H p Ep. destruct (m_times2 (OAtom (ACreate ls)) (OAtom (ADestroy ls)) _ Hx Hx Ep) as [Lp Vp].
    destruct (m_plus2 OOne p _ Logic.I Lp H) as [Le Ve]. split; [exact Le|]. rewrite Ve, Vp. symmetry. now apply ccr.
  Qed.
  Lemma r014_sound : rule_sound r014.
  Proof.
    start. injection H as <-. rewrite phase_phase, <- ev_add by exact Hx. now apply m_phase.
  Qed.
  Lemma r015_sound : rule_sound (r015 K).
  Proof.
    start. apply olift_ok in H. destruct (m_disp (sadd u u0) ls Hx) as [Ld Vd]. destruct (s_scal K HK _ _ _ Ld H) as [Le Ve].
    split; [exact Le|]. rewrite Ve, Vd, disp_disp by exact Hx. rewrite ev_exp, ev_div2, ev_sub, !ev_mul, !ev_conj, ev_add. reflexivity.
  Qed.
  Lemma r016_sound : rule_sound (r016 K).
  Proof.
    start. apply olift_ok in H. step H p Ep. destruct (m_phase u ls Hx) as [Lu Vu]. destruct (s_scal K HK _ _ _ Lu Ep) as [Lp Vp].
    destruct (m_times2 p (OAtom (ADestroy ls)) _ Lp Hx H) as [Le Ve]. split; [exact Le|]. rewrite Ve, Vp, Vu, smul_amul_l, destroy_phase by exact Hx.
    now rewrite ev_exp, ev_mul, ev_I.
  Qed.
  Lemma r017_sound : rule_sound (r017 K).
  Proof.
    start. apply olift_ok in H. step H q Eq0. destruct (m_addscal (OAtom (ADestroy ls)) u _ Hx Eq0) as [Lq Vq]. destruct (m_disp u ls Hy) as [Ld Vd].
    destruct (m_times2 _ _ _ Ld Lq H) as [Le Ve]. split; [exact Le|]. rewrite Ve, Vd, Vq, destroy_disp by exact Hy. reflexivity.
  Qed.
  Lemma r018_sound : rule_sound (r018 K).
  Proof.
    start. apply olift_ok in H. step H p Ep. destruct (m_phase u ls Hx) as [Lu Vu]. destruct (s_scal K HK _ (OAtom (ACreate ls)) _ Hx Ep) as [Lp Vp].
    destruct (m_times2 p _ _ Lp Lu H) as [Le Ve]. split; [exact Le|]. rewrite Ve, Vp, Vu, smul_amul_l, phase_create_law by exact Hx.
    now rewrite ev_exp, ev_mul, ev_I.
  Qed.
  Lemma r019_sound : rule_sound (r019 K).
  Proof.
    start. apply olift_ok in H. step H q Eq0. destruct (m_addscal (OAtom (ACreate ls)) _ _ Hy Eq0) as [Lq Vq]. destruct (m_disp u ls Hx) as [Ld Vd].
    destruct (m_times2 _ _ _ Lq Ld H) as [Le Ve]. split; [exact Le|]. rewrite Ve, Vd, Vq, disp_create_law by exact Hx.
    now rewrite ev_mul, ev_conj, (ev_sm1 I).
  Qed.
  Lemma r020_sound : rule_sound (r020 K).
  Proof.
    start. apply olift_ok in H. destruct (s_scal K HK _ (OAtom (ASigma j k ls)) _ Hy H) as [Le Ve]. split; [exact Le|].
    rewrite Ve, phase_sigma by exact Hx. now rewrite ev_exp, !ev_mul, ev_I, ev_Q.
  Qed.
  Lemma r021_sound : rule_sound (r021 K).
  Proof.
    start. apply olift_ok in H. destruct (s_scal K HK _ (OAtom (ASigma j k ls)) _ Hx H) as [Le Ve]. split; [exact Le|].
    rewrite Ve, sigma_phase by exact Hy. now rewrite ev_exp, !ev_mul, ev_I, ev_Q.
  Qed.
  Lemma spin_levels l : spin (i:=I) l -> exists n, dim l = Some n /\ forall j, level (dim:=dim) l j <-> j < n.
  Proof. intros H. destruct (spin_dim _ _ I l H) as [n Hn]. exists n. split; [exact Hn|]. intros j. unfold level. now rewrite Hn. Qed.
  Lemma r022_sound : rule_sound (r022 dim K).
  Proof.
    start. apply olift_ok in H. destruct (spin_levels ls Hx) as [n [Hn Hl]]. destruct Hy as [H1 H2]. rewrite Hl in H1.
    unfold Jpjmcoeff, spin_coeff in H. rewrite Hn in H. destruct (Nat.ltb_spec j n) as [_|]; [|lia]. cbn [bind] in H.
    rewrite jp_radicand_nat in H by exact H1. rewrite (jp_sigma _ _ I n j k ls Hx Hn H1).
    destruct (Nat.ltb_spec (j + 1) n) as [Hj|Hj].
    - assert (level (dim:=dim) ls (j + 1)) as H3 by (now apply Hl). rewrite raise_up_l in H by assumption.
      destruct (s_scal K HK _ _ _ (conj H3 H2 : legal (OAtom (ASigma _ _ _))) H) as [Le Ve]. split; [exact Le|]. rewrite Ve, ev_sqrt. reflexivity.
    - rewrite (raise_top_l n) in H by assumption. destruct (s_scal K HK _ OZero _ Logic.I H) as [Le Ve]. split; [exact Le|]. rewrite Ve. apply smul_zero.
  Qed.
  Lemma r023_sound : rule_sound (r023 dim K).
  Proof.
    start. apply olift_ok in H. destruct (spin_levels ls Hx) as [n [Hn Hl]]. destruct Hy as [H1 H2]. pose proof H1 as H1'. rewrite Hl in H1.
    unfold Jmjmcoeff, spin_coeff in H. rewrite Hn in H. destruct (Nat.ltb_spec j n) as [_|]; [|lia]. cbn [bind] in H.
    rewrite jm_radicand_nat in H by exact H1. rewrite (jm_sigma _ _ I n j k ls Hx Hn H1). rewrite raise_down_l in H by assumption.
    destruct (j =? 0).
    - destruct (s_scal K HK _ OZero _ Logic.I H) as [Le Ve]. split; [exact Le|]. rewrite Ve. apply smul_zero.
    - assert (level (dim:=dim) ls (j - 1)) as H3 by (apply Hl; lia).
      destruct (s_scal K HK _ _ _ (conj H3 H2 : legal (OAtom (ASigma _ _ _))) H) as [Le Ve]. split; [exact Le|]. rewrite Ve, ev_sqrt. reflexivity.
  Qed.
  Lemma r024_sound : rule_sound (r024 dim K).
  Proof.
    start. apply olift_ok in H. destruct (spin_levels ls Hx) as [n [Hn Hl]]. pose proof Hy as [H1 H2]. rewrite Hl in H1.
    unfold Jzjmcoeff, spin_coeff in H. rewrite Hn in H. destruct (Nat.ltb_spec j n) as [_|]; [|lia]. cbn [bind] in H.
    destruct (s_scal K HK _ (OAtom (ASigma j k ls)) _ Hy H) as [Le Ve]. split; [exact Le|]. rewrite Ve, (jz_sigma _ _ I n j k ls Hx Hn H1), ev_Q. reflexivity.
  Qed.
  Lemma r025_sound : rule_sound (r025 dim K).
  Proof.
    start. apply olift_ok in H. destruct (spin_levels ls Hy) as [n [Hn Hl]]. destruct Hx as [H1 H2]. pose proof H2 as H2'. rewrite Hl in H2.
    unfold Jmjmcoeff, spin_coeff in H. rewrite Hn in H. destruct (Nat.ltb_spec k n) as [_|]; [|lia]. cbn [bind] in H.
    rewrite jm_radicand_nat in H by exact H2. rewrite (sigma_jp I n j k ls Hy Hn H2). rewrite raise_down_r in H by assumption.
    destruct (k =? 0).
    - destruct (s_scal K HK _ OZero _ Logic.I H) as [Le Ve]. split; [exact Le|]. rewrite Ve. apply smul_zero.
    - assert (level (dim:=dim) ls (k - 1)) as H3 by (apply Hl; lia).
      destruct (s_scal K HK _ _ _ (conj H1 H3 : legal (OAtom (ASigma _ _ _))) H) as [Le Ve]. split; [exact Le|]. rewrite Ve, ev_sqrt. reflexivity.
  Qed.
  Lemma r026_sound : rule_sound (r026 dim K).
  Proof.
    start. apply olift_ok in H. destruct (spin_levels ls Hy) as [n [Hn Hl]]. destruct Hx as [H1 H2]. rewrite Hl in H2.
    unfold Jpjmcoeff, spin_coeff in H. rewrite Hn in H. destruct (Nat.ltb_spec k n) as [_|]; [|lia]. cbn [bind] in H.
    rewrite jp_radicand_nat in H by exact H2. rewrite (sigma_jm I n j k ls Hy Hn H2).
    destruct (Nat.ltb_spec (k + 1) n) as [Hj|Hj].
    - assert (level (dim:=dim) ls (k + 1)) as H3 by (now apply Hl). rewrite raise_up_r in H by assumption.
      destruct (s_scal K HK _ _ _ (conj H1 H3 : legal (OAtom (ASigma _ _ _))) H) as [Le Ve]. split; [exact Le|]. rewrite Ve, ev_sqrt. reflexivity.
    - rewrite (raise_top_r n) in H by assumption. destruct (s_scal K HK _ OZero _ Logic.I H) as [Le Ve]. split; [exact Le|]. rewrite Ve. apply smul_zero.
  Qed.
  Lemma r027_sound : rule_sound (r027 dim K).
  Proof.
    start. apply olift_ok in H. destruct (spin_levels ls Hy) as [n [Hn Hl]]. pose proof Hx as [H1 H2]. rewrite Hl in H2.
    unfold Jzjmcoeff, spin_coeff in H. rewrite Hn in H. destruct (Nat.ltb_spec k n) as [_|]; [|lia]. cbn [bind] in H.
    destruct (s_scal K HK _ (OAtom (ASigma j k ls)) _ Hx H) as [Le Ve]. split; [exact Le|]. rewrite Ve, (sigma_jz I n j k ls Hy Hn H2), ev_Q. reflexivity.
  Qed.
  Lemma r028_sound : rule_sound (r028 K).
  Proof.
    start. apply olift_ok in H. step H a Ea. step H p Ep. destruct (s_scal K HK _ (OAtom (AJz ls)) _ Hx Ea) as [La Va].
    destruct (m_times2 (OAtom (AJp ls)) (OAtom (AJm ls)) _ Hx Hx Ep) as [Lp Vp]. destruct (m_plus2 _ _ _ La Lp H) as [Le Ve]. split; [exact Le|].
    rewrite Ve, Va, Vp, ev_Q. symmetry. now apply jm_jp.
  Qed.
  Lemma r029_sound : rule_sound (r029 K).
  Proof.
    start. apply olift_ok in H. step H p Ep.
    destruct (m_times2 (OAtom (AJz ls)) (OAtom (AJm ls)) _ Hx Hx Ep) as [Lp Vp]. destruct (m_plus2 _ (OAtom (AJm ls)) _ Lp Hx H) as [Le Ve]. split; [exact Le|].
    rewrite Ve, Vp. symmetry. now apply jm_jz.
  Qed.
  Lemma r030_sound : rule_sound (r030 K).
  Proof.
    start. apply olift_ok in H. step H p Ep.
    destruct (m_times2 (OAtom (AJp ls)) (OAtom (AJz ls)) _ Hx Hx Ep) as [Lp Vp]. destruct (m_plus2 _ (OAtom (AJp ls)) _ Lp Hx H) as [Le Ve]. split; [exact Le|].
    rewrite Ve, Vp. symmetry. now apply jz_jp.
  Qed.
  Lemma times_rules_sound : Forall rule_sound (times_rules dim K).
  Proof.
    unfold times_rules. repeat (apply Forall_cons; [first
      [ exact r001_sound | exact r002_sound | exact r003_sound | exact r004_sound | exact r005_sound | exact r009_sound | exact r010_sound
      | exact r011_sound | exact r012_sound | exact r013_sound | exact r014_sound | exact r015_sound | exact r016_sound | exact r017_sound
      | exact r018_sound | exact r019_sound | exact r020_sound | exact r021_sound | exact r022_sound | exact r023_sound | exact r024_sound
      | exact r025_sound | exact r026_sound | exact r027_sound | exact r028_sound | exact r029_sound | exact r030_sound ]|]).
    constructor.
  Qed.
  Lemma rewrites_sound x y r : legal x -> legal y -> rewrites_to (times_cls dim K) x y r -> means r (amul (value x) (value y)).
  Proof.
    intros Hx Hy (b & q & a & E & _ & H). pose proof times_rules_sound as HF. cbn [times_cls binary_rules] in E. rewrite E in HF.
    apply Forall_app in HF. destruct HF as [_ HF]. exact (Forall_inv HF x y r Hx Hy H).
  Qed.
  Lemma contributes_sound r : legal r ->
    Forall legal (contributes (times_cls dim K) r) /\ mprod I (map value (contributes (times_cls dim K) r)) = value r.
  Proof.
    intros Hr. unfold contributes. cbn [times_cls is_neutral instance_args]. destruct r; cbn [is_one map];
      try (split; [now constructor|apply mprod_1]); try (split; [constructor|reflexivity]).
    split; [now apply legal_times|reflexivity].
  Qed.
  Lemma reach_sound l l' : reachable (times_cls dim K) l l' -> Forall legal l ->
    Forall legal l' /\ mprod I (map value l') = mprod I (map value l).
  Proof.
    induction 1 as [a b (pre & x & y & post & r & -> & H & ->)|a|a b c _ IH1 _ IH2]; intros HL.
    - apply Forall_app in HL. destruct HL as [H1 H2]. pose proof (Forall_inv H2) as Hx. pose proof (Forall_inv (Forall_inv_tail H2)) as Hy.
      pose proof (Forall_inv_tail (Forall_inv_tail H2)) as H3. destruct (rewrites_sound x y r Hx Hy H) as [Lr Vr].
      destruct (contributes_sound r Lr) as [Lc Vc]. split.
      + apply Forall_app. split; [exact H1|]. apply Forall_app. now split.
      + rewrite !map_app, !mprod_app, Vc, Vr. cbn [map]. rewrite !mprod_cons, !amul_assoc. reflexivity.
    - now split.
    - destruct (IH1 HL) as [L1 V1]. destruct (IH2 L1) as [L2 V2]. split; [exact L2|]. congruence.
  Qed.
  Lemma filter_one_sound l : Forall legal l ->
    Forall legal (filter (fun o => negb (is_one o)) l) /\ mprod I (map value (filter (fun o => negb (is_one o)) l)) = mprod I (map value l).
  Proof.
    induction l as [|x l IH]; intros H; [now split|]. destruct (IH (Forall_inv_tail H)) as [L V]. pose proof (Forall_inv H) as Hx. cbn [filter].
    destruct x; cbn [is_one negb map]; rewrite !mprod_cons; try (split; [constructor; [exact Hx|exact L]|]; now rewrite V).
    split; [exact L|]. rewrite V. symmetry. apply amul_1l.
  Qed.

  Section Order.
  Context (ord : list op -> res (list op)) (Hord : order_ok ord).
  Lemma times_sound fuel l e : Forall legal l -> times_step dim ord K fuel l = Ok e -> means e (mprod I (map value l)).
  Proof.
    intros HL E. unfold times_step in E. step E l1 E1. destruct (flat_times_sound l HL) as [L V]. rewrite <- V. clear V. apply Hord in E1.
    pose proof (moves_legal I _ _ E1 L) as L1. rewrite <- (moves_product I _ _ E1 L). clear E1.
    destruct (filter_one_sound l1 L1) as [Lf Vf].
    destruct l1 as [|x l1]; [injection E as <-; now split|]. rewrite <- Vf.
    destruct (filter (fun o => negb (is_one o)) (x :: l1)) as [|y [|z fops]] eqn:Ef.
    - injection E as <-. split; [exact (Forall_inv L1)|]. cbn [filter] in Ef.
      destruct x; try discriminate Ef. reflexivity.
    - injection E as <-. split; [exact (Forall_inv Lf)|]. symmetry. apply mprod_1.
    - step E r Er. unfold match_replace_binary in Er. step Er fo Efo. apply reduce_reach in Efo. destruct (reach_sound _ _ Efo Lf) as [Lo Vo].
      rewrite <- Vo. destruct fo as [|a [|b fo]]; injection Er as <-; injection E as <-.
      + now split.
      + split; [exact (Forall_inv Lo)|]. symmetry. apply mprod_1.
      + split; [now apply legal_times|reflexivity].
  Qed.
  End Order.
End Sound.
