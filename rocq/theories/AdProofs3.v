(** Adiabatic elimination: eval_adiabatic_limit and the choice of the null space. *)
From Coq Require Import Permutation.
From Verif Require Import Prelude ListFacts AlgSpec CAlg NcRing MatModel SlhModel MatProofs MatSpec MatProofs2 SlhProofs1 AdModel AdSpec AdProofs AdProofs2.

Section Eval.
  Context {M : calgebra}.
  Notation A := (A M). Notation K := (K M).
  Notation "x + y" := (aadd x y). Notation "x * y" := (amul x y). Notation "- x" := (aopp x).
  Notation sm := (@bigsum M).
  Add Ring Kr : (kring M).
  Context (p : parts M) (n : nat) (f g : nat -> A) (w : nat -> nat -> A) (yt p0 : A).
  Context (SF : has_shape (pF p) 1 n) (SG : has_shape (pG p) 1 n) (SN : has_shape (pN p) n n).
  Context (EF : forall j, j < n -> ent (pF p) 0 j = f j) (EG : forall j, j < n -> ent (pG p) 0 j = g j).
  Context (EN : forall i j, i < n -> j < n -> ent (pN p) i j = w i j).
  Notation a := (pA p). Notation b := (pB p).
  Lemma sm1 (F : nat -> A) : sm 1 F = F 0.
  Proof. rewrite sm_S. unfold bigsum. cbn [seq asum]. apply aadd_0. Qed.
  Lemma eval_parts : exists r, eval_limit p yt p0 = Ok r /\ system r n /\
    (forall i j, i < n -> j < n -> star (ent (sS r) j i) = lim_N n yt p0 f w i j) /\
    (forall j, j < n -> star (ent (sL r) j 0) = lim_L a yt p0 f g j) /\
    sH r = star (smul (kopp iu) (smul khalf (lim_K a b yt p0 + - star (lim_K a b yt p0)))).
  Proof.
    pose proof SF as (F1 & F2 & _). pose proof SG as (G1 & G2 & _). pose proof SN as (N1 & N2 & _).
    unfold eval_limit, msub, madd, mul_op_l, mscale. cbn [nrows ncols tab]. rewrite F1, F2, G1, G2, Nat.eqb_refl. cbn [Nat.eqb andb bind nrows ncols tab].
    assert (has_shape (madj (pF p)) n 1) as SFd. { unfold madj, element_wise, mtranspose. cbn [nrows ncols tab]. rewrite F1, F2. apply has_shape_tab. }
    assert (forall j, j < n -> ent (madj (pF p)) j 0 = star (f j)) as EFd.
    { intros j Hj. unfold madj, element_wise, mtranspose. cbn [nrows ncols tab]. rewrite F1, F2. rewrite ent_tab by lia. rewrite ent_tab by lia. now rewrite EF. }
    revert EFd. destruct SFd as (D1 & D2 & D3). revert D1 D2 D3.
    generalize (madj (pF p)). intros Fd D1 D2 D3 EFd. unfold mul_op_r at 1. rewrite D1, D2.
    rewrite (mmul_shape _ _ n 1 n (has_shape_tab n 1 _) SF). cbn [bind nrows ncols tab identity_matrix]. rewrite N1, Nat.eqb_refl. cbn [andb bind]. rewrite N2.
    rewrite (mmul_shape _ _ n n n (has_shape_tab n n _) (has_shape_tab n n _)). cbn [bind].
    unfold mk_slh, madj, element_wise, mtranspose, mul_op_r. cbn [nrows ncols tab]. rewrite Nat.eqb_refl. cbn [Nat.eqb negb].
    eexists. split; [reflexivity|]. cbn [sS sL sH]. split; [split; apply has_shape_tab|]. split; [|split].
    - intros i j Hi Hj. rewrite !ent_tab by lia. rewrite star_star. unfold lim_N. rewrite <- sm_mul_r. apply sm_ext. intros l Hl.
      rewrite !ent_tab by lia. rewrite (EN i l Hi Hl), sm1. rewrite !ent_tab by lia. rewrite (EFd l Hl), (EF j Hj). unfold delta.
      unfold identity_matrix. rewrite ent_tab by lia. f_equal. f_equal. apply aadd_comm.
    - intros j Hj. rewrite !ent_tab by lia. rewrite star_star. unfold lim_L. rewrite (EF j Hj), (EG j Hj). reflexivity.
    - reflexivity.
  Qed.
  Lemma star_imag (x : A) : star (smul (kopp iu) (smul khalf (x + - star x))) = smul (kopp iu) (smul khalf (x + - star x)).
  Proof.
    rewrite !star_smul, kconj_opp, iu_conj, khalf_conj, star_add, star_opp, star_star.
    replace (star x + - x) with (- (x + - star x)) by ncr. unfold aopp at 1. rewrite <- !smul_mul. f_equal. ring.
  Qed.
  Lemma imag (x : A) : smul khalf (x + star x) + smul iu (smul (kopp iu) (smul khalf (x + - star x))) = x.
  Proof.
    rewrite <- (smul_mul M iu). replace (kmul (@iu M) (kopp iu)) with (kopp (kmul (@iu M) iu)) by ring. rewrite iu_sq.
    replace (kopp (kopp (@k1 M))) with (@k1 M) by ring. rewrite smul_1, <- smul_addr.
    replace (x + star x + (x + - star x)) with (x + x) by ncr. apply half_half.
  Qed.
End Eval.

Section Choose.
  Context {M : calgebra}.
  Notation A := (A M). Notation K := (K M).
  Notation "x + y" := (aadd x y). Notation "x * y" := (amul x y). Notation "- x" := (aopp x).
  Add Ring Kr2 : (kring M).
  Context (kinv : K -> K) (proj : nat -> A) (b : nat).
  Context (Hp : forall l m, l < b -> m < b -> proj l * proj m = if l =? m then proj l else a0).
  Context (Hs : forall l, l < b -> star (proj l) = proj l).
  Context (H1 : asum proj (seq 0 b) = a1).
  Definition tval (t : nat * K) : A := smul (snd t) (proj (fst t)).
  Definition tinv (t : nat * K) : A := smul (kinv (snd t)) (proj (fst t)).
  Lemma star_sumproj ls : (forall l, In l ls -> l < b) -> star (asum proj ls) = asum proj ls.
  Proof. intros H. rewrite star_asum. apply asum_ext. intros l Hl. apply Hs. auto. Qed.
  Lemma proj_sum_r l ls : l < b -> (forall m, In m ls -> m < b) -> NoDup ls -> proj l * asum proj ls = if existsb (Nat.eqb l) ls then proj l else a0.
  Proof.
    intros Hl. induction ls as [|m ls IH]; intros Hin Hnd; [apply amul_0r|]. rewrite asum_cons, amul_addr. cbn [existsb]. inversion Hnd as [|? ? Hm Hnd']; subst.
    rewrite IH; [|intros; apply Hin; now right|exact Hnd']. rewrite Hp; [|exact Hl|apply Hin; now left].
    destruct (Nat.eqb_spec l m) as [E|E].
    - subst m. cbn [orb]. destruct (existsb (Nat.eqb l) ls) eqn:Ex; [|apply aadd_0r].
      apply existsb_exists in Ex as (z & Hz & E). apply Nat.eqb_eq in E. subst z. contradiction.
    - cbn [orb]. apply aadd_0.
  Qed.
  Lemma proj_sum_l l ls : l < b -> (forall m, In m ls -> m < b) -> NoDup ls -> asum proj ls * proj l = if existsb (Nat.eqb l) ls then proj l else a0.
  Proof.
    intros Hl Hin Hnd. transitivity (star (proj l * asum proj ls)); [now rewrite star_mul, star_sumproj, Hs|].
    rewrite proj_sum_r by auto. destruct (existsb _ _); [now apply Hs|apply star_0].
  Qed.
  Lemma weighted (u v : K -> K) l c ts : l < b -> (forall t, In t ts -> fst t < b) -> NoDup (map fst ts) ->
    smul (u c) (proj l) * asum (fun t => smul (v (snd t)) (proj (fst t))) ts =
    asum (fun t => if l =? fst t then smul (kmul (u c) (v (snd t))) (proj l) else a0) ts.
  Proof.
    intros Hl Hin _. rewrite <- asum_mul_l. apply asum_ext. intros t Ht. rewrite smul_amul_l, smul_amul_r, Hp; auto.
    destruct (l =? fst t); [now rewrite smul_mul|]. now rewrite !smul_zero.
  Qed.
  Lemma pick (F : nat * K -> A) l c ts : NoDup (map fst ts) -> In (l, c) ts ->
    asum (fun t => if l =? fst t then F t else a0) ts = F (l, c).
  Proof.
    induction ts as [|[m d] ts IH]; intros Hnd Hin; [destruct Hin|]. rewrite asum_cons. cbn [map fst] in *. inversion Hnd as [|? ? Hm Hnd']; subst.
    destruct Hin as [E|Hin].
    - injection E as -> ->. rewrite Nat.eqb_refl. transitivity (F (l, c) + a0); [|apply aadd_0r]. f_equal.
      transitivity (asum (fun _ : nat * K => @a0 M) ts); [|apply asum_zero]. apply asum_ext. intros [m d] Ht. cbn [fst]. destruct (Nat.eqb_spec l m); [|reflexivity].
      subst m. exfalso. apply Hm. apply in_map_iff. now exists (l, d).
    - destruct (Nat.eqb_spec l m) as [E|E]; [|rewrite IH by auto; apply aadd_0].
      subst m. exfalso. apply Hm. apply in_map_iff. now exists (l, c).
  Qed.
  Lemma prod_diag (u v : K -> K) ts : (forall t, In t ts -> fst t < b) -> NoDup (map fst ts) -> (forall t, In t ts -> kmul (u (snd t)) (v (snd t)) = k1) ->
    asum (fun t => smul (u (snd t)) (proj (fst t))) ts * asum (fun t => smul (v (snd t)) (proj (fst t))) ts = asum proj (map fst ts).
  Proof.
    intros Hin Hnd Huv. rewrite <- asum_mul_r. transitivity (asum (fun t : nat * K => proj (fst t)) ts).
    2:{ clear. induction ts as [|t ts IH]; [reflexivity|]. cbn [map]. now rewrite !asum_cons, IH. }
    apply asum_ext. intros [l c] Ht. cbn [fst snd]. rewrite (weighted u v l c ts); [|apply (Hin _ Ht)|exact Hin|exact Hnd].
    rewrite (pick (fun t => smul (kmul (u c) (v (snd t))) (proj l)) l c ts Hnd Ht). cbn [snd]. pose proof (Huv _ Ht) as G. cbn [snd] in G. rewrite G. apply smul_1.
  Qed.
  Lemma asum_perm (F : nat -> A) l1 l2 : Permutation l1 l2 -> asum F l1 = asum F l2.
  Proof.
    induction 1 as [|x l1 l2 _ IH|x z l|? ? ? _ IH1 _ IH2]; [reflexivity|now rewrite !asum_cons, IH| |now rewrite IH1].
    rewrite !asum_cons, !aadd_assoc. f_equal. apply aadd_comm.
  Qed.
  Lemma disjoint_sum ls ms : (forall l, In l ls -> l < b) -> (forall l, In l ms -> l < b) -> NoDup ms -> (forall l, In l ls -> ~ In l ms) ->
    forall (u : nat -> K), asum (fun l => smul (u l) (proj l)) ls * asum proj ms = a0.
  Proof.
    intros Hl Hm Hnd Hd u. rewrite <- asum_mul_r. transitivity (asum (fun _ : nat => @a0 M) ls); [|apply asum_zero]. apply asum_ext. intros l Hin.
    rewrite smul_amul_l, proj_sum_r; auto. destruct (existsb _ _) eqn:E; [|apply smul_zero].
    apply existsb_exists in E as (z & Hz & E). apply Nat.eqb_eq in E. subst z. destruct (Hd l Hin Hz).
  Qed.
  Lemma choose_sound ts : (forall t, In t ts -> fst t < b) -> NoDup (map fst ts) -> (forall t, In t ts -> kmul (snd t) (kinv (snd t)) = k1) ->
    let slow := filter (fun l => negb (existsb (Nat.eqb l) (map fst ts))) (seq 0 b) in
    slow_space (asum tval ts) (asum tinv ts) (asum proj slow).
  Proof.
    intros Hin Hnd Hk slow.
    assert (forall l, In l slow -> l < b) as Hsl. { intros l Hl. apply filter_In in Hl as [Hl _]. apply in_seq in Hl. lia. }
    assert (NoDup slow) as Hns by apply NoDup_filter, seq_NoDup.
    assert (forall l, In l (map fst ts) -> ~ In l slow) as Hd.
    { intros l H G. apply filter_In in G as [_ G]. apply Bool.negb_true_iff in G. apply Bool.not_true_iff_false in G. apply G.
      apply existsb_exists. exists l. split; [exact H|apply Nat.eqb_refl]. }
    assert (forall t, In t ts -> asum proj slow * proj (fst t) = a0) as HPl.
    { intros t Ht. rewrite proj_sum_l; auto. destruct (existsb _ _) eqn:E; [|reflexivity]. apply existsb_exists in E as (z & Hz & E). apply Nat.eqb_eq in E. subst z.
      destruct (Hd (fst t)); [now apply in_map|exact Hz]. }
    assert (forall t, In t ts -> proj (fst t) * asum proj slow = a0) as HPr.
    { intros t Ht. rewrite proj_sum_r; auto. destruct (existsb _ _) eqn:E; [|reflexivity]. apply existsb_exists in E as (z & Hz & E). apply Nat.eqb_eq in E. subst z.
      destruct (Hd (fst t)); [now apply in_map|exact Hz]. }
    assert (asum proj (map fst ts) = a1 + - asum proj slow) as Hone.
    { rewrite <- H1. rewrite (asum_perm proj (seq 0 b) (map fst ts ++ slow)).
      - rewrite asum_app. ncr.
      - apply NoDup_Permutation; [apply seq_NoDup| |].
        + clear - Hnd Hns Hd. clearbody slow. induction (map fst ts) as [|l ls IH]; [exact Hns|]. cbn [app]. inversion Hnd; subst. constructor.
          * rewrite in_app_iff. intros [G|G]; [contradiction|]. apply (Hd l); [now left|exact G].
          * apply IH; [assumption|]. intros m Hm. apply Hd. now right.
        + intros l. rewrite in_app_iff. split.
          * intros Hl. unfold slow. rewrite filter_In. destruct (existsb (Nat.eqb l) (map fst ts)) eqn:E; [left|right; now split].
            apply existsb_exists in E as (z & Hz & E). apply Nat.eqb_eq in E. now subst z.
          * intros [Hl|Hl]; [apply in_map_iff in Hl as (t & <- & Ht); apply in_seq; pose proof (Hin t Ht); lia|now apply filter_In in Hl]. }
    assert (forall (u : K -> K), asum (fun t : nat * K => smul (u (snd t)) (proj (fst t))) ts * asum proj slow = a0) as Zr.
    { intros u. rewrite <- asum_mul_r. transitivity (asum (fun _ : nat * K => @a0 M) ts); [|apply asum_zero]. apply asum_ext. intros t Ht. rewrite smul_amul_l, HPr by exact Ht. apply smul_zero. }
    assert (forall (u : K -> K), asum proj slow * asum (fun t : nat * K => smul (u (snd t)) (proj (fst t))) ts = a0) as Zl.
    { intros u. rewrite <- asum_mul_l. transitivity (asum (fun _ : nat * K => @a0 M) ts); [|apply asum_zero]. apply asum_ext. intros t Ht. rewrite smul_amul_r, HPl by exact Ht. apply smul_zero. }
    split; [|split; [now apply star_sumproj|]].
    - rewrite <- (asum_mul_r M proj slow (asum proj slow)). apply asum_ext. intros l Hl. rewrite proj_sum_r; auto.
      destruct (existsb _ _) eqn:E; [reflexivity|]. exfalso. apply Bool.not_true_iff_false in E. apply E. apply existsb_exists. exists l. split; [exact Hl|apply Nat.eqb_refl].
    - split; [apply (Zr (fun c => c))|]. split; [apply (Zl (fun c => c))|]. split; [|split; [|split; [apply (Zr kinv)|apply (Zl kinv)]]].
      + rewrite <- Hone. apply (prod_diag (fun c => c) kinv); auto.
      + rewrite <- Hone. apply (prod_diag kinv (fun c => c)); auto. intros t Ht. rewrite <- (Hk t Ht). ring.
  Qed.
End Choose.
