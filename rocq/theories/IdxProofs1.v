From Verif Require Import Prelude ListFacts SortModel SortProofs HilbertModel BasisModel BasisSpec BasisProofs AlgSpec IdxModel IdxSpec.

Lemma idx_eqb_spec a b : idx_eqb a b = true <-> a = b.
Proof.
  unfold idx_eqb. destruct a, b. cbn. rewrite andb_true_iff, !Nat.eqb_eq. split; [intros [-> ->]; reflexivity|].
  intros [= -> ->]. split; reflexivity.
Qed.
Lemma idx_eqb_refl a : idx_eqb a a = true.
Proof. now apply idx_eqb_spec. Qed.
Lemma idx_eqb_neq a b : a <> b -> idx_eqb a b = false.
Proof. intros H. destruct (idx_eqb a b) eqn:E; [|reflexivity]. apply idx_eqb_spec in E. contradiction. Qed.
Lemma idx_dec (a b : idx) : {a = b} + {a <> b}.
Proof. destruct (idx_eqb a b) eqn:E; [left; now apply idx_eqb_spec|right; intros ->; rewrite idx_eqb_refl in E; discriminate]. Qed.
Lemma imem_spec x l : imem x l = true <-> In x l.
Proof.
  unfold imem. rewrite existsb_exists. split.
  - intros [y [H E]]. apply idx_eqb_spec in E. now subst.
  - intros H. exists x. split; [exact H|apply idx_eqb_refl].
Qed.
Lemma imem_false x l : imem x l = false <-> ~ In x l.
Proof. rewrite <- imem_spec. destruct (imem x l); intuition congruence. Qed.
Lemma distinct_spec l : distinct l = true <-> NoDup l.
Proof.
  induction l as [|x l IH]; cbn [distinct]; [split; [constructor|reflexivity]|].
  rewrite andb_true_iff, negb_true_iff, imem_false, IH. split.
  - intros [H1 H2]. now constructor.
  - intros H. inversion H; subst. split; assumption.
Qed.
Lemma sum_init_ok t rs s : sum_init t rs = Ok s <-> s = TSum t rs /\ NoDup (syms rs).
Proof.
  unfold sum_init. rewrite <- distinct_spec. destruct (distinct (syms rs)); split.
  - intros [= <-]. split; reflexivity.
  - intros [-> _]. reflexivity.
  - discriminate.
  - intros [_ H]. discriminate.
Qed.

Lemma upd_same e x v : upd e x v x = v.
Proof. unfold upd. now rewrite idx_eqb_refl. Qed.
Lemma upd_other e x v y : y <> x -> upd e x v y = e y.
Proof. intros H. unfold upd. now rewrite idx_eqb_neq. Qed.

Lemma scal_rect' (P : scal -> Prop) :
  (forall z, P (SConst z)) -> (forall e, P (SIdx e)) -> (forall n args, P (SSym n args)) ->
  (forall a b, P (SDelta a b)) -> (forall r e, P (SPiece r e)) ->
  (forall l, Forall P l -> P (SAdd l)) -> (forall l, Forall P l -> P (SMul l)) -> forall s, P s.
Proof.
  intros H1 H2 H3 H4 H5 H6 H7. fix F 1. intros [z|e|n args|a b|r e|l|l];
    [exact (H1 z)|exact (H2 e)|exact (H3 n args)|exact (H4 a b)|exact (H5 r e)|apply H6|apply H7].
  - exact ((fix G (l : list scal) : Forall P l :=
              match l with [] => Forall_nil _ | x :: l' => Forall_cons _ (F x) (G l') end) l).
  - exact ((fix G (l : list scal) : Forall P l :=
              match l with [] => Forall_nil _ | x :: l' => Forall_cons _ (F x) (G l') end) l).
Qed.

Section Den.
  Context (M : algebra) (symI : nat -> list Z -> K M) (atomI : nat -> list Z -> A M).
  Add Ring KrI : (kring M).
  Notation sd := (sden M symI). Notation td := (tden M symI atomI).

  (** ** values depend on the free symbols only *)
  Lemma iden_ext e e' a : (forall x, In x (ifree a) -> e x = e' x) -> iden e a = iden e' a.
  Proof.
    induction a; cbn; intros H; auto.
    - rewrite IHa1, IHa2; [reflexivity|intros; apply H, in_or_app; now right|intros; apply H, in_or_app; now left].
    - now rewrite IHa.
  Qed.
  Lemma idens_ext e e' l : (forall x, In x (flat_map ifree l) -> e x = e' x) -> map (iden e) l = map (iden e') l.
  Proof.
    intros H. apply map_ext_in. intros a Ha. apply iden_ext. intros x Hx. apply H. apply in_flat_map. now exists a.
  Qed.
  Lemma sden_ext e e' s : (forall x, In x (sfree s) -> e x = e' x) -> sd e s = sd e' s.
  Proof.
    induction s as [z|a|n args|a b|r a|l IH|l IH] using scal_rect'; cbn [sden sfree]; intros H.
    - reflexivity.
    - now rewrite (iden_ext e e').
    - now rewrite (idens_ext e e').
    - rewrite (iden_ext e e' a), (iden_ext e e' b); [reflexivity| |]; intros; apply H, in_or_app; auto.
    - now rewrite (iden_ext e e').
    - induction IH as [|s l H1 H2 IH2]; [reflexivity|]. cbn. rewrite H1.
      + f_equal. apply IH2. intros x Hx. apply H. cbn. apply in_or_app. now right.
      + intros x Hx. apply H. cbn. apply in_or_app. now left.
    - induction IH as [|s l H1 H2 IH2]; [reflexivity|]. cbn. rewrite H1.
      + f_equal. apply IH2. intros x Hx. apply H. cbn. apply in_or_app. now right.
      + intros x Hx. apply H. cbn. apply in_or_app. now left.
  Qed.

  (** ** sums over ranges *)
  Lemma sum_ranges_sim (R : env -> env -> Prop) rs f g :
    (forall e e' x v, In x (syms rs) -> R e e' -> R (upd e x v) (upd e' x v)) ->
    (forall e e', R e e' -> f e = g e') ->
    forall e e', R e e' -> sum_ranges M rs f e = sum_ranges M rs g e'.
  Proof.
    induction rs as [|r rs IH]; intros Hu Hf e e' He; cbn [sum_ranges]; [now apply Hf|].
    apply asum_ext. intros v _. apply IH; [|exact Hf|].
    - intros f1 f2 x w Hx. apply Hu. now right.
    - apply Hu; [now left|exact He].
  Qed.
  Lemma sum_ranges_ext rs f g e :
    (forall e', (forall y, ~ In y (syms rs) -> e' y = e y) -> f e' = g e') ->
    sum_ranges M rs f e = sum_ranges M rs g e.
  Proof.
    intros H. apply (sum_ranges_sim (fun a b => a = b /\ forall y, ~ In y (syms rs) -> a y = e y)).
    - intros a b x v Hx [-> Ha]. split; [reflexivity|]. intros y Hy. rewrite upd_other; [now apply Ha|].
      intros ->. contradiction.
    - intros a b [-> Ha]. now apply H.
    - split; [reflexivity|reflexivity].
  Qed.
  (** like above, with the values of the ranges *)
  Lemma sum_ranges_ext_in rs f g e : NoDup (syms rs) ->
    (forall e', (forall y, ~ In y (syms rs) -> e' y = e y) ->
                (forall x r, In (x, r) rs -> In (e' x) (vals r)) -> f e' = g e') ->
    sum_ranges M rs f e = sum_ranges M rs g e.
  Proof.
    revert e. induction rs as [|[x r] rs IH]; intros e Hn H; cbn [sum_ranges].
    - apply H; [reflexivity|intros x r []].
    - cbn in Hn. inversion Hn as [|z zs Hx Hn']; subst. apply asum_ext. intros v Hv. apply IH; [exact Hn'|].
      intros e' He' Hr. apply H.
      + intros y Hy. cbn in Hy. rewrite He' by tauto. apply upd_other. intros ->. tauto.
      + intros y q [E|E]; [|now apply Hr]. injection E as <- <-. rewrite He' by exact Hx. rewrite upd_same. exact Hv.
  Qed.
  Definition extf (f : env -> A M) : Prop := forall e e', (forall x, e x = e' x) -> f e = f e'.
  Lemma sum_ranges_extf rs f : extf f -> extf (sum_ranges M rs f).
  Proof.
    intros H e e' He. apply (sum_ranges_sim (fun a b => forall x, a x = b x)); auto.
    intros a b x v _ Hab y. unfold upd. destruct (idx_eqb y x); auto.
  Qed.
  Lemma sum_ranges_app rs rs' f e : sum_ranges M (rs ++ rs') f e = sum_ranges M rs (sum_ranges M rs' f) e.
  Proof. revert e. induction rs as [|r rs IH]; intros e; cbn [app sum_ranges]; [reflexivity|]. apply asum_ext. intros v _. apply IH. Qed.
  Lemma sum_ranges_perm rs rs' f e : Permutation rs rs' -> NoDup (syms rs) -> extf f ->
    sum_ranges M rs f e = sum_ranges M rs' f e.
  Proof.
    intros H. revert e. induction H as [|r l l' H IH|r r' l|l1 l2 l3 H1 IH1 H2 IH2]; intros e Hn Hf.
    - reflexivity.
    - cbn [sum_ranges]. apply asum_ext. intros v _. apply IH; [|exact Hf]. now inversion Hn.
    - cbn [sum_ranges]. rewrite asum_swap. apply asum_ext. intros v _. apply asum_ext. intros w _.
      apply sum_ranges_extf; [exact Hf|]. intros x. unfold upd.
      assert (fst r' <> fst r).
      { inversion Hn as [|? ? Hi _]; subst. intros E. apply Hi. left. now symmetry. }
      destruct (idx_eqb x (fst r)) eqn:E; destruct (idx_eqb x (fst r')) eqn:F; try reflexivity.
      apply idx_eqb_spec in E, F. congruence.
    - rewrite IH1 by assumption. apply IH2; [|exact Hf].
      apply (Permutation_NoDup (l := syms l1)); [now apply Permutation_map|exact Hn].
  Qed.
  Lemma sum_ranges_add rs f g e :
    sum_ranges M rs (fun e => aadd (f e) (g e)) e = aadd (sum_ranges M rs f e) (sum_ranges M rs g e).
  Proof.
    revert e. induction rs as [|r rs IH]; intros e; cbn [sum_ranges]; [reflexivity|].
    rewrite <- asum_add. apply asum_ext. intros v _. apply IH.
  Qed.
  Lemma sum_ranges_smul rs c f e :
    sum_ranges M rs (fun e => smul c (f e)) e = smul c (sum_ranges M rs f e).
  Proof.
    revert e. induction rs as [|r rs IH]; intros e; cbn [sum_ranges]; [reflexivity|].
    rewrite <- asum_smul. apply asum_ext. intros v _. apply IH.
  Qed.
  Lemma sum_ranges_mul_r rs f y e :
    sum_ranges M rs (fun e => amul (f e) y) e = amul (sum_ranges M rs f e) y.
  Proof.
    revert e. induction rs as [|r rs IH]; intros e; cbn [sum_ranges]; [reflexivity|].
    rewrite <- asum_mul_r. apply asum_ext. intros v _. apply IH.
  Qed.
  Lemma sum_ranges_mul_l rs f y e :
    sum_ranges M rs (fun e => amul y (f e)) e = amul y (sum_ranges M rs f e).
  Proof.
    revert e. induction rs as [|r rs IH]; intros e; cbn [sum_ranges]; [reflexivity|].
    rewrite <- asum_mul_l. apply asum_ext. intros v _. apply IH.
  Qed.
  Lemma tden_ext t : forall e e', (forall x, In x (tfree t) -> e x = e' x) -> td e t = td e' t.
  Proof.
    induction t as [n args|c t IH|t IHt u IHu|t IHt u IHu|t IH rs]; intros e e' H; cbn [tden tfree] in *.
    - now rewrite (idens_ext e e').
    - rewrite (sden_ext e e' c), (IH e e'); [reflexivity| |]; intros; apply H, in_or_app; auto.
    - rewrite (IHt e e'), (IHu e e'); [reflexivity| |]; intros; apply H, in_or_app; auto.
    - rewrite (IHt e e'), (IHu e e'); [reflexivity| |]; intros; apply H, in_or_app; auto.
    - revert e e' H. induction rs as [|r rs IHr]; intros e e' H; cbn [sum_ranges].
      + apply IH. intros x Hx. apply H. cbn. rewrite filter_In. split; [exact Hx|reflexivity].
      + apply asum_ext. intros v _. apply IHr. intros x Hx. unfold upd.
        destruct (idx_eqb x (fst r)) eqn:E; [reflexivity|]. apply H. rewrite filter_In in *. destruct Hx as [H1 H2].
        split; [exact H1|]. cbn [syms map imem existsb]. rewrite E. exact H2.
  Qed.
  Lemma tden_extf t : extf (fun e => td e t).
  Proof. intros e e' H. apply tden_ext. auto. Qed.

  (** ** substitution *)
  Definition msub (e : env) (m : vmap) : env :=
    fun x => match lookup x m with Some v => iden e v | None => e x end.
  Lemma iden_subst e m a : iden e (isubst m a) = iden (msub e m) a.
  Proof. induction a as [x| | |]; cbn; try congruence. unfold msub. destruct (lookup x m); reflexivity. Qed.
  Lemma idens_subst e m l : map (iden e) (map (isubst m) l) = map (iden (msub e m)) l.
  Proof. rewrite map_map. apply map_ext. intros a. apply iden_subst. Qed.
  Lemma sden_subst e m s : sd e (ssubst m s) = sd (msub e m) s.
  Proof.
    induction s as [z|a|n args|a b|r a|l IH|l IH] using scal_rect'; cbn [sden ssubst].
    - reflexivity.
    - now rewrite iden_subst.
    - now rewrite idens_subst.
    - now rewrite !iden_subst.
    - now rewrite iden_subst.
    - induction IH as [|s l H1 H2 IH2]; [reflexivity|]. cbn. now rewrite H1, IH2.
    - induction IH as [|s l H1 H2 IH2]; [reflexivity|]. cbn. now rewrite H1, IH2.
  Qed.
  (** no symbol bound inside is replaced, or free in a replacement *)
  Definition no_capture (m : vmap) (bs : list idx) : Prop :=
    forall z, In z bs -> lookup z m = None /\ forall y v, lookup y m = Some v -> ~ In z (ifree v).
  Lemma no_capture_app m a b : no_capture m (a ++ b) -> no_capture m a /\ no_capture m b.
  Proof. intros H. split; intros z Hz; apply H, in_or_app; auto. Qed.
  Lemma ranges_subst_none m rs : (forall z, In z (syms rs) -> lookup z m = None) -> mapM (range_subst m) rs = Ok rs.
  Proof.
    induction rs as [|r rs IH]; intros H; [reflexivity|]. cbn [mapM]. unfold range_subst at 1.
    rewrite (H (fst r)) by (now left). cbn [bind]. rewrite IH; [reflexivity|]. intros z Hz. apply H. now right.
  Qed.
  Lemma tden_subst m t : forall t' e, no_capture m (tbound t) -> tsubst m t = Ok t' ->
    td e t' = td (msub e m) t.
  Proof.
    induction t as [n args|c t IH|t IHt u IHu|t IHt u IHu|t IH rs]; intros t' e Hc H; cbn [tsubst tbound] in *.
    - injection H as <-. cbn. now rewrite idens_subst.
    - destruct (tsubst m t) as [t1|] eqn:E; [|discriminate]. injection H as <-. cbn.
      rewrite sden_subst. now rewrite (IH t1 e).
    - apply no_capture_app in Hc. destruct Hc as [C1 C2].
      destruct (tsubst m t) as [t1|] eqn:E; [|discriminate]. cbn [bind] in H.
      destruct (tsubst m u) as [u1|] eqn:F; [|discriminate]. injection H as <-. cbn.
      now rewrite (IHt t1 e), (IHu u1 e).
    - apply no_capture_app in Hc. destruct Hc as [C1 C2].
      destruct (tsubst m t) as [t1|] eqn:E; [|discriminate]. cbn [bind] in H.
      destruct (tsubst m u) as [u1|] eqn:F; [|discriminate]. injection H as <-. cbn.
      now rewrite (IHt t1 e), (IHu u1 e).
    - apply no_capture_app in Hc. destruct Hc as [C1 C2].
      destruct (tsubst m t) as [t1|] eqn:E; [|discriminate]. cbn [bind] in H.
      rewrite ranges_subst_none in H by (intros z Hz; now apply C1). cbn [bind] in H.
      apply sum_init_ok in H. destruct H as [-> _]. cbn.
      apply (sum_ranges_sim (fun a b => forall z, msub a m z = b z)).
      + intros a b x v Hx Hab z. destruct (idx_dec z x) as [->|Hz].
        * unfold msub. destruct (C1 x Hx) as [C _]. rewrite C. now rewrite !upd_same.
        * rewrite upd_other by exact Hz. rewrite <- Hab. unfold msub. destruct (lookup z m) as [w|] eqn:Ew.
          -- apply iden_ext. intros y Hy. apply upd_other. intros ->. destruct (C1 x Hx) as [_ C]. now apply (C z w).
          -- now rewrite upd_other.
      + intros a b Hab. rewrite (IH t1 a C2 eq_refl). apply tden_ext. intros x _. apply Hab.
      + reflexivity.
  Qed.
  Lemma tsubst_ok m t : (forall z, In z (tbound t) -> lookup z m = None) ->
    (exists t', tsubst m t = Ok t') \/ tsubst m t = Err ValueError.
  Proof.
    induction t as [n args|c t IH|t IHt u IHu|t IHt u IHu|t IH rs]; intros H; cbn [tsubst tbound] in *.
    - left. eexists. reflexivity.
    - destruct (IH H) as [[t' ->]| ->]; [left; eexists; reflexivity|right; reflexivity].
    - destruct (IHt (fun z Hz => H z (in_or_app _ _ _ (or_introl Hz)))) as [[t' ->]| ->];
      destruct (IHu (fun z Hz => H z (in_or_app _ _ _ (or_intror Hz)))) as [[u' ->]| ->]; cbn; eauto.
    - destruct (IHt (fun z Hz => H z (in_or_app _ _ _ (or_introl Hz)))) as [[t' ->]| ->];
      destruct (IHu (fun z Hz => H z (in_or_app _ _ _ (or_intror Hz)))) as [[u' ->]| ->]; cbn; eauto.
    - rewrite ranges_subst_none by (intros z Hz; apply H, in_or_app; now left).
      destruct (IH (fun z Hz => H z (in_or_app _ _ _ (or_intror Hz)))) as [[t' ->]| ->]; cbn [bind]; [|eauto].
      unfold sum_init. destruct (distinct (syms rs)); eauto.
  Qed.
  (** all sums inside were built by the constructor *)
  Lemma tsubst_wf m t : wf t -> (forall z, In z (tbound t) -> lookup z m = None) ->
    exists t', tsubst m t = Ok t' /\ wf t' /\ tbound t' = tbound t.
  Proof.
    induction t as [n args|c t IH|t IHt u IHu|t IHt u IHu|t IH rs]; intros W H; cbn [tsubst tbound wf] in *.
    - eexists. repeat split.
    - destruct (IH W H) as [t' [-> [W' B]]]. eexists. split; [reflexivity|]. cbn. split; assumption.
    - destruct W as [W1 W2]. destruct (IHt W1 (fun z Hz => H z (in_or_app _ _ _ (or_introl Hz)))) as [t' [-> [W1' B1]]].
      destruct (IHu W2 (fun z Hz => H z (in_or_app _ _ _ (or_intror Hz)))) as [u' [-> [W2' B2]]].
      eexists. split; [reflexivity|]. cbn. rewrite B1, B2. repeat split; assumption.
    - destruct W as [W1 W2]. destruct (IHt W1 (fun z Hz => H z (in_or_app _ _ _ (or_introl Hz)))) as [t' [-> [W1' B1]]].
      destruct (IHu W2 (fun z Hz => H z (in_or_app _ _ _ (or_intror Hz)))) as [u' [-> [W2' B2]]].
      eexists. split; [reflexivity|]. cbn. rewrite B1, B2. repeat split; assumption.
    - destruct W as [W1 W2]. rewrite ranges_subst_none by (intros z Hz; apply H, in_or_app; now left).
      destruct (IH W1 (fun z Hz => H z (in_or_app _ _ _ (or_intror Hz)))) as [t' [-> [W1' B1]]]. cbn [bind].
      exists (TSum t' rs). split; [now apply sum_init_ok|]. cbn. rewrite B1. repeat split; assumption.
  Qed.
End Den.
