(** Commutators, adjoints and expansion of such products. *)
From Coq Require Import QArith Qcanon Permutation Sorting.
From Verif Require Import Prelude ListFacts SortModel SortSpec SortProofs BinModel BinProofs OpModel OpSpec OpProofs1 OpForms OpForm OpFuel OpOrder OpLocal OpClosed OpSiteSpec OpMulti1 OpMulti2.
Local Open Scope nat_scope.

Section Multi.
  Context {S : scalars} (dim : nat -> option nat) (olt : op S -> op S -> bool) (slt : list nat -> list nat -> bool).
  Context (Ho : site_order olt slt).
  Local Notation op := (op S).

  Lemma sumless_inv_scal c (x : op) : sumless (OScal c x) -> sumless x.
  Proof. intros H. inversion H; subst; [|assumption]. apply sl_nf. now apply nf_inv_scal with c. Qed.
  Lemma site_sumless (x : op) : site x -> sumless x.
  Proof. intros H. now apply sl_nf, nf_site. Qed.
  Lemma zero_sumless : sumless (@OZero S).
  Proof. apply site_sumless. now exists 0. Qed.
  (** sumless, or a sum of such *)
  Definition sumf (x : op) : Prop := sumless x \/ exists es, x = OPlus es /\ Forall sumless es.
  Lemma sumf_summands (x : op) : sumf x -> Forall sumless (summands_of x).
  Proof.
    intros [H|[es [-> H]]]; [|exact H]. destruct x; try (apply one; exact H). cbn [summands_of].
    inversion H as [y Hy| | |]; subst. inversion Hy as [y [l' Hl]| |]; subst. apply loc_plus in Hl. eapply Forall_impl; [|exact Hl]. intros z Hz. apply site_sumless. now exists l'.
  Qed.
  Lemma flat_plus_sumless (L : list op) : Forall sumf L -> Forall sumless (flat_plus L).
  Proof.
    unfold flat_plus. induction 1 as [|x L Hx _ IH]; [constructor|]. cbn [flat_map]. apply Forall_app. split; [|exact IH]. exact (sumf_summands x Hx).
  Qed.

  Definition agm (Q : op -> Prop) (r r' : res op) : Prop := r = r' /\ forall e, r' = Ok e -> Q e.
  Lemma agm_ok (Q : op -> Prop) e : Q e -> agm Q (Ok e) (Ok e).
  Proof. intros H. split; [reflexivity|]. intros e' E. now injection E as <-. Qed.
  Lemma agm_err (Q : op -> Prop) x : agm Q (Err x) (Err x).
  Proof. split; [reflexivity|discriminate]. Qed.
  Lemma agm_bind (Q Q' : op -> Prop) r r' k k' : agm Q r r' -> (forall e, Q e -> agm Q' (k e) (k' e)) -> agm Q' (bind r k) (bind r' k').
  Proof. intros [-> H] Hk. destruct r' as [e|x]; [apply Hk; now apply H|apply agm_err]. Qed.
  Lemma agm_weaken (Q Q' : op -> Prop) r r' : (forall e, Q e -> Q' e) -> agm Q r r' -> agm Q' r r'.
  Proof. intros H [E G]. split; [exact E|]. intros e Ee. now apply H, G. Qed.
  Definition agms (Q : op -> Prop) (r r' : res (list op)) : Prop := r = r' /\ forall es, r' = Ok es -> Forall Q es.
  Lemma agms_bind (Q Q' : op -> Prop) r r' k k' : agms Q r r' -> (forall es, Forall Q es -> agm Q' (k es) (k' es)) -> agm Q' (bind r k) (bind r' k').
  Proof. intros [-> H] Hk. destruct r' as [e|x]; [apply Hk; now apply H|apply agm_err]. Qed.
  Lemma agms_mapM {X} (Q : op -> Prop) (f f' : X -> res op) xs : (forall x, In x xs -> agm Q (f x) (f' x)) -> agms Q (mapM f xs) (mapM f' xs).
  Proof.
    induction xs as [|x xs IH]; intros H; [split; [reflexivity|intros es E; injection E as <-; constructor]|]. cbn [mapM].
    destruct (H x (or_introl eq_refl)) as [E1 H1]. rewrite E1. destruct (f' x) as [y|e]; [|split; [reflexivity|discriminate]]. cbn [bind].
    destruct IH as [E2 H2]; [intros; apply H; now right|]. rewrite E2. destruct (mapM f' xs) as [ys|e]; [|split; [reflexivity|discriminate]]. cbn [bind].
    split; [reflexivity|]. intros es E. injection E as <-. constructor; [now apply H1|]. now apply H2.
  Qed.
  Lemma agm_foldM (Q R : op -> Prop) (f f' : op -> op -> res op) es : (forall x y, Q x -> R y -> agm Q (f x y) (f' x y)) -> Forall R es ->
    forall a, Q a -> agm Q (foldM f a es) (foldM f' a es).
  Proof.
    intros Hf H. induction H as [|y es Hy _ IH]; intros a Ha; [now apply agm_ok|]. cbn [foldM]. eapply agm_bind; [now apply Hf|]. exact IH.
  Qed.
  Lemma loc_agm l r r' : agree l r r' -> agm (@site S) r r'.
  Proof. intros [E H]. split; [exact E|]. intros e Ee. exists l. apply H. congruence. Qed.

  (** what sums, multiples and commutators do *)
  Record agK2 (K K' : ocreators S) : Prop := {
    h_ag : agK K K';
    h_scal : forall c x, sumless x -> agm sumless (k_scal K c x) (k_scal K' c x);
    h_plus : forall L, Forall sumf L -> agm sumf (k_plus K L) (k_plus K' L);
    h_comm : forall a b, sumless a -> sumless b -> agm sumless (k_comm K a b) (k_comm K' a b)
  }.
  Section Step.
  Context (K K' : ocreators S) (HK : agK2 K K').
  Lemma scal_agm c (x : op) : sumless x -> agm sumless (scal_step K c x) (scal_step K' c x).
  Proof.
    intros H. destruct H as [x Hx|a|d x Hx|a b Ha Hb].
    - apply (agm_weaken nf); [exact sl_nf|]. exact (scal_agn K K' (h_ag _ _ HK) c x Hx).
    - unfold scal_step. destruct (seqb c s1); [apply agm_ok, sl_atom|]. destruct (seqb c s0); [apply agm_ok, zero_sumless|]. apply agm_ok, sl_scal, sl_atom.
    - unfold scal_step. destruct (seqb c s1); [apply agm_ok; now apply sl_scal|]. destruct (seqb c s0); [apply agm_ok, zero_sumless|]. now apply (h_scal _ _ HK).
    - unfold scal_step. destruct (seqb c s1); [apply agm_ok; now apply sl_comm|]. destruct (seqb c s0); [apply agm_ok, zero_sumless|]. apply agm_ok, sl_scal. now apply sl_comm.
  Qed.
  Lemma plus_agm (L : list op) : Forall sumf L -> agm sumf (plus_step olt slt K L) (plus_step olt slt K' L).
  Proof.
    intros H. apply flat_plus_sumless in H. unfold plus_step. assert (Forall sumless (pysorted (ofull_lt olt slt) (flat_plus L))) as H'.
    { rewrite Forall_forall in *. intros x Hx. apply H. now apply pysorted_In in Hx. }
    revert H'. generalize (pysorted (ofull_lt olt slt) (flat_plus L)). clear L H. intros L H. apply (agms_bind sumless).
    - unfold collect_summands. assert (agms sumless (mapM (fun tc : op * S => let '(t, c) := tc in k_scal K c t) (collect L)) (mapM (fun tc : op * S => let '(t, c) := tc in k_scal K' c t) (collect L))) as [E G].
      { apply agms_mapM. intros [t c] Ht. apply (h_scal _ _ HK). apply (in_map fst) in Ht. apply collect_terms in Ht. destruct Ht as [x [Hx E]]. cbn [fst] in E. subst t.
        rewrite Forall_forall in H. specialize (H x Hx). destruct x; try exact H. now apply sumless_inv_scal in H. }
      rewrite E. revert G. generalize (mapM (fun tc : op * S => let '(t, c) := tc in k_scal K' c t) (collect L)). intros r G.
      destruct r as [es|e]; [|split; [reflexivity|intros fs E'; discriminate E']]. cbn [bind]. split; [reflexivity|]. intros fs E'. injection E' as <-. apply filter_P. now apply G.
    - intros [|x [|y fs]] Hf; apply agm_ok; [left; apply zero_sumless|left; exact (Forall_inv Hf)|]. right. now eexists.
  Qed.
  Lemma comm_agm (a b : op) : sumless a -> sumless b -> agm sumless (comm_step olt slt K a b) (comm_step olt slt K' a b).
  Proof.
    intros Ha Hb.
    assert ((exists l, local_to l a /\ local_to l b) -> agm sumless (comm_step olt slt K a b) (comm_step olt slt K' a b)) as Hloc.
    { intros [l [La Lb]]. apply (agm_weaken site); [exact site_sumless|]. apply (loc_agm l). exact (comm_agree l olt slt K K' (g_loc _ _ (h_ag _ _ HK) l) a b La Lb). }
    unfold comm_step. destruct (sp_disjoint (space b) (space a)) eqn:D; [apply agm_ok, zero_sumless|]. destruct (ofull_lt _ _ _ _) eqn:O.
    { apply (agm_bind sumless); [now apply (h_comm _ _ HK)|]. intros e He. now apply (h_scal _ _ HK). }
    unfold comm_step in Hloc. rewrite D, O in Hloc. unfold comm_rules in *. destruct (oeqb a b); [apply agm_ok, zero_sumless|].
    assert (agm sumless (Ok (OComm a b)) (Ok (OComm a b))) as HC by (apply agm_ok; now apply sl_comm).
    assert (forall u (x y : op), sumless x -> sumless y -> agm sumless (do c <- k_comm K x y; k_scal K u c) (do c <- k_comm K' x y; k_scal K' u c)) as HS.
    { intros u x y Hx Hy. apply (agm_bind sumless); [now apply (h_comm _ _ HK)|]. intros e He. now apply (h_scal _ _ HK). }
    destruct a as [| |x|u a|es|es|a1 a2|a|a h|s a], b as [| |y|v b|fs|fs|b1 b2|b|b h'|s' b]; try exact HC;
      try (apply HS; first [assumption | eapply sumless_inv_scal; eassumption]).
    destruct (match x with ASym _ _ => true | _ => false end) eqn:Sx; [destruct x; try discriminate Sx; exact HC|].
    destruct (match y with ASym _ _ => true | _ => false end) eqn:Sy; [destruct x, y; try discriminate Sx; try discriminate Sy; exact HC|].
    apply Hloc. cbn [space] in D. assert (exists l, atom_space x = [l]) as [l El] by (clear - Sx; destruct x; try discriminate; eexists; reflexivity).
    assert (exists l, atom_space y = [l]) as [l' El'] by (clear - Sy; destruct y; try discriminate; eexists; reflexivity). rewrite El, El' in D.
    destruct (Nat.eq_dec l l') as [<- |N]; [exists l; split; right; assumption|]. exfalso.
    assert (sp_disjoint [l'] [l] = true) as D' by (apply sp_disjoint_apart; intros z [<- |[]] [<- |[]]; now apply N). congruence.
  Qed.
  End Step.
  Theorem sites_agree2 : forall n, agK2 (creators_n dim olt slt (careful_order olt slt) n) (creators_n dim olt slt (real_order olt slt) n).
  Proof.
    induction n as [|n IH].
    - constructor; [now apply sites_agree| | |]; intros; apply agm_err.
    - constructor; [now apply sites_agree| | |]; cbn [creators_n k_scal k_plus k_times k_comm]; intros.
      + now apply scal_agm.
      + now apply plus_agm.
      + now apply comm_agm.
  Qed.

  Section Expand.
  Context (K K' : ocreators S) (HK : agK2 K K').
  Let H1 := h_ag _ _ HK.
  (** *** Adjoints *)
  Lemma oadj_site (x : op) : site x -> agm (@site S) (oadj K x) (oadj K' x).
  Proof. intros [l H]. apply (loc_agm l). apply (oadj_agree l K K' (g_loc _ _ H1 l) x H). Qed.
  Definition adjs (C : ocreators S) : list op -> res (list op) :=
    fix go (l : list op) : res (list op) := match l with [] => Ok [] | x :: l' => do x' <- oadj C x; do r <- go l'; Ok (x' :: r) end.
  Lemma adjs_mapM (C : ocreators S) l : adjs C l = mapM (oadj C) l.
  Proof. induction l as [|x l IH]; [reflexivity|]. cbn [adjs mapM]. destruct (oadj C x); [|reflexivity]. cbn [bind]. fold (adjs C). now rewrite IH. Qed.
  Lemma oadj_plus (C : ocreators S) l : oadj C (OPlus l) = do l' <- mapM (oadj C) l; Ok (OPlus l').
  Proof. rewrite <- adjs_mapM. reflexivity. Qed.
  Lemma oadj_times (C : ocreators S) l : oadj C (OTimes l) = do l' <- mapM (oadj C) l; k_times C (rev l').
  Proof. rewrite <- adjs_mapM. reflexivity. Qed.
  Definition any (_ : op) : Prop := True.
  Lemma any_agm Q r r' : agm Q r r' -> agm any r r'.
  Proof. apply agm_weaken. intros e _. exact Logic.I. Qed.
  Lemma oadj_loose : forall e : op, loose e -> agm any (oadj K e) (oadj K' e).
  Proof.
    induction 1 as [x [Hx|[es [-> Hx]]]|a|c x _ IH|es _ IH|a b _ IHa _ IHb].
    - apply (any_agm site). now apply oadj_site.
    - rewrite !oadj_times. apply (agms_bind site).
      + apply agms_mapM. intros x Hin. apply oadj_site. rewrite Forall_forall in Hx. now apply Hx.
      + intros es' Hes'. apply (any_agm nf). apply (g_tidy _ _ H1). apply Forall_rev. eapply Forall_impl; [|exact Hes']. intros z Hz. now left.
    - now apply agm_ok.
    - cbn [oadj]. apply (agm_bind any); [exact IH|]. intros. now apply agm_ok.
    - rewrite !oadj_plus. apply (agms_bind any); [|intros; now apply agm_ok]. apply agms_mapM. exact IH.
    - cbn [oadj]. apply (agm_bind any); [exact IHb|]. intros. apply (agm_bind any); [exact IHa|]. intros. now apply agm_ok.
  Qed.

  (** *** Expansion *)
  Lemma add_all_agm (L : list op) : Forall sumf L -> agm sumf (add_all K L) (add_all K' L).
  Proof.
    intros H. destruct L as [|x L]; [apply agm_err|]. cbn [add_all]. apply (agm_foldM sumf sumf); [|exact (Forall_inv_tail H)|exact (Forall_inv H)].
    intros a b Ha Hb. apply (h_plus _ _ HK). constructor; [exact Ha|now apply one].
  Qed.
  Lemma sumless_sited (x : op) : sumless x -> sited x.
  Proof. induction 1; [now apply sd_nf|apply sd_atom|now apply sd_scal|now apply sd_comm]. Qed.
  Lemma sumf_sited (x : op) : sumf x -> sited x.
  Proof.
    intros [H|[es [-> H]]]; [now apply sumless_sited|]. apply sd_plus. intros x Hx. apply sumless_sited. rewrite Forall_forall in H. now apply H.
  Qed.
  (** the factors chosen from the expanded factors are still sorted by site *)
  Definition under (e x : op) : Prop := site x /\ within (fun p => In p (space e)) x.
  Lemma cartesian_F2 {X Y} (R : X -> Y -> Prop) es ls : Forall2 (fun e l => Forall (R e) l) es ls -> Forall (Forall2 R es) (cartesian ls).
  Proof.
    induction 1 as [|e l es ls Hl _ IH]; [repeat constructor|]. cbn [cartesian]. rewrite Forall_forall in *. intros c Hc. apply in_flat_map in Hc. destruct Hc as [x [Hx Hc]].
    apply in_map_iff in Hc. destruct Hc as [c' [<- Hc']]. constructor; [now apply Hl|now apply IH].
  Qed.
  Lemma mul_fold_agn (es c : list op) : Forall2 under es c -> forall a, nf a -> ordl (a :: es) ->
    agm nf (foldM (fun x y => k_times K [x; y]) a c) (foldM (fun x y => k_times K' [x; y]) a c).
  Proof.
    induction 1 as [|e x es c [Hs Hw] _ IH]; intros a Ha Hos; [now apply agm_ok|]. cbn [foldM].
    inversion Hos as [|? ? Ho1 Ho2]; subst. inversion Ho1 as [|? ? Ho3 Ho4]; subst.
    assert (below a x) as Hax by (intros p q Hp Hq; exact (Forall_inv Ho2 p q Hp (Hw q Hq))).
    assert (ordl [a; x]) as Hax' by (repeat constructor; exact Hax).
    assert (Forall nf [a; x]) as Hn by (constructor; [exact Ha|apply one; now apply nf_site]).
    destruct (g_ord _ _ H1 [a; x] Hn Hax') as [E G]. rewrite E.
    set (H := fun p => In p (space a) \/ In p (space x)).
    assert (Forall (within H) [a; x]) as HW by (constructor; [intros p Hp; now left|apply one; intros p Hp; now right]).
    destruct (f_times _ _ (g_in _ _ H1 H) [a; x] HW) as [_ W]. destruct (k_times K' [a; x]) as [r|e']; [|apply agm_err]. cbn [bind].
    apply IH; [now apply G|]. specialize (W r eq_refl). constructor; [exact Ho3|]. rewrite Forall_forall. intros z Hz p q Hp Hq.
    destruct (W p Hp) as [Hp'|Hp'].
    - pose proof (Forall_inv_tail Ho2) as Ho5. rewrite Forall_forall in Ho5. exact (Ho5 z Hz p q Hp' Hq).
    - rewrite Forall_forall in Ho4. exact (Ho4 z Hz p q (Hw p Hp') Hq).
  Qed.
  Lemma mul_combo_agn (es c : list op) : Forall2 under es c -> ordl es -> agm nf (mul_combo K c) (mul_combo K' c).
  Proof.
    intros H Hs. destruct H as [|e x es c [Hx Hw] H]; [apply agm_err|]. cbn [mul_combo]. apply (mul_fold_agn es c H); [now apply nf_site|].
    inversion Hs as [|? ? Hs1 Hs2]; subst. constructor; [exact Hs1|]. rewrite Forall_forall in *. intros z Hz p q Hp Hq. exact (Hs2 z Hz p q (Hw p Hp) Hq).
  Qed.
  Lemma expand_site n (x : op) : site x -> agm (under x) (expand K n x) (expand K' n x).
  Proof.
    intros [l H]. destruct (expand_agree l K K' (g_loc _ _ H1 l) n x H) as [E G]. split; [exact E|]. intros e Ee. split; [exists l; apply G; congruence|].
    set (W := fun p => In p (space x)). exact (proj2 (expand_fine (within W) (within_closed W) K' (g_in _ _ H1 W) n x (fun p Hp => Hp)) e Ee).
  Qed.
  Lemma under_summands (e x : op) : under e x -> Forall (under e) (summands_of x).
  Proof.
    intros [[l H] W]. pose proof (summands_loc l x H) as G. pose proof (summands_P _ (within_closed _) x W) as G'. rewrite Forall_forall in *. intros z Hz. split; [exists l; now apply G|now apply G'].
  Qed.
  Lemma agms_F2 {X} (R : X -> op -> Prop) (f f' : X -> res op) xs : (forall x, In x xs -> agm (R x) (f x) (f' x)) ->
    mapM f xs = mapM f' xs /\ forall es, mapM f' xs = Ok es -> Forall2 R xs es.
  Proof.
    induction xs as [|x xs IH]; intros H; [split; [reflexivity|intros es E; injection E as <-; constructor]|]. cbn [mapM].
    destruct (H x (or_introl eq_refl)) as [E1 G1]. rewrite E1. destruct (f' x) as [y|e]; [|split; [reflexivity|discriminate]]. cbn [bind].
    destruct IH as [E2 G2]; [intros; apply H; now right|]. rewrite E2. destruct (mapM f' xs) as [ys|e]; [|split; [reflexivity|discriminate]]. cbn [bind].
    split; [reflexivity|]. intros es E. injection E as <-. constructor; [now apply G1|]. now apply G2.
  Qed.
  Theorem expand_sited : forall n (e : op), sited e -> agm sumf (expand K n e) (expand K' n e).
  Proof.
    induction n as [|n IH]; intros e He; [apply agm_err|].
    assert (site e -> agm sumf (expand K (Datatypes.S n) e) (expand K' (Datatypes.S n) e)) as Hsite.
    { intros Hs. apply (agm_weaken (under e)); [intros z [Hz _]; left; now apply site_sumless|]. now apply expand_site. }
    assert (forall ret, sumf ret -> agm sumf match ret with OPlus _ => expand K n ret | _ => Ok ret end match ret with OPlus _ => expand K' n ret | _ => Ok ret end) as Hfin.
    { intros ret Hr. destruct ret; try (now apply agm_ok). apply IH. now apply sumf_sited. }
    assert (forall c t, sited t -> agm sumf (expand K (Datatypes.S n) (OScal c t)) (expand K' (Datatypes.S n) (OScal c t))) as Hscal.
    { intros c t Ht. cbn [expand]. apply (agm_bind sumf); [now apply IH|]. intros t' Ht'. apply sumf_summands in Ht'. apply (agms_bind sumless).
      - apply agms_mapM. intros x Hx. apply (h_scal _ _ HK). rewrite Forall_forall in Ht'. now apply Ht'.
      - intros es Hes. apply (agm_bind sumf); [|exact Hfin]. apply add_all_agm. eapply Forall_impl; [|exact Hes]. intros z Hz. now left. }
    destruct He as [x Hx|a|c t Ht|es Hes|a b Ha Hb].
    - destruct Hx as [x Hx|es Hs Hord|c t Ht]; [now apply Hsite| |apply Hscal; now apply sd_nf].
      cbn [expand]. rewrite Forall_forall in Hs. destruct (agms_F2 under (expand K n) (expand K' n) es) as [E G]; [intros x Hx; apply expand_site; now apply Hs|].
      rewrite E. destruct (mapM (expand K' n) es) as [eops|e]; [|apply agm_err]. cbn [bind]. specialize (G eops eq_refl).
      assert (Forall (Forall2 under es) (cartesian (map summands_of eops))) as Hc.
      { apply cartesian_F2. clear - G. induction G as [|e x es xs Hx _ IHG]; constructor; [now apply under_summands|exact IHG]. }
      apply (agms_bind nf).
      + apply agms_mapM. intros c Hin. rewrite Forall_forall in Hc. now apply (mul_combo_agn es c (Hc c Hin)).
      + intros L HL. apply (agm_bind sumf); [|exact Hfin]. apply add_all_agm. eapply Forall_impl; [|exact HL]. intros z Hz. left. now apply sl_nf.
    - cbn [expand]. apply agm_ok. left. apply sl_atom.
    - now apply Hscal.
    - cbn [expand]. apply (agms_bind sumf); [|intros; now apply (h_plus _ _ HK)]. apply agms_mapM. intros x Hx. apply IH. now apply Hes.
    - cbn [expand]. apply (agm_bind sumf); [now apply IH|]. intros a' Ha'. apply (agm_bind sumf); [now apply IH|]. intros b' Hb'.
      apply (agms_bind sumless).
      2:{ intros L HL. apply (h_plus _ _ HK). eapply Forall_impl; [|exact HL]. intros z Hz. now left. }
      assert (Forall (Forall sumless) (cartesian [summands_of a'; summands_of b'])) as Hc.
      { apply sumf_summands in Ha'. apply sumf_summands in Hb'. rewrite Forall_forall. intros c Hc. cbn [cartesian] in Hc. apply in_flat_map in Hc. destruct Hc as [x [Hx Hc]].
        apply in_map_iff in Hc. destruct Hc as [c' [<- Hc']]. rewrite Forall_forall in *. intros z [<- |Hz]; [now apply Ha'|].
        apply in_flat_map in Hc'. destruct Hc' as [y [Hy Hc']]. cbn [map] in Hc'. destruct Hc' as [<- |[]]. destruct Hz as [<- |[]]. now apply Hb'. }
      apply agms_mapM. intros c Hx. rewrite Forall_forall in Hc. specialize (Hc c Hx). destruct c as [|x [|y [|z c]]]; try apply agm_err.
      apply (h_comm _ _ HK); [exact (Forall_inv Hc)|exact (Forall_inv (Forall_inv_tail Hc))].
  Qed.
  End Expand.
End Multi.
