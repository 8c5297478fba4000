(** Products of operators on single local spaces: the code agrees with the
    monitored simplifier. *)
From Coq Require Import QArith Qcanon Permutation Sorting.
From Verif Require Import Prelude ListFacts SortModel SortSpec SortProofs BinModel BinProofs OpModel OpSpec OpProofs1 OpForms OpForm OpFuel OpOrder OpLocal OpClosed OpSiteSpec OpMulti1.
Local Open Scope nat_scope.

Section Multi.
  Context {S : scalars} (dim : nat -> option nat) (olt : op S -> op S -> bool) (slt : list nat -> list nat -> bool).
  Context (Ho : site_order olt slt).
  Local Notation op := (op S).

  Lemma one {X} (P : X -> Prop) x : P x -> Forall P [x].
  Proof. intros H. constructor; [exact H|constructor]. Qed.
  Lemma site_args es : site (OTimes es) -> Forall (@site S) es /\ ordl es.
  Proof.
    intros [l H]. apply loc_times in H. split.
    - eapply Forall_impl; [|exact H]. intros x Hx. now exists l.
    - induction H as [|x es Hx Hes IH]; [constructor|]. constructor; [exact IH|]. rewrite Forall_forall in *. intros y Hy p q Hp Hq.
      destruct (loc_space l x Hx) as [E|E]; rewrite E in Hp; [destruct Hp|]. destruct (loc_space l y (Hes y Hy)) as [E'|E']; rewrite E' in Hq; [destruct Hq|].
      destruct Hp as [<- |[]], Hq as [<- |[]]. apply Nat.le_refl.
  Qed.
  Lemma nf_args es : nf (OTimes es) -> Forall (@site S) es /\ ordl es.
  Proof. intros H. inversion H as [x Hx|es' H1 H2|]; subst; [now apply site_args|now split]. Qed.
  Lemma nf_inv_scal c (x : op) : nf (OScal c x) -> nf x.
  Proof. intros H. inversion H as [y [l Hy]| |]; subst; [|assumption]. apply nf_site. now exists l. Qed.
  (** an operator on one site or a multiple *)
  Definition item (x : op) : Prop := nf x /\ match x with OTimes _ => site x | _ => True end.
  Lemma site_item (x : op) : site x -> item x.
  Proof. intros H. split; [now apply nf_site|]. destruct x; auto. Qed.
  Lemma item_site (x : op) : item x -> match x with OScal _ _ => False | _ => True end -> site x.
  Proof. intros [H1 H2] H3. inversion H1; subst; auto. contradiction. Qed.
  Lemma nf_flat (x : op) : nf x -> Forall item (flat_times [x]) /\ ordl (flat_times [x]).
  Proof.
    intros H. unfold flat_times. cbn [flat_map]. rewrite app_nil_r. destruct x as [| |a|c t|es|es|a b|a|a h|s a];
      try (split; [apply one; split; [exact H|exact Logic.I]|repeat constructor]).
    destruct (nf_args _ H) as [H1 H2]. split; [|exact H2]. eapply Forall_impl; [|exact H1]. exact site_item.
  Qed.
  Lemma flat_within (H : nat -> Prop) (L : list op) : Forall (within H) L -> Forall (within H) (flat_times L).
  Proof. apply flat_times_P, within_closed. Qed.
  Lemma flat_cons (x : op) L : flat_times (x :: L) = flat_times [x] ++ flat_times L.
  Proof. unfold flat_times. cbn [flat_map]. now rewrite app_nil_r. Qed.
  Lemma flat_in_space (L : list op) y : In y (flat_times L) -> exists x, In x L /\ within (fun p => In p (space x)) y.
  Proof.
    induction L as [|x L IH]; [easy|]. rewrite flat_cons. intros H. apply in_app_or in H. destruct H as [H|H].
    - exists x. split; [now left|]. assert (Forall (within (fun p => In p (space x))) [x]) as G by (apply one; intros p Hp; exact Hp).
      apply flat_within in G. rewrite Forall_forall in G. now apply G.
    - destruct (IH H) as [z [Hz Hw]]. exists z. split; [now right|exact Hw].
  Qed.
  Lemma nf_list_flat (L : list op) : Forall nf L -> ordl L -> Forall item (flat_times L) /\ ordl (flat_times L).
  Proof.
    induction L as [|x L IH]; intros H Hs; [split; constructor|]. inversion Hs as [|? ? Hs1 Hs2]; subst. destruct (IH (Forall_inv_tail H) Hs1) as [G1 G2].
    destruct (nf_flat x (Forall_inv H)) as [G3 G4]. rewrite flat_cons. split; [now apply Forall_app|]. apply sorted_app_intro; [exact G4|exact G2|].
    intros y z Hy Hz p q Hp Hq. apply flat_in_space in Hy. destruct Hy as [x' [[<- |[]] Hw]]. apply flat_in_space in Hz. destruct Hz as [z' [Hz' Hw']].
    rewrite Forall_forall in Hs2. exact (Hs2 z' Hz' p q (Hw p Hp) (Hw' q Hq)).
  Qed.
  Lemma tidy_list_flat (L : list op) : Forall tidy L -> Forall site (flat_times L).
  Proof.
    induction 1 as [|x L Hx _ IH]; [constructor|]. rewrite flat_cons. apply Forall_app. split; [|exact IH]. unfold flat_times. cbn [flat_map]. rewrite app_nil_r.
    destruct Hx as [Hx|[es [-> Hx]]]; [|exact Hx]. destruct x; try (apply one; exact Hx). now apply site_args in Hx.
  Qed.

  (** the same results, in the form of sorted products of operators on sites *)
  Definition agn (r r' : res op) : Prop := r = r' /\ forall e, r' = Ok e -> nf e.
  Lemma agn_ok e : nf e -> agn (Ok e) (Ok e).
  Proof. intros H. split; [reflexivity|]. intros e' E. now injection E as <-. Qed.
  Lemma agn_err x : agn (Err x) (Err x).
  Proof. split; [reflexivity|discriminate]. Qed.
  Lemma agn_bind r r' k k' : agn r r' -> (forall e, r' = Ok e -> nf e -> agn (k e) (k' e)) -> agn (bind r k) (bind r' k').
  Proof. intros [-> H] Hk. destruct r' as [e|x]; [apply Hk; [reflexivity|]; now apply H|apply agn_err]. Qed.

  Record agK (K K' : ocreators S) : Prop := {
    g_loc : forall l, agreeK l K K';
    g_in : forall H, fineK (within H) K';
    g_scal : forall c x, nf x -> agn (k_scal K c x) (k_scal K' c x);
    g_tidy : forall L, Forall tidy L -> agn (k_times K L) (k_times K' L);
    g_ord : forall L, Forall nf L -> ordl L -> agn (k_times K L) (k_times K' L)
  }.

  Section Step.
  Context (K K' : ocreators S) (HK : agK K K').
  Lemma scal_agn c (x : op) : nf x -> agn (scal_step K c x) (scal_step K' c x).
  Proof.
    intros H. destruct H as [x [l Hx]|es H1 H2|d x Hx].
    - destruct (scal_agree l K K' (g_loc _ _ HK l) c x Hx) as [E G]. split; [exact E|]. intros e E'. apply nf_site. exists l. apply G. congruence.
    - unfold scal_step. destruct (seqb c s1); [apply agn_ok; now apply nf_times|]. destruct (seqb c s0); [apply agn_ok, nf_site; now exists 0|].
      apply agn_ok, nf_scal. now apply nf_times.
    - unfold scal_step. destruct (seqb c s1); [apply agn_ok; now apply nf_scal|]. destruct (seqb c s0); [apply agn_ok, nf_site; now exists 0|].
      now apply (g_scal _ _ HK).
  Qed.
  Definition whole (_ : nat) : Prop := True.
  Lemma any_whole (x : op) : within whole x.
  Proof. intros p _. exact Logic.I. Qed.
  (** a multiple times something *)
  Lemma scaled_agn u (L : list op) : Forall nf L -> ordl L ->
    agn (do p <- k_times K L; k_scal K u p) (do p <- k_times K' L; k_scal K' u p)
    /\ (do p <- k_times K' L; k_scal K' u p) <> Err CannotSimplify.
  Proof.
    intros H1 H2. split.
    - apply agn_bind; [now apply (g_ord _ _ HK)|]. intros e _ He. now apply (g_scal _ _ HK).
    - pose proof (g_in _ _ HK whole) as F. refine (proj1 (fine_bind (within whole) _ _ (f_times _ _ F L _) (fun e He => f_scal _ _ F u e He))).
      apply Forall_forall. intros x _. apply any_whole.
  Qed.
  Lemma olift_agn r r' : agn r r' -> r' <> Err CannotSimplify ->
    olift r = olift r' /\ ((exists e, olift r' = Replaces (Some e) /\ nf e) \/ exists x, olift r' = Raises x).
  Proof.
    intros [-> H] N. split; [reflexivity|]. destruct r' as [e|[]]; cbn; try (right; eexists; reflexivity); [left|contradiction].
    exists e. split; [reflexivity|now apply H].
  Qed.
  (** two local operators on different spaces match no rule *)
  Definition apart_or_local (f g : op -> op -> outcome op) : Prop := forall x y,
    (f x y = NoMatch /\ g x y = NoMatch) \/ exists l, local_to l x /\ local_to l y.
  Ltac rl := intros x y; unfold r005, r009, r010, r011, r012, r013, r014, r015, r016, r017, r018, r019, r020, r021,
      r022, r023, r024, r025, r026, r027, r028, r029, r030, local_rule;
    repeat match goal with |- ((match ?x with _ => _ end) = _ /\ _) \/ _ => is_var x; destruct x; try (left; split; reflexivity) end;
    match goal with |- ((if ?x =? ?y then _ else _) = _ /\ _) \/ _ => destruct (Nat.eqb_spec x y) as [<- |_]; [right; exists x; split; right; reflexivity|left; split; reflexivity] end.
  Lemma rules_apart : Forall2 apart_or_local (skipn 4 (times_rules dim K)) (skipn 4 (times_rules dim K')).
  Proof. cbn [times_rules skipn]. repeat (apply Forall2_cons; [solve [rl]|]). apply Forall2_nil. Qed.
  Lemma try_apart fs gs (x y : op) : Forall2 apart_or_local fs gs ->
    (try_rules fs x y = Ok None /\ try_rules gs x y = Ok None) \/ exists l, local_to l x /\ local_to l y.
  Proof.
    induction 1 as [|f g fs gs Hfg _ IH]; [left; now split|]. destruct (Hfg x y) as [[E1 E2]|H]; [|now right]. destruct IH as [[E3 E4]|H]; [|now right].
    left. cbn [try_rules]. now rewrite E1, E2.
  Qed.
  Definition pick (o : outcome op) (rest : res (option op)) : res (option op) :=
    match o with NoMatch | Refuses => rest | Replaces r => Ok r | Raises e => Err e end.
  Lemma try_cons f fs (x y : op) : try_rules (f :: fs) x y = pick (f x y) (try_rules fs x y).
  Proof. reflexivity. Qed.
  Lemma rules_split (C : ocreators S) : times_rules dim C = r001 C :: r002 :: r003 :: r004 C :: skipn 4 (times_rules dim C).
  Proof. reflexivity. Qed.
  Lemma gbr_split (C : ocreators S) (x y : op) : get_binary_replacement (times_cls dim C) x y
    = pick (r001 C x y) (pick (r002 x y) (pick (r003 x y) (pick (r004 C x y) (try_rules (skipn 4 (times_rules dim C)) x y)))).
  Proof.
    unfold get_binary_replacement. cbn [binary_rules times_cls]. rewrite (rules_split C) at 1. now rewrite !(try_cons _ (_ :: _)), try_cons.
  Qed.
  Definition said (x y : op) (f f' : res (option op)) : Prop :=
    f = f' /\ (forall r, f' = Ok (Some r) -> nf r) /\ (f' = Ok None -> site x /\ site y).
  Lemma said_scaled (x y : op) u (L : list op) rest rest' : Forall nf L -> ordl L ->
    said x y (pick (olift (do p <- k_times K L; k_scal K u p)) rest) (pick (olift (do p <- k_times K' L; k_scal K' u p)) rest').
  Proof.
    intros H1 H2. destruct (scaled_agn u L H1 H2) as [G1 G2]. destruct (olift_agn _ _ G1 G2) as [E [[e [E' He]]|[e E']]]; rewrite E, E'; cbn [pick].
    - split; [reflexivity|]. split; [intros r Er; now injection Er as <-|discriminate].
    - split; [reflexivity|]. split; discriminate.
  Qed.
  Lemma said_zero (x y : op) rest rest' : said x y (pick (Replaces (Some OZero)) rest) (pick (Replaces (Some OZero)) rest').
  Proof. split; [reflexivity|]. split; [intros r Er; injection Er as <-; apply nf_site; now exists 0|discriminate]. Qed.
  Lemma r001_no (C : ocreators S) (x y : op) : match x with OScal _ _ => False | _ => True end -> r001 C x y = NoMatch.
  Proof. now destruct x. Qed.
  Lemma r004_no (C : ocreators S) (x y : op) : match y with OScal _ _ => False | _ => True end -> r004 C x y = NoMatch.
  Proof. now destruct y. Qed.
  Lemma r002_no (x y : op) : is_zero x = false -> r002 x y = NoMatch.
  Proof. now destruct x. Qed.
  Lemma r003_no (x y : op) : is_zero y = false -> r003 x y = NoMatch.
  Proof. now destruct y. Qed.
  Lemma r001_yes (C : ocreators S) u (a y : op) : r001 C (OScal u a) y = olift (do p <- k_times C [a; y]; k_scal C u p).
  Proof. reflexivity. Qed.
  Lemma r004_yes (C : ocreators S) u (x b : op) : r004 C x (OScal u b) = olift (do p <- k_times C [x; b]; k_scal C u p).
  Proof. reflexivity. Qed.
  Lemma r002_yes (y : op) : r002 OZero y = Replaces (Some OZero).
  Proof. reflexivity. Qed.
  Lemma r003_yes (x : op) : r003 x OZero = Replaces (Some OZero).
  Proof. reflexivity. Qed.
  Lemma pick_no rest : pick NoMatch rest = rest.
  Proof. reflexivity. Qed.
  Lemma scal_dec (x : op) : (exists c t, x = OScal c t) \/ match x with OScal _ _ => False | _ => True end.
  Proof. destruct x; try (right; exact Logic.I). left. now do 2 eexists. Qed.
  Lemma zero_dec (x : op) : x = OZero \/ is_zero x = false.
  Proof. destruct x; auto. Qed.
  Lemma gbr_agn (x y : op) : item x -> item y -> below x y ->
    said x y (get_binary_replacement (times_cls dim K) x y) (get_binary_replacement (times_cls dim K') x y).
  Proof.
    intros Hx Hy Hb.
    destruct (scal_dec x) as [[c [a ->]]|Nx].
    { rewrite !gbr_split, !r001_yes. apply said_scaled; [|repeat constructor; exact Hb]. destruct Hx as [Hx _]. constructor; [now apply nf_inv_scal in Hx|]. apply one, Hy. }
    destruct (zero_dec x) as [-> |Zx].
    { rewrite !gbr_split. rewrite !(r001_no _ OZero) by exact Logic.I. rewrite r002_yes, !pick_no. apply said_zero. }
    destruct (zero_dec y) as [-> |Zy].
    { rewrite !gbr_split. rewrite !(r001_no _ x) by exact Nx. rewrite !(r002_no x) by exact Zx. rewrite r003_yes, !pick_no. apply said_zero. }
    destruct (scal_dec y) as [[c [b ->]]|Ny].
    { rewrite !gbr_split. rewrite !(r001_no _ x) by exact Nx. rewrite !(r002_no x) by exact Zx. rewrite !(r003_no x) by exact Zy. rewrite !r004_yes, !pick_no.
      apply said_scaled; [|repeat constructor; exact Hb]. destruct Hy as [Hy _]. constructor; [apply Hx|]. apply one. now apply nf_inv_scal in Hy. }
    assert (site x /\ site y) as Hss by (split; now apply item_site).
    destruct (try_apart _ _ x y rules_apart) as [[E5 E6]|[l [Lx Ly]]].
    - rewrite !gbr_split. rewrite !(r001_no _ x) by exact Nx. rewrite !(r002_no x) by exact Zx. rewrite !(r003_no x) by exact Zy. rewrite !(r004_no _ x) by exact Ny. rewrite E5, E6, !pick_no.
      split; [reflexivity|]. split; [discriminate|now intros _].
    - destruct (gbr_agree l dim K K' (g_loc _ _ HK l) x y Lx Ly) as [G1 G2]. split; [exact G1|]. split; [|now intros _].
      intros r Er. rewrite <- G1 in Er. apply nf_site. exists l. now apply G2.
  Qed.

  Definition good (L : list op) : Prop := Forall item L /\ (Forall site L \/ length L <= 1).
  Definition agl (r r' : res (list op)) : Prop := r = r' /\ forall L, r' = Ok L -> good L /\ ordl L.
  Lemma nf_good (r : op) : nf r -> good (match r with OTimes l => l | _ => [r] end) /\ ordl (match r with OTimes l => l | _ => [r] end).
  Proof.
    intros H. assert (match r with OTimes _ => True | _ => good [r] end) as G1.
    { destruct r; try exact Logic.I; (split; [apply one; split; [exact H|exact Logic.I]|right; apply Nat.le_refl]). }
    destruct r; try (split; [exact G1|repeat constructor]). destruct (nf_args _ H) as [H1 H2]. split; [|exact H2]. split; [|now left].
    eapply Forall_impl; [|exact H1]. exact site_item.
  Qed.
  Lemma good_init a (x : op) : good (a ++ [x]) -> good a /\ item x.
  Proof.
    intros [H1 H2]. apply Forall_app in H1. destruct H1 as [H1 H3]. split; [|exact (Forall_inv H3)]. split; [exact H1|].
    destruct H2 as [H2|H2]; [left; now apply Forall_app in H2|right]. rewrite app_length in H2. lia.
  Qed.
  Lemma good_tail b (y : op) : good (y :: b) -> good b /\ item y.
  Proof.
    intros [H1 H2]. split; [|exact (Forall_inv H1)]. split; [exact (Forall_inv_tail H1)|].
    destruct H2 as [H2|H2]; [left; exact (Forall_inv_tail H2)|right]. cbn [length] in H2. lia.
  Qed.
  Lemma good_site a (x : op) : good (a ++ [x]) -> site x -> Forall site (a ++ [x]).
  Proof.
    intros [H1 [H2|H2]] Hx; [exact H2|]. rewrite app_length in H2. cbn [length] in H2. destruct a; [|cbn [length] in H2; lia]. apply one. exact Hx.
  Qed.
  Lemma good_site' b (y : op) : good (y :: b) -> site y -> Forall site (y :: b).
  Proof.
    intros [H1 [H2|H2]] Hx; [exact H2|]. cbn [length] in H2. destruct b; [|cbn [length] in H2; lia]. apply one. exact Hx.
  Qed.
  Lemma sub_within (L : list op) : Forall (within (fun p => exists x, In x L /\ In p (space x))) L.
  Proof. apply Forall_forall. intros x Hx p Hp. now exists x. Qed.
  Lemma combine_agn : forall f a b, good a -> good b -> ordl (a ++ b) ->
    agl (mrb_combine (times_cls dim K) f a b) (mrb_combine (times_cls dim K') f a b).
  Proof.
    induction f as [|f IH]; intros a b Ha Hb Hs; [split; [reflexivity|discriminate]|]. cbn [mrb_combine].
    assert (good (a ++ b) -> agl (Ok (a ++ b)) (Ok (a ++ b))) as Hab.
    { intros G. split; [reflexivity|]. intros L E. injection E as <-. now split. }
    destruct (split_last a) as [[a' x]|] eqn:Ea.
    2:{ apply Hab. unfold split_last in Ea. destruct (rev a) as [|z r] eqn:Er; [|discriminate]. apply (f_equal (@rev op)) in Er. rewrite rev_involutive in Er. subst a. exact Hb. }
    destruct b as [|y b']; [apply Hab; now rewrite app_nil_r|].
    apply split_last_inv in Ea. subst a. pose proof (good_init _ _ Ha) as [Ha' Hx]. pose proof (good_tail _ _ Hb) as [Hb' Hy].
    pose proof (sorted_app_elim below _ _ Hs) as [Hs1 [Hs2 Hs3]]. pose proof (sorted_app_elim below _ _ Hs1) as [Hs4 [_ Hs5]].
    inversion Hs2 as [|? ? Hs6 Hs7]; subst. rewrite Forall_forall in Hs7.
    assert (In x (a' ++ [x])) as Hxin by (apply in_or_app; right; now left).
    assert (below x y) as Hxy by (apply Hs3; [exact Hxin|now left]).
    destruct (gbr_agn x y Hx Hy Hxy) as [E1 [E2 E3]]. rewrite E1.
    set (H := fun p => In p (space x) \/ In p (space y)).
    pose proof (gbr_fine (within H) (within_closed H) dim K' (g_in _ _ HK H) x y (fun p Hp => or_introl Hp) (fun p Hp => or_intror Hp)) as [_ E4].
    destruct (get_binary_replacement (times_cls dim K') x y) as [[r|]|e].
    - cbn [bind]. assert (nf r) as Hr by now apply E2. assert (within H r) as Wr by now apply E4.
      change (is_neutral (times_cls dim K) r) with (is_neutral (times_cls dim K') r).
      assert (ordl (a' ++ b')) as Hs8.
      { apply sorted_app_intro; [exact Hs4|exact Hs6|]. intros u v Hu Hv. apply Hs3; [apply in_or_app; now left|now right]. }
      destruct (is_neutral (times_cls dim K') r); [now apply IH|].
      change (instance_args (times_cls dim K) r) with (instance_args (times_cls dim K') r). cbn [instance_args times_cls].
      destruct (nf_good r Hr) as [Gr Or].
      assert (Forall (within H) (match r with OTimes l => l | _ => [r] end)) as Wrs.
      { destruct r; try (apply one; exact Wr). now apply (c_times _ (within_closed H)) in Wr. }
      replace (match match r with OTimes l => Some l | _ => None end with Some args => args | None => [r] end) with (match r with OTimes l => l | _ => [r] end) by (now destruct r).
      revert Gr Or Wrs. generalize (match r with OTimes l => l | _ => [r] end). intros rs Gr Or Wrs. rewrite Forall_forall in Wrs.
      assert (ordl (a' ++ rs)) as Hs9.
      { apply sorted_app_intro; [exact Hs4|exact Or|]. intros u v Hu Hv p q Hp Hq. destruct (Wrs v Hv q Hq) as [Hq'|Hq'].
        - exact (Hs5 u x Hu (or_introl eq_refl) p q Hp Hq').
        - exact (Hs3 u y (in_or_app _ _ _ (or_introl Hu)) (or_introl eq_refl) p q Hp Hq'). }
      destruct (IH a' rs Ha' Gr Hs9) as [F1 F2]. rewrite F1.
      set (H2 := fun p => exists z, In z (a' ++ rs) /\ In p (space z)).
      assert (Forall (within H2) a' /\ Forall (within H2) rs) as [W1 W2] by (apply Forall_app; apply sub_within).
      pose proof (combine_fine (within H2) (within_closed H2) dim K' (g_in _ _ HK H2) f a' rs W1 W2) as [_ F3].
      destruct (mrb_combine (times_cls dim K') f a' rs) as [L|e]; [|split; [reflexivity|discriminate]]. cbn [bind].
      destruct (F2 L eq_refl) as [GL OL]. specialize (F3 L eq_refl). rewrite Forall_forall in F3. apply IH; [exact GL|exact Hb'|].
      apply sorted_app_intro; [exact OL|exact Hs6|]. intros u v Hu Hv p q Hp Hq. destruct (F3 u Hu p Hp) as [z [Hz Hpz]]. apply in_app_or in Hz. destruct Hz as [Hz|Hz].
      + exact (Hs3 z v (in_or_app _ _ _ (or_introl Hz)) (or_intror Hv) p q Hpz Hq).
      + destruct (Wrs z Hz p Hpz) as [Hp'|Hp']; [exact (Hs3 x v Hxin (or_intror Hv) p q Hp' Hq)|exact (Hs7 v Hv p q Hp' Hq)].
    - cbn [bind]. apply Hab. destruct (E3 eq_refl) as [Sx Sy].
      assert (Forall site ((a' ++ [x]) ++ y :: b')) as HS by (apply Forall_app; split; [now apply good_site|now apply good_site']).
      split; [|now left]. eapply Forall_impl; [|exact HS]. exact site_item.
    - split; [reflexivity|discriminate].
  Qed.
  Lemma reduce_agn f : forall d L, Forall item L -> ordl L ->
    agl (mrb_reduce (times_cls dim K) d f L) (mrb_reduce (times_cls dim K') d f L).
  Proof.
    induction d as [|d IH]; intros L HL Hs; [split; [reflexivity|discriminate]|]. cbn [mrb_reduce]. destruct (Nat.leb_spec (length L) 1) as [N|N].
    - split; [reflexivity|]. intros L' E. injection E as <-. split; [|exact Hs]. split; [exact HL|now right].
    - pose proof HL as HL2. pose proof Hs as Hs2. rewrite <- (firstn_skipn (length L / 2) L) in HL2, Hs2. apply Forall_app in HL2. destruct HL2 as [HL1 HL2].
      apply sorted_app_elim in Hs2. destruct Hs2 as [Hs1 [Hs2 Hs3]]. revert HL1 HL2 Hs1 Hs2 Hs3. generalize (firstn (length L / 2) L) (skipn (length L / 2) L). intros a b Ha Hb Sa Sb Sab.
      destruct (IH a Ha Sa) as [E1 F1]. destruct (IH b Hb Sb) as [E2 F2]. rewrite E1, E2.
      set (H1 := fun p => exists z, In z a /\ In p (space z)). set (H2 := fun p => exists z, In z b /\ In p (space z)).
      pose proof (reduce_fine (within H1) (within_closed H1) dim K' (g_in _ _ HK H1) f d a (sub_within a)) as [_ W1].
      pose proof (reduce_fine (within H2) (within_closed H2) dim K' (g_in _ _ HK H2) f d b (sub_within b)) as [_ W2].
      destruct (mrb_reduce (times_cls dim K') d f a) as [a'|e]; [|split; [reflexivity|discriminate]]. cbn [bind].
      destruct (mrb_reduce (times_cls dim K') d f b) as [b'|e]; [|split; [reflexivity|discriminate]]. cbn [bind].
      destruct (F1 _ eq_refl) as [G1 O1]. destruct (F2 _ eq_refl) as [G2 O2]. specialize (W1 _ eq_refl). specialize (W2 _ eq_refl). rewrite Forall_forall in W1, W2.
      apply combine_agn; [exact G1|exact G2|]. apply sorted_app_intro; [exact O1|exact O2|]. intros u v Hu Hv p q Hp Hq.
      destruct (W1 u Hu p Hp) as [z [Hz Hp']]. destruct (W2 v Hv q Hq) as [w [Hw Hq']]. exact (Sab z w Hz Hw p q Hp' Hq').
  Qed.
  (** what is done after sorting *)
  Definition after (C : ocreators S) (f : nat) (l : list op) : res op :=
    match l with
    | [] => Ok OOne
    | x :: _ =>
      match filter (fun o => negb (is_one o)) l with
      | [] => Ok x
      | [y] => Ok y
      | fops => do r <- match_replace_binary (times_cls dim C) f fops; match r with inl e => Ok e | inr l' => Ok (OTimes l') end
      end
    end.
  Lemma filter_ordl g (L : list op) : ordl L -> ordl (filter g L).
  Proof.
    induction 1 as [|x L _ IH Hx]; [constructor|]. cbn [filter]. destruct (g x); [|exact IH]. constructor; [exact IH|]. apply Forall_forall. intros y Hy. apply filter_In in Hy.
    rewrite Forall_forall in Hx. now apply Hx.
  Qed.
  Lemma after_agn f L : Forall item L -> ordl L -> agn (after K f L) (after K' f L).
  Proof.
    intros HL Hs. unfold after. destruct L as [|x L]; [apply agn_ok, nf_site; now exists 0|].
    pose proof (filter_P item (fun o => negb (is_one o)) _ HL) as Hf. pose proof (filter_ordl (fun o => negb (is_one o)) _ Hs) as Of.
    destruct (filter _ _) as [|y [|z gs]].
    - apply agn_ok. apply (Forall_inv HL).
    - apply agn_ok. apply (Forall_inv Hf).
    - unfold match_replace_binary. destruct (reduce_agn f (Datatypes.S (length (y :: z :: gs))) _ Hf Of) as [E1 E2]. rewrite E1.
      destruct (mrb_reduce (times_cls dim K') _ f _) as [r|e]; [|apply agn_err]. destruct (E2 r eq_refl) as [[G1 G2] G3]. cbn [bind].
      destruct r as [|w [|w2 r]]; cbn [bind]; apply agn_ok; [apply nf_site; now exists 0|apply (Forall_inv G1)|].
      destruct G2 as [G2|G2]; [|cbn [length] in G2; lia]. now apply nf_times.
  Qed.
  Lemma times_step_after ord C f L : times_step dim ord C f L = do l <- ord (flat_times L); after C f l.
  Proof. reflexivity. Qed.
  Lemma times_agn f L F : flat_times L = F -> careful_order olt slt F = real_order olt slt F -> Forall item F -> ordl (pysorted (odisj_lt olt slt) F) ->
    agn (times_step dim (careful_order olt slt) K f L) (times_step dim (real_order olt slt) K' f L).
  Proof.
    intros <- Hc Hi Hs. rewrite !times_step_after, Hc. unfold real_order. cbn [bind]. apply after_agn; [|exact Hs].
    rewrite Forall_forall in *. intros x Hx. apply Hi. now apply pysorted_In in Hx.
  Qed.
  Lemma times_tidy_agn f L : Forall tidy L -> agn (times_step dim (careful_order olt slt) K f L) (times_step dim (real_order olt slt) K' f L).
  Proof.
    intros H. apply tidy_list_flat in H. destruct (sites_sort olt slt Ho _ H) as [H1 H2]. apply (times_agn f L _ eq_refl); [exact H1| |exact H2].
    eapply Forall_impl; [|exact H]. exact site_item.
  Qed.
  Lemma times_ord_agn f L : Forall nf L -> ordl L -> agn (times_step dim (careful_order olt slt) K f L) (times_step dim (real_order olt slt) K' f L).
  Proof.
    intros H H'. destruct (nf_list_flat L H H') as [H1 H2]. destruct (ordl_sort olt slt Ho _ H2) as [H3 H4]. now apply (times_agn f L _ eq_refl).
  Qed.
  End Step.

  Lemma real_in (H : nat -> Prop) (es : list op) : Forall (within H) es -> fines (within H) (real_order olt slt es).
  Proof. intros G. apply fines_ok. rewrite Forall_forall in *. intros x Hx. apply G. now apply pysorted_In in Hx. Qed.
  Theorem sites_agree : forall n, agK (creators_n dim olt slt (careful_order olt slt) n) (creators_n dim olt slt (real_order olt slt) n).
  Proof.
    induction n as [|n IH].
    - constructor; try (intros; apply agn_err); [intros l; apply (local_agree l dim olt slt Ho 0)|]. intros H. apply creators_fine; [apply within_closed|apply real_in].
    - constructor.
      + intros l. apply local_agree. exact Ho.
      + intros H. apply creators_fine; [apply within_closed|apply real_in].
      + intros c x. now apply scal_agn.
      + intros L. now apply times_tidy_agn.
      + intros L. now apply times_ord_agn.
  Qed.
End Multi.
