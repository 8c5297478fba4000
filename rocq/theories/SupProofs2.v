(** The super-operator simplifier preserves the map. *)
From Coq Require Import QArith Qcanon.
From Verif Require Import Prelude ListFacts SortModel SortProofs BinModel BinSpec BinProofs AlgSpec CAlg CSimpProofs5 OpModel OpSpec OpProofs1 OpProofs2 OpProofs3 SupModel SupSpec SupProofs1.
Local Open Scope nat_scope.

Section Sound.
  Context {S : scalars} {dim : nat -> option nat} (T : sinterp S dim).
  Local Notation op := (op S).
  Local Notation sop := (sop S).
  Local Notation legal := (legal T).
  Local Notation value := (value T).
  Local Notation means := (means T).
  Local Notation slegal := (slegal T).
  Local Notation svalue := (svalue T).
  Local Notation smeans := (smeans T).
  Add Ring Kr : (kring T).

  Lemma super_scal_sound : forall t c, slegal t -> smeans (super_scal c t) (fun x => smul (ev c) (svalue t x)).
  Proof.
    assert (forall t c, slegal t -> seqb c s1 = true -> smeans t (fun x => smul (ev c) (svalue t x))) as G1.
    { intros t c Ht E1. split; [exact Ht|]. intros x. apply (ev_eq _ T) in E1. rewrite E1, (ev_s1 T), smul_1. reflexivity. }
    assert (forall t c, seqb c s0 = true -> smeans SZero (fun x => smul (ev c) (svalue t x))) as G0.
    { intros t c E0. split; [exact Logic.I|]. intros x. apply (ev_eq _ T) in E0. rewrite E0, (ev_s0 T), smul_0. reflexivity. }
    induction t as [| |n h|a|a|v b IH|l _|l _|t _] using sop_ind'; intros c Ht; cbn [super_scal];
      (destruct (seqb c s1) eqn:E1; [now apply G1|]); (destruct (seqb c s0) eqn:E0; [now apply G0|]);
      try (split; [exact Ht|reflexivity]).
    - split; [exact Logic.I|]. intros x. symmetry. apply smul_zero.
    - destruct (IH (smult c v) Ht) as [L V]. split; [exact L|]. intros x. rewrite V, ev_mul, smul_mul. reflexivity.
  Qed.
  Lemma pre_create_sound a : legal a -> smeans (pre_create a) (fun x => amul (value a) x).
  Proof.
    induction a as [| |a|c t IH|l _|l _|a b _ _|a _|a h _|s a _] using op_ind'; intros Ha; cbn [pre_create]; try (split; [exact Ha|reflexivity]).
    - split; [exact Logic.I|]. intros x. symmetry. apply amul_0l.
    - split; [exact Logic.I|]. intros x. symmetry. apply amul_1l.
    - destruct (IH Ha) as [L V]. destruct (super_scal_sound _ c L) as [L' V']. split; [exact L'|]. intros x. rewrite V', V. cbn [OpSpec.value].
      symmetry. apply smul_amul_l.
  Qed.
  Lemma post_create_sound a : legal a -> smeans (post_create a) (fun x => amul x (value a)).
  Proof.
    induction a as [| |a|c t IH|l _|l _|a b _ _|a _|a h _|s a _] using op_ind'; intros Ha; cbn [post_create]; try (split; [exact Ha|reflexivity]).
    - split; [exact Logic.I|]. intros x. symmetry. apply amul_0r.
    - split; [exact Logic.I|]. intros x. symmetry. apply amul_1r.
    - destruct (IH Ha) as [L V]. destruct (super_scal_sound _ c L) as [L' V']. split; [exact L'|]. intros x. rewrite V', V. cbn [OpSpec.value].
      symmetry. apply smul_amul_r.
  Qed.

  (** sums *)
  Lemma sflat_plus_sound l : Forall slegal l -> Forall slegal (sflat_plus l) /\ forall x, fsum T (map svalue (sflat_plus l)) x = fsum T (map svalue l) x.
  Proof.
    induction l as [|s l IH]; intros H; [now split|]. destruct (IH (Forall_inv_tail H)) as [L V]. pose proof (Forall_inv H) as Hs.
    unfold sflat_plus. cbn [flat_map]. fold (sflat_plus l). split.
    - apply Forall_app. split; [|exact L]. destruct s; try (constructor; [exact Hs|constructor]). now apply slegal_plus.
    - intros x. rewrite map_app, fsum_app, V. cbn [map]. rewrite fsum_cons. f_equal. destruct s; try apply fsum_1. reflexivity.
  Qed.
  Definition smapval (m : list (sop * S)) (x : A T) : A T := msum T (map (fun tc => smul (ev (snd tc)) (svalue (fst tc) x)) m).
  Lemma scmap_add_sound c t m : slegal t -> Forall (fun tc => slegal (fst tc)) m ->
    Forall (fun tc => slegal (fst tc)) (scmap_add c t m) /\ forall x, smapval (scmap_add c t m) x = aadd (smul (ev c) (svalue t x)) (smapval m x).
  Proof.
    intros Ht. induction m as [|[t' c'] m IH]; intros Hm; cbn [scmap_add].
    - split; [now constructor|]. reflexivity.
    - destruct (sop_eqb t' t) eqn:E.
      + split; [constructor; [exact (Forall_inv Hm)|exact (Forall_inv_tail Hm)]|]. intros x. unfold smapval. cbn [map fst snd]. rewrite !msum_cons.
        rewrite ev_add, smul_addl, (sop_eqb_value T _ _ E x), aadd_assoc. f_equal. apply aadd_comm.
      + destruct (IH (Forall_inv_tail Hm)) as [L V]. split; [constructor; [exact (Forall_inv Hm)|exact L]|].
        intros x. unfold smapval in *. cbn [map fst snd]. rewrite !msum_cons, V, !aadd_assoc. f_equal. apply aadd_comm.
  Qed.
  Lemma scoeff_term_sound o : slegal o -> slegal (snd (scoeff_term o)) /\ forall x, smul (ev (fst (scoeff_term o))) (svalue (snd (scoeff_term o)) x) = svalue o x.
  Proof.
    intros H. destruct o; cbn [scoeff_term fst snd]; (split; [exact H|]); intros x; try (rewrite (ev_s1 T); apply smul_1). reflexivity.
  Qed.
  Lemma scollect_sound l : Forall slegal l ->
    Forall (fun tc => slegal (fst tc)) (scollect l) /\ forall x, smapval (scollect l) x = fsum T (map svalue l) x.
  Proof.
    intros H. unfold scollect.
    assert (forall m, Forall (fun tc => slegal (fst tc)) m ->
      Forall (fun tc => slegal (fst tc)) (fold_left (fun m o => let '(c, t) := scoeff_term o in scmap_add c t m) l m)
      /\ forall x, smapval (fold_left (fun m o => let '(c, t) := scoeff_term o in scmap_add c t m) l m) x = aadd (fsum T (map svalue l) x) (smapval m x)) as G.
    { induction l as [|o l IH]; intros m Hm; cbn [fold_left map].
      - split; [exact Hm|]. intros x. symmetry. apply aadd_0.
      - destruct (scoeff_term_sound o (Forall_inv H)) as [Lo Vo]. destruct (scoeff_term o) as [c t]. cbn [fst snd] in Lo, Vo.
        destruct (scmap_add_sound c t m Lo Hm) as [Lm Vm]. destruct (IH (Forall_inv_tail H) _ Lm) as [L V]. split; [exact L|].
        intros x. rewrite V, Vm, fsum_cons, Vo, !aadd_assoc. f_equal. apply aadd_comm. }
    destruct (G [] (Forall_nil _)) as [L V]. split; [exact L|]. intros x. rewrite V. apply aadd_0r.
  Qed.
  Lemma super_plus_sound solt slt l : Forall slegal l -> smeans (super_plus solt slt l) (fsum T (map svalue l)).
  Proof.
    intros H. unfold super_plus. destruct (sflat_plus_sound l H) as [L V]. set (fl := sflat_plus l) in *. clearbody fl.
    pose proof (pysorted_perm (sfull_lt solt slt) fl) as P. set (sl := pysorted (sfull_lt solt slt) fl) in *. clearbody sl.
    assert (Forall slegal sl) as L'. { rewrite Forall_forall in *. intros x Hx. apply L. exact (Permutation_in _ (Permutation_sym P) Hx). }
    destruct (scollect_sound sl L') as [Lc Vc]. set (m := scollect sl) in *. clearbody m.
    set (fops := filter (fun o => negb (is_szero o)) (map (fun tc : sop * S => let '(t, c) := tc in super_scal c t) m)).
    assert (Forall slegal fops /\ forall x, fsum T (map svalue fops) x = fsum T (map svalue l) x) as [Lf Vf].
    { assert (Forall slegal fops /\ forall x, fsum T (map svalue fops) x = smapval m x) as [Lf Vf].
      { unfold fops. clear - Lc. induction m as [|[t c] m IH]; [split; [constructor|reflexivity]|]. destruct (IH (Forall_inv_tail Lc)) as [L V]. cbn [map filter].
        destruct (super_scal_sound t c (Forall_inv Lc)) as [Ls Vs]. destruct (super_scal c t) as [ | | | | | | | | ] eqn:E; cbn [is_szero negb].
        all: (split; [first [exact L | constructor; [exact Ls|exact L]]|]).
        all: intros x; unfold smapval; cbn [map fst snd]; rewrite msum_cons; fold (smapval m x); rewrite <- V, <- (Vs x); try (cbn [map]; rewrite fsum_cons; reflexivity).
        cbn [SupSpec.svalue]. symmetry. apply aadd_0. }
      split; [exact Lf|]. intros x. rewrite Vf, Vc, <- V. apply fsum_perm. apply Permutation_sym. now apply Permutation_map. }
    destruct fops as [|y [|z fops]].
    - split; [exact Logic.I|]. intros x. rewrite <- Vf. reflexivity.
    - split; [exact (Forall_inv Lf)|]. intros x. rewrite <- Vf. symmetry. apply fsum_1.
    - split; [now apply slegal_plus|]. intros x. rewrite <- Vf. reflexivity.
  Qed.
  Lemma super_plus2_sound solt slt a b : slegal a -> slegal b -> smeans (super_plus solt slt [a; b]) (fun x => aadd (svalue a x) (svalue b x)).
  Proof.
    intros Ha Hb. destruct (super_plus_sound solt slt [a; b]) as [L V]; [constructor; [exact Ha|constructor; [exact Hb|constructor]]|].
    split; [exact L|]. intros x. rewrite V. cbn [map]. apply fsum_2.
  Qed.
  Lemma super_sub_sound solt slt a b : slegal a -> slegal b -> smeans (super_sub solt slt a b) (fun x => aadd (svalue a x) (smul (kopp k1) (svalue b x))).
  Proof.
    intros Ha Hb. unfold super_sub. destruct (super_scal_sound b sm1 Hb) as [Lb Vb]. destruct (super_plus2_sound solt slt a _ Ha Lb) as [L V].
    split; [exact L|]. intros x. now rewrite V, Vb, (ev_sm1 T).
  Qed.

  (** products *)
  Section Times.
  Context (solt : sop -> sop -> bool) (slt : list nat -> list nat -> bool).
  Context (K : ocreators S) (HK : soundK T K) (sord : list sop -> res (list sop)) (Hord : sorder_ok sord).
  Lemma sflat_times_sound l : Forall slegal l -> Forall slegal (sflat_times l) /\ forall x, fcomp T (map svalue (sflat_times l)) x = fcomp T (map svalue l) x.
  Proof.
    induction l as [|s l IH]; intros H; [now split|]. destruct (IH (Forall_inv_tail H)) as [L V]. pose proof (Forall_inv H) as Hs.
    unfold sflat_times. cbn [flat_map]. fold (sflat_times l). split.
    - apply Forall_app. split; [|exact L]. destruct s; try (constructor; [exact Hs|constructor]). now apply slegal_times.
    - intros x. rewrite map_app, fcomp_app, V. cbn [map]. rewrite fcomp_cons. destruct s; reflexivity.
  Qed.
  Section Step.
  Context (times : list sop -> res sop).
  Context (Htimes : forall l e, Forall slegal l -> times l = Ok e -> smeans e (fcomp T (map svalue l))).
  Definition srule_sound (r : sop -> sop -> outcome sop) : Prop :=
    forall x y e, slegal x -> slegal y -> r x y = Replaces (Some e) -> smeans e (fun v => svalue x (svalue y v)).
  Lemma times2 a b e : slegal a -> slegal b -> times [a; b] = Ok e -> smeans e (fun v => svalue a (svalue b v)).
  Proof. intros Ha Hb H. exact (Htimes [a; b] e (Forall_cons _ Ha (Forall_cons _ Hb (Forall_nil _))) H). Qed.
  Lemma srules_sound : Forall srule_sound [q001 times; q002 times; q003 K; q004 K].
  Proof.
    repeat apply Forall_cons; [| | | |constructor]; intros x y e Hx Hy H.
    - destruct x; try discriminate H. cbn [q001] in H. apply olift_ok in H. step H p Ep. injection H as <-.
      destruct (times2 x y p Hx Hy Ep) as [L V]. destruct (super_scal_sound p c L) as [L' V']. split; [exact L'|]. intros v. now rewrite V', V.
    - destruct y; try (destruct x; discriminate H). cbn [q002] in H. apply olift_ok in H. step H p Ep. injection H as <-.
      destruct (times2 x y p Hx Hy Ep) as [L V]. destruct (super_scal_sound p c L) as [L' V']. split; [exact L'|]. intros v. rewrite V', V. cbn [SupSpec.svalue].
      symmetry. now apply svalue_smul.
    - destruct x; try discriminate H. destruct y; try discriminate H. cbn [q003] in H. apply olift_ok in H. step H p Ep. injection H as <-.
      destruct (m_times2 T K HK _ _ _ Hx Hy Ep) as [L V]. destruct (pre_create_sound p L) as [L' V']. split; [exact L'|]. intros v. rewrite V', V. cbn [SupSpec.svalue].
      symmetry. apply amul_assoc.
    - destruct x; try discriminate H. destruct y; try discriminate H. cbn [q004] in H. apply olift_ok in H. step H p Ep. injection H as <-.
      destruct (m_times2 T K HK _ _ _ Hy Hx Ep) as [L V]. destruct (post_create_sound p L) as [L' V']. split; [exact L'|]. intros v. rewrite V', V. cbn [SupSpec.svalue].
      apply amul_assoc.
  Qed.
  Local Notation cls := (stimes_cls K times).
  Lemma srewrites_sound x y r : slegal x -> slegal y -> rewrites_to cls x y r -> smeans r (fun v => svalue x (svalue y v)).
  Proof.
    intros Hx Hy (b & q & a & E & _ & H). pose proof srules_sound as HF. cbn [stimes_cls binary_rules] in E. rewrite E in HF.
    apply Forall_app in HF. destruct HF as [_ HF]. exact (Forall_inv HF x y r Hx Hy H).
  Qed.
  Lemma scontributes_sound r : slegal r ->
    Forall slegal (contributes cls r) /\ forall x, fcomp T (map svalue (contributes cls r)) x = svalue r x.
  Proof.
    intros Hr. unfold contributes. cbn [stimes_cls is_neutral instance_args]. destruct r; cbn [is_sone map];
      try (split; [constructor; [exact Hr|constructor]|reflexivity]); try (split; [constructor|reflexivity]).
    split; [now apply slegal_times|reflexivity].
  Qed.
  Lemma sreach_sound l l' : reachable cls l l' -> Forall slegal l ->
    Forall slegal l' /\ forall x, fcomp T (map svalue l') x = fcomp T (map svalue l) x.
  Proof.
    induction 1 as [a b (pre & x & y & post & r & -> & H & ->)|a|a b c _ IH1 _ IH2]; intros HL.
    - apply Forall_app in HL. destruct HL as [H1 H2]. pose proof (Forall_inv H2) as Hx. pose proof (Forall_inv (Forall_inv_tail H2)) as Hy.
      pose proof (Forall_inv_tail (Forall_inv_tail H2)) as H3. destruct (srewrites_sound x y r Hx Hy H) as [Lr Vr].
      destruct (scontributes_sound r Lr) as [Lc Vc]. split.
      + apply Forall_app. split; [exact H1|]. apply Forall_app. now split.
      + intros v. rewrite !map_app, !fcomp_app, Vc, Vr. reflexivity.
    - now split.
    - destruct (IH1 HL) as [L1 V1]. destruct (IH2 L1) as [L2 V2]. split; [exact L2|]. intros v. now rewrite V2, V1.
  Qed.
  Lemma filter_sone_sound l : Forall slegal l ->
    Forall slegal (filter (fun o => negb (is_sone o)) l) /\ forall x, fcomp T (map svalue (filter (fun o => negb (is_sone o)) l)) x = fcomp T (map svalue l) x.
  Proof.
    induction l as [|s l IH]; intros H; [now split|]. destruct (IH (Forall_inv_tail H)) as [L V]. pose proof (Forall_inv H) as Hx. cbn [filter].
    destruct s; cbn [is_sone negb map]; (split; [first [exact L|constructor; [exact Hx|exact L]]|]); intros x; rewrite ?fcomp_cons, V; reflexivity.
  Qed.
  Lemma existsb_zero_sound l : Forall slegal l -> existsb is_szero l = true -> forall x, fcomp T (map svalue l) x = a0.
  Proof.
    induction l as [|s l IH]; intros H E x; [discriminate|]. cbn [map]. rewrite fcomp_cons. cbn [existsb] in E. apply orb_true_iff in E. destruct E as [E|E].
    - destruct s; try discriminate E. reflexivity.
    - rewrite (IH (Forall_inv_tail H) E). apply svalue_0. exact (Forall_inv H).
  Qed.
  Lemma stimes_step_sound fuel l e : Forall slegal l -> stimes_step K sord times fuel l = Ok e -> smeans e (fcomp T (map svalue l)).
  Proof.
    intros HL E. unfold stimes_step in E. destruct (existsb is_szero l) eqn:Ez.
    { injection E as <-. split; [exact Logic.I|]. intros x. symmetry. now apply existsb_zero_sound. }
    step E l1 E1. destruct (sflat_times_sound l HL) as [L V]. apply Hord in E1.
    pose proof (smoves_legal T _ _ E1 L) as L1. pose proof (smoves_product T _ _ E1 L) as V1. clear E1.
    destruct (filter_sone_sound l1 L1) as [Lf Vf].
    assert (forall x, fcomp T (map svalue (filter (fun o => negb (is_sone o)) l1)) x = fcomp T (map svalue l) x) as W by (intros x; now rewrite Vf, V1, V).
    destruct l1 as [|x l1]; [injection E as <-; split; [exact Logic.I|]; intros x; rewrite <- W; reflexivity|].
    destruct (filter (fun o => negb (is_sone o)) (x :: l1)) as [|y [|z fops]] eqn:Ef.
    - injection E as <-. split; [exact (Forall_inv L1)|]. intros v. rewrite <- W. cbn [filter] in Ef. destruct x; try discriminate Ef. reflexivity.
    - injection E as <-. split; [exact (Forall_inv Lf)|]. intros v. rewrite <- W. reflexivity.
    - step E r Er. unfold match_replace_binary in Er. step Er fo Efo. apply reduce_reach in Efo. destruct (sreach_sound _ _ Efo Lf) as [Lo Vo].
      destruct fo as [|a [|b fo]]; injection Er as <-; injection E as <-.
      + split; [exact Logic.I|]. intros v. rewrite <- W, <- Vo. reflexivity.
      + split; [exact (Forall_inv Lo)|]. intros v. rewrite <- W, <- Vo. reflexivity.
      + split; [now apply slegal_times|]. intros v. rewrite <- W, <- Vo. reflexivity.
  Qed.
  End Step.
  Lemma super_times_sound : forall n l e, Forall slegal l -> super_times K sord n l = Ok e -> smeans e (fcomp T (map svalue l)).
  Proof. induction n as [|n IH]; intros l e; [discriminate|]. cbn [super_times]. apply stimes_step_sound. exact IH. Qed.
  Lemma super_times2_sound n a b e : slegal a -> slegal b -> super_times K sord n [a; b] = Ok e -> smeans e (fun v => svalue a (svalue b v)).
  Proof. intros Ha Hb H. exact (super_times_sound n [a; b] e (Forall_cons _ Ha (Forall_cons _ Hb (Forall_nil _))) H). Qed.

  (** application *)
  Section Apply.
  Context (app : sop -> op -> option op) (unapp : op -> option (sop * op)) (Happ : apps_ok T app unapp).
  Lemma last_prepost_inv (l : list sop) i s : last_prepost l = Some (i, s) -> l = i ++ [s].
  Proof.
    unfold last_prepost. destruct (split_last l) as [[i' s']|] eqn:E; [|discriminate]. apply split_last_inv in E. subst l.
    destruct i'; [discriminate|]. destruct s'; try discriminate; intros H; injection H as <- <-; reflexivity.
  Qed.
  Lemma super_apply_sound : forall n s b e, slegal s -> legal b -> super_apply K sord app unapp n s b = Ok e -> means e (svalue s (value b)).
  Proof.
    induction n as [|n IH]; intros s b e Hs Hb H; [discriminate|]. cbn [super_apply] in H.
    assert (of_option Unmodelled (app s b) = Ok e -> means e (svalue s (value b))) as Gapp.
    { intros E. destruct (app s b) as [e'|] eqn:Ea; [|discriminate]. injection E as <-. now apply (app_ok T app unapp Happ). }
    assert (forall sB c, unapp b = Some (sB, c) -> (do st <- super_times K sord n [s; sB]; super_apply K sord app unapp n st c) = Ok e -> means e (svalue s (value b))) as Gun.
    { intros sB c Eu E. destruct (unapp_ok T app unapp Happ _ _ _ Eu Hb) as [LB [Lc Vc]]. step E st Est. destruct (super_times2_sound n s sB st Hs LB Est) as [Lst Vst].
      rewrite Vc, <- Vst. now apply IH. }
    assert (forall u b', b = OScal u b' -> (do p <- super_apply K sord app unapp n s b'; k_scal K u p) = Ok e -> means e (svalue s (value b))) as Gsc.
    { intros u b' -> E. step E p Ep. destruct (IH s b' p Hs Hb Ep) as [Lp Vp]. destruct (s_scal T K HK _ _ _ Lp E) as [Le Ve]. split; [exact Le|].
      rewrite Ve, Vp. cbn [OpSpec.value]. symmetry. now apply svalue_smul. }
    assert (forall r : res op, (match b with OScal u b' => do p <- super_apply K sord app unapp n s b'; k_scal K u p
       | _ => match unapp b with Some (sB, c) => do st <- super_times K sord n [s; sB]; super_apply K sord app unapp n st c | None => r end end) = Ok e ->
       (r = Ok e -> means e (svalue s (value b))) -> means e (svalue s (value b))) as G.
    { intros r E Hr. destruct b; try exact (Gsc _ _ eq_refl E);
        (match type of E with (match ?u with _ => _ end = _) => destruct u as [[sB c0]|] eqn:Eu end; [exact (Gun _ _ eq_refl E)|exact (Hr E)]). }
    destruct s as [| |nm h|a|a|u t|l|l|t].
    - injection H as <-. now split.
    - injection H as <-. now split.
    - exact (G _ H Gapp).
    - apply (G _ H). intros E. exact (m_times2 T K HK a b e Hs Hb E).
    - apply (G _ H). intros E. exact (m_times2 T K HK b a e Hb Hs E).
    - step H p Ep. destruct (IH t b p Hs Hb Ep) as [Lp Vp]. destruct (s_scal T K HK _ _ _ Lp H) as [Le Ve]. split; [exact Le|]. rewrite Ve, Vp. reflexivity.
    - step H xs Ex. apply slegal_plus in Hs.
      destruct (mapM_sound T (fun o => super_apply K sord app unapp n o b) slegal (fun o => svalue o (value b)) l xs (fun o e0 Ho => IH o b e0 Ho Hb) Hs Ex) as [Lx Vx].
      destruct (s_plus T K HK xs e Lx H) as [Le Ve]. split; [exact Le|]. rewrite Ve, Vx. cbn [SupSpec.svalue]. unfold fsum. now rewrite map_map.
    - apply (G _ H). intros E. clear G Gun Gsc. destruct (last_prepost l) as [[i la]|] eqn:El; [|exact (Gapp E)]. apply last_prepost_inv in El. subst l.
      apply slegal_times, Forall_app in Hs. destruct Hs as [Li Lla]. apply Forall_inv in Lla. step E x Ex. step E y Ey.
      destruct (super_times_sound n i x Li Ex) as [Lx Vx]. destruct (IH la b y Lla Hb Ey) as [Ly Vy]. destruct (IH x y e Lx Ly E) as [Le Ve]. split; [exact Le|].
      rewrite Ve, Vx, Vy. cbn [SupSpec.svalue]. rewrite map_app, fcomp_app. reflexivity.
    - exact (G _ H Gapp).
  Qed.
  End Apply.
  End Times.
End Sound.
