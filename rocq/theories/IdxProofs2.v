From Verif Require Import Prelude ListFacts SortModel SortProofs HilbertModel BasisModel BasisSpec BasisProofs AlgSpec IdxModel IdxSpec IdxProofs1.

(** ** assignments *)
Definition choices (rs : list irange_of) : list (list (idx * Z)) :=
  map (fun r => map (pair (fst r)) (vals (snd r))) rs.
Lemma finite_vals n r : finite_range r -> range_values n r = Ok (vals r).
Proof. intros [l H]. unfold range_values, vals. rewrite H. reflexivity. Qed.
Lemma finite_len r : finite_range r -> irange_len r = Ok (length (vals r)).
Proof.
  intros [l H]. unfold vals. rewrite H. destruct r as [l0|a b s|[n|]]; cbn in *; try congruence.
  - destruct (s =? 0)%Z; [discriminate|]. injection H as <-. f_equal. symmetry. apply range_length.
  - injection H as <-. now rewrite map_length, seq_length.
Qed.
Lemma assignments_ok n rs : finite_ranges rs -> assignments n rs = Ok (cartesian (choices rs)).
Proof.
  intros H. unfold assignments.
  rewrite (mapM_ok _ (fun r => map (pair (fst r)) (vals (snd r)))); [reflexivity|].
  intros r Hr. rewrite finite_vals; [reflexivity|]. unfold finite_ranges in H. rewrite Forall_forall in H. now apply H.
Qed.
Lemma nth_cartesian_gen {A} (ls : list (list A)) is w :
  length is = length ls ->
  Forall2 (fun li x => nth_error (fst li) (snd li) = Some x) (combine ls is) w ->
  nth_error (cartesian ls) (rank (map (@length A) ls) is) = Some w.
Proof.
  revert is w. induction ls as [|l ls IH]; intros [|i is] w Hl H; try discriminate.
  - inversion H; subst. reflexivity.
  - cbn [combine] in H. inversion H as [|x y xs ys Hx Hxs]; subst. cbn [fst snd] in Hx. injection Hl as Hl.
    cbn [cartesian map]. rewrite rank_cons by (now rewrite map_length).
    rewrite (nth_error_flat_map _ (product_of (map (@length A) ls)) l i _ y); [|..].
    + rewrite nth_error_map, (IH is ys Hl Hxs). reflexivity.
    + intros z _. rewrite map_length. apply cartesian_length.
    + apply rank_lt. clear - Hl Hxs. revert is ys Hl Hxs. induction ls as [|l ls IH]; intros [|i is] ys Hl H; try discriminate; [constructor|].
      cbn in H. inversion H; subst. constructor; [apply nth_error_Some; cbn in *; congruence|]. eapply IH; [now injection Hl|eassumption].
    + exact Hx.
Qed.
Lemma cartesian_keys rs a : In a (cartesian (choices rs)) -> map fst a = syms rs.
Proof.
  revert a. induction rs as [|r rs IH]; intros a H; cbn in H.
  - destruct H as [<-|[]]. reflexivity.
  - apply in_flat_map in H. destruct H as [p [Hp Ha]]. apply in_map_iff in Ha. destruct Ha as [b [<- Hb]].
    apply in_map_iff in Hp. destruct Hp as [v [<- _]]. cbn. now rewrite (IH b Hb).
Qed.
Definition updl (e : env) (a : list (idx * Z)) : env := fold_left (fun e p => upd e (fst p) (snd p)) a e.
Lemma updl_other e a x : ~ In x (map fst a) -> updl e a x = e x.
Proof.
  revert e. induction a as [|p a IH]; intros e H; [reflexivity|].
  change (updl (upd e (fst p) (snd p)) a x = e x). rewrite IH by (intros F; apply H; now right).
  apply upd_other. intros ->. apply H. now left.
Qed.
Lemma lookup_consts x a : lookup x (consts a) = option_map IConst (lookup x a).
Proof. induction a as [|p a IH]; [reflexivity|]. cbn. destruct p as [y v]. cbn. destruct (idx_eqb x y); [reflexivity|exact IH]. Qed.
Lemma lookup_None {V} x (m : list (idx * V)) : lookup x m = None <-> ~ In x (map fst m).
Proof.
  induction m as [|[y v] m IH]; cbn; [tauto|]. destruct (idx_eqb x y) eqn:E.
  - apply idx_eqb_spec in E. subst. split; [discriminate|]. intros H. exfalso. apply H. now left.
  - rewrite IH. split; [|tauto]. intros H [F|F]; [|contradiction]. subst. now rewrite idx_eqb_refl in E.
Qed.
Lemma msub_consts e a : NoDup (map fst a) -> forall x, msub e (consts a) x = updl e a x.
Proof.
  revert e. induction a as [|[y v] a IH]; intros e Hn x; [reflexivity|]. inversion Hn as [|? ? H1 H2]; subst. cbn [updl fold_left fst snd].
  change (fold_left (fun e0 p => upd e0 (fst p) (snd p)) a (upd e y v)) with (updl (upd e y v) a).
  unfold msub. cbn [consts map lookup fst snd]. destruct (idx_eqb x y) eqn:E.
  - apply idx_eqb_spec in E. subst. cbn. rewrite updl_other by exact H1. now rewrite upd_same.
  - rewrite <- IH by exact H2. unfold msub. change (map (fun p => (fst p, IConst (snd p))) a) with (consts a).
    rewrite lookup_consts. destruct (lookup x a); cbn; [reflexivity|]. unfold upd. now rewrite E.
Qed.

Section Den.
  Context (M : algebra) (symI : nat -> list Z -> K M) (atomI : nat -> list Z -> A M).
  Add Ring KrJ : (kring M).
  Notation sd := (sden M symI). Notation td := (tden M symI atomI).

  Lemma asum_cartesian rs f e :
    asum (fun a => f (updl e a)) (cartesian (choices rs)) = sum_ranges M rs f e.
  Proof.
    revert e. induction rs as [|r rs IH]; intros e.
    - cbn. apply aadd_0r.
    - cbn [choices map cartesian sum_ranges]. rewrite asum_flat_map, asum_map. apply asum_ext. intros v _.
      rewrite asum_map. cbn [updl fold_left fst snd].
      exact (IH (upd e (fst r) v)).
  Qed.

  (** ** adding up *)
  Definition oden (e : env) (o : option term) : A M := match o with Some t => td e t | None => a0 end.
  Definition add_one (acc : option term) (t : term) : option term :=
    Some (match acc with None => t | Some a => TAdd a t end).
  Lemma add_one_den e acc t : oden e (add_one acc t) = aadd (oden e acc) (td e t).
  Proof. destruct acc; cbn; [reflexivity|]. symmetry. apply aadd_0. Qed.
  Lemma add_all_den e us acc : oden e (fold_left add_one us acc) = aadd (oden e acc) (asum (td e) us).
  Proof.
    revert acc. induction us as [|u us IH]; intros acc; cbn [fold_left].
    - symmetry. apply aadd_0r.
    - rewrite IH, add_one_den, asum_cons. symmetry. apply aadd_assoc.
  Qed.
  (** nothing fails to be added *)
  Definition no_sums (acc : option term) (us : list term) : Prop :=
    match acc with Some a => is_sum a = false | None => Forall (fun u => is_sum u = false) us end.
  Lemma add_step acc u us : no_sums acc (u :: us) ->
    (match acc with None => Ok u | Some a => plus a u end = Ok (match acc with None => u | Some a => TAdd a u end))
    /\ no_sums (add_one acc u) us.
  Proof.
    destruct acc as [a|]; cbn [no_sums add_one]; intros H.
    - unfold plus. rewrite H. split; reflexivity.
    - split; [reflexivity|]. exact (Forall_inv H).
  Qed.
  Lemma doit_loop_ok limit us : forall i acc, no_sums acc us -> i + length us <= S limit ->
    doit_loop limit None i acc (map Ok us) = Ok (fold_left add_one us acc).
  Proof.
    induction us as [|u us IH]; intros i acc Hs H; [reflexivity|]. cbn [map doit_loop bind fold_left].
    destruct (add_step acc u us Hs) as [E Hs']. rewrite E. cbn [bind].
    cbn [length] in H. destruct (Nat.ltb_spec limit i); [lia|]. apply IH; [exact Hs'|lia].
  Qed.
  Lemma doit_loop_limit limit us : forall i acc, no_sums acc us -> S limit < i + length us -> i <= S limit ->
    doit_loop limit None i acc (map Ok us) = Err InfiniteSumError.
  Proof.
    induction us as [|u us IH]; intros i acc Hs H Hi; cbn [length] in H; [lia|]. cbn [map doit_loop bind].
    destruct (add_step acc u us Hs) as [E Hs']. rewrite E. cbn [bind].
    destruct (Nat.ltb_spec limit i); [reflexivity|]. apply (IH (S i) (add_one acc u)); [exact Hs'|lia|lia].
  Qed.
  Lemma doit_loop_max limit m us : forall i acc, no_sums acc us -> m <= limit -> i <= m ->
    doit_loop limit (Some m) i acc (map Ok us) = Ok (fold_left add_one (firstn (m - i) us) acc).
  Proof.
    induction us as [|u us IH]; intros i acc Hs Hm Hi.
    - destruct (m - i); reflexivity.
    - cbn [map doit_loop bind]. destruct (Nat.leb_spec m i).
      + replace (m - i) with 0 by lia. reflexivity.
      + destruct (add_step acc u us Hs) as [E Hs']. rewrite E. cbn [bind]. destruct (Nat.ltb_spec limit i); [lia|].
        replace (m - i) with (S (m - S i)) by lia. cbn [firstn fold_left]. rewrite <- IH; [reflexivity|exact Hs'|lia|lia].
  Qed.
  Lemma tsubst_is_sum m t u : tsubst m t = Ok u -> is_sum u = is_sum t.
  Proof.
    destruct t as [n args|c t|t t2|t t2|t rs]; cbn [tsubst]; intros H.
    - injection H as <-. reflexivity.
    - destruct (tsubst m t); [|discriminate]. injection H as <-. reflexivity.
    - destruct (tsubst m t); [|discriminate]. cbn [bind] in H. destruct (tsubst m t2); [|discriminate]. injection H as <-. reflexivity.
    - destruct (tsubst m t); [|discriminate]. cbn [bind] in H. destruct (tsubst m t2); [|discriminate]. injection H as <-. reflexivity.
    - destruct (tsubst m t); [|discriminate]. cbn [bind] in H. destruct (mapM _ rs); [|discriminate]. cbn [bind] in H.
      apply sum_init_ok in H. destruct H as [-> _]. reflexivity.
  Qed.
  Lemma no_capture_consts a bs : (forall x, In x (map fst a) -> ~ In x bs) -> no_capture (consts a) bs.
  Proof.
    intros H z Hz. split.
    - rewrite lookup_consts. assert (E : lookup z a = None) by (apply lookup_None; intros F; now apply (H z)).
      now rewrite E.
    - intros y v E. rewrite lookup_consts in E. destruct (lookup y a); [|discriminate]. cbn in E. injection E as <-. intros [].
  Qed.
  (** the terms of the sum *)
  Lemma terms_ok n t rs : finite_ranges rs -> NoDup (syms rs) -> wf t ->
    (forall x, In x (syms rs) -> ~ In x (tbound t)) ->
    exists us, terms n t rs = Ok (map Ok us)
      /\ Forall2 (fun a u => tsubst (consts a) t = Ok u) (cartesian (choices rs)) us
      /\ (forall e, Forall2 (fun a u => td e u = td (updl e a) t) (cartesian (choices rs)) us).
  Proof.
    intros Hf Hn Hw Hb. unfold terms. rewrite assignments_ok by exact Hf. cbn [bind].
    assert (Hk : forall a, In a (cartesian (choices rs)) -> map fst a = syms rs) by (intros a; apply cartesian_keys).
    induction (cartesian (choices rs)) as [|a l IH].
    - exists []. repeat split; constructor.
    - destruct IH as [us [H1 [H2 H3]]]; [intros b Hb'; apply Hk; now right|].
      assert (Ka : map fst a = syms rs) by (apply Hk; now left).
      destruct (tsubst_wf (consts a) t Hw) as [u [Eu _]].
      { intros z Hz. rewrite lookup_consts. assert (E : lookup z a = None); [|now rewrite E].
        apply lookup_None. rewrite Ka. intros F. now apply (Hb z). }
      exists (u :: us). injection H1 as H1. split; [cbn [map]; now rewrite Eu, H1|]. split; [constructor; assumption|].
      intros e. constructor; [|apply H3].
      rewrite (tden_subst M symI atomI (consts a) t u e); [| |exact Eu].
      + apply tden_ext. intros x _. apply msub_consts. now rewrite Ka.
      + apply no_capture_consts. rewrite Ka. exact Hb.
  Qed.
  Lemma asum_Forall2 {X Y} (f : X -> A M) (g : Y -> A M) l l' :
    Forall2 (fun x y => g y = f x) l l' -> asum g l' = asum f l.
  Proof. induction 1 as [|x y l l' H1 H2 IH]; [reflexivity|]. rewrite !asum_cons, H1, IH. reflexivity. Qed.

  Lemma choices_length rs : length (cartesian (choices rs)) = product_of (map (fun r => length (vals (snd r))) rs).
  Proof. rewrite cartesian_length. unfold choices. rewrite map_map. f_equal. apply map_ext. intros r. apply map_length. Qed.
  Lemma sum_len_ok rs : finite_ranges rs ->
    sum_len rs = Ok (product_of (map (fun r => length (vals (snd r))) rs)).
  Proof.
    intros H. unfold sum_len.
    rewrite (mapM_ok _ (fun r => length (vals (snd r)))).
    - cbn [bind]. rewrite prod_fold. f_equal. lia.
    - intros r Hr. unfold finite_ranges in H. rewrite Forall_forall in H. now rewrite (finite_len _ (H r Hr)).
  Qed.

  Lemma doit_over_ok limit indices : forall t rs,
    finite_ranges rs -> NoDup (syms rs) -> wf t -> is_sum t = false ->
    (forall x, In x (syms rs) -> ~ In x (tbound t)) ->
    (forall x r, In (x, r) rs -> length (vals r) <= S limit /\ vals r <> []) ->
    exists s, doit_over limit indices t rs = Ok (Some s) /\ forall e, td e s = td e (TSum t rs).
  Proof.
    induction indices as [|x indices IH]; intros t rs Hf Hn Hw Hsum0 Hb Hv; cbn [doit_over].
    - eexists. split; [reflexivity|]. reflexivity.
    - destruct (find (fun r => idx_eqb (fst r) x) rs) as [r|] eqn:Ef.
      2:{ eexists. split; [reflexivity|]. reflexivity. }
      apply find_some in Ef. destruct Ef as [Hr Ex]. apply idx_eqb_spec in Ex. destruct r as [x' r]. cbn in Ex. subst x'.
      cbn [snd]. set (others := filter (fun r => negb (idx_eqb (fst r) x)) rs) in *.
      assert (Hfr : finite_range r) by (unfold finite_ranges in Hf; rewrite Forall_forall in Hf; exact (Hf _ Hr)).
      rewrite (finite_vals _ r Hfr). cbn [bind].
      assert (Hxb : ~ In x (tbound t)) by (apply Hb; apply in_map_iff; exists (x, r); split; [reflexivity|exact Hr]).
      (* the substituted terms *)
      assert (Hus : exists us, map (fun v => tsubst [(x, IConst v)] t) (vals r) = map Ok us
                /\ Forall (fun u => wf u /\ tbound u = tbound t) us
                /\ Forall (fun u => is_sum u = false) us
                /\ forall e, Forall2 (fun v u => td e u = td (upd e x v) t) (vals r) us).
      { clear - Hw Hsum0 Hxb. induction (vals r) as [|v vs IHv].
        - exists []. repeat split; constructor.
        - destruct IHv as [us [U1 [U2 [U4 U3]]]].
          destruct (tsubst_wf [(x, IConst v)] t Hw) as [u [Eu [Wu Bu]]].
          { intros z Hz. cbn. rewrite idx_eqb_neq; [reflexivity|]. intros ->. contradiction. }
          exists (u :: us). split; [cbn [map]; now rewrite Eu, U1|]. split; [constructor; [split; assumption|exact U2]|].
          split; [constructor; [now rewrite (tsubst_is_sum _ _ _ Eu)|exact U4]|].
          intros e0. constructor; [|apply U3].
          rewrite (tden_subst M symI atomI [(x, IConst v)] t u e0); [| |exact Eu].
          + apply tden_ext. intros z _. unfold msub, upd. cbn. destruct (idx_eqb z x); reflexivity.
          + apply (no_capture_consts [(x, v)]). intros z [<-|[]]. exact Hxb. }
      destruct Hus as [us [U1 [U2 [U4 U3]]]]. rewrite U1.
      destruct (Hv x r Hr) as [Hlim Hne].
      assert (Hlen : length us = length (vals r)).
      { symmetry. apply (f_equal (@length (res term))) in U1. rewrite !map_length in U1. exact U1. }
      rewrite doit_loop_ok; [|exact U4|cbn [Nat.add]; lia]. cbn [bind].
      assert (Hadd : exists t', fold_left add_one us None = Some t' /\ wf t'
                  /\ (forall z, In z (tbound t') -> In z (tbound t)) /\ is_sum t' = false
                  /\ forall e, td e t' = asum (fun v => td (upd e x v) t) (vals r)).
      { assert (Hd : forall e, oden e (fold_left add_one us None) = asum (fun v => td (upd e x v) t) (vals r)).
        { intros e0. rewrite add_all_den. cbn [oden]. rewrite aadd_0. apply asum_Forall2. apply U3. }
        destruct us as [|u us]; [destruct (vals r); [congruence|discriminate]|].
        cbn [fold_left] in *. change (add_one None u) with (Some u) in *. revert Hd.
        destruct (Forall_inv U2) as [W1 B1]. pose proof (Forall_inv_tail U2) as U2'.
        assert (Hinv : forall us a, Forall (fun u => wf u /\ tbound u = tbound t) us -> wf a -> is_sum a = false ->
                  (forall z, In z (tbound a) -> In z (tbound t)) ->
                  exists t', fold_left add_one us (Some a) = Some t' /\ wf t' /\ is_sum t' = false /\ forall z, In z (tbound t') -> In z (tbound t)).
        { clear. induction us as [|u us IH]; intros a Hus Ha Hsa Hba; [exists a; repeat split; assumption|].
          inversion Hus as [|? ? [W B] Hus']; subst. cbn [fold_left]. change (add_one (Some a) u) with (Some (TAdd a u)). apply IH; [exact Hus'|split; assumption|reflexivity|].
          intros z Hz. cbn in Hz. apply in_app_or in Hz. destruct Hz as [Hz|Hz]; [now apply Hba|]. now rewrite <- B. }
        destruct (Hinv us u U2' W1 (Forall_inv U4)) as [t' [T1 [T2 [T5 T3]]]]; [intros z; now rewrite B1|]. intros Hd.
        exists t'. split; [exact T1|]. split; [exact T2|]. split; [exact T3|]. split; [exact T5|]. intros e0. rewrite <- Hd, T1. reflexivity. }
      destruct Hadd as [t' [T1 [T2 [T3 [T5 T4]]]]]. rewrite T1.
      (* the range moved to the front *)
      assert (Hperm : Permutation rs (others ++ [(x, r)])).
      { clear - Hr Hn. unfold others. induction rs as [|q rs IH]; [destruct Hr|]. cbn [filter].
        inversion Hn as [|? ? N1 N2]; subst. destruct Hr as [->|Hr].
        - cbn [fst]. rewrite idx_eqb_refl. cbn [negb]. rewrite filter_id_in.
          + apply Permutation_cons_append.
          + intros p Hp. rewrite idx_eqb_neq; [reflexivity|]. intros E. apply N1. cbn. rewrite <- E. now apply in_map.
        - rewrite idx_eqb_neq.
          + cbn [negb app]. constructor. now apply IH.
          + intros E. apply N1. rewrite E. apply in_map_iff. exists (x, r). split; [reflexivity|exact Hr]. }
      assert (Hsum : forall e, td e (TSum t rs) = sum_ranges M others (fun e' => td e' t') e).
      { intros e0. cbn [tden]. rewrite (sum_ranges_perm M rs (others ++ [(x, r)])); [|exact Hperm|exact Hn|apply tden_extf].
        rewrite sum_ranges_app. apply sum_ranges_ext. intros e' _. cbn [sum_ranges fst snd]. symmetry. apply T4. }
      destruct others as [|o os] eqn:Eo.
      + eexists. split; [reflexivity|]. intros e0. rewrite Hsum. reflexivity.
      + rewrite <- Eo in *.
        assert (Hno : NoDup (syms others)).
        { pose proof (Permutation_map fst Hperm) as HP. rewrite map_app in HP.
          exact (NoDup_app_remove_r _ _ (Permutation_NoDup HP Hn)). }
        rewrite (proj2 (sum_init_ok t' others _) (conj eq_refl Hno)). cbn [bind].
        assert (Hsub : forall p, In p others -> In p rs).
        { intros p Hp. apply Permutation_sym in Hperm. apply (Permutation_in _ Hperm). rewrite Eo in *. apply in_or_app. now left. }
        destruct (IH t' others) as [s [I1 I2]]; [|exact Hno|exact T2|exact T5| | |exists s; split; [exact I1|intros e0; now rewrite Hsum, I2]].
        * unfold finite_ranges in *. rewrite Forall_forall in *. intros p Hp. apply Hf, Hsub, Hp.
        * intros z Hz F. apply (Hb z); [|now apply T3]. unfold syms in *. apply in_map_iff in Hz. destruct Hz as [p [<- Hp]].
          apply in_map, Hsub, Hp.
        * intros z q' Hq. apply (Hv z q'). now apply Hsub.
  Qed.
End Den.
