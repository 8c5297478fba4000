(** C13: automatic simplification of circuit expressions preserves what they
    evaluate to; C14: and their numbers of channels. *)
From Coq Require Import QArith Qcanon.
From Verif Require Import Prelude ListFacts PermModel PermSpec PermProofs1 PermProofs4 CircModel CircProofs1 CircProofs2 BinModel CSimpModel CSimpSpec CSimpProofs3 CSimpProofs4 CSimpProofs5 CSimpProofs6.
From Verif Require Import AlgSpec CAlg CInst NcRing MatModel SlhModel MatSpec MatProofs SlhProofs1 SlhProofs2 SlhProofs3 SlhProofs4 SlhProofs5 SlhProofs6 SlhProofs7 SlhProofs8 CSimpSlh ToSlhModel ToSlhSpec ToSlhProofs CSimpProofs7 CSimpFuel Properties_Slh.
Local Open Scope nat_scope.

(** [comp] evaluates symbols and components, [inv] inverts multiples of the
    identity operator in the feedback formula, [slh_eq] is equality of SLH
    objects. The only assumptions: a returned inverse is one, and equal SLH
    objects are equal. *)
Section C13.
  Context {M : calgebra} (comp : nat -> nat -> res (slh M)) (inv : A M -> res (K M)) (slh_eq : slh M -> slh M -> bool).
  Context (Hinv : sound_inv inv) (Heq : forall s t, slh_eq s t = true -> s = t).
  Local Notation circ := (circ (slh M)).
  Local Notation lit := (slh_lits M inv slh_eq).
  Local Notation toSLH := (to_slh comp inv).
  Local Notation valid := (valid comp).
  Local Notation mean := (mean (slh_model M) (symd comp) ldend).
  Implicit Types (c d r : circ) (s t : slh M).

  Lemma HL : lits_sound (slh_model M) lit ldend.
  Proof. exact (slh_lits_sound M inv slh_eq Hinv Heq). Qed.
  Lemma HK fuel : sound (slh_model M) (symd comp) ldend (simp lit fuel).
  Proof. apply simp_sound, HL. Qed.

  (** ** C13 *)
  (** [SeriesProduct.create] on any number of operands *)
  Theorem C13_series_product ops s fuel r s' : valid (CSeries ops) -> toSLH (CSeries ops) = Ok s ->
    k_series (simp lit fuel) ops = Ok r -> toSLH r = Ok s' -> s' = s.
  Proof.
    intros Hv Hs Hr Hs'. pose proof (ev_mean comp inv Hinv _ Hv _ Hs) as Hm.
    inversion Hm as [| | | | |? ? ? Hne Hk Hsm| | |]; subst.
    exact (mean_ev comp inv Hinv _ _ _ _ (s_series _ _ _ _ (HK fuel) _ _ _ _ Hne Hsm Hr) Hs').
  Qed.
  (** [Concatenation.create] on any number of operands *)
  Theorem C13_concatenation ops s fuel r s' : valid (CConcat ops) -> toSLH (CConcat ops) = Ok s ->
    k_concat (simp lit fuel) ops = Ok r -> toSLH r = Ok s' -> s' = s.
  Proof.
    intros Hv Hs Hr Hs'. pose proof (ev_mean comp inv Hinv _ Hv _ Hs) as Hm.
    inversion Hm as [| | | | | |? ? ? Hne Hcm Hpos| |]; subst.
    exact (mean_ev comp inv Hinv _ _ _ _ (s_concat _ _ _ _ (HK fuel) _ _ _ _ Hcm Hr) Hs').
  Qed.
  (** [c << d] evaluates to the series product of the evaluated operands *)
  Theorem C13_lshift c d s t fuel r s' : valid c -> valid d -> cdim c = cdim d -> toSLH c = Ok s -> toSLH d = Ok t ->
    k_series (simp lit fuel) [c; d] = Ok r -> toSLH r = Ok s' -> series_with_slh s t = Ok s'.
  Proof.
    intros Hc Hd Hn Es Et Hr Hs'. pose proof (ev_mean comp inv Hinv _ Hc _ Es) as Mc. pose proof (ev_mean comp inv Hinv _ Hd _ Et) as Md.
    rewrite <- Hn in Md. pose proof (k_series2 _ _ _ _ (HK fuel) _ _ _ _ _ _ Mc Md Hr) as Mr.
    rewrite (mean_ev comp inv Hinv _ _ _ _ Mr Hs'). apply series_ok.
    - exact (proj1 (mean_ok _ _ _ _ _ _ Mc)).
    - exact (proj1 (mean_ok _ _ _ _ _ _ Md)).
  Qed.
  (** [c + d] evaluates to the concatenation of the evaluated operands *)
  Theorem C13_plus c d s t fuel r s' : valid c -> valid d -> toSLH c = Ok s -> toSLH d = Ok t ->
    k_concat (simp lit fuel) [c; d] = Ok r -> toSLH r = Ok s' -> concatenate_slh s t = Ok s'.
  Proof.
    intros Hc Hd Es Et Hr Hs'. pose proof (ev_mean comp inv Hinv _ Hc _ Es) as Mc. pose proof (ev_mean comp inv Hinv _ Hd _ Et) as Md.
    pose proof (k_concat2 _ _ _ _ (HK fuel) _ _ _ _ _ _ _ Mc Md Hr) as Mr.
    rewrite (mean_ev comp inv Hinv _ _ _ _ Mr Hs'). apply concat_ok.
    - exact (proj1 (mean_ok _ _ _ _ _ _ Mc)).
    - exact (proj1 (mean_ok _ _ _ _ _ _ Md)).
  Qed.
  (** [c.feedback(out_port, in_port)] and [Feedback.create] *)
  Theorem C13_feedback c s o i t fuel r s' : valid c -> toSLH c = Ok s -> o < cdim c -> i < cdim c -> slh_feedback inv s o i = Ok t ->
    k_mfb (simp lit fuel) c o i = Ok r \/ k_fb (simp lit fuel) c o i = Ok r -> toSLH r = Ok s' -> s' = t.
  Proof.
    intros Hc Es Ho Hi Ht Hr Hs'. pose proof (ev_mean comp inv Hinv _ Hc _ Es) as Mc.
    destruct (cdim c) as [|n] eqn:En; [lia|]. pose proof (mean_ok _ _ _ _ _ _ Mc) as Ps.
    assert (o <= n) as Ho' by lia. assert (i <= n) as Hi' by lia.
    pose proof (slh_feedback_loop M inv Hinv n s o i t Ps Ho' Hi' Ht) as Hl.
    assert (mean r n t) as Mr.
    { destruct Hr as [Hr|Hr].
      - exact (s_mfb _ _ _ _ (HK fuel) _ _ _ _ _ _ _ Mc Ho' Hi' Hl Hr).
      - exact (s_fb _ _ _ _ (HK fuel) _ _ _ _ _ _ _ Mc Ho' Hi' Hl Hr). }
    exact (mean_ev comp inv Hinv _ _ _ _ Mr Hs').
  Qed.
  (** [FB]: absent ports default to the last one *)
  Theorem C13_FB c s o i t fuel r s' : valid c -> toSLH c = Ok s -> 0 < cdim c ->
    let port p := match p with Some k => k | None => cdim c - 1 end in
    port o < cdim c -> port i < cdim c -> slh_feedback inv s (port o) (port i) = Ok t ->
    FB lit fuel c o i = Ok r -> toSLH r = Ok s' -> s' = t.
  Proof.
    intros Hc Es Hn port Ho Hi Ht Hr Hs'.
    exact (C13_feedback c s (port o) (port i) t fuel r s' Hc Es Ho Hi Ht (or_intror Hr) Hs').
  Qed.
  (** [c.series_inverse()] and [SeriesInverse.create] *)
  Theorem C13_series_inverse c s t fuel r s' : valid c -> toSLH c = Ok s -> slh_series_inverse s = Ok t ->
    k_minv (simp lit fuel) c = Ok r \/ k_inv (simp lit fuel) c = Ok r -> toSLH r = Ok s' -> s' = t.
  Proof.
    intros Hc Es Ht Hr Hs'. pose proof (ev_mean comp inv Hinv _ Hc _ Es) as Mc.
    assert (0 < cdim c) as Hn.
    { destruct (cdim c) eqn:E; [|lia]. apply mean_zero_inv in Mc. destruct Mc as [-> _]. discriminate Es. }
    rewrite (sinv_ok s (cdim c)) in Ht by exact (proj1 (mean_ok _ _ _ _ _ _ Mc)). injection Ht as <-.
    assert (mean r (cdim c) (sinv (cdim c) s)) as Mr.
    { destruct Hr as [Hr|Hr]; [exact (s_minv _ _ _ _ (HK fuel) _ _ _ _ Mc Hn Hr)|exact (s_inv _ _ _ _ (HK fuel) _ _ _ _ Mc Hn Hr)]. }
    exact (mean_ev comp inv Hinv _ _ _ _ Mr Hs').
  Qed.
  (** [c.creduce()] *)
  Theorem C13_creduce c s fuel r s' : valid c -> toSLH c = Ok s -> creduce lit fuel c = Ok r -> toSLH r = Ok s' -> s' = s.
  Proof.
    intros Hc Es Hr Hs'. pose proof (ev_mean comp inv Hinv _ Hc _ Es) as Mc.
    exact (mean_ev comp inv Hinv _ _ _ _ (creduce_ok _ _ _ _ HL fuel c _ _ _ Mc Hr) Hs').
  Qed.
  (** [pad_with_identity(c, k, n)]: the channels k..k+n-1 pass through; the
      others, closed up, form [c] *)
  Theorem C13_pad_with_identity c s k n fuel r s' : valid c -> toSLH c = Ok s -> k <= cdim c ->
    pad_with_identity lit fuel c k n = Ok r -> toSLH r = Ok s' ->
    let old j := if j <? k then j else j - n in
    let padded j := (k <=? j) && (j <? k + n) in
    system s' (cdim c + n) /\ sH s' = sH s /\
    forall i, i < cdim c + n ->
      ent (sL s') i 0 = (if padded i then a0 else ent (sL s) (old i) 0) /\
      forall j, j < cdim c + n ->
        ent (sS s') i j = if padded i || padded j then delta i j else ent (sS s) (old i) (old j).
  Proof.
    intros Hc Es Hk Hr Hs'. cbv zeta. pose proof (ev_mean comp inv Hinv _ Hc _ Es) as Mc. set (N := cdim c) in *.
    pose proof (pad_ok _ _ _ _ HL fuel c k n N s r Mc Hk Hr) as Mr.
    pose proof (mean_ev comp inv Hinv _ _ _ _ Mr Hs') as E. 
    pose proof (mean_ok _ _ _ _ _ _ Mc) as Ps. change (phys N s) in Ps.
    cbn [mser mcat mprm slh_model] in E. rewrite prm_ident in E. set (P := pad_perm N k n) in *.
    pose proof (pad_perm_perm N k n Hk) as HP. pose proof (pad_perm_length N k n Hk) as HPl. fold P in HP, HPl.
    set (cc := cat N n s (ident n)) in *.
    assert (forall i, i < N + n -> nth i P 0 < N + n) as Pl by (intros i Hi; pose proof (is_perm_nth_lt P i HP) as G; lia).
    assert (forall i, i < N + n -> nth (nth i P 0) (inv_of P) 0 = i) as Pinv.
    { intros i Hi. apply inv_of_nth'; [exact HP|lia]. }
    assert (forall i, i < N + n -> nth i P 0 = if i <? k then i else if i <? k + n then N + (i - k) else i - n) as Pn
      by (intros; now apply pad_perm_nth).
    set (q := ser (N + n) (prm (inv_of P)) cc) in *.
    assert (length (inv_of P) = N + n) as Hil by (now rewrite inv_of_length).
    assert (is_perm (inv_of P)) as Hip by (now apply inv_of_perm).
    assert (forall i j, i < N + n -> j < N + n -> Sf q i j = Sf cc (nth i P 0) j) as Sq.
    { intros i j Hi Hj. unfold q. rewrite Sf_ser by assumption. rewrite <- (Pinv i Hi) at 1.
      rewrite <- (mm_pdelta_l (N + n) (inv_of P) (Sf cc) (nth i P 0) j Hip Hil (Pl i Hi)).
      apply mm_ext; [|reflexivity]. intros l Hl. apply Sf_prm; rewrite Hil; [|exact Hl].
      rewrite <- Hil. apply is_perm_nth_lt; [exact Hip|]. rewrite Hil. now apply Pl. }
    assert (forall i, i < N + n -> Lf q i = Lf cc (nth i P 0)) as Lq.
    { intros i Hi. unfold q. rewrite Lf_ser by assumption. rewrite <- (Pinv i Hi) at 1 2.
      rewrite Lf_prm by (rewrite Hil, Pinv by exact Hi; exact Hi). rewrite aadd_0r.
      rewrite <- (mv_pdelta (N + n) (inv_of P) (Lf cc) (nth i P 0) Hip Hil (Pl i Hi)).
      apply mv_ext; [|reflexivity]. intros l Hl. apply Sf_prm; rewrite Hil; [|exact Hl]. now rewrite Pinv. }
    assert (sH q = sH s) as Hq.
    { unfold q, ser, fseries. cbn [sH mkS]. rewrite sH_prm. unfold dot.
      rewrite sm_zero; [|intros l Hl; rewrite Lf_prm by lia; rewrite star_0; apply amul_0l].
      rewrite imp_selfadj by apply star_0. rewrite aadd_0, aadd_0r. unfold cc, cat. cbn [sH mkS ident]. apply aadd_0r. }
    assert (forall i j, i < N + n -> j < N + n -> Sf s' i j = Sf cc (nth i P 0) (nth j P 0)) as Ss.
    { intros i j Hi Hj. rewrite E, Sf_ser by assumption.
      rewrite <- (Sq i (nth j P 0) Hi (Pl j Hj)). rewrite <- (mm_pdelta_r (N + n) P (Sf q) i j (Pl j Hj)).
      apply mm_ext; [reflexivity|]. intros l Hl. apply Sf_prm; rewrite HPl; assumption. }
    assert (forall i, i < N + n -> Lf s' i = Lf cc (nth i P 0)) as Ls'.
    { intros i Hi. rewrite E, Lf_ser by assumption. rewrite <- (Lq i Hi).
      unfold mv. rewrite sm_zero; [apply aadd_0|]. intros l Hl. rewrite Lf_prm by lia. apply amul_0r. }
    split; [rewrite E; apply ser_system|]. split.
    { rewrite E. unfold ser, fseries. cbn [sH mkS]. rewrite sH_prm. rewrite Hq. rewrite aadd_0r.
      unfold dot. rewrite sm_zero; [rewrite imp_selfadj by apply star_0; apply aadd_0r|].
      intros l Hl. unfold mv. rewrite sm_zero; [apply amul_0r|]. intros l' Hl'. rewrite Lf_prm by lia. apply amul_0r. }
    intros i Hi. split.
    - change (ent (sL s') i 0) with (Lf s' i). rewrite (Ls' i Hi). unfold cc. rewrite Lf_cat by (now apply Pl). rewrite (Pn i Hi).
      destruct (Nat.ltb_spec i k) as [H1|H1]; destruct (Nat.leb_spec k i) as [H2|H2]; cbn [andb]; try lia.
      + rewrite vcat_l by lia. reflexivity.
      + destruct (Nat.ltb_spec i (k + n)) as [H3|H3]; cbn [andb].
        * rewrite vcat_r. unfold ident. rewrite Lf_mkS by lia. reflexivity.
        * rewrite vcat_l by lia. reflexivity.
    - intros j Hj. change (ent (sS s') i j) with (Sf s' i j). rewrite (Ss i j Hi Hj). unfold cc. rewrite Sf_cat by (now apply Pl).
      rewrite (Pn i Hi), (Pn j Hj).
      destruct (Nat.ltb_spec i k) as [H1|H1]; destruct (Nat.leb_spec k i) as [H2|H2]; cbn [andb orb]; try lia;
        destruct (Nat.ltb_spec j k) as [G1|G1]; destruct (Nat.leb_spec k j) as [G2|G2]; cbn [andb orb]; try lia;
        try (destruct (Nat.ltb_spec i (k + n)) as [H3|H3]; cbn [andb orb]);
        try (destruct (Nat.ltb_spec j (k + n)) as [G3|G3]; cbn [andb orb]);
        first [ rewrite fcat_ll by lia; reflexivity
              | rewrite fcat_lr by lia; rewrite delta_neq by lia; reflexivity
              | rewrite fcat_rl by lia; rewrite delta_neq by lia; reflexivity
              | rewrite fcat_rr; unfold ident; rewrite Sf_mkS by lia; unfold delta;
                destruct (Nat.eqb_spec (i - k) (j - k)), (Nat.eqb_spec i j); try lia; reflexivity ].
  Qed.
  (** Recursion depth is only a technicality of the model: once it answers with
      anything but running out of fuel, more fuel gives the same answer. *)
  Theorem C13_fuel_irrelevant f f' : f <= f' ->
    (forall l, k_series (simp lit f) l <> Err OutOfFuel -> k_series (simp lit f') l = k_series (simp lit f) l) /\
    (forall l, k_concat (simp lit f) l <> Err OutOfFuel -> k_concat (simp lit f') l = k_concat (simp lit f) l) /\
    (forall c o i, k_mfb (simp lit f) c o i <> Err OutOfFuel -> k_mfb (simp lit f') c o i = k_mfb (simp lit f) c o i) /\
    (forall c o i, k_fb (simp lit f) c o i <> Err OutOfFuel -> k_fb (simp lit f') c o i = k_fb (simp lit f) c o i) /\
    (forall c, k_minv (simp lit f) c <> Err OutOfFuel -> k_minv (simp lit f') c = k_minv (simp lit f) c).
  Proof.
    intros Hf. pose proof (simp_mono lit f f' Hf) as H. repeat split; intros; apply le_agree; try assumption; apply H.
  Qed.

  (** ** C14: numbers of channels, for any well-formed operands *)
  Local Notation wf := (wf (slh_has_cdim (M:=M))).
  Lemma wf_sd c n : wf c n <-> CSimpSpec.mean dim_model dsym (sdim M) c n (Some n).
  Proof.
    assert (forall d m, wf d m <-> ToSlhSpec.wf (fun s n => sdim M s = Some n) d m) as E.
    { intros d. induction d using circ_ind'; intros m; (split; intros Hw; inversion Hw; subst; try (constructor; try assumption; now apply sdim_spec)).
      - constructor; try assumption. rewrite Forall_forall in H. intros x Hx. apply H; [exact Hx|]. auto.
      - constructor; try assumption. rewrite Forall_forall in H. intros x Hx. apply H; [exact Hx|]. auto.
      - constructor; try assumption. match goal with HF : Forall2 _ ops ns |- _ => revert H; clear - HF; intros H; induction HF as [|x y xs ys Hxy Hl IHF]; constructor end.
        + apply (Forall_inv H). exact Hxy.
        + apply IHF. exact (Forall_inv_tail H).
      - constructor; try assumption. match goal with HF : Forall2 _ ops ns |- _ => revert H; clear - HF; intros H; induction HF as [|x y xs ys Hxy Hl IHF]; constructor end.
        + apply (Forall_inv H). exact Hxy.
        + apply IHF. exact (Forall_inv_tail H).
      - constructor; try assumption. now apply IHd.
      - constructor; try assumption. now apply IHd.
      - constructor; try assumption. now apply IHd.
      - constructor; try assumption. now apply IHd. }
    rewrite E. split; [apply wf_mean|apply mean_wf].
  Qed.
  Lemma HKd fuel : sound dim_model dsym (sdim M) (simp lit fuel).
  Proof. apply simp_sound, slh_lits_dims, Heq. Qed.
  Lemma wf_cdim c n : wf c n -> cdim c = n.
  Proof. intros H. apply wf_sd in H. exact (mean_cdim _ _ _ _ _ _ H). Qed.
  Lemma wf_of c n a : CSimpSpec.mean dim_model dsym (sdim M) c n a -> wf c n /\ cdim c = n.
  Proof.
    intros H. assert (wf c n) as W.
    { apply wf_sd. pose proof (mean_some (sdim M) c n a H) as ->. exact H. }
    split; [exact W|now apply wf_cdim].
  Qed.
  Lemma smean_all ops n : (forall o, In o ops -> wf o n) -> exists a, CSimpSpec.smean dim_model dsym (sdim M) ops n a.
  Proof.
    induction ops as [|o ops IH]; intros H; [eexists; constructor|]. destruct IH as [a Ha]; [intros; apply H; now right|].
    eexists. econstructor; [apply wf_sd, H; now left|exact Ha].
  Qed.
  Lemma cmean_all ops ns : Forall2 wf ops ns -> exists a, CSimpSpec.cmean dim_model dsym (sdim M) ops (sum ns) a.
  Proof.
    intros H. induction H as [|o n ops ns Ho _ [a Ha]]; [eexists; constructor|].
    change (sum (n :: ns)) with (n + sum ns). eexists. econstructor; [apply wf_sd; exact Ho|exact Ha].
  Qed.
  Theorem C14_series_cdim ops n fuel r : ops <> [] -> (forall o, In o ops -> wf o n) ->
    k_series (simp lit fuel) ops = Ok r -> wf r n /\ cdim r = n.
  Proof.
    intros Hne Hops Hr. destruct (smean_all ops n Hops) as [a Ha]. exact (wf_of _ _ _ (s_series _ _ _ _ (HKd fuel) _ _ _ _ Hne Ha Hr)).
  Qed.
  Theorem C14_concat_cdim ops ns fuel r : Forall2 wf ops ns -> k_concat (simp lit fuel) ops = Ok r -> wf r (sum ns) /\ cdim r = sum ns.
  Proof.
    intros Hops Hr. destruct (cmean_all ops ns Hops) as [a Ha]. exact (wf_of _ _ _ (s_concat _ _ _ _ (HKd fuel) _ _ _ _ Ha Hr)).
  Qed.
  (** feedback removes one channel *)
  Theorem C14_feedback_cdim c n o i fuel r : wf c (S n) -> o <= n -> i <= n ->
    k_mfb (simp lit fuel) c o i = Ok r \/ k_fb (simp lit fuel) c o i = Ok r -> wf r n /\ cdim r = n.
  Proof.
    intros Hc Ho Hi Hr. apply wf_sd in Hc.
    assert (loop dim_model n (Some (S n)) o i (Some n)) as Hl by reflexivity.
    destruct Hr as [Hr|Hr].
    - exact (wf_of _ _ _ (s_mfb _ _ _ _ (HKd fuel) _ _ _ _ _ _ _ Hc Ho Hi Hl Hr)).
    - exact (wf_of _ _ _ (s_fb _ _ _ _ (HKd fuel) _ _ _ _ _ _ _ Hc Ho Hi Hl Hr)).
  Qed.
  Theorem C14_inverse_cdim c n fuel r : wf c n -> 0 < n ->
    k_minv (simp lit fuel) c = Ok r \/ k_inv (simp lit fuel) c = Ok r -> wf r n /\ cdim r = n.
  Proof.
    intros Hc Hn Hr. apply wf_sd in Hc. destruct Hr as [Hr|Hr].
    - exact (wf_of _ _ _ (s_minv _ _ _ _ (HKd fuel) _ _ _ _ Hc Hn Hr)).
    - exact (wf_of _ _ _ (s_inv _ _ _ _ (HKd fuel) _ _ _ _ Hc Hn Hr)).
  Qed.
  Theorem C14_creduce_cdim c n fuel r : wf c n -> creduce lit fuel c = Ok r -> wf r n /\ cdim r = n.
  Proof.
    intros Hc Hr. apply wf_sd in Hc. exact (wf_of _ _ _ (creduce_ok _ _ _ _ (slh_lits_dims M inv slh_eq Heq) fuel c _ _ _ Hc Hr)).
  Qed.
  Theorem C14_pad_cdim c N k n fuel r : wf c N -> k <= N -> pad_with_identity lit fuel c k n = Ok r -> wf r (N + n) /\ cdim r = N + n.
  Proof.
    intros Hc Hk Hr. apply wf_sd in Hc. exact (wf_of _ _ _ (pad_ok _ _ _ _ (slh_lits_dims M inv slh_eq Heq) fuel c k n N _ r Hc Hk Hr)).
  Qed.
  (** a well-formed expression announces its number of channels, and evaluation
      yields a system with that many channels *)
  Theorem C14_wf_cdim c n : wf c n -> cdim c = n.
  Proof. exact (wf_cdim c n). Qed.
  Theorem C14_toSLH_cdim c s : valid c -> toSLH c = Ok s -> physical s (cdim c) /\ slh_cdim s = cdim c.
  Proof.
    intros Hc Es. pose proof (mean_ok _ _ _ _ _ _ (ev_mean comp inv Hinv _ Hc _ Es)) as P. change (phys (cdim c) s) in P.
    split; [now apply phys_spec|]. apply system_cdim, P.
  Qed.
  (** [c.block_structure]: positive block sizes that add up to cdim *)
  Theorem C14_block_structure c n : wf c n -> 0 < n ->
    exists bs, CSimpModel.block_structure c = Ok bs /\ sum bs = n /\ (forall b, In b bs -> 0 < b).
  Proof.
    intros Hc Hn. apply wf_sd in Hc. destruct (block_structure_ok _ _ _ _ _ _ Hc Hn) as (bs & E & H1 & H2). now exists bs.
  Qed.
  (** [c.get_blocks(bs)] returns circuits with the requested numbers of channels ... *)
  Theorem C14_get_blocks_cdim c n bs fuel blocks : wf c n -> 0 < n -> sum bs = n ->
    CSimpModel.get_blocks (simp lit fuel) c bs = Ok blocks -> map cdim blocks = bs /\ Forall2 wf blocks bs.
  Proof.
    intros Hc Hn Hs H. apply wf_sd in Hc. destruct (get_blocks_ok _ _ _ _ (HKd fuel) c bs _ _ _ Hc Hn Hs H) as [Hm <-].
    split; [reflexivity|]. clear - Hm. generalize dependent (Some n : dom dim_model). generalize n. clear n.
    induction blocks as [|b l IH]; intros n a Hm; [constructor|]. inversion Hm; subst. cbn [map].
    constructor; [|eapply IH; eassumption].
    match goal with HB : CSimpSpec.mean _ _ _ b ?k ?x |- _ => rewrite (mean_cdim _ _ _ _ _ _ HB); exact (proj1 (wf_of _ _ _ HB)) end.
  Qed.
  (** ... whose concatenation is [c] *)
  Theorem C13_get_blocks c s bs fuel blocks s' : valid c -> toSLH c = Ok s -> sum bs = cdim c ->
    CSimpModel.get_blocks (simp lit fuel) c bs = Ok blocks -> (forall b, In b bs -> 0 < b) -> toSLH (CConcat blocks) = Ok s' -> s' = s.
  Proof.
    intros Hc Es Hs H Hp Hs'. pose proof (ev_mean comp inv Hinv _ Hc _ Es) as Mc.
    assert (0 < cdim c) as Hn.
    { destruct (cdim c) eqn:E; [|lia]. apply mean_zero_inv in Mc. destruct Mc as [-> _]. discriminate Es. }
    destruct (get_blocks_ok _ _ _ _ (HK fuel) c bs _ _ _ Mc Hn Hs H) as [Hm Hb].
    refine (mean_ev comp inv Hinv _ _ _ _ (mean_concat _ _ _ _ _ _ _ Hm _) Hs').
    - intros ->. discriminate Hs'.
    - apply Forall_forall. intros x Hx. apply Hp. rewrite <- Hb. now apply in_map.
  Qed.
  (** different numbers of channels in series are rejected, unless an operand is
      an identity *)
  Theorem C14_series_mismatch c d fuel : cdim c <> cdim d ->
    (forall l, c <> CSeries l) -> (forall l, d <> CSeries l) -> (forall n, c <> circuit_identity n) -> (forall n, d <> circuit_identity n) ->
    k_series (simp lit (S fuel)) [c; d] = Err ValueError.
  Proof.
    intros Hn Hc Hd Hc' Hd'. cbn [simp step k_series]. unfold create_series.
    assert (flat_series [c; d] = [c; d]) as ->.
    { unfold flat_series. cbn [flat_map app]. destruct c as [| | | | |lc| | |]; try (now destruct (Hc lc eq_refl));
        destruct d as [| | | | |ld| | |]; try (now destruct (Hd ld eq_refl)); reflexivity. }
    assert (forall x, (forall n, x <> circuit_identity n) -> is_cid lit (cdim x) x = false) as F.
    { intros x Hx. destruct (is_cid lit (cdim x) x) eqn:E; [|reflexivity]. exfalso. exact (Hx _ (is_cid_eq lit _ _ E)). }
    cbn [filter]. rewrite (F c Hc'), (F d Hd'). cbn [negb]. unfold same_cdims. cbn [forallb].
    destruct (Nat.eqb_spec (cdim d) (cdim c)) as [E|E]; [congruence|reflexivity].
  Qed.
  (** *** where the documentation promises more than the code does *)
  (** identities are dropped before the channel numbers are compared: [cid(2) << A]
      with a 3-channel A is A *)
  Theorem C14_series_mismatch_refuted : exists c d : circ, cdim c <> cdim d /\ k_series (simp lit 5) [c; d] = Ok d.
  Proof.
    exists (circuit_identity 2), (CSym 0 3). split; [discriminate|]. reflexivity.
  Qed.
  (** feedback of a concatenation whose last operand has one channel raises,
      although the system is well-formed and has three channels *)
  Theorem C13_feedback_defined_refuted : exists c : circ, wf c 3 /\ k_mfb (simp lit 5) c 2 2 = Err ValueError.
  Proof.
    exists (CConcat [CSym 0 2; CSym 1 1]). split; [|reflexivity]. apply (wf_concat _ [CSym 0 2; CSym 1 1] [2; 1]).
    - discriminate.
    - repeat constructor.
    - intros n [<-|[<-|[]]]; lia.
  Qed.
  (** two different feedback circuits cancel in a series product, because equality
      ignores the ports *)
  Theorem C13_feedback_ports_refuted : exists c d : circ, wf c 2 /\ wf d 2 /\ c <> d /\
    k_series (simp lit 5) [CSInv c; d] = Ok (circuit_identity 2).
  Proof.
    exists (CFeedback (CSym 0 3) 0 1), (CFeedback (CSym 0 3) 2 2). split; [|split; [|split]].
    - repeat constructor.
    - repeat constructor.
    - discriminate.
    - reflexivity.
  Qed.
End C13.

(** ** The hypotheses can be met *)
Section Ex.
  Definition mat_eqb (a b : matrix q2) : bool :=
    (nrows a =? nrows b) && (ncols a =? ncols b) && (length (rows a) =? length (rows b)) &&
    forallb (fun rs => (length (fst rs) =? length (snd rs)) && forallb (fun xy => q2_eqb (fst xy) (snd xy)) (combine (fst rs) (snd rs)))
      (combine (rows a) (rows b)).
  Definition ex_eq (a b : slh CM) : bool := mat_eqb (sS a) (sS b) && mat_eqb (sL a) (sL b) && q2_eqb (sH a) (sH b).
  Lemma combine_eq {T} (eqb : T -> T -> bool) (He : forall x y, eqb x y = true -> x = y) (l m : list T) :
    length l = length m -> forallb (fun xy => eqb (fst xy) (snd xy)) (combine l m) = true -> l = m.
  Proof.
    revert m. induction l as [|x l IH]; intros [|y m] Hl H; try discriminate; [reflexivity|]. cbn [combine forallb] in H.
    apply andb_prop in H as [H1 H2]. f_equal; [now apply He|]. apply IH; [now injection Hl|exact H2].
  Qed.
  Lemma mat_eqb_eq a b : mat_eqb a b = true -> a = b.
  Proof.
    unfold mat_eqb. intros H. apply andb_prop in H as [H H4]. apply andb_prop in H as [H H3]. apply andb_prop in H as [H1 H2].
    apply Nat.eqb_eq in H1, H2, H3. destruct a as [n m rs], b as [n' m' rs']. cbn [nrows ncols rows] in *. subst n' m'. f_equal.
    apply (combine_eq (fun x y => (length x =? length y) && forallb (fun xy => q2_eqb (fst xy) (snd xy)) (combine x y)));
      [|exact H3|exact H4].
    intros x y E. apply andb_prop in E as [E1 E2]. apply Nat.eqb_eq in E1. now apply (combine_eq q2_eqb q2_eqb_eq).
  Qed.
  Lemma ex_eq_eq a b : ex_eq a b = true -> a = b.
  Proof.
    unfold ex_eq. intros H. apply andb_prop in H as [H H3]. apply andb_prop in H as [H1 H2].
    destruct a as [a1 a2 a3], b as [b1 b2 b3]. cbn [sS sL sH] in *. f_equal; [now apply mat_eqb_eq|now apply mat_eqb_eq|now apply q2_eqb_eq].
  Qed.
  (** component 0: a beam splitter with driven emitters (2 channels); component 1:
      an emitter with a phase (1 channel) *)
  Definition ex_comp (l n : nat) : res (slh CM) :=
    match l, n with 0, 2 => Ok ex_a | 1, 1 => Ok ex_b | _, _ => Err CannotConvertToSLH end.
  Definition ex_lit : lits (slh CM) := slh_lits CM ex_inv ex_eq.
  (** a permutation in front of a concatenation, a literal, an inverse and a loop *)
  Definition ex_ops : list (circ (slh CM)) :=
    [CPerm [1; 2; 0]; CConcat [CSym 0 2; CSym 1 1]; CConcat [CSlh ex_b 1; CSInv (CSym 0 2)]].
  Definition both (r r' : res (slh CM)) : bool := match r, r' with Ok s, Ok s' => ex_eq s s' | _, _ => false end.
  Definition simplifies (c : circ (slh CM)) (r : res (circ (slh CM))) : bool := match r with Ok d => negb (ceqb ex_lit c d) | Err _ => false end.
  Definition ev_res (r : res (circ (slh CM))) : res (slh CM) := do d <- r; to_slh ex_comp ex_inv d.
  Example C13_nonvacuous :
    valid ex_comp (CSeries ex_ops) /\
    simplifies (CSeries ex_ops) (k_series (simp ex_lit 20) ex_ops) = true /\
    both (to_slh ex_comp ex_inv (CSeries ex_ops)) (ev_res (k_series (simp ex_lit 20) ex_ops)) = true /\
    simplifies (CFeedback (CSeries ex_ops) 0 1) (k_mfb (simp ex_lit 20) (CSeries ex_ops) 0 1) = true /\
    both (to_slh ex_comp ex_inv (CFeedback (CSeries ex_ops) 0 1)) (ev_res (k_mfb (simp ex_lit 20) (CSeries ex_ops) 0 1)) = true /\
    simplifies (circuit_identity 5) (pad_with_identity ex_lit 20 (CConcat [CSym 0 2; CSym 1 1]) 2 2) = true /\
    (forall a b, ex_eq a b = true -> a = b) /\ sound_inv (M:=CM) ex_inv.
  Proof.
    pose proof ex_a_physical as Pa. pose proof ex_b_physical as Pb.
    split; [|split; [|split; [|split; [|split; [|split; [|split; [exact ex_eq_eq|exact ex_inv_sound]]]]]]].
    - assert (bijection [1; 2; 0]) as Hb by (apply is_perm_bij, checkp_spec; reflexivity).
      assert (valid ex_comp (CSym 0 2)) as V0 by (split; [lia|]; intros s [= <-]; exact Pa).
      assert (valid ex_comp (CSym 1 1)) as V1 by (split; [lia|]; intros s [= <-]; exact Pb).
      split; [discriminate|]. split; [split; [discriminate|exact Hb]|]. split; [|split; [|exact I]].
      + split; [discriminate|]. split; [exact V0|]. split; [exact V1|exact I].
      + split; [discriminate|]. split; [split; [lia|exact Pb]|]. split; [split; [exact V0|exact I]|exact I].
    - vm_compute; reflexivity.
    - vm_compute; reflexivity.
    - vm_compute; reflexivity.
    - vm_compute; reflexivity.
    - vm_compute; reflexivity.
  Qed.
End Ex.

Print Assumptions C13_series_product.
Print Assumptions C13_concatenation.
Print Assumptions C13_lshift.
Print Assumptions C13_plus.
Print Assumptions C13_feedback.
Print Assumptions C13_FB.
Print Assumptions C13_series_inverse.
Print Assumptions C13_creduce.
Print Assumptions C13_pad_with_identity.
Print Assumptions C13_fuel_irrelevant.
Print Assumptions C14_series_cdim.
Print Assumptions C14_concat_cdim.
Print Assumptions C14_feedback_cdim.
Print Assumptions C14_inverse_cdim.
Print Assumptions C14_creduce_cdim.
Print Assumptions C14_pad_cdim.
Print Assumptions C14_toSLH_cdim.
Print Assumptions C14_series_mismatch.
Print Assumptions C14_block_structure.
Print Assumptions C14_get_blocks_cdim.
Print Assumptions C13_get_blocks.
