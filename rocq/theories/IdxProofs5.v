From Verif Require Import Prelude ListFacts SortModel SortProofs HilbertModel BasisModel BasisSpec BasisProofs AlgSpec IdxModel IdxSpec IdxProofs1 IdxProofs2 IdxProofs3 IdxProofs4.

(** properties of scalars that hold for their factors and summands *)
Definition closed (P : scal -> Prop) : Prop :=
  (forall l, P (SAdd l) -> forall a, In a l -> P a) /\ (forall l, P (SMul l) -> forall a, In a l -> P a).
Lemma closed_args P c : closed P -> P c -> forall g, In g (mul_args c) -> P g.
Proof. intros [_ H2] Hc g Hg. destruct c; cbn in Hg; try (destruct Hg as [<-|[]]; exact Hc). now apply (H2 l). Qed.
Lemma expand_loop_closed P x fs : closed P -> (forall f, In f fs -> P f) -> forall found ss,
  (forall s, In s ss -> forall f, In f s -> P f) ->
  forall s, In s (expand_loop x found fs ss) -> forall f, In f s -> P f.
Proof.
  intros Hc. induction fs as [|f fs IH]; intros Hfs found ss Hss; cbn [expand_loop]; [exact Hss|].
  pose proof (Hfs f (or_introl eq_refl)) as Hf.
  assert (Hstep : forall s, In s (expand_loop x found fs (map (fun s => s ++ [f]) ss)) -> forall g, In g s -> P g).
  { apply IH; [intros g Hg; apply Hfs; now right|]. intros s Hs g Hg. apply in_map_iff in Hs. destruct Hs as [s0 [<- Hs]].
    apply in_app_or in Hg. destruct Hg as [Hg|[<-|[]]]; [now apply (Hss s0)|exact Hf]. }
  destruct f as [| | | | |l|]; try exact Hstep.
  destruct (negb found && has_simple_delta x (SAdd l)); [|exact Hstep].
  apply IH; [intros g Hg; apply Hfs; now right|]. intros s Hs g Hg. apply in_map_iff in Hs. destruct Hs as [a [<- Ha]].
  apply in_app_or in Hg. destruct Hg as [Hg|Hg].
  - destruct ss as [|s0 ss]; [destruct Hg|]. apply (Hss s0); [now left|exact Hg].
  - apply (closed_args P a Hc); [|exact Hg]. now apply (proj1 Hc l).
Qed.
Definition top (t : term) : list scal := fst (factors_of t).
Lemma top_free t f z : In f (top t) -> In z (sfree f) -> In z (tfree t).
Proof.
  unfold top. destruct t as [|c t| | |]; cbn [factors_of fst]; try (intros []). intros Hf Hz. cbn [tfree]. apply in_or_app. left.
  destruct c; cbn in Hf; try (destruct Hf as [<-|[]]; exact Hz). cbn [sfree]. apply in_flat_map. now exists f.
Qed.
Lemma rest_free t z : In z (tfree (snd (factors_of t))) -> In z (tfree t).
Proof. destruct t; cbn; auto. intros H. apply in_or_app. now right. Qed.
Lemma expand_item t x s : In s (expand_delta x t) ->
  exists fs, s = TScale (SMul fs) (snd (factors_of t))
    /\ forall P, closed P -> (forall f, In f (top t) -> P f) -> forall f, In f fs -> P f.
Proof.
  unfold expand_delta, top. destruct (factors_of t) as [fs q]. cbn [fst snd]. intros H. apply in_map_iff in H.
  destruct H as [s0 [<- Hs]]. exists s0. split; [reflexivity|]. intros P Hc Hf f Hin.
  apply (expand_loop_closed P x fs Hc Hf false [[]]) with s0; auto. intros s [<-|[]] g [].
Qed.

Section Den.
  Context (M : algebra) (symI : nat -> list Z -> K M) (atomI : nat -> list Z -> A M).
  Add Ring KrN : (kring M).
  Notation sd := (sden M symI). Notation td := (tden M symI atomI).
  Definition item_den (e : env) (it : term * list irange_of) : A M := td e (TSum (fst it) (snd it)).
  Lemma scale_by_den e c t : td e (scale_by c t) = smul (sd e c) (td e t).
  Proof.
    destruct t; cbn [scale_by]; try reflexivity. cbn [tden]. rewrite <- smul_mul. f_equal.
    change (sd e (SMul (c :: mul_args c0))) with (sprod M symI e (c :: mul_args c0)).
    rewrite sprod_cons, mul_args_den. reflexivity.
  Qed.

  Context (e0 : env) (rs0 : list irange_of) (D B : list idx).
  Context (HBD : forall z, In z B -> ~ In z D) (HrsD : forall z, In z (syms rs0) -> In z D).
  Context (Hnd : forall x r, In (x, r) rs0 -> NoDup (vals r)).
  Definition item_ok (it : term * list irange_of) : Prop :=
    wf (fst it) /\ NoDup (syms (snd it)) /\ incl (snd it) rs0
    /\ (forall z, In z (tbound (fst it)) -> In z B) /\ (forall z, In z (tfree (fst it)) -> In z D).
  Lemma closed_free : closed (fun s => forall z, In z (sfree s) -> In z D).
  Proof. split; intros l H a Ha z Hz; apply H; cbn [sfree]; apply in_flat_map; exists a; split; assumption. Qed.

  (** ** when the eliminated value is in the range *)
  (** plain arguments of deltas: a symbol or a number, with value in [V] *)
  Definition inV (V : list Z) (rs : list irange_of) (y : idx) : Prop :=
    (exists r, In (y, r) rs /\ forall v, In v V <-> In v (vals r)) \/ (~ In y (syms rs) /\ In (e0 y) V).
  Definition plainI (V : list Z) (rs : list irange_of) (a : iexpr) : Prop :=
    (exists y, inV V rs y /\ forall e, iden e a = e y) \/ (exists z, In z V /\ forall e, iden e a = z).
  Fixpoint splain (rs : list irange_of) (s : scal) : Prop :=
    match s with
    | SDelta a b => exists V, plainI V rs a /\ plainI V rs b
    | SAdd l | SMul l => fold_right (fun s P => splain rs s /\ P) True l
    | _ => True
    end.
  Lemma splain_all rs l : fold_right (fun s P => splain rs s /\ P) True l <-> forall s, In s l -> splain rs s.
  Proof.
    induction l as [|s l IH]; cbn [fold_right]; [split; [intros _ s []|tauto]|]. rewrite IH. split.
    - intros [H1 H2] u [<-|Hu]; auto.
    - intros H. split; [apply H; now left|]. intros u Hu. apply H. now right.
  Qed.
  Lemma closed_plain rs : closed (splain rs).
  Proof. split; intros l H; cbn [splain] in H; now apply splain_all. Qed.
  Lemma coeff_sem x a e : coeff_of x a = (iden (upd e x 1) a - iden (upd e x 0) a)%Z.
  Proof.
    rewrite (coeff_den (upd e x 1) x a), (coeff_den (upd e x 0) x a).
    rewrite !upd_same. rewrite (iden_ext (upd e x 1) e (at_zero x a)), (iden_ext (upd e x 0) e (at_zero x a)).
    - lia.
    - intros z Hz. apply upd_other. now apply at_zero_free in Hz.
    - intros z Hz. apply upd_other. now apply at_zero_free in Hz.
  Qed.
  Lemma coeff_var x a y : (forall e, iden e a = e y) -> coeff_of x a = if idx_eqb x y then 1%Z else 0%Z.
  Proof.
    intros H. rewrite (coeff_sem x a (fun _ => 0%Z)), !H. destruct (idx_eqb x y) eqn:E.
    - apply idx_eqb_spec in E. subst. now rewrite !upd_same.
    - rewrite !upd_other; [reflexivity| |]; intros ->; now rewrite idx_eqb_refl in E.
  Qed.
  Lemma coeff_num x a z : (forall e, iden e a = z) -> coeff_of x a = 0%Z.
  Proof. intros H. rewrite (coeff_sem x a (fun _ => 0%Z)), !H. lia. Qed.
  (** a solved plain delta *)
  Lemma solve_side x a b v : solve x a b = Ok v -> (forall e, iden e a = e x) ->
    (forall e w, iden (upd e x w) b = iden e b) -> forall e, iden e v = iden e b.
  Proof.
    intros Hs Ha Hb e. destruct (solve_ok _ _ _ _ Hs) as [S1 S2].
    assert (E : iden (upd e x (iden e v)) v = iden e v).
    { apply iden_ext. intros z Hz. apply upd_other. now apply S2. }
    pose proof (proj2 (S1 (upd e x (iden e v)))) as H. rewrite upd_same, E, Ha, upd_same, Hb in H. now apply H.
  Qed.
  Lemma solve_side' x a b v : solve x a b = Ok v -> (forall e, iden e b = e x) ->
    (forall e w, iden (upd e x w) a = iden e a) -> forall e, iden e v = iden e a.
  Proof.
    intros Hs Ha Hb e. destruct (solve_ok _ _ _ _ Hs) as [S1 S2].
    assert (E : iden (upd e x (iden e v)) v = iden e v).
    { apply iden_ext. intros z Hz. apply upd_other. now apply S2. }
    pose proof (proj2 (S1 (upd e x (iden e v)))) as H. rewrite upd_same, E, Ha, upd_same, Hb in H. symmetry. now apply H.
  Qed.
  Lemma solve_plain V rs x a b v : plainI V rs a -> plainI V rs b -> solve x a b = Ok v ->
    is_simple_delta x (SDelta a b) = true ->
    inV V rs x /\ ((exists y, y <> x /\ inV V rs y /\ forall e, iden e v = e y) \/ (exists z, In z V /\ forall e, iden e v = z)).
  Proof.
    intros Ha Hb Hs Hd. cbn [is_simple_delta] in Hd. rewrite negb_true_iff, Z.eqb_neq in Hd.
    assert (Hvar : forall y e w, y <> x -> upd e x w y = e y) by (intros; now apply upd_other).
    destruct Ha as [[y [Ya Ha]]|[z [Za Ha]]], Hb as [[y' [Yb Hb]]|[z' [Zb Hb]]].
    - rewrite (coeff_var x a y Ha), (coeff_var x b y' Hb) in Hd.
      destruct (idx_eqb x y) eqn:E, (idx_eqb x y') eqn:E'; try lia.
      + apply idx_eqb_spec in E. subst y. assert (y' <> x) by (intros ->; now rewrite idx_eqb_refl in E').
        split; [exact Ya|]. left. exists y'. split; [assumption|]. split; [exact Yb|]. intros e.
        rewrite (solve_side x a b v Hs Ha); [apply Hb|]. intros. rewrite !Hb. now apply Hvar.
      + apply idx_eqb_spec in E'. subst y'. assert (y <> x) by (intros ->; now rewrite idx_eqb_refl in E).
        split; [exact Yb|]. left. exists y. split; [assumption|]. split; [exact Ya|]. intros e.
        rewrite (solve_side' x a b v Hs Hb); [apply Ha|]. intros. rewrite !Ha. now apply Hvar.
    - rewrite (coeff_var x a y Ha), (coeff_num x b z' Hb) in Hd. destruct (idx_eqb x y) eqn:E; [|lia].
      apply idx_eqb_spec in E. subst y. split; [exact Ya|]. right. exists z'. split; [exact Zb|]. intros e.
      rewrite (solve_side x a b v Hs Ha); [apply Hb|]. intros. now rewrite !Hb.
    - rewrite (coeff_num x a z Ha), (coeff_var x b y' Hb) in Hd. destruct (idx_eqb x y') eqn:E; [|lia].
      apply idx_eqb_spec in E. subst y'. split; [exact Yb|]. right. exists z. split; [exact Za|]. intros e.
      rewrite (solve_side' x a b v Hs Hb); [apply Ha|]. intros. now rewrite !Ha.
    - rewrite (coeff_num x a z Ha), (coeff_num x b z' Hb) in Hd. lia.
  Qed.
  Lemma inV_remove V rs rs' x y : inV V rs y -> y <> x -> (forall q, In q rs -> fst q <> x -> In q rs') -> incl rs' rs -> inV V rs' y.
  Proof.
    intros [[r [H1 H2]]|[H1 H2]] Hy Hi Hi'.
    - left. exists r. split; [apply Hi; assumption|exact H2].
    - right. split; [|exact H2]. intros F. apply H1. unfold syms in *. apply in_map_iff in F. destruct F as [q [F1 F2]].
      apply in_map_iff. exists q. auto.
  Qed.
  Lemma inV_ext V V' rs y : (forall w, In w V <-> In w V') -> inV V rs y -> inV V' rs y.
  Proof.
    intros HV [[r [H1 H2]]|[H1 H2]]; [left|right; split; [exact H1|now apply HV]].
    exists r. split; [exact H1|]. intros w. rewrite <- HV. apply H2.
  Qed.
  Lemma plainI_ext V V' rs a : (forall w, In w V <-> In w V') -> plainI V rs a -> plainI V' rs a.
  Proof.
    intros HV [[y [H1 H2]]|[z [H1 H2]]]; [left; exists y|right; exists z]; (split; [|exact H2]).
    - now apply (inV_ext V).
    - now apply HV.
  Qed.
  Lemma splain_subst V rs rs' x v s :
    (forall V y, inV V rs y -> y <> x -> inV V rs' y) -> plainI V rs' v ->
    (forall V', inV V' rs x -> forall w, In w V <-> In w V') -> splain rs s -> splain rs' (ssubst [(x, v)] s).
  Proof.
    intros Hy Hv0 HVV. assert (HI : forall V' a, plainI V' rs a -> plainI V' rs' (isubst [(x, v)] a)).
    { intros V' a [[y [Y1 Y2]]|[z [Z1 Z2]]].
      - destruct (idx_dec y x) as [->|Hne].
        + pose proof (plainI_ext V V' rs' v (HVV V' Y1) Hv0) as Hv. destruct Hv as [[w [W1 W2]]|[z [Z1 Z2]]].
          * left. exists w. split; [exact W1|]. intros e. rewrite iden_subst, Y2. unfold msub. cbn. rewrite idx_eqb_refl. apply W2.
          * right. exists z. split; [exact Z1|]. intros e. rewrite iden_subst, Y2. unfold msub. cbn. rewrite idx_eqb_refl. apply Z2.
        + left. exists y. split; [now apply Hy|]. intros e. rewrite iden_subst, Y2. unfold msub. cbn. now rewrite idx_eqb_neq.
      - right. exists z. split; [exact Z1|]. intros e. rewrite iden_subst. apply Z2. }
    induction s as [c|a|n args|a b|r a|l IH|l IH] using scal_rect'; cbn [ssubst splain]; auto.
    - intros [V' [H1 H2]]. exists V'. split; auto.
    - rewrite !splain_all. intros H u Hu. apply in_map_iff in Hu. destruct Hu as [s [<- Hs]]. rewrite Forall_forall in IH. auto.
    - rewrite !splain_all. intros H u Hu. apply in_map_iff in Hu. destruct Hu as [s [<- Hs]]. rewrite Forall_forall in IH. auto.
  Qed.

  (** ** one step *)
  Definition safe (pw : bool) (it : term * list irange_of) : Prop :=
    if pw then forall x r, In (x, r) rs0 -> forall v, irange_one r v = Ok (if existsb (Z.eqb v) (vals r) then 1 else 0)%Z
    else forall f, In f (top (fst it)) -> splain (snd it) f.
  Lemma NoDup_syms_remove i rs r : nth_error rs i = Some r -> NoDup (syms rs) ->
    NoDup (syms (remove_nth i rs)) /\ forall q, In q rs -> fst q <> fst r -> In q (remove_nth i rs).
  Proof.
    intros Hi Hn. pose proof (remove_nth_perm i rs r Hi) as Hp. split.
    - assert (Hp2 : Permutation (syms rs) (syms (remove_nth i rs) ++ [fst r])).
      { unfold syms. change [fst r] with (map fst [r]). rewrite <- map_app. now apply Permutation_map. }
      apply (Permutation_NoDup Hp2) in Hn. apply NoDup_app_remove_r in Hn. exact Hn.
    - intros q Hq Hne. apply (Permutation_in _ Hp) in Hq. apply in_app_or in Hq. destruct Hq as [Hq|[<-|[]]]; [exact Hq|congruence].
  Qed.
  Lemma deltasummation_ok pw t rs i items flag : item_ok (t, rs) -> safe pw (t, rs) ->
    deltasummation pw t rs i = Ok (items, flag) ->
    asum (item_den e0) items = item_den e0 (t, rs) /\ Forall item_ok items /\ Forall (safe pw) items.
  Proof.
    intros Hok Hsafe H. unfold deltasummation in H. destruct (nth_error rs i) as [r|] eqn:Ei; [|discriminate].
    cbn [of_option bind] in H. set (x := fst r) in *.
    destruct Hok as [W [N [I [HB HD]]]]. cbn [fst snd] in *.
    assert (Hq : forall z, In z (tbound (snd (factors_of t))) -> In z B).
    { intros z Hz. apply HB. destruct t; cbn in *; auto. }
    assert (Wq : wf (snd (factors_of t))) by (destruct t; cbn in *; auto).
    assert (Hexp : forall s, In s (expand_delta x t) -> item_ok (s, rs) /\ (pw = false -> safe pw (s, rs))).
    { intros s Hs. destruct (expand_item t x s Hs) as [fs [-> Hfs]]. split.
      - repeat split; cbn [fst snd wf tbound]; auto.
        intros z Hz. cbn [tfree] in Hz. apply in_app_or in Hz. destruct Hz as [Hz|Hz]; [|apply HD; now apply rest_free].
        cbn [sfree] in Hz. apply in_flat_map in Hz. destruct Hz as [f [Hf Hz]].
        refine (Hfs _ closed_free _ f Hf z Hz). intros g Hg y Hy. apply HD. now apply (top_free t g).
      - intros ->. cbn [safe fst snd] in *. cbn [top factors_of fst mul_args]. intros f Hf.
        apply (Hfs _ (closed_plain rs)); auto. }
    assert (Hmany : forall ss, ss = expand_delta x t ->
       asum (item_den e0) (map (fun s => (s, rs)) ss) = item_den e0 (t, rs)
       /\ Forall item_ok (map (fun s => (s, rs)) ss) /\ Forall (safe pw) (map (fun s => (s, rs)) ss)).
    { intros ss ->. split; [|split].
      - rewrite asum_map. unfold item_den. cbn [fst snd tden].
        transitivity (sum_ranges M rs (fun e => asum (td e) (expand_delta x t)) e0).
        + generalize (expand_delta x t). intros ss. induction ss as [|s ss IH].
          * cbn [asum fold_right]. clear. revert e0. induction rs as [|r rs' IH]; intros e; cbn [sum_ranges]; [reflexivity|].
            rewrite (asum_ext M _ (fun _ => a0)); [symmetry; apply asum_zero|]. intros v _. symmetry. apply IH.
          * rewrite asum_cons, IH. rewrite <- sum_ranges_add. reflexivity.
        + apply sum_ranges_ext. intros e _. apply expand_delta_den.
      - apply Forall_forall. intros it Hit. apply in_map_iff in Hit. destruct Hit as [s [<- Hs]]. now apply Hexp.
      - apply Forall_forall. intros it Hit. apply in_map_iff in Hit. destruct Hit as [s [<- Hs]].
        destruct pw; [exact Hsafe|]. now apply (proj2 (Hexp s Hs)). }
    pose proof (expand_delta_den M symI atomI) as Hden.
    destruct (expand_delta x t) as [|s [|s' ss]] eqn:Ee.
    1,3: injection H as <- <-; exact (Hmany _ eq_refl).
    destruct (expand_item t x s) as [fs [-> Hfs]]; [rewrite Ee; now left|]. cbn [factors_of mul_args] in H.
    destruct (extract_loop x fs) as [[[a b] rest]|] eqn:Ex.
    2:{ injection H as <- <-. split; [|split].
        - rewrite asum_cons. apply aadd_0r.
        - constructor; [|constructor]. repeat split; auto.
        - constructor; [exact Hsafe|constructor]. }
    destruct (solve x a b) as [v|] eqn:Es; [|discriminate]. cbn [bind] in H.
    destruct (tsubst [(x, v)] (TScale (SMul rest) (snd (factors_of t)))) as [nt|] eqn:En; [|discriminate].
    cbn [bind] in H. injection H as <- <-.
    destruct (extract_den M symI x fs a b rest Ex) as [X1 [X2 [X3 [X4 [X5 X6]]]]].
    destruct (solve_ok _ _ _ _ Es) as [S1 S2].
    destruct (NoDup_syms_remove i rs r Ei N) as [N' Hrem].
    assert (Hfree : forall f, In f fs -> forall z, In z (sfree f) -> In z D).
    { refine (Hfs _ closed_free _). intros g Hg z Hz. apply HD. now apply (top_free t g). }
    assert (HxD : In x D) by (apply HrsD; unfold syms; apply in_map; apply I; now apply nth_error_In in Ei).
    assert (HvD : forall z, In z (ifree v) -> In z D).
    { intros z Hz. destruct (S2 z Hz) as [_ Hz']. apply (Hfree (SDelta a b) X5). cbn [sfree]. apply in_or_app. tauto. }
    assert (Hlk : forall z, In z (tbound (TScale (SMul rest) (snd (factors_of t)))) -> lookup z [(x, v)] = None).
    { intros z Hz. cbn [tbound] in Hz. cbn. rewrite idx_eqb_neq; [reflexivity|]. intros ->. apply (HBD x); auto. }
    destruct (tsubst_wf [(x, v)] (TScale (SMul rest) (snd (factors_of t))) Wq Hlk) as [nt' [En' [Wn Bn]]].
    rewrite En in En'. injection En' as <-.
    assert (HnD : forall z, In z (tfree nt) -> In z D).
    { intros z Hz. destruct (tfree_subst _ _ _ z Hlk En Hz) as [[F1 F2]|[w [u [F1 [F2 F3]]]]].
      - cbn [tfree] in F1. apply in_app_or in F1. destruct F1 as [F1|F1]; [|apply HD; now apply rest_free].
        cbn [sfree] in F1. apply in_flat_map in F1. destruct F1 as [f [Hf F1]]. apply (Hfree f); auto.
      - cbn in F2. destruct (idx_eqb w x); [|discriminate]. injection F2 as <-. now apply HvD. }
    assert (Hfull : item_den e0 (t, rs) = sum_ranges M (remove_nth i rs)
        (fun e => if existsb (Z.eqb (iden e v)) (vals (snd r)) then td e nt else a0) e0).
    { rewrite <- (eliminate M symI atomI i rs r x a b v rest (snd (factors_of t)) nt e0); auto.
      - unfold item_den. cbn [fst snd tden]. apply sum_ranges_ext. intros e _. rewrite <- (Hden e x t), Ee, asum_cons.
        cbn [asum fold_right]. rewrite aadd_0r. cbn [tden]. f_equal. apply (X2 e).
      - apply (Hnd x). apply I. apply nth_error_In in Ei. unfold x. now rewrite <- surjective_pairing.
      - intros z Hz. split; [intros ->; apply (HBD x); auto|]. intros F. apply (HBD z); auto. }
    assert (Hnt_shape : exists q', nt = TScale (SMul (map (ssubst [(x, v)]) rest)) q').
    { cbn [tsubst] in En. destruct (tsubst [(x, v)] (snd (factors_of t))) as [q'|]; [|discriminate]. injection En as <-.
      exists q'. reflexivity. }
    destruct Hnt_shape as [q' Hnt].
    destruct pw; cbn [safe] in Hsafe |- *.
    - split; [|split].
      + rewrite asum_cons, Hfull. cbn [asum fold_right]. rewrite aadd_0r. unfold item_den. cbn [fst snd tden].
        apply sum_ranges_ext. intros e _. rewrite scale_by_den. cbn [sden].
        rewrite (Hsafe x (snd r)).
        2:{ apply I. apply nth_error_In in Ei. unfold x. now rewrite <- surjective_pairing. }
        destruct (existsb _ _); [apply smul_1|apply smul_0].
      + constructor; [|constructor]. subst nt. cbn [scale_by]. repeat split; cbn [fst snd]; auto.
        * intros q Hq'. apply I. now apply (remove_nth_incl i).
        * cbn [tbound] in Bn |- *. rewrite Bn. exact Hq.
        * intros z Hz. cbn [tfree sfree flat_map mul_args] in Hz. rewrite <- app_assoc in Hz. apply in_app_or in Hz.
          destruct Hz as [Hz|Hz]; [now apply HvD|]. apply HnD. exact Hz.
      + constructor; [exact Hsafe|constructor].
    - assert (Hpl : forall f, In f fs -> splain rs f) by (exact (Hfs _ (closed_plain rs) Hsafe)).
      pose proof (Hpl _ X5) as [V [Pa Pb]]. destruct (solve_plain V rs x a b v Pa Pb Es X1) as [Hx Hv].
      assert (Hsame : forall V', inV V' rs x -> forall w, In w V' <-> In w (vals (snd r))).
      { intros V' Hx'. destruct Hx' as [[r' [R1 R2]]|[R1 _]].
        - intros w. assert (E : r' = snd r); [|subst r'; apply R2].
          clear - N Ei R1. apply nth_error_In in Ei. unfold x in R1. clear x.
          induction rs as [|q rs' IH]; [destruct Ei|]. cbn [syms map] in N. inversion N as [|? ? N1 N2]; subst.
          destruct R1 as [->|R1], Ei as [E|E].
          + now rewrite <- E.
          + exfalso. apply N1. cbn [fst]. unfold syms. now apply in_map.
          + subst q. exfalso. apply N1. unfold syms. now apply (in_map fst) in R1.
          + now apply IH.
        - exfalso. apply R1. apply nth_error_In in Ei. unfold syms. now apply in_map. }
      pose proof (Hsame V Hx) as HxV0. assert (HxV : forall w, In w V -> In w (vals (snd r))) by (intros w; apply HxV0).
      assert (Hpv : plainI V (remove_nth i rs) v).
      { destruct Hv as [[y [Y1 [Y2 Y3]]]|Hz]; [|now right]. left. exists y. split; [|exact Y3].
        apply (inV_remove V rs _ x); auto. apply remove_nth_incl. }
      split; [|split].
      + rewrite asum_cons, Hfull. cbn [asum fold_right]. rewrite aadd_0r. unfold item_den. cbn [fst snd tden].
        apply sum_ranges_ext_in; [exact N'|]. intros e He1 He2.
        assert (Hin : In (iden e v) V).
        { destruct Hpv as [[y [[[r' [R1 R2]]|[R1 R2]] Y2]]|[z [Z1 Z2]]].
          - rewrite Y2. apply R2. now apply (He2 y).
          - rewrite Y2, He1 by exact R1. exact R2.
          - now rewrite Z2. }
        apply HxV in Hin. replace (existsb (Z.eqb (iden e v)) (vals (snd r))) with true; [reflexivity|].
        symmetry. apply existsb_exists. exists (iden e v). split; [exact Hin|apply Z.eqb_refl].
      + constructor; [|constructor]. repeat split; cbn [fst snd]; auto.
        * intros q Hq'. apply I. now apply (remove_nth_incl i).
        * intros z Hz. apply Hq. rewrite Bn in Hz. exact Hz.
      + constructor; [|constructor]. cbn [fst snd]. subst nt. cbn [top factors_of fst mul_args]. intros f Hf.
        apply in_map_iff in Hf. destruct Hf as [g [<- Hg]]. apply (splain_subst V rs).
        * intros V' y Hy1 Hy2. apply (inV_remove V' rs _ x); auto. apply remove_nth_incl.
        * exact Hpv.
        * intros V' Hx' w. rewrite HxV0. symmetry. now apply Hsame.
        * apply Hpl. now apply X4.
  Qed.

  (** ** the loop *)
  Lemma kron_loop_ok pw ds fuel : forall finished buffer i out,
    Forall item_ok buffer -> Forall (safe pw) buffer -> Forall item_ok finished ->
    kron_loop pw ds fuel finished buffer i = Ok out ->
    asum (item_den e0) out = aadd (asum (item_den e0) finished) (asum (item_den e0) buffer) /\ Forall item_ok out.
  Proof.
    induction fuel as [|fuel IH]; intros finished buffer i out Hb Hs Hf H; cbn [kron_loop] in H; [discriminate|].
    destruct buffer as [|[t rs] rest].
    - injection H as <-. split; [symmetry; apply aadd_0r|exact Hf].
    - pose proof (Forall_inv Hb) as B1. pose proof (Forall_inv_tail Hb) as B2.
      pose proof (Forall_inv Hs) as C1. pose proof (Forall_inv_tail Hs) as C2.
      destruct (nth_error rs i) as [r|] eqn:Er; [|discriminate]. cbn [of_option bind] in H.
      assert (Hstep : forall items (n : nat),
        asum (item_den e0) items = item_den e0 (t, rs) -> Forall item_ok items -> Forall (safe pw) items ->
        match items with
        | [] => Err IndexError
        | item :: items' =>
          if length (snd item) <=? n
          then kron_loop pw ds fuel (finished ++ [item]) (items' ++ rest) 0
          else kron_loop pw ds fuel finished (item :: items' ++ rest) n
        end = Ok out ->
        asum (item_den e0) out = aadd (asum (item_den e0) finished) (asum (item_den e0) ((t, rs) :: rest)) /\ Forall item_ok out).
      { intros items n H1 H2 H3 H4. destruct items as [|it items]; [discriminate|].
        pose proof (Forall_inv H2) as I1. pose proof (Forall_inv_tail H2) as I2.
        pose proof (Forall_inv H3) as J1. pose proof (Forall_inv_tail H3) as J2.
        rewrite asum_cons in H1. destruct (length (snd it) <=? n).
        - apply IH in H4.
          + destruct H4 as [H4 H5]. split; [|exact H5]. rewrite H4, (asum_cons M _ (t, rs)), <- H1, !asum_app, asum_cons.
            cbn [asum fold_right]. rewrite aadd_0r, <- !aadd_assoc. reflexivity.
          + apply Forall_app. auto.
          + apply Forall_app. auto.
          + apply Forall_app. auto.
        - apply IH in H4.
          + destruct H4 as [H4 H5]. split; [|exact H5]. rewrite H4, (asum_cons M _ (t, rs)), <- H1, asum_cons, !asum_app.
            rewrite <- !aadd_assoc. reflexivity.
          + constructor; [exact I1|]. apply Forall_app. auto.
          + constructor; [exact J1|]. apply Forall_app. auto.
          + exact Hf. }
      destruct (imem (fst r) ds).
      + destruct (deltasummation pw t rs i) as [[items flag]|] eqn:Ed; [|discriminate]. cbn [bind fst snd] in H.
        destruct (deltasummation_ok pw t rs i items flag B1 C1 Ed) as [D1 [D2 D3]].
        apply (Hstep items (if flag =? 2 then S i else i)); assumption.
      + cbn [bind fst snd] in H. apply (Hstep [(t, rs)] (S i)).
        * rewrite asum_cons. apply aadd_0r.
        * constructor; [exact B1|constructor].
        * constructor; [exact C1|constructor].
        * exact H.
  Qed.
  (** the recursive calls keep the value *)
  Definition create_sound (create : term -> list irange_of -> res term) : Prop :=
    forall t rs r, NoDup (syms rs) -> create t rs = Ok r -> td e0 r = td e0 (TSum t rs).
  Lemma close_item_ok create it t : create_sound create -> item_ok it -> close_item create it = Ok t -> td e0 t = item_den e0 it.
  Proof.
    intros Hc [_ [N _]]. unfold close_item, item_den. destruct (snd it) as [|r rs] eqn:E.
    - intros [= <-]. reflexivity.
    - intros H. now apply Hc.
  Qed.
  Lemma add_items_ok create items : create_sound create -> forall acc t, Forall item_ok items ->
    add_items create acc items = Ok t -> td e0 t = aadd (td e0 acc) (asum (item_den e0) items).
  Proof.
    intros Hc. induction items as [|it items IH]; intros acc t H Ht; cbn [add_items] in Ht.
    - injection Ht as <-. symmetry. apply aadd_0r.
    - destruct (close_item create it) as [u|] eqn:Eu; [|discriminate]. cbn [bind] in Ht.
      unfold plus in Ht. destruct (is_sum acc); [discriminate|]. cbn [bind] in Ht.
      rewrite (IH _ _ (Forall_inv_tail H) Ht), asum_cons. cbn [tden].
      rewrite (close_item_ok create it u Hc (Forall_inv H) Eu). symmetry. apply aadd_assoc.
  Qed.
End Den.
