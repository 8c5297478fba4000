From Verif Require Import Prelude ListFacts SortModel SortProofs HilbertModel BasisModel BasisSpec BasisProofs AlgSpec IdxModel IdxSpec IdxProofs1 IdxProofs2.

(** ** priming *)
Lemma prime_until_ok f others x y : prime_until f others x = Ok y ->
  ~ In y others /\ fst y = fst x /\ snd x <= snd y /\ (In x others -> snd x < snd y).
Proof.
  revert x. induction f as [|f IH]; intros x H; cbn [prime_until] in H; [discriminate|].
  destruct (imem x others) eqn:E.
  - apply IH in H. cbn in H. apply imem_spec in E. destruct H as [H1 [H2 [H3 _]]]. repeat split; try assumption; lia.
  - injection H as <-. apply imem_false in E. repeat split; try assumption; [lia|contradiction].
Qed.
Lemma prime_until_err f others x e : prime_until f others x = Err e ->
  e = OutOfFuel /\ forall k, k < f -> In (fst x, snd x + k) others.
Proof.
  revert x. induction f as [|f IH]; intros x H; cbn [prime_until] in H.
  - injection H as <-. split; [reflexivity|]. intros k Hk. lia.
  - destruct (imem x others) eqn:E; [|discriminate]. apply imem_spec in E. apply IH in H. destruct H as [-> H].
    split; [reflexivity|]. intros [|k] Hk; [rewrite Nat.add_0_r; now destruct x|].
    specialize (H k). cbn in H. rewrite Nat.add_succ_r. apply H. lia.
Qed.
Lemma prime_until_total others x : exists y, prime_until (S (length others)) others x = Ok y.
Proof.
  destruct (prime_until (S (length others)) others x) as [y|e] eqn:E; [now exists y|exfalso].
  apply prime_until_err in E. destruct E as [_ H].
  assert (Hl : length (map (fun k => (fst x, snd x + k)) (seq 0 (S (length others)))) <= length others).
  { apply NoDup_incl_length.
    - apply FinFun.Injective_map_NoDup; [|apply seq_NoDup]. intros a b [= F]. lia.
    - intros z Hz. apply in_map_iff in Hz. destruct Hz as [k [<- Hk]]. apply in_seq in Hk. apply H. lia. }
  rewrite map_length, seq_length in Hl. lia.
Qed.

(** ** free symbols of a substituted term *)
Lemma ifree_subst m a z : In z (ifree (isubst m a)) ->
  (In z (ifree a) /\ lookup z m = None) \/ exists w v, In w (ifree a) /\ lookup w m = Some v /\ In z (ifree v).
Proof.
  induction a as [x| |a IHa b IHb|c a IH]; cbn; intros H.
  - destruct (lookup x m) as [v|] eqn:E; [right; exists x, v; auto|]. destruct H as [<-|[]]. left. auto.
  - destruct H.
  - apply in_app_or in H. destruct H as [H|H].
    + destruct (IHa H) as [[H1 H2]|[w [v [H1 H2]]]]; [left; split; [apply in_or_app; auto|exact H2]|].
      right. exists w, v. split; [apply in_or_app; auto|exact H2].
    + destruct (IHb H) as [[H1 H2]|[w [v [H1 H2]]]]; [left; split; [apply in_or_app; auto|exact H2]|].
      right. exists w, v. split; [apply in_or_app; auto|exact H2].
  - auto.
Qed.
(** symbols of a list substituted elementwise *)
Lemma flat_subst {X} (g h : X -> list idx) (m : vmap) (l : list X) z :
  (forall s, In s l -> In z (h s) ->
     (In z (g s) /\ lookup z m = None) \/ exists w v, In w (g s) /\ lookup w m = Some v /\ In z (ifree v)) ->
  In z (flat_map h l) ->
  (In z (flat_map g l) /\ lookup z m = None)
  \/ exists w v, In w (flat_map g l) /\ lookup w m = Some v /\ In z (ifree v).
Proof.
  intros H Hz. apply in_flat_map in Hz. destruct Hz as [s [Hs Hz]].
  destruct (H s Hs Hz) as [[H1 H2]|[w [v [H1 H2]]]].
  - left. split; [apply in_flat_map; now exists s|exact H2].
  - right. exists w, v. split; [apply in_flat_map; now exists s|exact H2].
Qed.
Lemma flat_map_map {X Y Z} (f : Y -> list Z) (g : X -> Y) l : flat_map f (map g l) = flat_map (fun x => f (g x)) l.
Proof. induction l; cbn; congruence. Qed.
Lemma sfree_subst m s z : In z (sfree (ssubst m s)) ->
  (In z (sfree s) /\ lookup z m = None) \/ exists w v, In w (sfree s) /\ lookup w m = Some v /\ In z (ifree v).
Proof.
  induction s as [c|a|n args|a b|r a|l IH|l IH] using scal_rect'; cbn [sfree ssubst]; intros H.
  - destruct H.
  - now apply ifree_subst.
  - rewrite flat_map_map in H. revert H. apply flat_subst. intros s _. apply ifree_subst.
  - apply (ifree_subst m (IAdd a b)). exact H.
  - now apply ifree_subst.
  - rewrite flat_map_map in H. revert H. apply flat_subst. rewrite Forall_forall in IH. auto.
  - rewrite flat_map_map in H. revert H. apply flat_subst. rewrite Forall_forall in IH. auto.
Qed.
Lemma tfree_subst m t : forall t' z, (forall z, In z (tbound t) -> lookup z m = None) -> tsubst m t = Ok t' ->
  In z (tfree t') ->
  (In z (tfree t) /\ lookup z m = None) \/ exists w v, In w (tfree t) /\ lookup w m = Some v /\ In z (ifree v).
Proof.
  assert (Happ : forall (a b a' b' : list idx) z,
     (In z a' -> (In z a /\ lookup z m = None) \/ exists w v, In w a /\ lookup w m = Some v /\ In z (ifree v)) ->
     (In z b' -> (In z b /\ lookup z m = None) \/ exists w v, In w b /\ lookup w m = Some v /\ In z (ifree v)) ->
     In z (a' ++ b') ->
     (In z (a ++ b) /\ lookup z m = None) \/ exists w v, In w (a ++ b) /\ lookup w m = Some v /\ In z (ifree v)).
  { intros a b a' b' z H1 H2 H. apply in_app_or in H. destruct H as [H|H].
    - destruct (H1 H) as [[F1 F2]|[w [v [F1 F2]]]]; [left; split; [apply in_or_app; auto|exact F2]|].
      right. exists w, v. split; [apply in_or_app; auto|exact F2].
    - destruct (H2 H) as [[F1 F2]|[w [v [F1 F2]]]]; [left; split; [apply in_or_app; auto|exact F2]|].
      right. exists w, v. split; [apply in_or_app; auto|exact F2]. }
  induction t as [n args|c t IH|t IHt u IHu|t IHt u IHu|t IH rs]; intros t' z Hb H Hz; cbn [tsubst tbound] in *.
  - injection H as <-. cbn [tfree] in *. rewrite flat_map_map in Hz. revert Hz. apply flat_subst. intros s _. apply ifree_subst.
  - destruct (tsubst m t) as [t1|] eqn:E; [|discriminate]. injection H as <-. cbn [tfree] in *.
    revert Hz. apply Happ; [apply sfree_subst|]. now apply IH.
  - destruct (tsubst m t) as [t1|] eqn:E; [|discriminate]. cbn [bind] in H.
    destruct (tsubst m u) as [u1|] eqn:F; [|discriminate]. injection H as <-. cbn [tfree] in *.
    revert Hz. apply Happ; [apply IHt|apply IHu]; auto; intros y Hy; apply Hb, in_or_app; auto.
  - destruct (tsubst m t) as [t1|] eqn:E; [|discriminate]. cbn [bind] in H.
    destruct (tsubst m u) as [u1|] eqn:F; [|discriminate]. injection H as <-. cbn [tfree] in *.
    revert Hz. apply Happ; [apply IHt|apply IHu]; auto; intros y Hy; apply Hb, in_or_app; auto.
  - destruct (tsubst m t) as [t1|] eqn:E; [|discriminate]. cbn [bind] in H.
    rewrite ranges_subst_none in H by (intros y Hy; apply Hb, in_or_app; now left). cbn [bind] in H.
    apply sum_init_ok in H. destruct H as [-> _]. cbn [tfree] in *. apply filter_In in Hz. destruct Hz as [Hz1 Hz2].
    destruct (IH t1 z (fun y Hy => Hb y (in_or_app _ _ _ (or_intror Hy))) eq_refl Hz1) as [[F1 F2]|[w [v [F1 [F2 F3]]]]].
    + left. split; [apply filter_In; split; assumption|exact F2].
    + right. exists w, v. split; [|split; assumption]. apply filter_In. split; [exact F1|].
      rewrite negb_true_iff, imem_false. intros Hw. rewrite (Hb w) in F2; [discriminate|]. apply in_or_app. now left.
Qed.

(** ** renaming one symbol *)
Definition ren (x y : idx) (r : irange_of) : irange_of := if idx_eqb (fst r) x then (y, snd r) else r.
Lemma ranges_subst_ren x y rs : mapM (range_subst [(x, IVar y)]) rs = Ok (map (ren x y) rs).
Proof.
  apply mapM_ok. intros r _. unfold range_subst, ren. cbn. destruct (idx_eqb (fst r) x) eqn:E; [reflexivity|now destruct r].
Qed.
Lemma ren_id x y rs : ~ In x (syms rs) -> map (ren x y) rs = rs.
Proof.
  induction rs as [|r rs IH]; intros H; [reflexivity|]. cbn. unfold ren at 1.
  rewrite idx_eqb_neq; [|intros E; apply H; left; exact E]. f_equal. apply IH. intros F. apply H. now right.
Qed.
Lemma ren_syms x y rs z : In z (syms (map (ren x y) rs)) ->
  (In z (syms rs) /\ z <> x) \/ (z = y /\ In x (syms rs)).
Proof.
  unfold syms. rewrite map_map, in_map_iff. intros [r [E H]]. unfold ren in E. destruct (idx_eqb (fst r) x) eqn:F.
  - right. apply idx_eqb_spec in F. subst x. split; [now symmetry|]. now apply in_map.
  - left. subst z. split; [now apply in_map|]. intros G; subst x. now rewrite idx_eqb_refl in F.
Qed.
Lemma ren_syms_other x y rs z : In z (syms rs) -> z <> x -> In z (syms (map (ren x y) rs)).
Proof.
  unfold syms. rewrite map_map, !in_map_iff. intros [r [E H]] Hz. exists r. split; [|exact H].
  unfold ren. rewrite idx_eqb_neq; [exact E|]. congruence.
Qed.
Lemma ren_NoDup x y rs : x <> y -> In x (syms rs) -> NoDup (syms (map (ren x y) rs)) -> ~ In y (syms rs).
Proof.
  intros Hxy. induction rs as [|r rs IH]; intros Hx Hn Hy; [destruct Hx|].
  cbn [map syms] in *. unfold ren at 1 in Hn. inversion Hn as [|? ? N1 N2]; subst.
  destruct (idx_eqb (fst r) x) eqn:E.
  - apply idx_eqb_spec in E. cbn [fst] in *. destruct Hy as [Hy|Hy]; [congruence|].
    apply N1. apply (ren_syms_other x y rs y Hy). congruence.
  - destruct Hx as [Hx|Hx]; [rewrite Hx, idx_eqb_refl in E; discriminate|].
    destruct Hy as [Hy|Hy]; [|exact (IH Hx N2 Hy)].
    apply N1. rewrite Hy. unfold syms in *. rewrite map_map. apply in_map_iff in Hx. destruct Hx as [q [Q1 Q2]].
    apply in_map_iff. exists q. split; [|exact Q2]. unfold ren. now rewrite Q1, idx_eqb_refl.
Qed.
Lemma ren_NoDup_intro x y rs : NoDup (syms rs) -> ~ In y (syms rs) -> NoDup (syms (map (ren x y) rs)).
Proof.
  induction rs as [|r rs IH]; intros Hn Hy; [constructor|]. cbn [map syms] in *. inversion Hn as [|? ? N1 N2]; subst.
  constructor; [|apply IH; [exact N2|intros F; apply Hy; now right]].
  unfold ren at 1. destruct (idx_eqb (fst r) x) eqn:E.
  - apply idx_eqb_spec in E. cbn [fst]. intros F. apply ren_syms in F. destruct F as [[F _]|[_ F]].
    + apply Hy. now right.
    + apply N1. rewrite E. exact F.
  - intros F. apply ren_syms in F. destruct F as [[F _]|[F _]]; [contradiction|]. apply Hy. left. exact F.
Qed.

Section Den.
  Context (M : algebra) (symI : nat -> list Z -> K M) (atomI : nat -> list Z -> A M).
  Add Ring KrL : (kring M).
  Notation sd := (sden M symI). Notation td := (tden M symI atomI).

  Lemma rename_sum x y rs f f' : x <> y -> NoDup (syms rs) -> In x (syms rs) -> ~ In y (syms rs) ->
    (forall e e', (forall z, z <> x -> z <> y -> e z = e' z) -> e x = e' y -> f e = f' e') ->
    forall e e', (forall z, z <> x -> z <> y -> e z = e' z) ->
      sum_ranges M rs f e = sum_ranges M (map (ren x y) rs) f' e'.
  Proof.
    intros Hxy. induction rs as [|r rs IH]; intros Hn Hx Hy Hf e e' He; [destruct Hx|].
    inversion Hn as [|? ? N1 N2]; subst. cbn [map sum_ranges].
    assert (Er : ren x y r = if idx_eqb (fst r) x then (y, snd r) else r) by reflexivity.
    destruct (idx_eqb (fst r) x) eqn:E; rewrite Er; clear Er.
    - apply idx_eqb_spec in E. cbn [fst snd]. apply asum_ext. intros v _. rewrite ren_id by (now rewrite <- E).
      apply (sum_ranges_sim M (fun a b => (forall z, z <> x -> z <> y -> a z = b z) /\ a x = b y)).
      + intros a b w u Hw [R1 R2]. assert (w <> x) by (intros ->; apply N1; now rewrite E).
        assert (w <> y) by (intros ->; apply Hy; now right). split.
        * intros z Z1 Z2. unfold upd. destruct (idx_eqb z w); auto.
        * rewrite !upd_other by auto. exact R2.
      + intros a b [R1 R2]. now apply Hf.
      + rewrite E. split.
        * intros z Z1 Z2. rewrite !upd_other by assumption. now apply He.
        * now rewrite !upd_same.
    - destruct Hx as [Hx|Hx]; [rewrite Hx, idx_eqb_refl in E; discriminate|].
      apply asum_ext. intros v _. apply IH; [exact N2|exact Hx|intros F; apply Hy; now right|exact Hf|].
      intros z Z1 Z2. unfold upd. destruct (idx_eqb z (fst r)); auto.
  Qed.
  Lemma rename_ok x y t rs s' : x <> y -> wf t -> NoDup (syms rs) -> In x (syms rs) ->
    ~ In x (tbound t) -> ~ In y (tbound t) -> (~ In y (syms rs) -> ~ In y (tfree t)) ->
    rename x y (t, rs) = Ok s' ->
    ~ In y (syms rs) /\ snd s' = map (ren x y) rs /\ wf (fst s') /\ tbound (fst s') = tbound t /\ NoDup (syms (snd s'))
    /\ (forall z, In z (tfree (fst s')) -> (In z (tfree t) /\ z <> x) \/ z = y)
    /\ forall e, td e (TSum (fst s') (snd s')) = td e (TSum t rs).
  Proof.
    intros Hxy Hw Hn Hx Bx By Hfree H. unfold rename in H. cbn [fst snd] in H.
    assert (Hlk : forall z, In z (tbound t) -> lookup z [(x, IVar y)] = None).
    { intros z Hz. cbn. rewrite idx_eqb_neq; [reflexivity|]. congruence. }
    destruct (tsubst_wf [(x, IVar y)] t Hw Hlk) as [t' [Et [Wt Bt]]].
    rewrite Et, ranges_subst_ren in H. cbn [bind] in H.
    destruct (sum_init t' (map (ren x y) rs)) as [q|] eqn:Eq; [|discriminate]. injection H as <-. cbn [fst snd].
    apply sum_init_ok in Eq. destruct Eq as [_ Hn']. pose proof (ren_NoDup x y rs Hxy Hx Hn') as Hy.
    split; [exact Hy|]. split; [reflexivity|]. split; [exact Wt|]. split; [exact Bt|]. split; [exact Hn'|]. split.
    - intros z Hz. destruct (tfree_subst _ _ _ z Hlk Et Hz) as [[F1 F2]|[w [v [F1 [F2 F3]]]]].
      + left. split; [exact F1|]. intros ->. cbn in F2. now rewrite idx_eqb_refl in F2.
      + right. cbn in F2. destruct (idx_eqb w x); [|discriminate]. injection F2 as <-. destruct F3 as [<-|[]]. reflexivity.
    - intros e. cbn [tden]. symmetry. apply rename_sum; try assumption; [|auto].
      intros a b R1 R2. rewrite (tden_subst M symI atomI [(x, IVar y)] t t' b); [| |exact Et].
      + apply tden_ext. intros z Hz. unfold msub. cbn. destruct (idx_eqb z x) eqn:Ez.
        * apply idx_eqb_spec in Ez. subst z. exact R2.
        * apply R1; [intros ->; now rewrite idx_eqb_refl in Ez|]. intros ->. now apply Hfree.
      + intros z Hz. split; [now apply Hlk|]. intros w v F Hv. cbn in F. destruct (idx_eqb w x); [|discriminate].
        injection F as <-. destruct Hv as [<-|[]]. contradiction.
  Qed.

  (** ** make_disjunct_indices *)
  Lemma disjunct_loop_ok others t0 rs0 todo : forall t rs s',
    NoDup (syms todo) -> (forall x, In x (syms todo) -> In x (syms rs)) ->
    (forall x, In x (syms todo) -> In x others -> primes_fresh x t0) ->
    wf t -> NoDup (syms rs) -> tbound t = tbound t0 ->
    (forall z, In z (tfree t) -> In z (tfree t0) \/ In z (syms rs)) ->
    (forall z, In z (syms rs) -> In z others -> In z (syms todo)) ->
    (forall z, In z (syms rs) -> In z (syms rs0) \/ exists x, In x (syms rs0) /\ In x others /\ primed_copy x z) ->
    (forall x, In x (syms todo) -> In x (syms rs0)) ->
    (forall e, td e (TSum t rs) = td e (TSum t0 rs0)) -> map snd rs = map snd rs0 ->
    disjunct_loop others todo (t, rs) = Ok s' ->
    wf (fst s') /\ NoDup (syms (snd s')) /\ tbound (fst s') = tbound t0
    /\ (forall z, In z (tfree (fst s')) -> In z (tfree t0) \/ In z (syms (snd s')))
    /\ (forall z, In z (syms (snd s')) -> ~ In z others)
    /\ (forall z, In z (syms (snd s')) -> In z (syms rs0) \/ exists x, In x (syms rs0) /\ In x others /\ primed_copy x z)
    /\ (forall e, td e (TSum (fst s') (snd s')) = td e (TSum t0 rs0))
    /\ map snd (snd s') = map snd rs0.
  Proof.
    induction todo as [|r todo IH]; intros t rs s' Hnt Hsub Hfr Hw Hn Hb Hf Hin Hor Hsub0 Hd Hsnd H; cbn [disjunct_loop] in H.
    - injection H as <-. cbn [fst snd]. repeat split; eauto.
    - cbn [syms map] in Hnt. inversion Hnt as [|? ? N1 N2]; subst.
      destruct (imem (fst r) others) eqn:E.
      + apply imem_spec in E.
        destruct (prime_until_total others (fst r)) as [y Ey]. rewrite Ey in H. cbn [bind] in H.
        destruct (prime_until_ok _ _ _ _ Ey) as [Y1 [Y2 [Y3 Y4]]]. specialize (Y4 E).
        destruct (rename (fst r) y (t, rs)) as [s1|] eqn:Er; [|discriminate]. cbn [bind] in H.
        assert (Hpc : primed_copy (fst r) y) by (split; assumption).
        destruct (Hfr (fst r) (or_introl eq_refl) E) as [Fx Fy]. destruct (Fy y Hpc) as [Fy1 Fy2].
        assert (Hxy : fst r <> y) by (intros F; rewrite <- F in Y4; lia).
        destruct (rename_ok (fst r) y t rs s1 Hxy Hw Hn (Hsub _ (or_introl eq_refl))) as [R0 [R1 [R2 [R3 [R4 [R5 R6]]]]]];
          [now rewrite Hb|now rewrite Hb| |exact Er|].
        { intros Hy F. destruct (Hf y F); contradiction. }
        destruct s1 as [t1 rs1]. cbn [fst snd] in *. subst rs1.
        apply (IH t1 (map (ren (fst r) y) rs)); auto.
        * intros z Hz. apply ren_syms_other; [apply Hsub; now right|]. intros ->. contradiction.
        * intros z Hz. apply Hfr. now right.
        * now rewrite R3.
        * intros z Hz. destruct (R5 z Hz) as [[F1 F2]| ->].
          -- destruct (Hf z F1) as [F|F]; [now left|]. right. now apply ren_syms_other.
          -- right. unfold syms. rewrite map_map. pose proof (Hsub (fst r) (or_introl eq_refl)) as Hx.
             apply in_map_iff in Hx. destruct Hx as [q [Q1 Q2]]. apply in_map_iff. exists q. split; [|exact Q2].
             unfold ren. now rewrite Q1, idx_eqb_refl.
        * intros z Hz Hz'. apply ren_syms in Hz. destruct Hz as [[F1 F2]|[-> _]]; [|contradiction].
          destruct (Hin z F1 Hz') as [F|F]; [congruence|exact F].
        * intros z Hz. apply ren_syms in Hz. destruct Hz as [[F1 F2]|[-> _]]; [now apply Hor|].
          right. exists (fst r). split; [apply Hsub0; now left|]. split; assumption.
        * intros z Hz. apply Hsub0. now right.
        * intros e. rewrite R6. apply Hd.
        * rewrite map_map. rewrite <- Hsnd. apply map_ext. intros q. unfold ren. destruct (idx_eqb (fst q) (fst r)); reflexivity.
      + apply imem_false in E. apply (IH t rs); auto.
        * intros z Hz. apply Hsub. now right.
        * intros z Hz. apply Hfr. now right.
        * intros z Hz Hz'. destruct (Hin z Hz Hz') as [F|F]; [|exact F]. subst. contradiction.
        * intros z Hz. apply Hsub0. now right.
  Qed.
  Lemma make_disjunct_ok others t rs s' : wf t -> NoDup (syms rs) ->
    (forall x, In x (syms rs) -> In x others -> primes_fresh x t) ->
    make_disjunct others t rs = Ok s' ->
    wf (fst s') /\ NoDup (syms (snd s')) /\ tbound (fst s') = tbound t
    /\ (forall z, In z (tfree (fst s')) -> In z (tfree t) \/ In z (syms (snd s')))
    /\ (forall z, In z (syms (snd s')) -> ~ In z others)
    /\ (forall z, In z (syms (snd s')) -> In z (syms rs) \/ exists x, In x (syms rs) /\ In x others /\ primed_copy x z)
    /\ (forall e, td e (TSum (fst s') (snd s')) = td e (TSum t rs))
    /\ map snd (snd s') = map snd rs.
  Proof.
    intros Hw Hn Hf H. unfold make_disjunct in H.
    apply (disjunct_loop_ok others t rs rs t rs s'); auto.
  Qed.
End Den.

(** the symbols of the result avoid [others], whatever the term *)
Lemma disjunct_loop_avoid others todo : forall s s',
  (forall z, In z (syms (snd s)) -> In z others -> In z (syms todo)) ->
  disjunct_loop others todo s = Ok s' -> forall z, In z (syms (snd s')) -> ~ In z others.
Proof.
  induction todo as [|r todo IH]; intros [t rs] s' Hin H; cbn [disjunct_loop] in H.
  - injection H as <-. intros z Hz F. destruct (Hin z Hz F).
  - destruct (imem (fst r) others) eqn:E.
    + destruct (prime_until_total others (fst r)) as [y Ey]. rewrite Ey in H. cbn [bind] in H.
      destruct (prime_until_ok _ _ _ _ Ey) as [Y1 _].
      destruct (rename (fst r) y (t, rs)) as [s1|] eqn:Er; [|discriminate]. cbn [bind] in H.
      apply (IH s1); [|exact H]. intros z Hz Hz'.
      unfold rename in Er. cbn [fst snd] in Er. destruct (tsubst _ t) as [t1|]; [|discriminate]. cbn [bind] in Er.
      rewrite ranges_subst_ren in Er. cbn [bind] in Er.
      destruct (sum_init t1 (map (ren (fst r) y) rs)); [|discriminate]. injection Er as <-. cbn [snd] in Hz.
      apply ren_syms in Hz. destruct Hz as [[F1 F2]|[-> _]]; [|contradiction].
      destruct (Hin z F1 Hz') as [F|F]; [congruence|exact F].
    + apply imem_false in E. apply (IH (t, rs)); [|exact H]. intros z Hz Hz'.
      destruct (Hin z Hz Hz') as [F|F]; [|exact F]. subst. contradiction.
Qed.
(** success *)
Lemma disjunct_loop_total others rs0 todo : forall t rs,
  wf t -> NoDup (syms rs) -> NoDup (syms todo) -> (forall x, In x (syms todo) -> In x (syms rs) /\ In x (syms rs0)) ->
  (forall x, In x (syms rs0) -> In x others -> ~ In x (tbound t) /\ forall y, primed_copy x y -> ~ In y (syms rs0)) ->
  (forall z, In z (syms rs) -> In z (syms rs0) \/ exists x, In x (syms rs0) /\ In x others /\ ~ In x (syms todo) /\ primed_copy x z) ->
  exists s', disjunct_loop others todo (t, rs) = Ok s'.
Proof.
  induction todo as [|r todo IH]; intros t rs Hw Hn Hnt Hsub Hfr Hor; cbn [disjunct_loop]; [eexists; reflexivity|].
  cbn [syms map] in Hnt. inversion Hnt as [|? ? N1 N2]; subst.
  destruct (imem (fst r) others) eqn:E.
  - apply imem_spec in E. destruct (prime_until_total others (fst r)) as [y Ey]. rewrite Ey. cbn [bind].
    destruct (prime_until_ok _ _ _ _ Ey) as [Y1 [Y2 [Y3 Y4]]]. specialize (Y4 E).
    destruct (Hsub (fst r) (or_introl eq_refl)) as [S1 S2].
    destruct (Hfr (fst r) S2 E) as [Fx Fy].
    assert (Hpc : primed_copy (fst r) y) by (split; assumption).
    assert (Hy : ~ In y (syms rs)).
    { intros F. destruct (Hor y F) as [G|[x [G1 [G2 [G3 G4]]]]]; [now apply (Fy y)|].
      assert (x <> fst r) by (intros ->; apply G3; now left).
      destruct G4 as [P1 P2], Hpc as [P3 P4].
      destruct (Nat.lt_trichotomy (snd x) (snd (fst r))) as [L|[L|L]].
      - destruct (Hfr x G1 G2) as [_ Q]. apply (Q (fst r)); [split; [congruence|exact L]|exact S2].
      - apply H. destruct x, (fst r). cbn in *. congruence.
      - apply (Fy x); [split; [congruence|exact L]|exact G1]. }
    unfold rename. cbn [fst snd].
    assert (Hlk : forall z, In z (tbound t) -> lookup z [(fst r, IVar y)] = None).
    { intros z Hz. cbn. rewrite idx_eqb_neq; [reflexivity|]. congruence. }
    destruct (tsubst_wf [(fst r, IVar y)] t Hw Hlk) as [t' [Et [Wt Bt]]].
    rewrite Et, ranges_subst_ren. cbn [bind].
    pose proof (ren_NoDup_intro (fst r) y rs Hn Hy) as Hn'.
    rewrite (proj2 (sum_init_ok t' (map (ren (fst r) y) rs) _) (conj eq_refl Hn')). cbn [bind].
    apply IH; auto.
    + intros x Hx. split; [|apply Hsub; now right]. apply ren_syms_other; [apply Hsub; now right|]. intros ->. contradiction.
    + intros x Hx Hx'. rewrite Bt. now apply Hfr.
    + intros z Hz. apply ren_syms in Hz. destruct Hz as [[F1 F2]|[-> _]].
      * destruct (Hor z F1) as [G|[x [G1 [G2 [G3 G4]]]]]; [now left|]. right. exists x. repeat split; auto; try apply G4.
        intros F. apply G3. now right.
      * right. exists (fst r). repeat split; auto.
  - apply (IH t rs); auto.
    + intros x Hx. apply Hsub. now right.
    + intros z Hz. destruct (Hor z Hz) as [G|[x [G1 [G2 [G3 G4]]]]]; [now left|]. right. exists x. repeat split; auto; try apply G4.
      intros F. apply G3. now right.
Qed.
