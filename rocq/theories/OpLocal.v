(** On a single local space the sorting of factors never does harm, so that the
    monitored simplifier and the real one agree. *)
From Coq Require Import QArith Qcanon Permutation.
From Verif Require Import Prelude ListFacts SortModel SortSpec SortProofs BinModel BinProofs OpModel OpSpec OpProofs1 OpForms OpForm OpFuel OpOrder.
Local Open Scope nat_scope.

Section Local.
  Context {S : scalars} (l : nat).
  Local Notation op := (op S).
  Local Notation loc := (local_to (S:=S) l).
  Lemma loc_list es : fold_right (fun x P => loc x /\ P) True es <-> Forall loc es.
  Proof.
    induction es as [|x es IH]; cbn [fold_right]; [split; constructor|]. rewrite IH. split.
    - intros [H1 H2]. now constructor.
    - intros H. split; [exact (Forall_inv H)|exact (Forall_inv_tail H)].
  Qed.
  Lemma loc_plus es : loc (OPlus es) <-> Forall loc es.
  Proof. exact (loc_list es). Qed.
  Lemma loc_times es : loc (OTimes es) <-> Forall loc es.
  Proof. exact (loc_list es). Qed.
  Lemma union_loc (a b : list nat) : a = [] \/ a = [l] -> b = [] \/ b = [l] -> sp_union a b = [] \/ sp_union a b = [l].
  Proof.
    intros [-> | ->] [-> | ->]; auto. right. cbn [sp_union fold_right sp_insert]. now rewrite Nat.ltb_irrefl, Nat.eqb_refl.
  Qed.
  Lemma loc_space : forall e, loc e -> space e = [] \/ space e = [l].
  Proof.
    fix IH 1. intros [| |a|c t|es|es|a b|a|a h|s a]; cbn [local_to space]; intros H; try (now left); try exact H; try (apply IH; exact H).
    - induction es as [|x es IHe]; [now left|]. cbn [fold_right] in H |- *. apply union_loc; [apply IH, H|apply IHe, H].
    - induction es as [|x es IHe]; [now left|]. cbn [fold_right] in H |- *. apply union_loc; [apply IH, H|apply IHe, H].
    - apply union_loc; apply IH, H.
    - destruct (IH a H) as [-> | ->]; cbn; [now left|]. destruct (sp_mem l h); [now left|now right].
  Qed.

  (** two results are the same and local *)
  Definition agree (r r' : res op) : Prop := r = r' /\ forall e, r = Ok e -> loc e.
  Lemma agree_ok e : loc e -> agree (Ok e) (Ok e).
  Proof. intros H. split; [reflexivity|]. intros e' E. now injection E as <-. Qed.
  Lemma agree_err x : agree (Err x) (Err x).
  Proof. split; [reflexivity|discriminate]. Qed.
  Lemma agree_bind r r' k k' : agree r r' -> (forall e, loc e -> agree (k e) (k' e)) -> agree (bind r k) (bind r' k').
  Proof. intros [-> H] Hk. destruct r' as [e|x]; [apply Hk, H; reflexivity|apply agree_err]. Qed.
  Lemma agree_bindS (r : res S) k k' : (forall c, agree (k c) (k' c)) -> agree (bind r k) (bind r k').
  Proof. intros Hk. destruct r as [e|x]; [apply Hk|apply agree_err]. Qed.
  Definition agreeo (r r' : outcome op) : Prop := r = r' /\ forall e, r = Replaces (Some e) -> loc e.
  Lemma agreeo_lift r r' : agree r r' -> agreeo (olift r) (olift r').
  Proof.
    intros [-> H]. split; [reflexivity|]. intros e E. destruct r' as [x|[]]; cbn in E; try discriminate. injection E as <-. now apply H.
  Qed.
  Lemma agreeo_no : agreeo NoMatch NoMatch.
  Proof. split; [reflexivity|discriminate]. Qed.
  Lemma agreeo_rep e : loc e -> agreeo (Replaces (Some e)) (Replaces (Some e)).
  Proof. intros H. split; [reflexivity|]. intros e' E. now injection E as <-. Qed.

  Record agreeK (K K' : ocreators S) : Prop := {
    a_scal : forall c x, loc x -> agree (k_scal K c x) (k_scal K' c x);
    a_plus : forall es, Forall loc es -> agree (k_plus K es) (k_plus K' es);
    a_times : forall es, Forall loc es -> agree (k_times K es) (k_times K' es);
    a_comm : forall a b, loc a -> loc b -> agree (k_comm K a b) (k_comm K' a b)
  }.
  Definition agrees (r r' : res (list op)) : Prop := r = r' /\ forall es, r = Ok es -> Forall loc es.
  Lemma agrees_bind r r' k k' : agrees r r' -> (forall es, Forall loc es -> agree (k es) (k' es)) -> agree (bind r k) (bind r' k').
  Proof. intros [-> H] Hk. destruct r' as [e|x]; [apply Hk, H; reflexivity|apply agree_err]. Qed.
  Lemma agrees_bind2 r r' k k' : agrees r r' -> (forall es, Forall loc es -> agrees (k es) (k' es)) -> agrees (bind r k) (bind r' k').
  Proof. intros [-> H] Hk. destruct r' as [e|x]; [apply Hk, H; reflexivity|split; [reflexivity|discriminate]]. Qed.
  Lemma agrees_mapM {X} (f f' : X -> res op) xs : (forall x, In x xs -> agree (f x) (f' x)) -> agrees (mapM f xs) (mapM f' xs).
  Proof.
    induction xs as [|x xs IH]; intros H; [split; [reflexivity|intros es E; injection E as <-; constructor]|]. cbn [mapM].
    destruct (H x (or_introl eq_refl)) as [E1 H1]. rewrite E1. destruct (f' x) as [y|e]; [|split; [reflexivity|discriminate]]. cbn [bind].
    destruct IH as [E2 H2]; [intros; apply H; now right|]. rewrite E2. destruct (mapM f' xs) as [ys|e]; [|split; [reflexivity|discriminate]]. cbn [bind].
    split; [reflexivity|]. intros es E. injection E as <-. constructor; [apply H1, E1|]. apply H2. exact E2.
  Qed.

  Context (dim : nat -> option nat) (olt : op -> op -> bool) (slt : list nat -> list nat -> bool).
  Context (ord ord' : list op -> res (list op)).
  Context (Hord : forall es, Forall loc es -> agrees (ord es) (ord' es)).

  Section Step.
  Context (K K' : ocreators S) (HK : agreeK K K').
  Lemma scal_agree c x : loc x -> agree (scal_step K c x) (scal_step K' c x).
  Proof.
    intros H. unfold scal_step. destruct (seqb c s1); [now apply agree_ok|]. destruct (seqb c s0); [now apply agree_ok|].
    destruct x; try (now apply agree_ok).
    - now apply (a_scal K K' HK).
    - destruct (seqb c sm1); [|now apply agree_ok]. apply loc_plus in H. apply agrees_bind; [|intros; now apply (a_plus K K' HK)].
      apply agrees_mapM. intros x Hx. apply (a_scal K K' HK). rewrite Forall_forall in H. now apply H.
  Qed.
  Lemma flat_plus_loc es : Forall loc es -> Forall loc (flat_plus es).
  Proof.
    intros H. unfold flat_plus. induction H as [|x es Hx _ IH]; [constructor|]. cbn [flat_map]. apply Forall_app. split; [|exact IH].
    destruct x; try (constructor; [exact Hx|constructor]). now apply loc_plus in Hx.
  Qed.
  Lemma flat_times_loc es : Forall loc es -> Forall loc (flat_times es).
  Proof.
    intros H. unfold flat_times. induction H as [|x es Hx _ IH]; [constructor|]. cbn [flat_map]. apply Forall_app. split; [|exact IH].
    destruct x; try (constructor; [exact Hx|constructor]). now apply loc_times in Hx.
  Qed.
  Lemma filter_loc f es : Forall loc es -> Forall loc (filter f es).
  Proof. intros H. rewrite Forall_forall in *. intros x Hx. apply filter_In in Hx. now apply H. Qed.
  Lemma plus_agree es : Forall loc es -> agree (plus_step olt slt K es) (plus_step olt slt K' es).
  Proof.
    intros H. apply flat_plus_loc in H. unfold plus_step. assert (Forall loc (pysorted (ofull_lt olt slt) (flat_plus es))) as H'.
    { rewrite Forall_forall in *. intros x Hx. apply H. now apply pysorted_In in Hx. }
    revert H'. generalize (pysorted (ofull_lt olt slt) (flat_plus es)). clear es H. intros es H. apply agrees_bind.
    - unfold collect_summands. apply agrees_bind2.
      + apply agrees_mapM. intros [t c] Ht. apply (a_scal K K' HK). apply (in_map fst) in Ht. apply collect_terms in Ht. destruct Ht as [x [Hx E]]. cbn [fst] in E. subst t.
        rewrite Forall_forall in H. specialize (H x Hx). destruct x; exact H.
      + intros fs Hf. split; [reflexivity|]. intros es' E. injection E as <-. now apply filter_loc.
    - intros [|x [|y fs]] Hf; apply agree_ok; [exact Logic.I|exact (Forall_inv Hf)|]. now apply loc_plus.
  Qed.
  Lemma raise_loc j k i i' : loc (raise_jk dim j k l i i').
  Proof. unfold raise_jk. destruct (_ && _); [now right|exact Logic.I]. Qed.
  Lemma phase_loc u : loc (phase_create u l).
  Proof. unfold phase_create. destruct (seqb u s0); [exact Logic.I|now right]. Qed.
  Lemma disp_loc u : loc (disp_create u l).
  Proof. unfold disp_create. destruct (seqb u s0); [exact Logic.I|now right]. Qed.
  Lemma atom1 a : loc (OAtom a) -> atom_space a = [] \/ atom_space a = [l].
  Proof. exact (fun H => H). Qed.

  Ltac ag :=
    repeat first
      [ apply raise_loc | apply phase_loc | apply disp_loc
      | match goal with |- loc (if ?b then _ else _) => destruct b end
      | exact Logic.I | (right; reflexivity) | assumption
      | apply (a_scal K K' HK) | apply (a_plus K K' HK) | apply (a_times K K' HK) | apply (a_comm K K' HK)
      | apply Forall_cons | apply Forall_nil
      | apply agree_ok | apply agree_bindS; intros | apply agree_bind; [|intros] ].
  (** the space of a local operator in a rule is [l] *)
  Ltac onl := repeat match goal with H : loc (OAtom _) |- _ => apply atom1 in H; cbn [atom_space] in H; destruct H as [H|H]; [discriminate H|injection H as ->] end.
  Ltac rule := intros a b Ha Hb; unfold r001, r002, r003, r004, r005, r009, r010, r011, r012, r013, r014, r015, r016, r017, r018, r019, r020, r021,
      r022, r023, r024, r025, r026, r027, r028, r029, r030, local_rule, add_scalar;
    repeat match goal with |- agreeo (match ?x with _ => _ end) _ => is_var x; destruct x; try apply agreeo_no end;
    onl; rewrite ?Nat.eqb_refl; first [apply agreeo_lift; ag | apply agreeo_rep; ag].
  Lemma times_rules_agree : Forall2 (fun f g => forall a b, loc a -> loc b -> agreeo (f a b) (g a b)) (times_rules dim K) (times_rules dim K').
  Proof. unfold times_rules. repeat (apply Forall2_cons; [solve [rule]|]). apply Forall2_nil. Qed.
  Lemma gbr_agree a b : loc a -> loc b ->
    get_binary_replacement (times_cls dim K) a b = get_binary_replacement (times_cls dim K') a b
    /\ forall r, get_binary_replacement (times_cls dim K) a b = Ok (Some r) -> loc r.
  Proof.
    intros Ha Hb. unfold get_binary_replacement. cbn [binary_rules times_cls]. pose proof times_rules_agree as H. revert H. generalize (times_rules dim K) (times_rules dim K').
    intros fs gs H. induction H as [|f g fs gs Hfg _ [IH1 IH2]]; [now split|]. cbn [try_rules]. destruct (Hfg a b Ha Hb) as [E1 E2]. rewrite <- E1. destruct (f a b) as [| |r|e] eqn:Ef.
    - now split.
    - now split.
    - split; [reflexivity|]. intros r' E. injection E as ->. now apply E2.
    - now split.
  Qed.
  Lemma combine_agree : forall f a b, Forall loc a -> Forall loc b ->
    agrees (mrb_combine (times_cls dim K) f a b) (mrb_combine (times_cls dim K') f a b).
  Proof.
    induction f as [|f IH]; intros a b Ha Hb; [split; [reflexivity|discriminate]|]. cbn [mrb_combine].
    assert (agrees (Ok (a ++ b)) (Ok (a ++ b))) as Hab.
    { split; [reflexivity|]. intros es E. injection E as <-. apply Forall_app. now split. }
    destruct (split_last a) as [[a' x]|] eqn:Ea; [|exact Hab]. destruct b as [|y b']; [exact Hab|].
    apply split_last_inv in Ea. subst a. apply Forall_app in Ha. destruct Ha as [Ha' Hx]. apply Forall_inv in Hx.
    destruct (gbr_agree x y Hx (Forall_inv Hb)) as [E1 E2]. rewrite <- E1. destruct (get_binary_replacement (times_cls dim K) x y) as [[r|]|e].
    - cbn [bind]. assert (loc r) as Hr by now apply E2. change (is_neutral (times_cls dim K') r) with (is_neutral (times_cls dim K) r).
      destruct (is_neutral (times_cls dim K) r); [apply IH; [exact Ha'|exact (Forall_inv_tail Hb)]|]. apply agrees_bind2.
      + change (instance_args (times_cls dim K') r) with (instance_args (times_cls dim K) r). apply IH; [exact Ha'|]. cbn [instance_args times_cls]. destruct r; try (constructor; [exact Hr|constructor]). now apply loc_times in Hr.
      + intros es Hes. apply IH; [exact Hes|exact (Forall_inv_tail Hb)].
    - exact Hab.
    - split; [reflexivity|discriminate].
  Qed.
  Lemma reduce_agree f : forall d es, Forall loc es -> agrees (mrb_reduce (times_cls dim K) d f es) (mrb_reduce (times_cls dim K') d f es).
  Proof.
    induction d as [|d IH]; intros es H; [split; [reflexivity|discriminate]|]. cbn [mrb_reduce]. destruct (length es <=? 1).
    - split; [reflexivity|]. intros fs E. now injection E as <-.
    - pose proof H as H2. rewrite <- (firstn_skipn (length es / 2) es) in H2. apply Forall_app in H2. destruct H2 as [H2 H3].
      apply agrees_bind2; [now apply IH|]. intros x Hx. apply agrees_bind2; [now apply IH|]. intros y Hy. now apply combine_agree.
  Qed.
  Lemma times_agree f es : Forall loc es -> agree (times_step dim ord K f es) (times_step dim ord' K' f es).
  Proof.
    intros H. apply flat_times_loc in H. unfold times_step. apply agrees_bind; [now apply Hord|]. intros [|x fs] Hf; [now apply agree_ok|].
    pose proof (filter_loc (fun o => negb (is_one o)) _ Hf) as Hf2. destruct (filter _ _) as [|y [|z gs]].
    - apply agree_ok. exact (Forall_inv Hf).
    - apply agree_ok. exact (Forall_inv Hf2).
    - unfold match_replace_binary. destruct (reduce_agree f (Datatypes.S (length (y :: z :: gs))) _ Hf2) as [E1 E2]. rewrite E1. rewrite E1 in E2.
      destruct (mrb_reduce (times_cls dim K') _ f _) as [r|e]; [|apply agree_err]. specialize (E2 r eq_refl). cbn [bind].
      destruct r as [|w [|w2 r]]; cbn [bind]; apply agree_ok; [exact Logic.I|exact (Forall_inv E2)|now apply loc_times].
  Qed.
  Lemma comm_agree a b : loc a -> loc b -> agree (comm_step olt slt K a b) (comm_step olt slt K' a b).
  Proof.
    intros Ha Hb. unfold comm_step. destruct (sp_disjoint _ _); [now apply agree_ok|]. destruct (ofull_lt _ _ _ _); [ag|].
    unfold comm_rules. destruct (oeqb a b); [now apply agree_ok|].
    assert (agree (written_out K a b) (written_out K' a b)) as HW by (unfold written_out, osub; ag).
    assert (agree (Ok (OComm a b)) (Ok (OComm a b))) as HC by (now apply agree_ok).
    destruct a as [| |x|u a|es|es|a1 a2|a|a h|s a], b as [| |y|v b|fs|fs|b1 b2|b|b h'|s' b]; try exact HC; try (solve [ag]).
    destruct x, y; try exact HC; try exact HW. destruct (ls =? ls0); [now apply agree_ok|exact HW].
  Qed.

  (** *** Adjoints and expansion *)
  Lemma atom_adj_loc a : loc (OAtom a) -> loc (atom_adj a).
  Proof.
    intros H. destruct a; try exact H; cbn [atom_adj]; apply atom1 in H; cbn [atom_space] in H; (destruct H as [H|H]; [discriminate H|injection H as ->]); [apply phase_loc|apply disp_loc].
  Qed.
  Lemma oadj_agree : forall e, loc e -> agree (oadj K e) (oadj K' e).
  Proof.
    fix IH 1. intros [| |a|c t|es|es|a b|a|a h|s a] H; cbn [oadj].
    - now apply agree_ok.
    - now apply agree_ok.
    - apply agree_ok. now apply atom_adj_loc.
    - apply agree_bind; [apply IH, H|]. intros. now apply agree_ok.
    - apply loc_plus in H. apply agrees_bind; [|intros; apply agree_ok; now apply loc_plus].
      induction es as [|x es IHe]; [split; [reflexivity|intros fs E; injection E as <-; constructor]|].
      destruct (IH x (Forall_inv H)) as [E1 H1]. rewrite E1. destruct (oadj K' x) as [x'|e]; [|split; [reflexivity|discriminate]]. cbn [bind].
      apply agrees_bind2; [exact (IHe (Forall_inv_tail H))|]. intros fs Hf. split; [reflexivity|]. intros gs E. injection E as <-. constructor; [apply H1, E1|exact Hf].
    - apply loc_times in H. apply agrees_bind; [|intros; apply (a_times K K' HK); now apply Forall_rev].
      induction es as [|x es IHe]; [split; [reflexivity|intros fs E; injection E as <-; constructor]|].
      destruct (IH x (Forall_inv H)) as [E1 H1]. rewrite E1. destruct (oadj K' x) as [x'|e]; [|split; [reflexivity|discriminate]]. cbn [bind].
      apply agrees_bind2; [exact (IHe (Forall_inv_tail H))|]. intros fs Hf. split; [reflexivity|]. intros gs E. injection E as <-. constructor; [apply H1, E1|exact Hf].
    - apply agree_bind; [apply IH, H|]. intros. apply agree_bind; [apply IH, H|]. intros. now apply agree_ok.
    - now apply agree_ok.
    - now apply agree_ok.
    - apply agree_bind; [apply IH, H|]. intros. now apply agree_ok.
  Qed.
  Lemma summands_loc e : loc e -> Forall loc (summands_of e).
  Proof. intros H. destruct e; try (constructor; [exact H|constructor]). now apply loc_plus in H. Qed.
  Lemma cartesian_loc ls : Forall (Forall loc) ls -> Forall (Forall loc) (cartesian ls).
  Proof.
    induction 1 as [|es ls Hl _ IH]; [repeat constructor|]. cbn [cartesian]. rewrite Forall_forall in *. intros c Hc. apply in_flat_map in Hc. destruct Hc as [x [Hx Hc]].
    apply in_map_iff in Hc. destruct Hc as [c' [<- Hc']]. constructor; [now apply Hl|now apply IH].
  Qed.
  Lemma foldM_agree (f f' : op -> op -> res op) es : (forall x y, loc x -> loc y -> agree (f x y) (f' x y)) -> Forall loc es -> forall a, loc a -> agree (foldM f a es) (foldM f' a es).
  Proof.
    intros Hf H. induction H as [|y es Hy _ IH]; intros a Ha; [now apply agree_ok|]. cbn [foldM]. apply agree_bind; [now apply Hf|]. exact IH.
  Qed.
  Lemma mul_combo_agree c : Forall loc c -> agree (mul_combo K c) (mul_combo K' c).
  Proof.
    intros H. destruct c as [|x c]; [apply agree_err|]. cbn [mul_combo]. apply foldM_agree; [|exact (Forall_inv_tail H)|exact (Forall_inv H)].
    intros. apply (a_times K K' HK). now repeat constructor.
  Qed.
  Lemma add_all_agree c : Forall loc c -> agree (add_all K c) (add_all K' c).
  Proof.
    intros H. destruct c as [|x c]; [apply agree_err|]. cbn [add_all]. apply foldM_agree; [|exact (Forall_inv_tail H)|exact (Forall_inv H)].
    intros. apply (a_plus K K' HK). now repeat constructor.
  Qed.
  Lemma expand_agree : forall n e, loc e -> agree (expand K n e) (expand K' n e).
  Proof.
    induction n as [|n IH]; intros e H; [apply agree_err|]. cbn [expand].
    assert (forall ret, loc ret -> agree match ret with OPlus _ => expand K n ret | _ => Ok ret end match ret with OPlus _ => expand K' n ret | _ => Ok ret end) as Hfin.
    { intros ret Hr. destruct ret; try (now apply agree_ok). now apply IH. }
    destruct e as [| |a|c t|es|es|a b|a|a h|s a]; try (now apply agree_ok); try apply agree_err.
    - apply agree_bind; [now apply IH|]. intros t' Ht'. apply agrees_bind; [|intros; apply agree_bind; [now apply add_all_agree|exact Hfin]].
      apply agrees_mapM. intros x Hx. apply (a_scal K K' HK). pose proof (summands_loc _ Ht') as G. rewrite Forall_forall in G. now apply G.
    - apply loc_plus in H. apply agrees_bind; [|intros; now apply (a_plus K K' HK)]. apply agrees_mapM. intros x Hx. apply IH. rewrite Forall_forall in H. now apply H.
    - apply loc_times in H. apply agrees_bind.
      + apply agrees_mapM. intros x Hx. apply IH. rewrite Forall_forall in H. now apply H.
      + intros eops Ho. apply agrees_bind; [|intros; apply agree_bind; [now apply add_all_agree|exact Hfin]].
        assert (Forall (Forall loc) (cartesian (map summands_of eops))) as Hc.
        { apply cartesian_loc. apply Forall_forall. intros s Hs. apply in_map_iff in Hs. destruct Hs as [z [<- Hz]]. apply summands_loc. rewrite Forall_forall in Ho. now apply Ho. }
        apply agrees_mapM. intros x Hx. apply mul_combo_agree. rewrite Forall_forall in Hc. now apply Hc.
    - destruct H as [Ha Hb]. apply agree_bind; [now apply IH|]. intros a' Ha'. apply agree_bind; [now apply IH|]. intros b' Hb'.
      apply agrees_bind; [|intros; now apply (a_plus K K' HK)].
      assert (Forall (Forall loc) (cartesian [summands_of a'; summands_of b'])) as Hc.
      { apply cartesian_loc. constructor; [now apply summands_loc|]. constructor; [now apply summands_loc|constructor]. }
      apply agrees_mapM. intros c Hx. rewrite Forall_forall in Hc. specialize (Hc c Hx). destruct c as [|x [|y [|z c]]]; try apply agree_err.
      apply (a_comm K K' HK); [exact (Forall_inv Hc)|exact (Forall_inv (Forall_inv_tail Hc))].
    - apply agree_bind; [now apply IH|]. intros a' Ha'. destruct a'; try (apply oadj_agree; exact Ha'). apply agree_err.
  Qed.
  End Step.
  Theorem creators_agree : forall n, agreeK (creators_n dim olt slt ord n) (creators_n dim olt slt ord' n).
  Proof.
    induction n as [|n IH]; [constructor; intros; apply agree_err|]. cbn [creators_n]. constructor; cbn [k_scal k_plus k_times k_comm]; intros.
    - now apply scal_agree.
    - now apply plus_agree.
    - now apply times_agree.
    - now apply comm_agree.
  Qed.
End Local.

Section Real.
  Context {S : scalars} (l : nat) (dim : nat -> option nat) (olt : op S -> op S -> bool) (slt : list nat -> list nat -> bool).
  Context (Ho : good_orders olt slt).
  Theorem local_careful es : Forall (local_to l) es -> careful_order olt slt es = real_order olt slt es.
  Proof.
    intros H. apply consistent_careful, local_consistent.
    - intros x y Hx Hy. rewrite Forall_forall in H. destruct (loc_space l x (H x Hx)) as [-> | ->], (loc_space l y (H y Hy)) as [-> | ->]; auto.
    - split; intros.
      + eapply (olt_asym _ _ Ho); eassumption.
      + eapply (olt_neg _ _ Ho); eassumption.
    - apply (slt_total _ _ Ho).
    - apply (slt_asym _ _ Ho).
    - apply (slt_trans _ _ Ho).
  Qed.
  Theorem local_agree n : agreeK l (creators_n dim olt slt (careful_order olt slt) n) (creators_n dim olt slt (real_order olt slt) n).
  Proof.
    apply creators_agree. intros es H. rewrite (local_careful es H). split; [reflexivity|]. unfold real_order. intros fs E. injection E as <-.
    rewrite Forall_forall in *. intros x Hx. apply H. now apply pysorted_In in Hx.
  Qed.
End Real.

(** sums and multiples do not depend on how factors are sorted *)
Section Plus.
  Context {S : scalars} (dim : nat -> option nat) (olt : op S -> op S -> bool) (slt : list nat -> list nat -> bool) (ord ord' : list (op S) -> res (list (op S))).
  Lemma mapM_same {X Y} (f g : X -> res Y) xs : (forall x, f x = g x) -> mapM f xs = mapM g xs.
  Proof. intros H. induction xs as [|x xs IH]; [reflexivity|]. cbn [mapM]. now rewrite H, IH. Qed.
  Theorem plus_order_free : forall n,
    (forall c x, k_scal (creators_n dim olt slt ord n) c x = k_scal (creators_n dim olt slt ord' n) c x)
    /\ (forall es, k_plus (creators_n dim olt slt ord n) es = k_plus (creators_n dim olt slt ord' n) es).
  Proof.
    induction n as [|n [IH1 IH2]]; [split; reflexivity|]. cbn [creators_n k_scal k_plus]. split; intros.
    - unfold scal_step. destruct (seqb c s1); [reflexivity|]. destruct (seqb c s0); [reflexivity|]. destruct x; try reflexivity; [apply IH1|].
      destruct (seqb c sm1); [|reflexivity]. rewrite (mapM_same _ (k_scal (creators_n dim olt slt ord' n) sm1)) by apply IH1. destruct (mapM _ _); [apply IH2|reflexivity].
    - unfold plus_step, collect_summands. rewrite (mapM_same _ (fun tc : op S * S => let '(t, c) := tc in k_scal (creators_n dim olt slt ord' n) c t)); [reflexivity|].
      intros [t c]. apply IH1.
  Qed.
End Plus.
