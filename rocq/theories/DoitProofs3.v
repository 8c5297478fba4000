(** What [doit] leaves, and that doing it again changes nothing. *)
From Coq Require Import QArith Qcanon.
From Verif Require Import Prelude ListFacts SortModel SortProofs BinModel OpModel OpSpec OpProofs1 OpFuel OpOrder DoitModel DoitSpec DoitProofs1 DoitProofs2.
Local Open Scope nat_scope.

Local Ltac step H x E := match type of H with bind ?r _ = Ok _ => destruct r as [x|] eqn:E; [cbn [bind] in H|discriminate H] end.

Section Explicit.
  Context {S : scalars} (cl : classes).
  Local Notation op := (op S).
  Definition expl (e : op) : Prop := explicit cl e = true.
  Lemma expl_closed : closed expl.
  Proof.
    constructor; unfold expl; try reflexivity; try tauto.
    - intros es. cbn [explicit]. rewrite forallb_forall, Forall_forall. reflexivity.
    - intros es. cbn [explicit]. rewrite forallb_forall, Forall_forall. reflexivity.
  Qed.
  Context (dim : nat -> option nat) (olt : op -> op -> bool) (slt : list nat -> list nat -> bool).
  Context (ord : list op -> res (list op)) (Hord : forall es, Forall expl es -> fines expl (ord es)).
  Record goodK (K : ocreators S) : Prop := {
    g_fine : fineK expl K;
    g_comm : forall a b, expl a -> expl b -> finec expl (k_comm K a b);
    g_scal : forall c x, cform expl x -> finec expl (k_scal K c x)
  }.
  Theorem creators_good : forall n, goodK (creators_n dim olt slt ord n).
  Proof.
    induction n as [|n [IH1 IH2 IH3]].
    - constructor; [constructor; intros; now apply fine_err|intros ? ? ? ? ? E; discriminate E|intros ? ? ? ? E; discriminate E].
    - pose proof expl_closed as HP. cbn [creators_n]. constructor; [constructor|idtac|idtac]; cbn [k_scal k_plus k_times k_comm].
      + intros. now apply scal_fine.
      + intros. now apply plus_fine.
      + intros. now apply times_fine.
      + intros. now apply comm_c.
      + intros. now apply scal_cform.
  Qed.

  Context (K : ocreators S) (HK : goodK K).
  Lemma adj_fine : forall e, expl e -> fine expl (oadj K e).
  Proof.
    pose proof expl_closed as HP.
    fix IH 1. intros [| |a|c t|es|es|a b|a|a h|s a] H; cbn [oadj].
    - now apply fine_ok.
    - now apply fine_ok.
    - apply fine_ok. destruct a; try reflexivity; cbn [atom_adj]; unfold phase_create, disp_create; destruct (seqb _ _); reflexivity.
    - apply (fine_bind expl); [apply IH, H|]. intros e' He'. now apply fine_ok.
    - apply (c_plus expl HP) in H. apply fines_bind; [|intros; apply fine_ok; now apply (c_plus expl HP)].
      induction es as [|x es IHe]; [apply fines_ok; constructor|].
      destruct (IH x (Forall_inv H)) as [E1 H1]. destruct (oadj K x) as [x'|e]; [|apply fines_err; congruence]. cbn [bind].
      apply fines_bind2; [exact (IHe (Forall_inv_tail H))|]. intros fs Hf. apply fines_ok. constructor; [now apply H1|exact Hf].
    - apply (c_times expl HP) in H. apply fines_bind; [|intros; apply (f_times expl K (g_fine K HK)); now apply Forall_rev].
      induction es as [|x es IHe]; [apply fines_ok; constructor|].
      destruct (IH x (Forall_inv H)) as [E1 H1]. destruct (oadj K x) as [x'|e]; [|apply fines_err; congruence]. cbn [bind].
      apply fines_bind2; [exact (IHe (Forall_inv_tail H))|]. intros fs Hf. apply fines_ok. constructor; [now apply H1|exact Hf].
    - unfold expl in H. cbn [explicit] in H. apply andb_true_iff in H. destruct H as [Hc H]. apply andb_true_iff in H. destruct H as [Ha Hb].
      apply (fine_bind expl); [apply IH, Hb|]. intros b' Hb'. apply (fine_bind expl); [apply IH, Ha|]. intros a' Ha'. apply fine_ok.
      unfold expl in *. cbn [explicit]. now rewrite Hc, Ha', Hb'.
    - now apply fine_ok.
    - now apply fine_ok.
    - unfold expl in H. cbn [explicit] in H. apply andb_true_iff in H. destruct H as [Hc H]. apply (fine_bind expl); [apply IH, H|]. intros a' Ha'. apply fine_ok.
      unfold expl in *. cbn [explicit]. now rewrite Hc, Ha'.
  Qed.
  Lemma cform_free e : in_comm cl = false -> cform expl e -> expl e.
  Proof.
    intros Hc. induction 1 as [a b Ha Hb|c t _ IH]; [|exact IH]. unfold expl in *. cbn [explicit]. now rewrite Hc, Ha, Hb.
  Qed.
  Context (tr : list nat -> op -> res op) (Htr : forall h e e', expl e -> tr h e = Ok e' -> expl e').
  Lemma mapM_expl (f : op -> res op) l l' : (forall x y, f x = Ok y -> expl y) -> mapM f l = Ok l' -> Forall expl l'.
  Proof.
    intros Hf. revert l'. induction l as [|x l IH]; intros l' H; cbn [mapM] in H; [injection H as <-; constructor|].
    step H x' Ex. step H r Er. injection H as <-. constructor; [exact (Hf _ _ Ex)|now apply IH].
  Qed.
  (** what re-creating a node from explicit arguments can give *)
  Lemma map_args_expl f e e' : (forall x y, f x = Ok y -> expl y) -> map_args K tr f e = Ok e' ->
    expl e'
    \/ (in_comm cl = true /\ (exists a b, e = OComm a b) /\ cform expl e')
    \/ (in_pm cl = true /\ exists s a a', e = OPM s a /\ e' = OPM s a' /\ expl a').
  Proof.
    intros Hf H. pose proof expl_closed as HP. destruct HK as [HF HC _]. destruct e as [| |a|c t|l|l|a b|a|a h|s a]; cbn [map_args] in H.
    - injection H as <-. now left.
    - injection H as <-. now left.
    - injection H as <-. left. destruct a; try reflexivity; cbn [atom_create]; unfold phase_create, disp_create; destruct (seqb _ _); reflexivity.
    - step H t' Et. left. exact (proj2 (f_scal expl K HF c t' (Hf _ _ Et)) _ H).
    - step H l' El. left. exact (proj2 (f_plus expl K HF l' (mapM_expl f l l' Hf El)) _ H).
    - step H l' El. left. exact (proj2 (f_times expl K HF l' (mapM_expl f l l' Hf El)) _ H).
    - step H a' Ea. step H b' Eb. destruct (HC a' b' (Hf _ _ Ea) (Hf _ _ Eb) _ H) as [He|He]; [now left|]. destruct (in_comm cl) eqn:Ec.
      + right. left. split; [reflexivity|]. split; [now exists a, b|exact He].
      + left. now apply cform_free.
    - step H a' Ea. left. exact (proj2 (adj_fine a' (Hf _ _ Ea)) _ H).
    - step H a' Ea. left. exact (Htr _ _ _ (Hf _ _ Ea) H).
    - step H a' Ea. injection H as <-. pose proof (Hf _ _ Ea) as Ha. destruct (in_pm cl) eqn:Ec.
      + right. right. split; [reflexivity|]. exists s, a, a'. now repeat split.
      + left. unfold expl in *. cbn [explicit]. now rewrite Ec, Ha.
  Qed.
  Lemma oeqb_expl : forall a b : op, oeqb a b = true -> explicit cl a = explicit cl b.
  Proof.
    fix IH 1. intros [| |a|c t|es|es|a b|a|a h|s a] e H; destruct e as [| |a0|c0 t0|es0|es0|a0 b0|a0|a0 h0|s0 a0]; try discriminate H; try reflexivity; cbn [oeqb explicit] in *.
    - apply andb_true_iff in H. destruct H as [_ H]. now apply IH.
    - revert es0 H. induction es as [|x es IHl]; intros [|y ys] H; try discriminate H; [reflexivity|]. apply andb_true_iff in H. destruct H as [H1 H2].
      cbn [forallb]. rewrite (IH _ _ H1). f_equal. now apply IHl.
    - revert es0 H. induction es as [|x es IHl]; intros [|y ys] H; try discriminate H; [reflexivity|]. apply andb_true_iff in H. destruct H as [H1 H2].
      cbn [forallb]. rewrite (IH _ _ H1). f_equal. now apply IHl.
    - apply andb_true_iff in H. destruct H as [H1 H2]. now rewrite (IH _ _ H1), (IH _ _ H2).
    - now apply IH.
    - apply andb_true_iff in H. destruct H as [H _]. now apply IH.
    - apply andb_true_iff in H. destruct H as [_ H]. now rewrite (IH _ _ H).
  Qed.
  Theorem doit_expl : forall n e e', doit K tr n cl true e = Ok e' -> expl e'.
  Proof.
    pose proof expl_closed as HP.
    induction n as [|n IH]; intros e e' H; [discriminate|]. cbn [doit] in H. step H new En. rewrite orb_true_r in H. step H new' En'.
    rewrite andb_true_r in H. destruct (oeqb new' e) eqn:Eq0; cbn [negb] in H; [|now apply (IH new')]. injection H as <-.
    destruct (map_args_expl _ _ _ IH En') as [He|[[Hc [[a [b ->]] Hf]]|[Hp [s [a [a' [-> [-> Ha]]]]]]]]; [exact He| |]; exfalso.
    - (* new is a commutator, of which new' is made, and new' is e *)
      destruct Hf as [x y Hx Hy|c t Ht].
      + destruct e as [| |q|c t|l|l|a0 b0|q|q h|s q]; try discriminate Eq0. cbn [oeqb] in Eq0. apply andb_true_iff in Eq0. destruct Eq0 as [E1 E2].
        cbn [doit1] in En. rewrite Hc in En. unfold expl in Hx, Hy. rewrite (oeqb_expl _ _ E1) in Hx. rewrite (oeqb_expl _ _ E2) in Hy.
        pose proof (proj2 (written_out_fine expl K (g_fine K HK) a0 b0 Hx Hy) _ En) as Hn. unfold expl in Hn. cbn [explicit] in Hn. rewrite Hc in Hn. discriminate Hn.
      + destruct e as [| |q|c0 t0|l|l|a0 b0|q|q h|s q]; try discriminate Eq0. cbn [doit1] in En. discriminate En.
    - destruct e as [| |q|c t|l|l|a0 b0|q|q h|s0 q]; try discriminate Eq0. cbn [oeqb] in Eq0. apply andb_true_iff in Eq0. destruct Eq0 as [_ E2].
      cbn [doit1] in En. rewrite Hp in En. unfold expl in Ha. rewrite (oeqb_expl _ _ E2) in Ha. step En q' Eq1.
      pose proof (proj2 (adj_fine q Ha) _ Eq1) as Hq'.
      assert (fine expl (if s0 then k_plus K [q; q'] else osub K q q')) as [_ Hn].
      { destruct s0; [apply (f_plus expl K (g_fine K HK)); now repeat constructor|now apply (sub_fine expl K (g_fine K HK))]. }
      specialize (Hn _ En). unfold expl in Hn. cbn [explicit] in Hn. rewrite Hp in Hn. discriminate Hn.
  Qed.
End Explicit.

(** [==] of expressions is identity when it is for coefficients *)
Section Eq.
  Context {S : scalars} (Hs : forall a b : S, seqb a b = true -> a = b).
  Lemma eqb_list_nat_eq (a b : list nat) : eqb_list_nat a b = true -> a = b.
  Proof. revert b. induction a as [|x a IH]; intros [|y b] H; try discriminate H; [reflexivity|]. cbn [eqb_list_nat] in H. apply andb_true_iff in H. destruct H as [H1 H2]. apply Nat.eqb_eq in H1. f_equal; [exact H1|now apply IH]. Qed.
  Lemma atom_eqb_eq (a b : atom S) : atom_eqb a b = true -> a = b.
  Proof.
    destruct a, b; cbn [atom_eqb]; intros H; try discriminate H; repeat match goal with H : _ && _ = true |- _ => apply andb_true_iff in H; destruct H end;
      repeat match goal with H : (_ =? _) = true |- _ => apply Nat.eqb_eq in H; subst | H : seqb _ _ = true |- _ => apply Hs in H; subst | H : eqb_list_nat _ _ = true |- _ => apply eqb_list_nat_eq in H; subst end; reflexivity.
  Qed.
  Lemma oeqb_eq : forall a b : op S, oeqb a b = true -> a = b.
  Proof.
    fix IH 1. intros [| |a|c t|es|es|a b|a|a h|s a] e H; destruct e as [| |a0|c0 t0|es0|es0|a0 b0|a0|a0 h0|s0 a0]; try discriminate H; try reflexivity; cbn [oeqb] in *.
    - f_equal. now apply atom_eqb_eq.
    - apply andb_true_iff in H. destruct H as [H1 H2]. f_equal; [now apply Hs|now apply IH].
    - f_equal. revert es0 H. induction es as [|x es IHl]; intros [|y ys] H; try discriminate H; [reflexivity|]. apply andb_true_iff in H. destruct H as [H1 H2].
      f_equal; [now apply IH|now apply IHl].
    - f_equal. revert es0 H. induction es as [|x es IHl]; intros [|y ys] H; try discriminate H; [reflexivity|]. apply andb_true_iff in H. destruct H as [H1 H2].
      f_equal; [now apply IH|now apply IHl].
    - apply andb_true_iff in H. destruct H as [H1 H2]. f_equal; now apply IH.
    - f_equal. now apply IH.
    - apply andb_true_iff in H. destruct H as [H1 H2]. f_equal; [now apply IH|now apply eqb_list_nat_eq].
    - apply andb_true_iff in H. destruct H as [H1 H2]. f_equal; [now apply eqb_prop|now apply IH].
  Qed.
  Theorem doit_again (K : ocreators S) tr cl : forall n e e', doit K tr n cl true e = Ok e' -> exists m, m <= n /\ doit K tr m cl true e' = Ok e'.
  Proof.
    induction n as [|n IH]; intros e e' H; [discriminate|]. pose proof H as H0. cbn [doit] in H. step H new En. rewrite orb_true_r in H. step H new' En'.
    rewrite andb_true_r in H. destruct (oeqb new' e) eqn:Eq0; cbn [negb] in H.
    - injection H as <-. apply oeqb_eq in Eq0. subst new'. exists (Datatypes.S n). split; [lia|exact H0].
    - destruct (IH _ _ H) as [m [Hm E]]. exists m. split; [lia|exact E].
  Qed.
End Eq.
