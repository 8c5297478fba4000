(** [doit] and [rewrite_pm] on one local space: nothing needs to be checked. *)
From Coq Require Import QArith Qcanon.
From Verif Require Import Prelude ListFacts SortModel SortProofs BinModel BinProofs OpModel OpSpec OpForms OpProofs1 OpFuel OpOrder OpForm OpLocal DoitModel DoitProofs1.
Local Open Scope nat_scope.

Section Local.
  Context {S : scalars} (l : nat).
  Local Notation op := (op S).
  Local Notation loc := (local_to l).
  Local Notation agree := (agree l).
  Local Notation agrees := (agrees l).
  Section Step.
  Context (K K' : ocreators S) (HK : agreeK l K K').
  Context (tr tr' : list nat -> op -> res op) (Htr : forall h e, loc e -> agree (tr h e) (tr' h e)).
  Lemma atom_create_loc (a : atom S) : loc (OAtom a) -> loc (atom_create a).
  Proof.
    intros H. destruct a; try exact H; cbn [atom_create]; cbn [local_to atom_space] in H; (destruct H as [H|H]; [discriminate H|injection H as ->]); [apply phase_loc|apply disp_loc].
  Qed.
  Lemma map_args_agree f f' e : (forall e, loc e -> agree (f e) (f' e)) -> loc e -> agree (map_args K tr f e) (map_args K' tr' f' e).
  Proof.
    intros Hf HL. destruct e as [| |a|c t|es|es|a b|a|a h|s a]; cbn [map_args].
    - now apply agree_ok.
    - now apply agree_ok.
    - apply agree_ok. now apply atom_create_loc.
    - apply agree_bind; [now apply Hf|]. intros. now apply (a_scal l K K' HK).
    - apply loc_plus in HL. apply agrees_bind; [|intros; now apply (a_plus l K K' HK)]. apply agrees_mapM. intros x Hx. rewrite Forall_forall in HL. now apply Hf, HL.
    - apply loc_times in HL. apply agrees_bind; [|intros; now apply (a_times l K K' HK)]. apply agrees_mapM. intros x Hx. rewrite Forall_forall in HL. now apply Hf, HL.
    - destruct HL as [La Lb]. apply agree_bind; [now apply Hf|]. intros. apply agree_bind; [now apply Hf|]. intros. now apply (a_comm l K K' HK).
    - apply agree_bind; [now apply Hf|]. intros. now apply oadj_agree.
    - apply agree_bind; [now apply Hf|]. intros. now apply Htr.
    - apply agree_bind; [now apply Hf|]. intros. now apply agree_ok.
  Qed.
  Lemma osub_agree a b : loc a -> loc b -> agree (osub K a b) (osub K' a b).
  Proof. intros. unfold osub. apply agree_bind; [now apply (a_scal l K K' HK)|]. intros. apply (a_plus l K K' HK). now repeat constructor. Qed.
  Lemma doit1_agree cl e : loc e -> agree (doit1 K cl e) (doit1 K' cl e).
  Proof.
    intros HL. destruct e as [| |a|c t|es|es|a b|a|a h|s a]; cbn [doit1]; try (now apply agree_ok).
    - destruct (in_comm cl); [|now apply agree_ok]. destruct HL as [La Lb]. unfold written_out.
      apply agree_bind; [apply (a_times l K K' HK); now repeat constructor|]. intros. apply agree_bind; [apply (a_times l K K' HK); now repeat constructor|]. intros. now apply osub_agree.
    - destruct (in_pm cl); [|now apply agree_ok]. apply agree_bind; [now apply oadj_agree|]. intros. destruct s; [apply (a_plus l K K' HK); now repeat constructor|now apply osub_agree].
  Qed.
  Theorem doit_agree : forall n cl r e, loc e -> agree (doit K tr n cl r e) (doit K' tr' n cl r e).
  Proof.
    induction n as [|n IH]; intros cl r e HL; [apply agree_err|]. cbn [doit]. apply agree_bind; [now apply doit1_agree|]. intros new Hn.
    destruct (oeqb new e || r); [|now apply agree_ok]. apply agree_bind; [apply map_args_agree; [intros; now apply IH|exact Hn]|]. intros new' Hn'.
    destruct (negb (oeqb new' e) && r); [now apply IH|now apply agree_ok].
  Qed.
  Theorem rebuild_agree : forall n e, loc e -> agree (rebuild_e K tr n e) (rebuild_e K' tr' n e).
  Proof. induction n as [|n IH]; intros e HL; [apply agree_err|]. cbn [rebuild_e]. now apply map_args_agree. Qed.

  (** the temporary rules *)
  Lemma if_adjoint_agree b a o o' : loc b -> agreeo l o o' -> agreeo l (if_adjoint K b a o) (if_adjoint K' b a o').
  Proof.
    intros Hb [-> Ho]. unfold if_adjoint. destruct (oadj_agree l K K' HK b Hb) as [-> _]. destruct (oadj K' b) as [b'|x].
    - destruct (oeqb b' a); [now split|]. split; [reflexivity|discriminate].
    - split; [reflexivity|]. destruct x; discriminate.
  Qed.
  Lemma pm_rules_agree : Forall2 (fun f g => forall a b, loc a -> loc b -> agreeo l (f a b) (g a b)) (binary_rules (pm_cls K)) (binary_rules (pm_cls K')).
  Proof.
    cbn [pm_cls binary_rules]. repeat (apply Forall2_cons; [intros a b Ha Hb|]); [| | |apply Forall2_nil].
    - apply if_adjoint_agree; [exact Hb|]. now apply agreeo_rep.
    - unfold pm2. destruct a as [| | |c t| | | | | |]; try apply agreeo_no. destruct (seqb c sm1); [|apply agreeo_no]. apply if_adjoint_agree; [exact Ha|]. now apply agreeo_rep.
    - unfold pm3. destruct a as [| | |c t| | | | | |]; try apply agreeo_no. destruct b as [| | |d u| | | | | |]; try apply agreeo_no.
      apply if_adjoint_agree; [exact Hb|]. destruct (seqb c d); [apply agreeo_lift; now apply (a_scal l K K' HK)|].
      destruct (seqb c (sneg d)); [apply agreeo_lift; now apply (a_scal l K K' HK)|]. split; [reflexivity|discriminate].
  Qed.
  Lemma pm_gbr_agree a b : loc a -> loc b ->
    get_binary_replacement (pm_cls K) a b = get_binary_replacement (pm_cls K') a b
    /\ forall r, get_binary_replacement (pm_cls K) a b = Ok (Some r) -> loc r.
  Proof.
    intros Ha Hb. unfold get_binary_replacement. pose proof pm_rules_agree as H. revert H. generalize (binary_rules (pm_cls K)) (binary_rules (pm_cls K')).
    intros fs gs H. induction H as [|f g fs gs Hfg _ [IH1 IH2]]; [now split|]. cbn [try_rules]. destruct (Hfg a b Ha Hb) as [E1 E2]. rewrite <- E1. destruct (f a b) as [| |r|e] eqn:Ef.
    - now split.
    - now split.
    - split; [reflexivity|]. intros r' E. injection E as ->. now apply E2.
    - now split.
  Qed.
  Lemma pm_combine_agree : forall f a b, Forall loc a -> Forall loc b -> agrees (mrb_combine (pm_cls K) f a b) (mrb_combine (pm_cls K') f a b).
  Proof.
    induction f as [|f IH]; intros a b Ha Hb; [split; [reflexivity|discriminate]|]. cbn [mrb_combine].
    assert (agrees (Ok (a ++ b)) (Ok (a ++ b))) as Hab.
    { split; [reflexivity|]. intros es E. injection E as <-. apply Forall_app. now split. }
    destruct (split_last a) as [[a' x]|] eqn:Ea; [|exact Hab]. destruct b as [|y b']; [exact Hab|].
    apply split_last_inv in Ea. subst a. apply Forall_app in Ha. destruct Ha as [Ha' Hx]. apply Forall_inv in Hx.
    destruct (pm_gbr_agree x y Hx (Forall_inv Hb)) as [E1 E2]. rewrite <- E1. destruct (get_binary_replacement (pm_cls K) x y) as [[r|]|e].
    - cbn [bind]. assert (loc r) as Hr by now apply E2. change (is_neutral (pm_cls K') r) with (is_neutral (pm_cls K) r).
      destruct (is_neutral (pm_cls K) r); [apply IH; [exact Ha'|exact (Forall_inv_tail Hb)]|]. apply agrees_bind2.
      + change (instance_args (pm_cls K') r) with (instance_args (pm_cls K) r). apply IH; [exact Ha'|]. cbn [instance_args pm_cls]. destruct r; try (constructor; [exact Hr|constructor]). now apply loc_plus in Hr.
      + intros es Hes. apply IH; [exact Hes|exact (Forall_inv_tail Hb)].
    - exact Hab.
    - split; [reflexivity|discriminate].
  Qed.
  Lemma pm_reduce_agree f : forall d es, Forall loc es -> agrees (mrb_reduce (pm_cls K) d f es) (mrb_reduce (pm_cls K') d f es).
  Proof.
    induction d as [|d IH]; intros es H; [split; [reflexivity|discriminate]|]. cbn [mrb_reduce]. destruct (length es <=? 1).
    - split; [reflexivity|]. intros fs E. now injection E as <-.
    - pose proof H as H2. rewrite <- (firstn_skipn (length es / 2) es) in H2. apply Forall_app in H2. destruct H2 as [H2 H3].
      apply agrees_bind2; [now apply IH|]. intros x Hx. apply agrees_bind2; [now apply IH|]. intros y Hy. now apply pm_combine_agree.
  Qed.
  Context (olt : op -> op -> bool) (slt : list nat -> list nat -> bool).
  Lemma pm_plus_agree f es : Forall loc es -> agree (pm_plus_step olt slt K f es) (pm_plus_step olt slt K' f es).
  Proof.
    intros H. apply flat_plus_loc in H. unfold pm_plus_step. assert (Forall loc (pysorted (ofull_lt olt slt) (flat_plus es))) as H'.
    { rewrite Forall_forall in *. intros x Hx. apply H. now apply pysorted_In in Hx. }
    revert H'. generalize (pysorted (ofull_lt olt slt) (flat_plus es)). clear es H. intros es H. apply agrees_bind.
    - unfold collect_summands. apply agrees_bind2.
      + apply agrees_mapM. intros [t c] Ht. apply (a_scal l K K' HK). apply (in_map fst) in Ht. apply collect_terms in Ht. destruct Ht as [x [Hx E]]. cbn [fst] in E. subst t.
        rewrite Forall_forall in H. specialize (H x Hx). destruct x; exact H.
      + intros fs Hf. split; [reflexivity|]. intros gs E. injection E as <-. now apply filter_loc.
    - intros [|x [|y fs]] Hf; [now apply agree_ok|apply agree_ok; exact (Forall_inv Hf)|].
      unfold match_replace_binary. destruct (pm_reduce_agree f (Datatypes.S (length (x :: y :: fs))) _ Hf) as [E1 E2]. rewrite E1. rewrite E1 in E2.
      destruct (mrb_reduce (pm_cls K') _ f _) as [r|e]; [|apply agree_err]. specialize (E2 r eq_refl). cbn [bind].
      destruct r as [|w [|w2 r]]; cbn [bind]; apply agree_ok; [exact Logic.I|exact (Forall_inv E2)|now apply loc_plus].
  Qed.
  End Step.
  Context (dim : nat -> option nat) (olt : op -> op -> bool) (slt : list nat -> list nat -> bool) (Ho : good_orders olt slt).
  Theorem pm_local_agree : forall n, agreeK l (pm_creators_n dim olt slt (careful_order olt slt) n) (pm_creators_n dim olt slt (real_order olt slt) n).
  Proof.
    assert (forall es, Forall loc es -> agrees (careful_order olt slt es) (real_order olt slt es)) as Hord.
    { intros es H. rewrite (local_careful l olt slt Ho es H). split; [reflexivity|]. unfold real_order. intros fs E. injection E as <-.
      rewrite Forall_forall in *. intros x Hx. apply H. now apply pysorted_In in Hx. }
    induction n as [|n IH]; [constructor; intros; apply agree_err|]. cbn [pm_creators_n]. constructor; cbn [k_scal k_plus k_times k_comm].
    - intros. now apply scal_agree.
    - intros. now apply pm_plus_agree.
    - intros. now apply times_agree.
    - intros. now apply comm_agree.
  Qed.
End Local.
