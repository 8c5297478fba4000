(** Expanding sums and products of operators whose products are never sums. *)
From Coq Require Import QArith Qcanon Permutation.
From Verif Require Import Prelude ListFacts SortModel SortSpec SortProofs BinModel BinProofs OpModel OpSpec OpForms OpForm.
Local Open Scope nat_scope.

Lemma F_firstn {A} (P : A -> Prop) n l : Forall P l -> Forall P (firstn n l).
Proof. intros H. rewrite <- (firstn_skipn n l) in H. apply Forall_app in H. apply H. Qed.
Lemma F_skipn {A} (P : A -> Prop) n l : Forall P l -> Forall P (skipn n l).
Proof. intros H. rewrite <- (firstn_skipn n l) in H. apply Forall_app in H. apply H. Qed.

Section Tame.
  Context {S : scalars}.
  Local Notation op := (op S).
  Definition tatom (x : op) : Prop := match x with OAtom a => tame a | _ => False end.
  Definition monom (x : op) : Prop := match x with OOne => True | OAtom a => tame a | OTimes l => Forall tatom l | _ => False end.
  Definition termz (x : op) : Prop := match x with OZero => True | OScal _ m => monom m | _ => monom x end.
  Definition sumz (x : op) : Prop := match x with OPlus l => Forall termz l | _ => termz x end.
  (** a factor in a product under construction *)
  Definition factorz (x : op) : Prop := match x with OTimes _ | OPlus _ => False | _ => termz x end.
  Definition good (P : op -> Prop) (r : res op) : Prop := match r with Ok x => P x | Err e => e <> CannotSimplify end.
  Lemma good_bind P Q (r : res op) (k : op -> res op) : good P r -> (forall x, P x -> good Q (k x)) -> good Q (bind r k).
  Proof. destruct r; cbn; auto. Qed.
  Lemma monom_termz x : monom x -> termz x.
  Proof. destruct x; cbn; auto; contradiction. Qed.
  Lemma tatom_monom x : tatom x -> monom x.
  Proof. destruct x; cbn; auto; contradiction. Qed.
  Lemma termz_sumz x : termz x -> sumz x.
  Proof. destruct x; cbn; auto; contradiction. Qed.

  Record goodK (K : ocreators S) : Prop := {
    g_scal : forall c x, termz x -> good termz (k_scal K c x);
    g_plus : forall l, Forall sumz l -> good sumz (k_plus K l);
    g_times : forall l, Forall termz l -> good termz (k_times K l)
  }.

  Context (dim : nat -> option nat) (olt : op -> op -> bool) (slt : list nat -> list nat -> bool) (ord : list op -> res (list op)).
  Context (Hord : forall l, match ord l with Ok l' => incl l' l | Err e => e <> CannotSimplify end).

  Section Step.
  Context (K : ocreators S) (HK : goodK K).
  Lemma scal_good c x : termz x -> good termz (scal_step K c x).
  Proof.
    intros H. unfold scal_step. destruct (seqb c s1); [exact H|]. destruct (seqb c s0); [exact Logic.I|].
    destruct x; try exact H; try contradiction; try exact Logic.I. apply (g_scal K HK). now apply monom_termz.
  Qed.
  Lemma flat_plus_termz l : Forall sumz l -> Forall termz (flat_plus (S:=S) l).
  Proof.
    intros H. unfold flat_plus. induction H as [|x l Hx _ IH]; [constructor|]. cbn [flat_map]. apply Forall_app. split; [|exact IH].
    destruct x; try exact Hx; repeat constructor; exact Hx.
  Qed.
  Lemma mapM_good {X} (f : X -> res op) P l : (forall x, In x l -> good P (f x)) -> match mapM f l with Ok l' => Forall P l' | Err e => e <> CannotSimplify end.
  Proof.
    induction l as [|x l IH]; intros H; [constructor|]. cbn [mapM]. pose proof (H x (or_introl eq_refl)) as Hx. destruct (f x) as [y|e]; [|exact Hx]. cbn [bind].
    assert (forall z, In z l -> good P (f z)) as Hl by (intros z Hz; apply H; now right). specialize (IH Hl). destruct (mapM f l) as [l'|e]; [|exact IH]. cbn [bind]. now constructor.
  Qed.
  Lemma plus_good l : Forall sumz l -> good sumz (plus_step olt slt K l).
  Proof.
    intros H. unfold plus_step, collect_summands. apply flat_plus_termz in H.
    assert (Forall termz (pysorted (ofull_lt olt slt) (flat_plus l))) as H'.
    { rewrite Forall_forall in *. intros x Hx. apply H. now apply pysorted_In in Hx. }
    clear H. revert H'. generalize (pysorted (ofull_lt olt slt) (flat_plus l)) as m. intros m Hm.
    assert (match mapM (fun tc : op * S => let '(t, c) := tc in k_scal K c t) (collect m) with Ok l' => Forall termz l' | Err e => e <> CannotSimplify end) as G.
    { apply mapM_good. intros [t c] Ht. apply (g_scal K HK). apply (in_map fst) in Ht. apply collect_terms in Ht. destruct Ht as [x [Hx E]]. cbn [fst] in E. subst t.
      rewrite Forall_forall in Hm. specialize (Hm x Hx). destruct x; cbn [coeff_term snd]; try exact Hm; try contradiction; try exact Logic.I. now apply monom_termz. }
    destruct (mapM _ _) as [l'|e]; [|exact G]. cbn [bind].
    assert (Forall termz (filter (fun o => negb (is_zero o)) l')) as G2.
    { rewrite Forall_forall in *. intros x Hx. apply filter_In in Hx. now apply G. }
    destruct (filter _ _) as [|x [|y l2]]; [exact Logic.I| |exact G2]. apply termz_sumz. exact (Forall_inv G2).
  Qed.

  (** *** Products *)
  Definition okl (l : list op) : Prop := Forall tatom l \/ exists x, l = [x] /\ factorz x.
  Lemma olift_good P r : good P r -> match olift r with Replaces (Some x) => P x | Raises e => e <> CannotSimplify | _ => False end.
  Proof. destruct r as [x|e]; cbn; [easy|]. intros H. destruct e; try exact H. now apply H. Qed.
  Lemma phase_create_termz u l : termz (phase_create (S:=S) u l).
  Proof. unfold phase_create. destruct (seqb u s0); exact Logic.I. Qed.
  Lemma disp_create_termz u l : termz (disp_create (S:=S) u l).
  Proof. unfold disp_create. destruct (seqb u s0); exact Logic.I. Qed.
  Lemma factorz_termz x : factorz x -> termz x.
  Proof. destruct x; cbn; auto; contradiction. Qed.
  Lemma times_scal_good u a b : termz a -> termz b -> good termz (do p <- k_times K [a; b]; k_scal K u p).
  Proof. intros Ha Hb. apply (good_bind termz); [apply (g_times K HK); now repeat constructor|]. apply (g_scal K HK). Qed.
  Lemma tatom_inv x : tatom x -> exists a, x = OAtom a /\ tame a.
  Proof. destruct x; try contradiction. eauto. Qed.

  Lemma tr_no rule rest (x y : op) : rule x y = NoMatch -> try_rules (rule :: rest) x y = try_rules rest x y.
  Proof. intros H. cbn [try_rules]. now rewrite H. Qed.
  Definition hit (P : op -> Prop) (Q : Prop) (r : res (option op)) : Prop :=
    match r with Ok (Some r) => P r | Ok None => Q | Err e => e <> CannotSimplify end.
  Lemma tr_hit (P : op -> Prop) (Q : Prop) rule rest x y r : rule x y = olift r -> good P r -> hit P Q (try_rules (rule :: rest) x y).
  Proof.
    intros E G. cbn [try_rules]. rewrite E. apply olift_good in G. destruct (olift r) as [| |[z|]|e]; [destruct G|destruct G|exact G|destruct G|exact G].
  Qed.
  Lemma tr_now (P : op -> Prop) (Q : Prop) rule rest x y z : rule x y = Replaces (Some z) -> P z -> hit P Q (try_rules (rule :: rest) x y).
  Proof. intros E G. cbn [try_rules]. now rewrite E. Qed.
  Ltac skip := repeat (rewrite tr_no by reflexivity).
  Ltac none := skip; cbn [try_rules hit].
  Lemma gbr_good x y : factorz x -> factorz y ->
    hit termz ((tatom x \/ x = OOne) /\ (tatom y \/ y = OOne)) (get_binary_replacement (times_cls dim K) x y).
  Proof.
    intros Hx Hy. unfold get_binary_replacement. cbn [binary_rules times_cls]. unfold times_rules.
    pose proof (factorz_termz _ Hx) as Tx. pose proof (factorz_termz _ Hy) as Ty.
    destruct x as [| |a|u a|l|l|a b|a|a h|s a]; try contradiction Hx.
    - (* OZero *) skip. now apply tr_now with OZero.
    - (* OOne *) destruct y as [| |b|v b|l|l|b1 b2|b|b h|s b]; try contradiction Hy.
      + skip. now apply tr_now with OZero.
      + none. split; now right.
      + destruct b; none; (split; [now right|now left]).
      + skip. eapply tr_hit; [reflexivity|]. apply times_scal_good; [exact Logic.I|exact (monom_termz _ Hy)].
    - (* atom *) destruct y as [| |b|v b|l|l|b1 b2|b|b h|s b]; try contradiction Hy.
      + skip. now apply tr_now with OZero.
      + destruct a; none; (split; [now left|now right]).
      + cbn [factorz termz monom] in Hx, Hy.
        destruct a as [n1 h1|l1|l1|j1 k1 l1|u1 l1|u1 l1|u1 l1|l1|l1|l1]; try contradiction Hx; destruct b as [n2 h2|l2|l2|j2 k2 l2|u2 l2|u2 l2|u2 l2|l2|l2|l2]; try contradiction Hy;
          skip; try (match goal with |- context [try_rules [] _ _] => cbn [try_rules hit]; split; left; exact Logic.I end);
          (destruct (Nat.eqb l1 l2) eqn:El;
           [|rewrite tr_no by (cbn [r005 r014 r015 r020 r021 local_rule]; now rewrite El); none; split; left; exact Logic.I]).
        * eapply tr_hit; [cbn [r005 local_rule]; rewrite El; reflexivity|]. now apply (g_scal K HK).
        * eapply tr_hit; [cbn [r021 local_rule]; rewrite El; reflexivity|]. now apply (g_scal K HK).
        * eapply tr_hit; [cbn [r020 local_rule]; rewrite El; reflexivity|]. now apply (g_scal K HK).
        * eapply tr_now; [cbn [r014 local_rule]; rewrite El; reflexivity|]. apply phase_create_termz.
        * eapply tr_hit; [cbn [r015 local_rule]; rewrite El; reflexivity|]. apply (g_scal K HK), disp_create_termz.
      + skip. eapply tr_hit; [reflexivity|]. apply times_scal_good; [exact Hx|exact (monom_termz _ Hy)].
    - (* OScal *) eapply tr_hit; [reflexivity|]. apply times_scal_good; [exact (monom_termz _ Hx)|exact Ty].
  Qed.
  (** no unit among the factors *)
  Definition okl1 (l : list op) : Prop := Forall tatom l \/ exists x, l = [x] /\ factorz x /\ x <> OOne.
  Definition goodl (r : res (list op)) : Prop := match r with Ok l => okl1 l | Err e => e <> CannotSimplify end.
  Lemma combine_good : forall f a b, okl1 a -> okl1 b -> goodl (mrb_combine (times_cls dim K) f a b).
  Proof.
    induction f as [|f IH]; intros a b Ha Hb; [discriminate|]. cbn [mrb_combine].
    destruct (split_last a) as [[a' x]|] eqn:Ea.
    2: { assert (a = []) as ->. { unfold split_last in Ea. destruct (rev a) eqn:Er; [|discriminate]. rewrite <- (rev_involutive a), Er. reflexivity. } exact Hb. }
    apply split_last_inv in Ea. subst a. destruct b as [|y b'].
    { unfold goodl. rewrite app_nil_r. exact Ha. }
    assert (factorz x /\ x <> OOne /\ okl1 a' /\ (tatom x -> Forall tatom (a' ++ [x]))) as [Hx [Nx [Ha' HA]]].
    { destruct Ha as [Ha|[z [Ez [Hz Nz]]]].
      - pose proof Ha as Ha0. apply Forall_app in Ha. destruct Ha as [Ha1 Ha2]. pose proof (Forall_inv Ha2) as Tx. destruct (tatom_inv _ Tx) as [a [-> Ta]].
        split; [exact Ta|]. split; [discriminate|]. split; [now left|]. intros _. exact Ha0.
      - destruct a' as [|w a']; [|destruct a'; discriminate Ez]. injection Ez as ->. split; [exact Hz|]. split; [exact Nz|]. split; [left; constructor|]. intros T. now repeat constructor. }
    assert (factorz y /\ y <> OOne /\ okl1 b' /\ (tatom y -> Forall tatom (y :: b'))) as [Hy [Ny [Hb' HB]]].
    { destruct Hb as [Hb|[z [Ez [Hz Nz]]]].
      - pose proof (Forall_inv Hb) as Ty. destruct (tatom_inv _ Ty) as [c [-> Tc]].
        split; [exact Tc|]. split; [discriminate|]. split; [left; exact (Forall_inv_tail Hb)|]. intros _. exact Hb.
      - injection Ez as -> ->. split; [exact Hz|]. split; [exact Nz|]. split; [left; constructor|]. intros T. now repeat constructor. }
    pose proof (gbr_good x y Hx Hy) as G. destruct (get_binary_replacement (times_cls dim K) x y) as [[r|]|e]; [| |exact G]; cbn [bind].
    - destruct (is_neutral (times_cls dim K) r) eqn:En; [exact (IH _ _ Ha' Hb')|].
      assert (okl1 (match instance_args (times_cls dim K) r with Some args => args | None => [r] end)) as Hr.
      { cbn [instance_args times_cls]. destruct r; try contradiction; try discriminate En; try (right; eexists; split; [reflexivity|]; split; [exact G|discriminate]). now left. }
      pose proof (IH _ _ Ha' Hr) as G1. destruct (mrb_combine _ f a' _) as [l1|e]; [|exact G1]. cbn [bind]. exact (IH _ _ G1 Hb').
    - destruct G as [[Tx| ->] [Ty| ->]]; try contradiction. left. apply Forall_app. split; [now apply HA|now apply HB].
  Qed.

  Lemma reduce_good f : forall d l, Forall factorz l -> Forall (fun x => x <> OOne) l -> goodl (mrb_reduce (times_cls dim K) d f l).
  Proof.
    induction d as [|d IH]; intros l Hl Hn; [discriminate|]. cbn [mrb_reduce]. destruct (Nat.leb_spec (length l) 1) as [H|H].
    - destruct l as [|x [|y l]]; [left; constructor| |cbn [length] in H; lia]. right. exists x. split; [reflexivity|]. split; [exact (Forall_inv Hl)|exact (Forall_inv Hn)].
    - assert (goodl (mrb_reduce (times_cls dim K) d f (firstn (length l / 2) l))) as G1 by (apply IH; [now apply F_firstn|now apply F_firstn]).
      assert (goodl (mrb_reduce (times_cls dim K) d f (skipn (length l / 2) l))) as G2 by (apply IH; [now apply F_skipn|now apply F_skipn]).
      destruct (mrb_reduce _ d f (firstn _ _)) as [l1|e]; [|exact G1]. destruct (mrb_reduce _ d f (skipn _ _)) as [l2|e]; [|exact G2]. cbn [bind].
      now apply combine_good.
  Qed.
  Lemma flat_times_factorz l : Forall termz l -> Forall factorz (flat_times (S:=S) l).
  Proof.
    intros H. unfold flat_times. induction H as [|x l Hx _ IH]; [constructor|]. cbn [flat_map]. apply Forall_app. split; [|exact IH].
    destruct x; try contradiction Hx; try (constructor; [exact Hx|constructor]). apply (Forall_impl factorz (P:=tatom)); [|exact Hx].
    intros z Hz. destruct (tatom_inv _ Hz) as [a [-> Ha]]. exact Ha.
  Qed.
  Lemma times_good f l : Forall termz l -> good termz (times_step dim ord K f l).
  Proof.
    intros H. apply flat_times_factorz in H. unfold times_step. pose proof (Hord (flat_times l)) as Ho. destruct (ord (flat_times l)) as [l'|e]; [|exact Ho]. cbn [bind].
    assert (Forall factorz l') as Hl' by (rewrite Forall_forall in *; intros x Hx; apply H, Ho, Hx). destruct l' as [|x l']; [exact Logic.I|].
    set (m := x :: l') in *. assert (Forall factorz (filter (fun o => negb (is_one o)) m)) as Hf.
    { rewrite Forall_forall in *. intros z Hz. apply filter_In in Hz. now apply Hl'. }
    assert (Forall (fun z => z <> OOne) (filter (fun o => negb (is_one o)) m)) as Hn.
    { apply Forall_forall. intros z Hz. apply filter_In in Hz. destruct Hz as [_ Hz]. intros ->. discriminate Hz. }
    destruct (filter _ m) as [|y [|z fl]].
    - apply factorz_termz. exact (Forall_inv Hl').
    - apply factorz_termz. exact (Forall_inv Hf).
    - set (fops := y :: z :: fl) in *. unfold match_replace_binary. pose proof (reduce_good f (Datatypes.S (length fops)) fops Hf Hn) as G.
      destruct (mrb_reduce _ _ _ _) as [r|e]; [|exact G]. cbn [bind goodl] in G |- *. destruct r as [|w [|w2 r]]; cbn [bind].
      + exact Logic.I.
      + destruct G as [G|[w' [E [G _]]]]; [|injection E as <-; now apply factorz_termz]. apply monom_termz, tatom_monom. exact (Forall_inv G).
      + destruct G as [G|[w' [E _]]]; [exact G|discriminate].
  Qed.
End Step.

  Theorem creators_good n : goodK (creators_n dim olt slt ord n).
  Proof.
    induction n as [|n IH]; [constructor; intros; discriminate|]. constructor; intros; cbn [creators_n k_scal k_plus k_times].
    - now apply scal_good.
    - now apply plus_good.
    - now apply times_good.
  Qed.

  (** ** Expansion *)
  Section Exp.
  Context (K : ocreators S) (HK : goodK K).
  Lemma good_ok P r x : good P r -> r = Ok x -> P x.
  Proof. intros H ->. exact H. Qed.
  Lemma summands_termz e : sumz e -> Forall termz (summands_of e).
  Proof. destruct e; cbn [summands_of sumz]; intros H; try exact H; constructor; try exact H; constructor. Qed.
  Lemma cartesian_F {A} (P : A -> Prop) ls : Forall (Forall P) ls -> Forall (Forall P) (cartesian ls).
  Proof.
    induction 1 as [|l ls Hl _ IH]; [repeat constructor|]. cbn [cartesian]. rewrite Forall_forall in *. intros c Hc. apply in_flat_map in Hc. destruct Hc as [x [Hx Hc]].
    apply in_map_iff in Hc. destruct Hc as [c' [<- Hc']]. constructor; [now apply Hl|now apply IH].
  Qed.
  Lemma mul_combo_termz c e : Forall termz c -> mul_combo K c = Ok e -> termz e.
  Proof.
    destruct c as [|x c]; [discriminate|]. intros H. pose proof (Forall_inv H) as Hx. apply Forall_inv_tail in H. cbn [mul_combo]. revert x Hx.
    induction H as [|y c Hy _ IH]; intros x Hx E; [cbn in E; injection E as <-; exact Hx|]. cbn [foldM] in E. step E z Ez.
    apply (IH z); [|exact E]. refine (good_ok _ _ _ (g_times K HK [x; y] _) Ez). now repeat constructor.
  Qed.
  Lemma add_all_sumz l e : Forall sumz l -> add_all K l = Ok e -> sumz e.
  Proof.
    destruct l as [|x l]; [discriminate|]. intros H. pose proof (Forall_inv H) as Hx. apply Forall_inv_tail in H. cbn [add_all]. revert x Hx.
    induction H as [|y c Hy _ IH]; intros x Hx E; [cbn in E; injection E as <-; exact Hx|]. cbn [foldM] in E. step E z Ez.
    apply (IH z); [|exact E]. refine (good_ok _ _ _ (g_plus K HK [x; y] _) Ez). now repeat constructor.
  Qed.
  Lemma tatom_tame x : tatom x -> tame_expr x.
  Proof. intros H. destruct (tatom_inv _ H) as [a [-> Ha]]. now constructor. Qed.
  Lemma monom_tame x : monom x -> tame_expr x.
  Proof.
    destruct x; cbn [monom]; intros H; try contradiction; [constructor|now constructor|]. constructor. intros y Hy. rewrite Forall_forall in H. now apply tatom_tame, H.
  Qed.
  Lemma termz_tame x : termz x -> tame_expr x.
  Proof.
    destruct x; cbn [termz monom]; intros H; try contradiction; try (now apply monom_tame); [constructor|]. constructor. now apply monom_tame.
  Qed.
  Lemma sumz_tame x : sumz x -> tame_expr x.
  Proof.
    destruct x; try (intros H; now apply termz_tame). cbn [sumz]. intros H. constructor. intros y Hy. rewrite Forall_forall in H. now apply termz_tame, H.
  Qed.
  Lemma mapM_F {X Y} (f : X -> res Y) (P : Y -> Prop) l : forall l', (forall x y, In x l -> f x = Ok y -> P y) -> mapM f l = Ok l' -> Forall P l'.
  Proof.
    induction l as [|x l IH]; intros l' H E; [injection E as <-; constructor|]. cbn [mapM] in E. step E y Ey. step E r Er. injection E as <-.
    constructor; [apply (H x y); [now left|exact Ey]|]. apply (IH r); [|reflexivity]. intros z w Hz. apply H. now right.
  Qed.
  Lemma finish_sumz m ret e : (forall e e', tame_expr e -> expand K m e = Ok e' -> sumz e') -> sumz ret ->
    match ret with OPlus _ => expand K m ret | _ => Ok ret end = Ok e -> sumz e.
  Proof.
    intros IH H E. destruct ret; try (injection E as <-; exact H). apply (IH _ _ (sumz_tame _ H) E).
  Qed.
  Theorem expand_sumz n : forall e e', tame_expr e -> expand K n e = Ok e' -> sumz e'.
  Proof.
    induction n as [|n IH]; intros e e' H E; [discriminate|]. destruct H as [| |a Ha|c t Ht|l Hl|l Hl]; cbn [expand] in E.
    - injection E as <-. exact Logic.I.
    - injection E as <-. exact Logic.I.
    - injection E as <-. exact Ha.
    - step E t' Et. step E sm Es. step E ret Er. refine (finish_sumz _ _ _ IH _ E). refine (add_all_sumz _ _ _ Er).
      refine (mapM_F _ _ _ _ _ Es). intros x y Hx Ey. apply termz_sumz. refine (good_ok _ _ _ (g_scal K HK c x _) Ey).
      pose proof (summands_termz _ (IH _ _ Ht Et)) as G. rewrite Forall_forall in G. now apply G.
    - step E l' El. refine (good_ok _ _ _ (g_plus K HK l' _) E). refine (mapM_F _ _ _ _ _ El). intros x y Hx Ey. exact (IH _ _ (Hl x Hx) Ey).
    - step E eops Eo. step E sm Es. step E ret Er. refine (finish_sumz _ _ _ IH _ E). refine (add_all_sumz _ _ _ Er).
      assert (Forall sumz eops) as Ho by (refine (mapM_F _ _ _ _ _ Eo); intros x y Hx Ey; exact (IH _ _ (Hl x Hx) Ey)).
      assert (Forall (Forall termz) (cartesian (map summands_of eops))) as Hc.
      { apply cartesian_F. apply Forall_forall. intros s Hs. apply in_map_iff in Hs. destruct Hs as [z [<- Hz]]. apply summands_termz. rewrite Forall_forall in Ho. now apply Ho. }
      refine (mapM_F _ _ _ _ _ Es). intros x y Hx Ey. apply termz_sumz. rewrite Forall_forall in Hc. exact (mul_combo_termz _ _ (Hc x Hx) Ey).
  Qed.
  End Exp.
  Lemma tatom_nsf x : tatom x -> negb (is_sum x) && no_sum_factor x = true.
  Proof. intros H. now destruct (tatom_inv _ H) as [a [-> _]]. Qed.
  Lemma monom_nsf x : monom x -> is_sum x = false /\ no_sum_factor x = true.
  Proof.
    destruct x; cbn [monom]; intros H; try contradiction; try (now split). split; [reflexivity|]. cbn [no_sum_factor]. apply forallb_forall. intros y Hy.
    rewrite Forall_forall in H. now apply tatom_nsf, H.
  Qed.
  Lemma termz_nsf x : termz x -> is_sum x = false /\ no_sum_factor x = true.
  Proof.
    destruct x; try (intros H; now apply monom_nsf); [now split|]. cbn [termz no_sum_factor is_sum]. intros H. split; [reflexivity|]. destruct (monom_nsf _ H) as [-> ->]. reflexivity.
  Qed.
  Lemma sumz_nsf x : sumz x -> no_sum_factor x = true.
  Proof.
    destruct x; try (intros H; now apply termz_nsf). cbn [sumz no_sum_factor]. intros H. apply forallb_forall. intros y Hy. rewrite Forall_forall in H. now apply termz_nsf, H.
  Qed.
  Theorem expand_no_sum_factor n m e e' : tame_expr e -> expand (creators_n dim olt slt ord n) m e = Ok e' -> no_sum_factor e' = true.
  Proof. intros H E. apply sumz_nsf. exact (expand_sumz _ (creators_good n) m e e' H E). Qed.
End Tame.
