(** The layout of the indented form, and rebuilding Hilbert spaces from their
    printed arguments. *)
From Verif Require Import Prelude ListFacts SreprModel SreprSpec SreprProofs1 SreprProofs2.

(** *** glue, commas *)
Lemma glue_snoc l i s t : glue (l ++ [(i, s)]) t = l ++ [(i, s ++ t)].
Proof. unfold glue. now rewrite removelast_last, last_last. Qed.
Lemma glue_add l t : l <> [] -> glue l t = add_end l t.
Proof. intros H. destruct (snoc l H) as [l' [i [s ->]]]. now rewrite glue_snoc, add_end_snoc. Qed.
Lemma add_ne l t : l <> [] -> add_end l t <> [].
Proof. intros H. destruct (snoc l H) as [l' [i [s ->]]]. rewrite add_end_snoc. destruct l'; discriminate. Qed.
Lemma drop_add (a l : lines) : l <> [] -> drop_end (a ++ add_end l [TComma]) = a ++ l.
Proof. intros H. destruct (snoc l H) as [l' [i [s ->]]]. now rewrite add_end_snoc, !app_assoc, drop_end_snoc. Qed.
Lemma drop_commas items : Forall (fun l => l <> []) items -> items <> [] -> forall a,
  drop_end (a ++ concat (map (fun l => add_end l [TComma]) items)) = a ++ commas items.
Proof.
  induction 1 as [|l items Hl HF IH]; intros Hn a; [contradiction|]. destruct items as [|l2 items].
  - cbn [map concat commas]. rewrite app_nil_r. now apply drop_add.
  - change (commas (l :: l2 :: items)) with (glue l [TComma] ++ commas (l2 :: items)). change (concat (map (fun l => add_end l [TComma]) (l :: l2 :: items))) with (add_end l [TComma] ++ concat (map (fun l => add_end l [TComma]) (l2 :: items))).
    rewrite glue_add by assumption. rewrite !app_assoc. now apply IH.
Qed.

(** *** indentation of the layout *)
(** [l] is placed at [n]: the first line there, the others not to the left of it *)
Definition placed (n : nat) (l : lines) : Prop := match l with [] => False | p :: l' => fst p = n /\ Forall (fun q => n <= fst q) l' end.
Lemma placed_ne n l : placed n l -> l <> [].
Proof. now destruct l. Qed.
Lemma placed_all n l : placed n l -> Forall (fun q : nat * list tok => n <= fst q) l.
Proof. destruct l as [|p l]; [contradiction|]. intros [<- H]. now constructor. Qed.
Lemma placed_margin n l : placed n l -> margin l = n.
Proof.
  destruct l as [|p l]; [contradiction|]. intros [E H]. cbn [margin]. rewrite E. clear E. induction H as [|q l Hq _ IH]; [reflexivity|]. cbn [fold_left]. now rewrite Nat.min_l.
Qed.
Lemma Forall_glue (Q : nat -> Prop) l t : l <> [] -> Forall (fun q : nat * list tok => Q (fst q)) l -> Forall (fun q => Q (fst q)) (glue l t).
Proof.
  intros H. destruct (snoc l H) as [l' [i [s ->]]]. rewrite glue_snoc. intros HF. apply Forall_app in HF. destruct HF as [H1 H2]. apply Forall_app. split; [exact H1|].
  inversion H2. constructor; [assumption|constructor].
Qed.
Lemma placed_glue n l t : placed n l -> placed n (glue l t).
Proof.
  intros H. pose proof (placed_ne _ _ H) as Hn. pose proof (Forall_glue (fun k => n <= k) l t Hn (placed_all _ _ H)) as HF. destruct (snoc l Hn) as [l' [i [s ->]]]. rewrite glue_snoc in *.
  destruct l' as [|p l'].
  - cbn in H. destruct H as [-> _]. cbn. split; [reflexivity|constructor].
  - destruct H as [H _]. cbn [app placed] in *. inversion HF. now split.
Qed.
Lemma placed_keyed n k l : placed n l -> placed n (keyed k l).
Proof. destruct l as [|[i s] l]; [contradiction|]. exact (fun H => H). Qed.
Lemma commas_all n items : Forall (placed n) items -> Forall (fun q : nat * list tok => n <= fst q) (commas items).
Proof.
  induction 1 as [|l items Hl HF IH]; [constructor|]. destruct items as [|l2 items]; [now apply placed_all|].
  change (commas (l :: l2 :: items)) with (glue l [TComma] ++ commas (l2 :: items)). apply Forall_app. split; [now apply placed_all, placed_glue|exact IH].
Qed.
Definition items (n : nat) (args : list px) (kw : list (nat * px)) : list lines :=
  map (layout (S n)) args ++ map (fun p : nat * px => keyed (fst p) (layout (S n) (snd p))) kw.
Lemma layout_expr n h args kw : layout n (XExpr h args kw) = glue ((n, [TName h; TLp]) :: commas (items n args kw)) [TRp].
Proof. reflexivity. Qed.
Lemma layout_placed x : forall n, placed n (layout n x).
Proof.
  induction x as [m|h args kw Ha Hk|l Hl|l Hl|m|s] using px_ind'; intros n; try (split; [reflexivity|constructor]).
  rewrite layout_expr. apply placed_glue. split; [reflexivity|]. apply (Forall_impl (P := fun q : nat * list tok => S n <= fst q)); [intros q Hq; lia|].
  apply commas_all. unfold items. apply Forall_app. split.
  - apply Forall_map. eapply Forall_impl; [|exact Ha]. intros y H. apply H.
  - apply Forall_map. eapply Forall_impl; [|exact Hk]. intros y H. apply placed_keyed, H.
Qed.
Lemma indent_glue n l t : l <> [] -> indent n (glue l t) = glue (indent n l) t.
Proof.
  intros H. destruct (snoc l H) as [l' [i [s ->]]]. rewrite glue_snoc. unfold indent. rewrite !map_app. cbn [map fst snd]. now rewrite glue_snoc.
Qed.
Lemma indent_commas n its : Forall (fun l => l <> []) its -> indent n (commas its) = commas (map (indent n) its).
Proof.
  induction 1 as [|l its Hl HF IH]; [reflexivity|]. destruct its as [|l2 its]; [reflexivity|].
  change (commas (l :: l2 :: its)) with (glue l [TComma] ++ commas (l2 :: its)). change (commas (map (indent n) (l :: l2 :: its))) with (glue (indent n l) [TComma] ++ commas (map (indent n) (l2 :: its))).
  rewrite <- IH, <- indent_glue by assumption. unfold indent. now rewrite map_app.
Qed.
Lemma items_ne n args kw : Forall (fun l => l <> []) (items n args kw).
Proof.
  unfold items. apply Forall_app. split; apply Forall_map, Forall_forall; intros y _; eapply placed_ne; [apply (layout_placed y (S n))|apply placed_keyed, layout_placed].
Qed.
Lemma indent_keyed n k l : indent n (keyed k l) = keyed k (indent n l).
Proof. now destruct l as [|[i s] l]. Qed.
Lemma layout_indent x : forall d n, layout (d + n) x = indent d (layout n x).
Proof.
  induction x as [m|h args kw Ha Hk|l Hl|l Hl|m|s] using px_ind'; intros d n; try reflexivity.
  rewrite !layout_expr. rewrite indent_glue by discriminate. f_equal. unfold indent. cbn [map fst snd]. fold (indent d). f_equal.
  change (commas (items (d + n) args kw) = indent d (commas (items n args kw))). rewrite indent_commas by apply items_ne. f_equal. unfold items. rewrite map_app, !map_map. f_equal.
  - apply map_ext_in. intros y Hy. rewrite Forall_forall in Ha. rewrite plus_n_Sm. now apply Ha.
  - apply map_ext_in. intros y Hy. rewrite Forall_forall in Hk. rewrite indent_keyed. f_equal. rewrite plus_n_Sm. now apply Hk.
Qed.
Lemma layout_dedent n x : dedent (layout n x) = layout 0 x.
Proof.
  unfold dedent. rewrite (placed_margin n _ (layout_placed x n)). replace (layout n x) with (indent n (layout 0 x)) by (rewrite <- layout_indent; now rewrite Nat.add_0_r). unfold indent. rewrite map_map. rewrite <- (map_id (layout 0 x)) at 2. apply map_ext. intros [i s]. cbn [fst snd]. f_equal. lia.
Qed.

Section Print.
Context (peq : px -> px -> bool) (P : px -> Prop) (honest : forall x y, P x -> P y -> peq x y = true -> x = y).
Local Notation okl := (okc P (fun (l : lines) x => l = layout 0 x)).
Definition goodl (x : px) : Prop := forall n c, inside P x -> okl c -> okl (fst (ipr peq n c x)) /\ snd (ipr peq n c x) = layout n x.
Lemma igo_args_lay n l : Forall goodl l -> Forall (inside P) l -> forall c, okl c -> okl (fst (igo_args peq n c l)) /\
  snd (igo_args peq n c l) = concat (map (fun l => add_end l [TComma]) (map (layout (S n)) l)).
Proof.
  induction 1 as [|y l Hy _ IH]; intros Hi c Hc; cbn [igo_args]; [now split|]. inversion Hi as [|y' l' Hiy Hil]. subst.
  destruct (Hy (S n) c Hiy Hc) as [G1 G2]. destruct (ipr peq (S n) c y) as [c1 s]. cbn [fst snd] in *. destruct (IH Hil c1 G1) as [G3 G4]. destruct (igo_args peq n c1 l) as [c2 ls]. cbn [fst snd] in *.
  split; [exact G3|]. subst. reflexivity.
Qed.
Lemma keyed_line n k l : placed n l -> key_line n k l = keyed k l.
Proof. destruct l as [|[i s] l]; [contradiction|]. intros [<- _]. reflexivity. Qed.
Lemma igo_kw_lay n l : Forall (fun p => goodl (snd p)) l -> Forall (fun p => inside P (snd p)) l -> forall c, okl c -> okl (fst (igo_kw peq n c l)) /\
  snd (igo_kw peq n c l) = concat (map (fun l => add_end l [TComma]) (map (fun p : nat * px => keyed (fst p) (layout (S n) (snd p))) l)).
Proof.
  induction 1 as [|[k y] l Hy _ IH]; intros Hi c Hc; cbn [igo_kw]; [now split|]. inversion Hi as [|y' l' Hiy Hil]. subst. cbn [snd] in *.
  destruct (Hy (S n) c Hiy Hc) as [G1 G2]. destruct (ipr peq (S n) c y) as [c1 s]. cbn [fst snd] in *. destruct (IH Hil c1 G1) as [G3 G4]. destruct (igo_kw peq n c1 l) as [c2 ls]. cbn [fst snd] in *.
  split; [exact G3|]. subst. cbn [map concat fst snd]. now rewrite (keyed_line (S n) k _ (layout_placed y (S n))).
Qed.
Theorem ipr_layout x : goodl x.
Proof.
  assert (forall x, (forall n c, inside P x -> okl c -> exists c1, ibody peq n c x = (c1, layout n x) /\ okl c1) -> goodl x) as W.
  { intros y H n c Hi Hc. rewrite (ipr_step peq n c y). destruct (if cacheable y then lookup peq c y else None) as [s|] eqn:E.
    - cbn [fst snd]. split; [exact Hc|]. destruct (cacheable y); [|discriminate]. rewrite (lookup_ok peq P honest _ c y s Hc (inside_self P y Hi) E). rewrite <- layout_indent. now rewrite Nat.add_0_r.
    - destruct (H n c Hi Hc) as [c1 [Eb G1]]. rewrite Eb. destruct (cacheable y); cbn [fst snd]; (split; [|reflexivity]); [|exact G1]. apply (store_ok peq P honest); [exact G1|now apply inside_self|apply layout_dedent]. }
  induction x as [m|h args kw Ha Hk|l Hl|l Hl|m|s] using px_ind'; apply W; intros n c Hi Hc; cbn [ibody]; try (eexists; split; [reflexivity|exact Hc]).
  destruct (igo_args_lay n args Ha ltac:(apply Forall_forall; intros y Hy; eapply inside_args; eassumption) c Hc) as [G1 G2]. destruct (igo_args peq n c args) as [c1 ls]. cbn [fst snd] in *.
  destruct (igo_kw_lay n kw Hk ltac:(apply Forall_forall; intros y Hy; eapply inside_kw; eassumption) c1 G1) as [G3 G4]. destruct (igo_kw peq n c1 kw) as [c2 ks]. cbn [fst snd] in *.
  exists c2. split; [|exact G3]. f_equal. rewrite layout_expr, glue_add by discriminate. f_equal.
  subst ls ks. rewrite <- concat_app, <- map_app. fold (items n args kw).
  assert (args = [] /\ kw = [] \/ items n args kw <> []) as [[-> ->]|Hne].
  { destruct args as [|a args]; [|right; discriminate]. destruct kw as [|a kw]; [now left|right; discriminate]. }
  - reflexivity.
  - assert (forall u v : lines, match args, kw with [], [] => u | _, _ => v end = v) as M by (intros; destruct args, kw; try reflexivity; now contradiction Hne).
    rewrite M. change ((n, [TName h; TLp]) :: concat (map (fun l => add_end l [TComma]) (items n args kw))) with ([(n, [TName h; TLp])] ++ concat (map (fun l => add_end l [TComma]) (items n args kw))).
    rewrite drop_commas; [reflexivity|apply items_ne|exact Hne].
Qed.
End Print.

(** *** Hilbert spaces *)
Section Space.
Context (db : nat -> list nat) (si : list (nat * nat) -> list (nat * nat)) (si2 : forall l, si (si l) = si l).
Lemma local_space_rebuild a o : local_space db si a = Ok o -> local_space db si (printed_args o) = Ok o.
Proof.
  destruct a as [lb [b|] [d|] ids ord]; unfold local_space; cbn [a_basis a_dim a_label a_ids a_order bind].
  - destruct (d =? length b) eqn:E; [|discriminate]. cbn [bind]. intros H. injection H as <-. unfold printed_args. cbn. rewrite E. cbn. destruct ids as [l|]; cbn; [rewrite si2|]; now destruct ord.
  - intros H. injection H as <-. unfold printed_args. cbn. destruct ids as [l|]; cbn; [rewrite si2|]; now destruct ord.
  - intros H. injection H as <-. unfold printed_args. cbn. destruct ids as [l|]; cbn; [rewrite si2|]; now destruct ord.
  - intros H. injection H as <-. unfold printed_args. cbn. destruct ids as [l|]; cbn; [rewrite si2|]; now destruct ord.
Qed.
Context (sb : nat -> list nat).
Lemma spin_space_rebuild a o : sa_basis a = None -> spin_space si sb a = Ok o -> spin_space si sb (printed_spin_args o) = Ok o.
Proof.
  destruct a as [lb sp b ids ord]. cbn. intros ->. unfold spin_space. cbn. destruct (sp =? length (sb sp)) eqn:E; [|discriminate]. intros H. injection H as <-. cbn. rewrite E.
  destruct ids as [l|]; cbn; [rewrite si2|]; now destruct ord.
Qed.
End Space.
