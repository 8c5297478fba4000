(** Expanding sums and multiples of multiplications by operators on one local space, and
    liouvillian_normal_form of them, needs no reordering. *)
From Coq Require Import QArith Qcanon.
From Verif Require Import Prelude ListFacts SortModel SortProofs BinModel OpModel OpSpec OpProofs1 OpForms OpOrder OpFuel OpLocal OpRun CSimpProofs5 SupModel SupSpec SupOrder SupProofs1 SupProofs5 SupLocal NfModel NfProofs.
Local Open Scope nat_scope.

Lemma mrb_two {X} (cls : bincls X) fuel x y :
  match_replace_binary cls fuel [x; y] =
  match fuel with
  | 0 => Err OutOfFuel
  | S f =>
    do r <- get_binary_replacement cls x y;
    match r with
    | None => Ok (inr [x; y])
    | Some r =>
      match f with
      | 0 => Err OutOfFuel
      | S _ => if is_neutral cls r then Ok (inl (neutral cls))
               else match (match instance_args cls r with Some args => args | None => [r] end) with
                    | [] => Ok (inl (neutral cls))
                    | [z] => Ok (inl z)
                    | rs => Ok (inr rs)
                    end
      end
    end
  end.
Proof.
  unfold match_replace_binary. cbn [length mrb_reduce Nat.leb Nat.div Nat.divmod fst firstn skipn bind]. destruct fuel as [|f]; [reflexivity|].
  cbn [mrb_combine split_last rev app]. destruct (get_binary_replacement cls x y) as [[r|]|e]; cbn [bind]; [|reflexivity|reflexivity].
  destruct f as [|f]; [now destruct (is_neutral cls r)|]. destruct (is_neutral cls r); [reflexivity|]. cbn [mrb_combine split_last rev app bind].
  destruct (match instance_args cls r with Some args => args | None => [r] end) as [|z rs]; [reflexivity|].
  destruct (split_last (z :: rs)) as [[u v]|]; cbn [bind]; rewrite app_nil_r; destruct rs; reflexivity.
Qed.

Section Mono2.
  Context {S : scalars} (P : op S -> Prop) (solt : sop S -> sop S -> bool) (slt : list nat -> list nat -> bool).
  Local Notation ts := (two_sided P).
  (** multiples of multiplications from one side *)
  Inductive side (left : bool) : sop S -> Prop :=
  | sd_zero : side left SZero
  | sd_one : side left SOne
  | sd_pre a : left = true -> P a -> side left (SPre a)
  | sd_post a : left = false -> P a -> side left (SPost a)
  | sd_scal c t : side left t -> side left (SScal c t).
  Inductive sides (left : bool) : sop S -> Prop :=
  | sds_1 s : side left s -> sides left s
  | sds_sum l : (forall x, In x l -> side left x) -> sides left (SPlus l).
  Lemma side_ts b s : side b s -> ts s.
  Proof. induction 1; [apply ts_zero|apply ts_one|now apply ts_pre|now apply ts_post|now apply ts_scal]. Qed.
  Lemma side_scal b t : forall c, side b t -> side b (super_scal c t).
  Proof.
    induction t as [| |n h|a|a|v u IH|l _|l _|t _] using sop_ind'; intros c Ht; cbn [super_scal]; destruct (seqb c s1); try exact Ht; destruct (seqb c s0); try apply sd_zero; try (now apply sd_scal).
    apply IH. now inversion Ht.
  Qed.
  Lemma sides_plus b l : (forall x, In x l -> sides b x) -> sides b (super_plus solt slt l).
  Proof.
    intros H.
    assert (forall x, In x (sflat_plus l) -> side b x) as H1.
    { intros x Hx. unfold sflat_plus in Hx. apply in_flat_map in Hx. destruct Hx as [y [Hy Hx]]. specialize (H y Hy).
      inversion H as [s Hs E|l0 Hl0 E]; subst; [|now apply Hl0]. destruct Hs; destruct Hx as [<- |[]]; now constructor. }
    assert (forall x, In x (pysorted (sfull_lt solt slt) (sflat_plus l)) -> side b x) as H2 by (intros x Hx; apply H1; now apply pysorted_In in Hx).
    assert (forall (m : list (sop S * S)) ops, (forall tc, In tc m -> side b (fst tc)) -> (forall x, In x ops -> side b x) ->
      forall tc, In tc (fold_left (fun m o => let '(c, t) := scoeff_term o in scmap_add c t m) ops m) -> side b (fst tc)) as H3.
    { intros m ops. revert m. induction ops as [|o ops IH]; intros m Hm Ho tc Htc; [now apply Hm|]. cbn [fold_left] in Htc.
      destruct (scoeff_term o) as [c t] eqn:Eo. revert Htc. apply IH; [|intros; apply Ho; now right].
      assert (side b t) as Ht. { specialize (Ho o (or_introl eq_refl)). destruct o; cbn in Eo; injection Eo as <- <-; try exact Ho. now inversion Ho. }
      clear - Hm Ht. induction m as [|[t' c'] m IHm]; cbn [scmap_add]; intros tc Htc; [destruct Htc as [<- |[]]; exact Ht|].
      destruct (sop_eqb t' t); destruct Htc as [<- |Htc]; try exact (Hm (t', c') (or_introl eq_refl)).
      - apply Hm. now right.
      - apply IHm; [|exact Htc]. intros; apply Hm; now right. }
    unfold super_plus. set (f := filter _ _). assert (forall x, In x f -> side b x) as Hf.
    { intros x Hx. unfold f in Hx. apply filter_In in Hx. destruct Hx as [Hx _]. apply in_map_iff in Hx. destruct Hx as [[t c] [<- Htc]]. apply side_scal.
      exact (H3 [] _ (fun tc (F : In tc []) => match F with end) H2 (t, c) Htc). }
    destruct f as [|x [|y f']]; [apply sds_1, sd_zero|apply sds_1, Hf; now left|now apply sds_sum].
  Qed.
  Lemma sides_fold b l : forall x, sides b x -> (forall y, In y l -> sides b y) -> sides b (fold_left (fun a c => super_plus solt slt [a; c]) l x).
  Proof.
    induction l as [|y l IH]; intros x Hx Hl; [exact Hx|]. cbn [fold_left]. apply IH; [|intros; apply Hl; now right].
    apply sides_plus. intros z [<- |[<- |[]]]; [exact Hx|apply Hl; now left].
  Qed.
  Lemma sides_ssum b l e : (forall y, In y l -> sides b y) -> ssum solt slt l = Ok e -> sides b e.
  Proof.
    intros Hl H. destruct l as [|x l]; [discriminate|]. cbn [ssum] in H. injection H as <-. apply sides_fold; [|intros; apply Hl; now right].
    apply sides_plus. intros z [<- |[<- |[]]]; [apply Hl; now left|]. apply sds_1. change (side b (super_scal s0 SOne)). apply side_scal, sd_one.
  Qed.
  Lemma side_summands b s : sides b s -> forall x, In x (ssummands s) -> side b x.
  Proof. intros H x Hx. inversion H as [t Ht E|l Hl E]; subst; [|now apply Hl]. destruct Ht; destruct Hx as [<- |[]]; now constructor. Qed.
  Lemma side_noplus b s : side b s -> sflat_times [s] = [s].
  Proof. destruct 1; reflexivity. Qed.

  Section Times.
  Context (K K' : ocreators S).
  Local Notation careful := (careful_sorder solt slt).
  Local Notation real := (real_sorder solt slt).
  Definition same (r r' : res (sop S)) : Prop := (exists e, r = Ok e /\ r' = Ok e /\ ts e) \/ (r = Err OutOfFuel /\ r' = Err OutOfFuel).
  Lemma ts_times_inv l : ts (STimes l) -> exists a b, l = [SPre a; SPost b].
  Proof. inversion 1; subst. now exists a, b. Qed.
  Lemma after_rules (cls cls' : bincls (sop S)) m (r r' : res (sop S)) x y :
    get_binary_replacement cls x y = rmap Some r -> get_binary_replacement cls' x y = rmap Some r' -> same r r' ->
    neutral cls = SOne -> neutral cls' = SOne ->
    is_neutral cls = is_neutral cls' -> instance_args cls = (fun o => match o with STimes l => Some l | _ => None end) -> instance_args cls' = instance_args cls ->
    same (do z <- match_replace_binary cls m [x; y]; match z with inl e => Ok e | inr l' => Ok (STimes l') end)
         (do z <- match_replace_binary cls' m [x; y]; match z with inl e => Ok e | inr l' => Ok (STimes l') end).
  Proof.
    intros E E' Hs Hn Hn' Hi Ha Ha'. rewrite !mrb_two, E, E'. destruct m as [|[|m]]; [right; now split| |].
    - destruct Hs as [(e & -> & -> & _)|[-> ->]]; right; now split.
    - destruct Hs as [(e & -> & -> & He)|[-> ->]]; [|right; now split]. cbn [rmap bind]. rewrite <- Hi, Ha', Ha, Hn, Hn'.
      destruct (is_neutral cls e); [left; exists SOne; repeat split; apply ts_one|].
      destruct e; try (left; eexists; repeat split; exact He).
      destruct (ts_times_inv _ He) as (a & b & ->). left. eexists. repeat split. exact He.
  Qed.
  Lemma sort_two x y : pysorted (super_lt solt slt) [x; y] = [x; y] /\ super_lt solt slt y x = false
    \/ pysorted (super_lt solt slt) [x; y] = [y; x] /\ super_lt solt slt y x = true.
  Proof. unfold pysorted. cbn -[super_lt]. destruct (super_lt solt slt y x) eqn:E; [right|left]; now split. Qed.

  Lemma times2_same : forall n b x y, side b x -> side (negb b) y -> same (super_times K careful n [x; y]) (super_times K' real n [x; y]).
  Proof.
    induction n as [|m IH]; intros b x y Hx Hy; [right; now split|].
    change (same (stimes_step K careful (super_times K careful m) m [x; y]) (stimes_step K' real (super_times K' real m) m [x; y])).
    unfold stimes_step. destruct (existsb is_szero [x; y]) eqn:Ez; [left; exists SZero; repeat split; apply ts_zero|].
    assert (sflat_times [x; y] = [x; y]) as -> by (unfold sflat_times; destruct Hx, Hy; reflexivity).
    rewrite stwo_careful. unfold real_sorder. cbn [bind].
    assert (forall b x y, side b x -> side (negb b) y -> is_szero x = false -> is_szero y = false -> (forall a c, ~ (x = SPost a /\ y = SPre c)) ->
      same (match filter (fun o => negb (is_sone o)) [x; y] with
            | [] => Ok x | [z] => Ok z
            | fops => do r <- match_replace_binary (stimes_cls K (super_times K careful m)) m fops; match r with inl e => Ok e | inr l' => Ok (STimes l') end
            end)
           (match filter (fun o => negb (is_sone o)) [x; y] with
            | [] => Ok x | [z] => Ok z
            | fops => do r <- match_replace_binary (stimes_cls K' (super_times K' real m)) m fops; match r with inl e => Ok e | inr l' => Ok (STimes l') end
            end)) as G.
    { clear - IH. intros b x y Hx Hy Zx Zy N. cbn [filter]. destruct (is_sone x) eqn:Ox; cbn [negb].
      { destruct (is_sone y) eqn:Oy; cbn [negb]; left; [exists x|exists y]; repeat split; eapply side_ts; eassumption. }
      destruct (is_sone y) eqn:Oy; cbn [negb]; [left; exists x; repeat split; eapply side_ts; eassumption|].
      destruct Hx as [| |a Hb Pa|a Hb Pa|u a Hx]; try discriminate Zx; try discriminate Ox.
      3: { pose proof (IH b a y Hx Hy) as H1.
           apply (after_rules _ _ m (do p <- super_times K careful m [a; y]; Ok (super_scal u p)) (do p <- super_times K' real m [a; y]; Ok (super_scal u p))); try reflexivity.
           - unfold get_binary_replacement. cbn [stimes_cls binary_rules try_rules q001]. destruct H1 as [(e & -> & _ & _)|[-> _]]; reflexivity.
           - unfold get_binary_replacement. cbn [stimes_cls binary_rules try_rules q001]. destruct H1 as [(e & _ & -> & _)|[_ ->]]; reflexivity.
           - destruct H1 as [(e & -> & -> & He)|[-> ->]]; [|right; now split]. left. eexists. repeat split. now apply ts_super_scal. }
      all: inversion Hy as [E|E|c Hb' Pc E|c Hb' Pc E|v c Hc E]; subst; try discriminate Zy; try discriminate Oy; try discriminate Hb';
        try (exfalso; eapply N; split; reflexivity).
      - rewrite !mrb_two. destruct m; [right; now split|]. cbn. left. eexists. repeat split. now apply ts_times.
      - pose proof (IH true (SPre a) c (sd_pre true a eq_refl Pa) Hc) as H1.
        apply (after_rules _ _ m (do p <- super_times K careful m [SPre a; c]; Ok (super_scal v p)) (do p <- super_times K' real m [SPre a; c]; Ok (super_scal v p))); try reflexivity.
        + unfold get_binary_replacement. cbn [stimes_cls binary_rules try_rules q001 q002]. destruct H1 as [(e & -> & _ & _)|[-> _]]; reflexivity.
        + unfold get_binary_replacement. cbn [stimes_cls binary_rules try_rules q001 q002]. destruct H1 as [(e & _ & -> & _)|[_ ->]]; reflexivity.
        + destruct H1 as [(e & -> & -> & He)|[-> ->]]; [|right; now split]. left. eexists. repeat split. now apply ts_super_scal.
      - pose proof (IH false (SPost a) c (sd_post false a eq_refl Pa) Hc) as H1.
        apply (after_rules _ _ m (do p <- super_times K careful m [SPost a; c]; Ok (super_scal v p)) (do p <- super_times K' real m [SPost a; c]; Ok (super_scal v p))); try reflexivity.
        + unfold get_binary_replacement. cbn [stimes_cls binary_rules try_rules q001 q002]. destruct H1 as [(e & -> & _ & _)|[-> _]]; reflexivity.
        + unfold get_binary_replacement. cbn [stimes_cls binary_rules try_rules q001 q002]. destruct H1 as [(e & _ & -> & _)|[_ ->]]; reflexivity.
        + destruct H1 as [(e & -> & -> & He)|[-> ->]]; [|right; now split]. left. eexists. repeat split. now apply ts_super_scal. }
    cbn [existsb orb] in Ez. apply orb_false_iff in Ez. destruct Ez as [Zx Zy]. rewrite orb_false_r in Zy.
    destruct (sort_two x y) as [[-> L]|[-> L]].
    - apply (G b); try assumption. intros a c [-> ->]. discriminate L.
    - apply (G (negb b)); try assumption; [now rewrite negb_involutive|]. intros a c [-> ->]. discriminate L.
  Qed.
  End Times.
End Mono2.

Section Expand.
  Context {S : scalars} (l : nat) (solt : sop S -> sop S -> bool) (slt : list nat -> list nat -> bool).
  Context (K K' : ocreators S) (HK : agreeK l K K').
  Local Notation loc := (local_to (S:=S) l).
  Local Notation ts := (two_sided loc).
  Local Notation careful := (careful_sorder solt slt).
  Local Notation real := (real_sorder solt slt).
  Definition sagree (Q : sop S -> Prop) (r r' : res (sop S)) : Prop := r = r' /\ forall e, r = Ok e -> Q e.
  Lemma sagree_bind Q R r r' k k' : sagree Q r r' -> (forall e, Q e -> sagree R (k e) (k' e)) -> sagree R (bind r k) (bind r' k').
  Proof. intros [-> H] Hk. destruct r' as [e|x]; [apply Hk, H; reflexivity|split; [reflexivity|discriminate]]. Qed.
  Lemma sagree_ok (Q : sop S -> Prop) e : Q e -> sagree Q (Ok e) (Ok e).
  Proof. intros H. split; [reflexivity|]. intros e' E. now injection E as <-. Qed.
  Definition sagrees (Q : sop S -> Prop) (r r' : res (list (sop S))) : Prop := r = r' /\ forall es, r = Ok es -> Forall Q es.
  Lemma sagrees_mapM {X} Q (f f' : X -> res (sop S)) xs : (forall x, In x xs -> sagree Q (f x) (f' x)) -> sagrees Q (mapM f xs) (mapM f' xs).
  Proof.
    induction xs as [|x xs IH]; intros H; [split; [reflexivity|]; intros es E; injection E as <-; constructor|]. cbn [mapM].
    destruct (H x (or_introl eq_refl)) as [-> G]. destruct (f' x) as [y|e]; [|split; [reflexivity|discriminate]]. cbn [bind].
    destruct (IH (fun z Hz => H z (or_intror Hz))) as [-> G2]. destruct (mapM f' xs) as [ys|e]; [|split; [reflexivity|discriminate]]. cbn [bind].
    split; [reflexivity|]. intros es E. injection E as <-. constructor; [now apply G|now apply G2].
  Qed.
  Lemma pre_side (a : op S) : loc a -> side loc true (pre_create a).
  Proof.
    induction a; intros H; cbn [pre_create]; try (apply sd_pre; [reflexivity|exact H]); try apply sd_zero; try apply sd_one. apply side_scal. apply IHa. exact H.
  Qed.
  Lemma post_side (a : op S) : loc a -> side loc false (post_create a).
  Proof.
    induction a; intros H; cbn [post_create]; try (apply sd_post; [reflexivity|exact H]); try apply sd_zero; try apply sd_one. apply side_scal. apply IHa. exact H.
  Qed.
  Lemma pre_expand n a : loc a ->
    sagree (sides loc true) (do a' <- expand K n a; match a' with OPlus l => ssum solt slt (map pre_create l) | _ => Ok (pre_create a') end)
                            (do a' <- expand K' n a; match a' with OPlus l => ssum solt slt (map pre_create l) | _ => Ok (pre_create a') end).
  Proof.
    intros Ha. destruct (expand_agree l K K' HK n a Ha) as [-> G]. destruct (expand K' n a) as [a'|e]; [|split; [reflexivity|discriminate]]. cbn [bind].
    specialize (G a' eq_refl). split; [reflexivity|]. intros e E.
    assert (forall x, loc x -> sides loc true (pre_create x)) as H1 by (intros; now apply sds_1, pre_side).
    pose proof (H1 a' G) as H2. destruct a'; try (injection E as <-; exact H2). clear H2. apply (sides_ssum loc solt slt true _ e) in E; [exact E|].
    apply loc_plus in G. rewrite Forall_forall in G. intros y Hy. apply in_map_iff in Hy. destruct Hy as [x [<- Hx]]. apply H1. now apply G.
  Qed.
  Lemma post_expand n a : loc a ->
    sagree (sides loc false) (do a' <- expand K n a; match a' with OPlus l => ssum solt slt (map post_create l) | _ => Ok (post_create a') end)
                             (do a' <- expand K' n a; match a' with OPlus l => ssum solt slt (map post_create l) | _ => Ok (post_create a') end).
  Proof.
    intros Ha. destruct (expand_agree l K K' HK n a Ha) as [-> G]. destruct (expand K' n a) as [a'|e]; [|split; [reflexivity|discriminate]]. cbn [bind].
    specialize (G a' eq_refl). split; [reflexivity|]. intros e E.
    assert (forall x, loc x -> sides loc false (post_create x)) as H1 by (intros; now apply sds_1, post_side).
    pose proof (H1 a' G) as H2. destruct a'; try (injection E as <-; exact H2). clear H2. apply (sides_ssum loc solt slt false _ e) in E; [exact E|].
    apply loc_plus in G. rewrite Forall_forall in G. intros y Hy. apply in_map_iff in Hy. destruct Hy as [x [<- Hx]]. apply H1. now apply G.
  Qed.
  Lemma sides_ts b s : sides loc b s -> ts s.
  Proof. intros [t H|m H]; [now apply (side_ts loc b)|]. apply ts_plus. intros x Hx. now apply (side_ts loc b), H. Qed.
  Lemma ts_sadd_all m e : Forall ts m -> sadd_all solt slt m = Ok e -> ts e.
  Proof.
    intros Hm H. destruct m as [|x m]; [discriminate|]. cbn [sadd_all] in H. injection H as <-. pose proof (Forall_inv Hm) as Hx. apply Forall_inv_tail in Hm.
    revert x Hx. induction m as [|y m IH]; intros x Hx; [exact Hx|]. cbn [fold_left]. apply (IH (Forall_inv_tail Hm)). apply ts_super_plus.
    intros z [<- |[<- |[]]]; [exact Hx|exact (Forall_inv Hm)].
  Qed.
  Lemma ts_summands s : ts s -> forall x, In x (ssummands s) -> ts x.
  Proof. intros H x Hx. destruct s; try (destruct Hx as [<- |[]]; exact H). inversion H; subst. auto. Qed.
  Theorem sexpand_agree : forall n s, ts s -> sagree ts (sexpand solt slt K careful n s) (sexpand solt slt K' real n s).
  Proof.
    induction n as [|m IH]; intros s Hs; [split; [reflexivity|discriminate]|].
    assert (forall ret, ts ret -> sagree ts (match ret with SPlus _ => sexpand solt slt K careful m ret | _ => Ok ret end)
                                            (match ret with SPlus _ => sexpand solt slt K' real m ret | _ => Ok ret end)) as Hfin.
    { intros ret Hr. destruct ret; try (apply sagree_ok; exact Hr). now apply IH. }
    cbn [sexpand]. destruct Hs as [| |a Ha|a Ha|c t Ht|ls Hl|a b Ha Hb]; try (apply sagree_ok; constructor; assumption).
    - destruct (pre_expand m a Ha) as [E G]. split; [exact E|]. intros e He. apply (sides_ts true). now apply G.
    - destruct (post_expand m a Ha) as [E G]. split; [exact E|]. intros e He. apply (sides_ts false). now apply G.
    - apply (sagree_bind ts); [now apply IH|]. intros t' Ht'. destruct (sadd_all solt slt (map (super_scal c) (ssummands t'))) as [ret|e] eqn:E; [|split; [reflexivity|discriminate]].
      cbn [bind]. apply Hfin. apply (ts_sadd_all _ _) in E; [exact E|]. apply Forall_forall. intros y Hy. apply in_map_iff in Hy. destruct Hy as [x [<- Hx]].
      apply ts_super_scal. now apply (ts_summands t').
    - destruct (sagrees_mapM ts (sexpand solt slt K careful m) (sexpand solt slt K' real m) ls) as [-> G]; [intros x Hx; apply IH; now apply Hl|].
      destruct (mapM (sexpand solt slt K' real m) ls) as [l'|e]; [|split; [reflexivity|discriminate]]. cbn [bind]. apply sagree_ok. apply ts_super_plus.
      specialize (G l' eq_refl). rewrite Forall_forall in G. exact G.
    - destruct m as [|m]; [split; [reflexivity|discriminate]|]. cbn [mapM].
      destruct (pre_expand m a Ha) as [Ea Ga]. destruct (post_expand m b Hb) as [Eb Gb]. cbn [sexpand] in Ea, Eb |- *. rewrite <- Ea, <- Eb. clear Ea Eb.
      destruct (do a' <- expand K m a; _) as [pa|e]; [|split; [reflexivity|discriminate]]. cbn [bind].
      destruct (do a' <- expand K m b; _) as [pb|e]; [|split; [reflexivity|discriminate]]. cbn [bind map].
      specialize (Ga pa eq_refl). specialize (Gb pb eq_refl).
      destruct (sagrees_mapM ts (smul_combo K careful (Datatypes.S m)) (smul_combo K' real (Datatypes.S m)) (cartesian [ssummands pa; ssummands pb])) as [-> G].
      { intros c Hc. cbn [cartesian] in Hc. apply in_flat_map in Hc. destruct Hc as [x [Hx Hc]]. apply in_map_iff in Hc. destruct Hc as [t [<- Hc]].
        apply in_flat_map in Hc. destruct Hc as [y [Hy Hc]]. destruct Hc as [<- |[]].
        pose proof (side_summands loc true pa Ga x Hx) as Sx. pose proof (side_summands loc false pb Gb y Hy) as Sy. cbn [smul_combo foldM].
        destruct (times2_same loc solt slt K K' (Datatypes.S m) true x y Sx Sy) as [(e & -> & -> & He)|[-> ->]]; [now apply sagree_ok|split; [reflexivity|discriminate]]. }
      destruct (mapM _ _) as [summ|e]; [|split; [reflexivity|discriminate]]. cbn [bind]. specialize (G summ eq_refl).
      destruct (sadd_all solt slt summ) as [ret|e] eqn:E; [|split; [reflexivity|discriminate]]. cbn [bind]. apply Hfin. exact (ts_sadd_all _ _ G E).
  Qed.
End Expand.

Section Nf.
  Context {S : scalars} (l : nat) (solt : sop S -> sop S -> bool) (slt : list nat -> list nat -> bool).
  Context (K K' : ocreators S) (HK : agreeK l K K') (F : coeff_ops (S:=S)).
  Local Notation loc := (local_to (S:=S) l).
  Local Notation ts := (two_sided loc).
  Definition lform (f : form (S:=S)) : Prop := Forall loc (spres f) /\ Forall loc (sposts f) /\ Forall (fun p => loc (fst p)) (cross f).
  Definition ga {X} (Q : X -> Prop) (r r' : res X) : Prop := r = r' /\ forall e, r = Ok e -> Q e.
  Lemma ga_bind {X Y} (Q : X -> Prop) (R : Y -> Prop) r r' k k' : ga Q r r' -> (forall e, Q e -> ga R (k e) (k' e)) -> ga R (bind r k) (bind r' k').
  Proof. intros [-> H] Hk. destruct r' as [e|x]; [apply Hk, H; reflexivity|split; [reflexivity|discriminate]]. Qed.
  Lemma ga_ok {X} (Q : X -> Prop) e : Q e -> ga Q (Ok e) (Ok e).
  Proof. intros H. split; [reflexivity|]. intros e' E. now injection E as <-. Qed.
  Lemma ga_err {X} (Q : X -> Prop) e : ga Q (Err e) (Err e).
  Proof. split; [reflexivity|discriminate]. Qed.
  Lemma ga_same {X} (r : res X) : ga (fun _ => True) r r.
  Proof. now split. Qed.
  Lemma ga_scal c x : loc x -> ga loc (k_scal K c x) (k_scal K' c x).
  Proof. exact (a_scal l K K' HK c x). Qed.
  Lemma ga_plus x y : loc x -> loc y -> ga loc (k_plus K [x; y]) (k_plus K' [x; y]).
  Proof. intros Hx Hy. apply (a_plus l K K' HK). constructor; [exact Hx|constructor; [exact Hy|constructor]]. Qed.
  Lemma ga_times x y : loc x -> loc y -> ga loc (k_times K [x; y]) (k_times K' [x; y]).
  Proof. intros Hx Hy. apply (a_times l K K' HK). constructor; [exact Hx|constructor; [exact Hy|constructor]]. Qed.
  Lemma ga_adj x : loc x -> ga loc (oadj K x) (oadj K' x).
  Proof. exact (oadj_agree l K K' HK x). Qed.
  Lemma ga_expand n x : loc x -> ga loc (expand K n x) (expand K' n x).
  Proof. exact (expand_agree l K K' HK n x). Qed.
  Lemma ga_addscal x c : loc x -> ga loc (add_scalar K x c) (add_scalar K' x c).
  Proof. intros Hx. unfold add_scalar. apply (ga_bind loc); [now apply ga_scal|]. intros y Hy. now apply ga_plus. Qed.
  Lemma outer_keys a b c d : Forall (fun p => loc (fst p)) d -> loc a -> Forall (fun p => loc (fst p)) (outer_set (S:=S) a b c d).
  Proof.
    intros Hd Ha. induction d as [|[a' i] d IH]; cbn [outer_set]; [constructor; [exact Ha|constructor]|]. pose proof (Forall_inv Hd) as H1. pose proof (Forall_inv_tail Hd) as H2.
    destruct (oeqb a' a); constructor; try assumption. now apply IH.
  Qed.
  Lemma ga_classify f s : lform f -> ts s -> ga lform (classify K F f s) (classify K' F f s).
  Proof.
    intros (Hp & Hq & Hc) Hs. unfold classify. destruct (split_coeff s) as [c t] eqn:E.
    assert (ts t) as Ht by (destruct s; cbn in E; injection E as <- <-; try exact Hs; now inversion Hs).
    assert (forall a, loc a -> ga loc (times_coeff K c a) (times_coeff K' c a)) as Ht1 by (intros a Ha; destruct c; [now apply ga_scal|now apply ga_ok]).
    destruct t; try apply ga_err.
    - apply (ga_bind loc); [apply Ht1; now inversion Ht|]. intros x Hx. apply ga_ok. split; [apply Forall_app; split; [exact Hp|now constructor]|now split].
    - apply (ga_bind loc); [apply Ht1; now inversion Ht|]. intros x Hx. apply ga_ok. split; [exact Hp|]. split; [apply Forall_app; split; [exact Hq|now constructor]|exact Hc].
    - destruct (ts_times_inv loc _ Ht) as (a & b & ->). apply (ga_bind (fun _ => True)); [apply ga_same|]. intros cs _. apply ga_ok. split; [exact Hp|]. split; [exact Hq|].
      cbn [cross]. apply outer_keys; [exact Hc|]. now inversion Ht.
  Qed.
  Lemma ga_foldM {X Y} (Q : X -> Prop) (R : Y -> Prop) (f f' : X -> Y -> res X) es : (forall x y, Q x -> R y -> ga Q (f x y) (f' x y)) -> Forall R es ->
    forall x, Q x -> ga Q (foldM f x es) (foldM f' x es).
  Proof.
    intros H. induction es as [|y es IH]; intros He x Hx; [now apply ga_ok|]. cbn [foldM]. apply (ga_bind Q); [apply H; [exact Hx|exact (Forall_inv He)]|].
    intros z Hz. now apply IH; [apply (Forall_inv_tail He)|].
  Qed.
  Definition larg (a : arg (S:=S)) : Prop := match a with AOp x => loc x | ANum _ => True end.
  Lemma ga_osum es : Forall loc es -> ga larg (osum K es) (osum K' es).
  Proof.
    intros He. destruct es as [|x es]; [now apply ga_ok|]. cbn [osum]. apply (ga_bind loc); [apply ga_addscal; exact (Forall_inv He)|]. intros y Hy.
    apply (ga_bind loc); [|intros r Hr; now apply ga_ok]. apply (ga_foldM loc loc); [|exact (Forall_inv_tail He)|exact Hy]. intros; now apply ga_plus.
  Qed.
  Lemma ga_rmap {X Y} (Q : X -> Prop) (R : Y -> Prop) (g : X -> Y) r r' : ga Q r r' -> (forall e, Q e -> R (g e)) -> ga R (rmap g r) (rmap g r').
  Proof. intros [-> H] Hg. destruct r' as [e|x]; [apply ga_ok, Hg, H; reflexivity|apply ga_err]. Qed.
  Lemma ga_warns p q : larg p -> larg q -> ga (fun _ => True) (warns K p q) (warns K' p q).
  Proof.
    intros Hp Hq. unfold warns. apply (ga_bind (fun _ => True)).
    - destruct p, q; cbn [add_args]; try apply ga_same; (apply (ga_rmap loc); [|trivial]); [now apply ga_plus|now apply ga_addscal|now apply ga_addscal].
    - intros s _. destruct (negb _); [apply ga_same|]. destruct p as [x|c]; [|apply ga_same]. apply (ga_bind loc); [now apply ga_adj|]. intros ad Ha.
      apply (ga_bind loc); [now apply ga_plus|]. intros; apply ga_same.
  Qed.
  Lemma ga_finish n f : lform f -> ga (fun _ => True) (finish K F n f) (finish K' F n f).
  Proof.
    intros (Hp & Hq & Hc). unfold finish. apply (ga_bind (fun cs => Forall loc (snd cs))).
    - destruct (cross f) as [|[k i] [|]].
      + destruct (symb f); [apply ga_ok; constructor|apply ga_err].
      + pose proof (Forall_inv Hc) as Hk. cbn [fst] in Hk. apply (ga_bind loc); [now apply ga_adj|]. intros ad _. apply (ga_bind (fun _ => True)); [apply ga_same|]. intros sy _.
        apply (ga_bind (fun xs => loc (snd xs))).
        * destruct sy.
          -- unfold symbolic_one. apply (ga_bind (fun _ => True)); [apply ga_same|]. intros r _. apply (ga_bind loc); [now apply ga_scal|]. intros x Hx.
             apply (ga_bind loc); [now apply ga_adj|]. intros a Ha. apply (ga_bind loc); [now apply ga_times|]. intros p Hpp. apply (ga_bind loc); [now apply ga_scal|]. intros q Hqq.
             apply (ga_bind loc); [now apply ga_scal|]. intros sd Hsd. now apply ga_ok.
          -- unfold numeric_one. apply (ga_bind (fun _ => True)); [apply ga_same|]. intros r _. apply (ga_bind loc); [now apply ga_scal|]. intros x Hx.
             apply (ga_bind loc); [now apply ga_addscal|]. intros nl Hn. apply (ga_bind loc); [now apply ga_adj|]. intros a Ha. apply (ga_bind loc); [now apply ga_scal|]. intros h Hh.
             apply (ga_bind loc); [now apply ga_times|]. intros p Hpp. apply (ga_bind loc); [now apply ga_expand|]. intros sd Hsd. now apply ga_ok.
        * intros xs Hxs. apply ga_ok. now constructor.
      + apply ga_err.
    - intros cs Hcs. apply (ga_bind larg); [apply ga_osum, Forall_app; now split|]. intros p Hpp. apply (ga_bind larg); [apply ga_osum, Forall_app; now split|]. intros q Hqq.
      apply (ga_bind (fun _ => True)); [now apply ga_warns|]. intros w _. apply (ga_bind (fun _ => True)); [|intros; apply ga_same].
      destruct p as [x|c]; [|apply ga_same]. apply (ga_bind loc); [now apply ga_scal|]. intros y Hy. apply (ga_bind loc); [now apply ga_expand|]. intros; apply ga_same.
  Qed.
  Theorem nf_agree n L sym : ts L ->
    liouvillian_normal_form solt slt K (careful_sorder solt slt) F n L sym = liouvillian_normal_form solt slt K' (real_sorder solt slt) F n L sym.
  Proof.
    intros HL. unfold liouvillian_normal_form. destruct (sexpand_agree l solt slt K K' HK n L HL) as [-> G].
    destruct (sexpand solt slt K' (real_sorder solt slt) n L) as [L'|e]; [|reflexivity]. cbn [bind]. specialize (G L' eq_refl).
    destruct L' as [| | | | | |es| |]; try reflexivity. assert (Forall ts es) as He by (apply Forall_forall; now inversion G).
    destruct (ga_foldM lform ts (classify K F) (classify K' F) es ga_classify He (Form [] [] [] sym)) as [-> Gf]; [repeat split; constructor|].
    destruct (foldM (classify K' F) _ es) as [f|e]; [|reflexivity]. cbn [bind]. apply ga_finish. now apply Gf.
  Qed.
End Nf.
