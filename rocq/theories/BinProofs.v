From Coq Require Import Relations.
From Verif Require Import Prelude BinModel BinSpec.

Lemma app_inj_len {B} (a c b d : list B) : length a = length c -> a ++ b = c ++ d -> a = c /\ b = d.
Proof.
  revert c. induction a as [|x a IH]; intros [|z c]; cbn; try discriminate; intros H E.
  - split; [reflexivity|exact E].
  - injection E as <- E. injection H as H. destruct (IH c H E) as [-> ->]. split; reflexivity.
Qed.

Section P.
  Context {A : Type} (cls : bincls A).

  Lemma try_rules_spec (rules : list (A -> A -> outcome A)) x y r :
    try_rules rules x y = Ok (Some r) <->
    exists before rule after, rules = before ++ rule :: after /\
      (forall q, In q before -> q x y = NoMatch \/ q x y = Refuses) /\ rule x y = Replaces (Some r).
  Proof.
    induction rules as [|q qs IH]; cbn.
    - split; [discriminate|]. intros (b & q & a & H & _). destruct b; discriminate.
    - split.
      + intros H. destruct (q x y) eqn:E; try discriminate.
        * apply IH in H. destruct H as (b & q' & a & -> & Hb & Hq).
          exists (q :: b), q', a. split; [reflexivity|]. split; [|exact Hq].
          intros p [<-|Hp]; [left; exact E|apply Hb; exact Hp].
        * apply IH in H. destruct H as (b & q' & a & -> & Hb & Hq).
          exists (q :: b), q', a. split; [reflexivity|]. split; [|exact Hq].
          intros p [<-|Hp]; [right; exact E|apply Hb; exact Hp].
        * exists [], q, qs. split; [reflexivity|]. split; [intros p []|]. congruence.
      + intros (b & q' & a & H & Hb & Hq). destruct b as [|b0 b]; cbn in H; injection H as <- ->.
        * rewrite Hq. reflexivity.
        * assert (try_rules (b ++ q' :: a) x y = Ok (Some r)) as H.
          { apply IH. exists b, q', a. split; [reflexivity|]. split; [|exact Hq]. intros p Hp; apply Hb; right; exact Hp. }
          destruct (Hb q ltac:(left; reflexivity)) as [-> | ->]; exact H.
  Qed.

  Lemma gbr_spec x y r : get_binary_replacement cls x y = Ok (Some r) <-> rewrites_to cls x y r.
  Proof. apply try_rules_spec. Qed.

  Lemma split_last_some (a : list A) : a <> [] -> exists a' x, split_last a = Some (a', x) /\ a = a' ++ [x].
  Proof.
    intros H. unfold split_last. destruct (rev a) as [|x r] eqn:E.
    - exfalso; apply H. rewrite <- (rev_involutive a), E. reflexivity.
    - exists (rev r), x. split; [reflexivity|]. rewrite <- (rev_involutive a), E. reflexivity.
  Qed.
  Lemma split_last_none (a : list A) : split_last a = None -> a = [].
  Proof.
    unfold split_last. destruct (rev a) as [|x r] eqn:E; [|discriminate]. intros _.
    rewrite <- (rev_involutive a), E. reflexivity.
  Qed.
  Lemma split_last_inv (a a' : list A) x : split_last a = Some (a', x) -> a = a' ++ [x].
  Proof.
    unfold split_last. destruct (rev a) as [|z r] eqn:E; [discriminate|]. intros H; injection H as <- <-.
    rewrite <- (rev_involutive a), E. reflexivity.
  Qed.

  Lemma reach_refl l : reachable cls l l.
  Proof. apply rt_refl. Qed.
  Lemma reach_trans a b c : reachable cls a b -> reachable cls b c -> reachable cls a c.
  Proof. intros; eapply rt_trans; eassumption. Qed.
  Lemma reach_ctx p s a b : reachable cls a b -> reachable cls (p ++ a ++ s) (p ++ b ++ s).
  Proof.
    induction 1 as [a b (pre & x & y & post & r & -> & H & ->)|a|a b c _ IH1 _ IH2].
    - apply rt_step. exists (p ++ pre), x, y, (post ++ s), r.
      split; [rewrite <- !app_assoc; reflexivity|]. split; [exact H|]. rewrite <- !app_assoc; reflexivity.
    - apply rt_refl.
    - eapply rt_trans; eassumption.
  Qed.

  Lemma combine_reach fuel : forall a b out, mrb_combine cls fuel a b = Ok out -> reachable cls (a ++ b) out.
  Proof.
    induction fuel as [|fuel IH]; intros a b out; cbn [mrb_combine]; [discriminate|].
    destruct (split_last a) as [[a' x]|] eqn:E.
    2:{ intros H; injection H as <-. apply reach_refl. }
    apply split_last_inv in E. subst a.
    destruct b as [|y b']; [intros H; injection H as <-; apply reach_refl|].
    destruct (get_binary_replacement cls x y) as [[r|]|e] eqn:G; cbn [bind]; [| |discriminate].
    2:{ intros H; injection H as <-. apply reach_refl. }
    apply gbr_spec in G.
    assert (one_step cls ((a' ++ [x]) ++ y :: b') (a' ++ contributes cls r ++ b')) as S1.
    { exists a', x, y, b', r. split; [rewrite <- app_assoc; reflexivity|]. split; [exact G|reflexivity]. }
    destruct (is_neutral cls r) eqn:N.
    - intros H. apply IH in H. eapply reach_trans; [apply rt_step, S1|]. unfold contributes. rewrite N. exact H.
    - destruct (mrb_combine cls fuel a' _) as [l|e] eqn:E1; cbn [bind]; [|discriminate].
      intros H. apply IH in H. apply IH in E1.
      eapply reach_trans; [apply rt_step, S1|]. eapply reach_trans; [|exact H].
      unfold contributes. rewrite N.
      pose proof (reach_ctx [] b' _ _ E1) as R. cbn [app] in R. rewrite <- app_assoc in R. exact R.
  Qed.

  Lemma reduce_reach depth fuel : forall ops out, mrb_reduce cls depth fuel ops = Ok out -> reachable cls ops out.
  Proof.
    induction depth as [|depth IH]; intros ops out; cbn [mrb_reduce]; [discriminate|].
    destruct (length ops <=? 1); [intros H; injection H as <-; apply reach_refl|].
    destruct (mrb_reduce cls depth fuel (firstn _ _)) as [l|] eqn:E1; cbn [bind]; [|discriminate].
    destruct (mrb_reduce cls depth fuel (skipn _ _)) as [r|] eqn:E2; cbn [bind]; [|discriminate].
    intros H. apply IH in E1. apply IH in E2. apply combine_reach in H.
    eapply reach_trans; [|exact H].
    rewrite <- (firstn_skipn (length ops / 2) ops) at 1.
    eapply reach_trans.
    - pose proof (reach_ctx [] (skipn (length ops / 2) ops) _ _ E1) as R. cbn [app] in R. exact R.
    - pose proof (reach_ctx l [] _ _ E2) as R. rewrite !app_nil_r in R. exact R.
  Qed.

  (** *** products *)
  Lemma product_app (M : monoid) (den : A -> M) a b : product M den (a ++ b) = mul M (product M den a) (product M den b).
  Proof.
    induction a as [|x a IH]; cbn.
    - symmetry; apply mul_unit_l.
    - unfold product in *. rewrite IH. apply mul_assoc.
  Qed.

  Definition valid_in (M : monoid) (den : A -> M) : Prop :=
    (forall r, is_neutral cls r = true -> den r = unit_ M) /\
    (forall r args, instance_args cls r = Some args -> den r = product M den args) /\
    (forall x y r, rewrites_to cls x y r -> den r = mul M (den x) (den y)).

  Lemma contributes_product M den r : valid_in M den -> product M den (contributes cls r) = den r.
  Proof.
    intros (H1 & H2 & _). unfold contributes. destruct (is_neutral cls r) eqn:N.
    - cbn. symmetry; apply H1; exact N.
    - destruct (instance_args cls r) as [args|] eqn:E.
      + symmetry; apply H2; exact E.
      + cbn. apply mul_unit_r.
  Qed.
  Lemma reach_product M den a b : valid_in M den -> reachable cls a b -> product M den a = product M den b.
  Proof.
    intros HV. induction 1 as [a b (pre & x & y & post & r & -> & H & ->)|a|a b c _ IH1 _ IH2];
      [|reflexivity|congruence].
    rewrite !product_app. rewrite contributes_product by exact HV. destruct HV as (_ & _ & HV).
    rewrite (HV x y r H). f_equal. cbn. apply mul_assoc.
  Qed.

  (** *** fixpoint *)
  Lemma irr_app_pair a x y b : irreducible cls (a ++ [x]) -> irreducible cls (y :: b) ->
    ~ (exists r, rewrites_to cls x y r) -> irreducible cls ((a ++ [x]) ++ y :: b).
  Proof.
    intros H1 H2 H3 pre u v post E.
    destruct (Nat.lt_trichotomy (length pre) (length a)) as [L|[L|L]].
    - (* u,v inside a++[x] *)
      apply (H1 pre u v (firstn (length a - length pre - 1) post)).
      assert (firstn (length a + 1) ((a ++ [x]) ++ y :: b) = a ++ [x]) as F.
      { rewrite firstn_app, app_length. cbn [length]. rewrite Nat.sub_diag. cbn [firstn].
        rewrite app_nil_r. apply firstn_all2. rewrite app_length; cbn; lia. }
      rewrite E in F. rewrite firstn_app in F. rewrite (firstn_all2 pre) in F by lia.
      replace (length a + 1 - length pre) with (S (S (length a - length pre - 1))) in F by lia.
      cbn [firstn] in F. symmetry; exact F.
    - rewrite <- app_assoc in E. cbn [app] in E. 
      apply app_inj_len in E; [|lia]. destruct E as [_ E]. injection E as -> -> _. exact H3.
    - apply (H2 (skipn (length a + 1) pre) u v post).
      assert (skipn (length a + 1) ((a ++ [x]) ++ y :: b) = y :: b) as F.
      { rewrite skipn_app, app_length. cbn [length]. rewrite Nat.sub_diag. cbn [skipn].
        rewrite skipn_all2; [reflexivity|rewrite app_length; cbn; lia]. }
      rewrite E in F. rewrite skipn_app in F.
      replace (length a + 1 - length pre) with 0 in F by lia. cbn [skipn] in F. symmetry; exact F.
  Qed.

  Lemma irr_nil : irreducible cls [].
  Proof. intros pre x y post E. destruct pre; discriminate. Qed.
  Lemma irr_single x : irreducible cls [x].
  Proof. intros pre u v post E. destruct pre as [|p [|q pre]]; discriminate. Qed.
  Lemma irr_prefix a b : irreducible cls (a ++ b) -> irreducible cls a.
  Proof. intros H pre x y post ->. apply (H pre x y (post ++ b)). rewrite <- app_assoc. reflexivity. Qed.
  Lemma irr_suffix a b : irreducible cls (a ++ b) -> irreducible cls b.
  Proof. intros H pre x y post ->. apply (H (a ++ pre) x y post). rewrite <- app_assoc. reflexivity. Qed.

  Hypothesis contributes_irreducible : forall x y r, rewrites_to cls x y r -> irreducible cls (contributes cls r).

  Lemma combine_irr fuel : forall a b out, irreducible cls a -> irreducible cls b ->
    mrb_combine cls fuel a b = Ok out -> irreducible cls out.
  Proof.
    induction fuel as [|fuel IH]; intros a b out Ha Hb; cbn [mrb_combine]; [discriminate|].
    destruct (split_last a) as [[a' x]|] eqn:E.
    2:{ apply split_last_none in E. subst a. intros H; injection H as <-. exact Hb. }
    apply split_last_inv in E. subst a.
    destruct b as [|y b']; [intros H; injection H as <-; rewrite app_nil_r; exact Ha|].
    destruct (get_binary_replacement cls x y) as [[r|]|e] eqn:G; cbn [bind]; [| |discriminate].
    2:{ intros H; injection H as <-. apply irr_app_pair; try assumption.
        intros [r Hr]. apply gbr_spec in Hr. congruence. }
    apply gbr_spec in G.
    assert (irreducible cls a') as Ha' by (eapply irr_prefix; exact Ha).
    assert (irreducible cls b') as Hb' by (apply (irr_suffix [y] b'); exact Hb).
    pose proof (contributes_irreducible x y r G) as Hc. unfold contributes in Hc.
    destruct (is_neutral cls r) eqn:N.
    - intros H. exact (IH a' b' out Ha' Hb' H).
    - destruct (mrb_combine cls fuel a' _) as [l|e] eqn:E1; cbn [bind]; [|discriminate].
      intros H. refine (IH l b' out _ Hb' H). exact (IH a' _ l Ha' Hc E1).
  Qed.
  Lemma reduce_irr depth fuel : forall ops out, mrb_reduce cls depth fuel ops = Ok out -> irreducible cls out.
  Proof.
    induction depth as [|depth IH]; intros ops out; cbn [mrb_reduce]; [discriminate|].
    destruct (Nat.leb_spec (length ops) 1) as [L|L].
    - intros H; injection H as <-. destruct ops as [|x [|y ops]]; [apply irr_nil|apply irr_single|cbn in L; lia].
    - destruct (mrb_reduce cls depth fuel (firstn _ _)) as [l|] eqn:E1; cbn [bind]; [|discriminate].
      destruct (mrb_reduce cls depth fuel (skipn _ _)) as [r|] eqn:E2; cbn [bind]; [|discriminate].
      apply combine_irr; eapply IH; eassumption.
  Qed.
End P.

(** *** termination *)
Section T.
  Context {A : Type} (cls : bincls A) (w : A -> nat).
  Definition weight (l : list A) : nat := sum (map w l).
  Hypothesis no_raise : forall x y, exists r, get_binary_replacement cls x y = Ok r.
  Hypothesis decreases : forall x y r, rewrites_to cls x y r -> weight (contributes cls r) < w x + w y.

  Lemma weight_app a b : weight (a ++ b) = weight a + weight b.
  Proof. unfold weight, sum. induction a as [|x a IH]; cbn; [reflexivity|]. rewrite IH. lia. Qed.

  Lemma combine_total fuel : forall a b, weight a + weight b < fuel ->
    exists out, mrb_combine cls fuel a b = Ok out /\ weight out <= weight a + weight b.
  Proof.
    induction fuel as [|fuel IH]; intros a b L; [lia|]. cbn [mrb_combine].
    destruct (split_last a) as [[a' x]|] eqn:E.
    2:{ exists (a ++ b). split; [reflexivity|]. rewrite weight_app. lia. }
    apply split_last_inv in E. subst a. rewrite weight_app in *. cbn in L |- *.
    destruct b as [|y b'].
    { eexists. split; [reflexivity|]. rewrite app_nil_r, weight_app. cbn. lia. }
    cbn in L |- *.
    destruct (no_raise x y) as [[r|] G]; rewrite G; cbn [bind].
    2:{ eexists. split; [reflexivity|]. rewrite !weight_app. cbn. lia. }
    apply gbr_spec in G. apply decreases in G. unfold contributes in G.
    fold (sum (map w b')) in *. fold (weight b') in *.
    destruct (is_neutral cls r).
    - cbn in G. destruct (IH a' b' ltac:(lia)) as (out & -> & Hw). exists out. split; [reflexivity|lia].
    - destruct (IH a' _ ltac:(clear IH; eapply Nat.lt_le_trans; [apply Nat.add_lt_mono_l; exact G|lia])) as (l & -> & Hl).
      cbn [bind]. destruct (IH l b' ltac:(lia)) as (out & -> & Hw). exists out. split; [reflexivity|lia].
  Qed.

  Lemma reduce_total depth fuel : forall ops, length ops < depth -> weight ops < fuel ->
    exists out, mrb_reduce cls depth fuel ops = Ok out /\ weight out <= weight ops.
  Proof.
    induction depth as [|depth IH]; intros ops Ld Lf; [lia|]. cbn [mrb_reduce].
    destruct (Nat.leb_spec (length ops) 1) as [L|L]; [eexists; split; [reflexivity|lia]|].
    assert (length ops / 2 < length ops) as D1 by (apply Nat.div_lt; lia).
    assert (0 < length ops / 2) as D2 by (apply Nat.div_str_pos; lia).
    pose proof (weight_app (firstn (length ops / 2) ops) (skipn (length ops / 2) ops)) as W.
    rewrite firstn_skipn in W.
    destruct (IH (firstn (length ops / 2) ops)) as (l & -> & Hl); [rewrite firstn_length; lia|lia|].
    destruct (IH (skipn (length ops / 2) ops)) as (r & -> & Hr); [rewrite skipn_length; lia|lia|].
    cbn [bind]. destruct (combine_total fuel l r ltac:(lia)) as (out & -> & Ho).
    exists out. split; [reflexivity|lia].
  Qed.
End T.
