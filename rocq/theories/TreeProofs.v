(** Proofs for C21. *)
From Verif Require Import Prelude ListFacts PatModel TreeModel TreeSpec.

Section ExprInd.
  Context (P : expr -> Prop) (HL : forall v, P (Leaf v))
          (HN : forall c l k, Forall P l -> Forall (fun kv => P (snd kv)) k -> P (Node c l k)).
  Fixpoint expr_ind' (e : expr) : P e.
  Proof.
    destruct e as [v|c l k]; [apply HL|]. apply HN.
    - induction l as [|x l IH]; constructor; [apply expr_ind'|exact IH].
    - induction k as [|[n x] k IH]; constructor; [apply expr_ind'|exact IH].
  Defined.
End ExprInd.

Lemma expr_eqb_spec a : forall b, expr_eqb a b = true <-> a = b.
Proof.
  induction a as [v|c l k IHl IHk] using expr_ind'; intros [w|c' l' k']; simpl; try (split; discriminate).
  - rewrite Nat.eqb_eq. split; [intros ->; reflexivity|intros H; injection H; auto].
  - rewrite !andb_true_iff, Nat.eqb_eq.
    match goal with |- (_ /\ ?A = true) /\ ?B = true <-> _ =>
      assert (HA : A = true <-> l = l'); [|assert (HB : B = true <-> k = k')] end.
    + revert l'. induction IHl as [|x l Hx _ IH]; intros [|y l']; try (split; discriminate); [split; reflexivity|].
      rewrite andb_true_iff, Hx, IH. split; [intros [-> ->]; reflexivity|intros H; injection H; auto].
    + revert k'. induction IHk as [|[n x] k Hx _ IH]; intros [|[n' y] k']; try (split; discriminate); [split; reflexivity|].
      rewrite !andb_true_iff, Nat.eqb_eq, Hx, IH. simpl. split; [intros [[-> ->] ->]; reflexivity|intros H; injection H; auto].
    + rewrite HA, HB. split; [intros [[-> ->] ->]; reflexivity|intros H; injection H; auto].
Qed.

Lemma mapMs_app {A B} (f : A -> res B) l1 l2 :
  mapMs f (l1 ++ l2) = do a <- mapMs f l1; do b <- mapMs f l2; Ok (a ++ b).
Proof.
  induction l1 as [|x l1 IH]; simpl.
  - destruct (mapMs f l2); reflexivity.
  - destruct (f x); simpl; [|reflexivity]. rewrite IH. destruct (mapMs f l1); simpl; [|reflexivity].
    destruct (mapMs f l2); reflexivity.
Qed.
Lemma mapMkw_vals {A B} (f : A -> res B) (k : list (nat * A)) :
  mapMkw f k = do vs <- mapMs f (map snd k); Ok (combine (map fst k) vs).
Proof.
  induction k as [|[n x] k IH]; simpl; [reflexivity|]. destruct (f x); simpl; [|reflexivity].
  rewrite IH. destruct (mapMs f (map snd k)); reflexivity.
Qed.
Lemma mapMs_length {A B} (f : A -> res B) l r : mapMs f l = Ok r -> length r = length l.
Proof.
  revert r. induction l as [|x l IH]; simpl; intros r H; [injection H as <-; reflexivity|].
  destruct (f x); simpl in H; [|discriminate]. destruct (mapMs f l) as [ys|]; simpl in H; [|discriminate].
  injection H as <-. simpl. rewrite (IH ys eq_refl). reflexivity.
Qed.

(** ** the stack machine *)
Section Machine.
  Context (create : nat -> list expr -> list (nat * expr) -> res expr) (rules : list rule).
  Notation spec := (rewrite_up create (no_recurse rules)).
  Notation iteration := (iteration create rules).
  Notation run := (run create rules).

  (** a ProtoExpr given by its flat list of items *)
  Definition mk (c n : nat) (keys : list nat) (items : list expr) : proto :=
    Proto (firstn n items) (combine keys (skipn n items)) c.

  Lemma nth_error_firstn {A} (l : list A) n i : i < n -> nth_error (firstn n l) i = nth_error l i.
  Proof.
    revert n i. induction l as [|x l IH]; intros [|n] [|i] H; simpl; try reflexivity; try lia. apply IH. lia.
  Qed.
  Lemma nth_error_skipn' {A} (l : list A) n i : nth_error (skipn n l) i = nth_error l (n + i).
  Proof. revert l. induction n as [|n IH]; intros [|x l]; simpl; try reflexivity; [destruct i; reflexivity|apply IH]. Qed.
  Lemma map_snd_combine {A B} (l : list A) (l' : list B) : length l = length l' -> map snd (combine l l') = l'.
  Proof. revert l'. induction l as [|x l IH]; intros [|y l']; simpl; intros H; try reflexivity; try lia. rewrite IH; [reflexivity|lia]. Qed.

  Lemma mk_getitem c n keys items i :
    length items = n + length keys -> getitem (mk c n keys items) i = nth_error items i.
  Proof.
    intros Hl. unfold getitem, mk. simpl. rewrite firstn_length.
    replace (Nat.min n (length items)) with n by lia.
    destruct (Nat.ltb_spec i n) as [H|H].
    - apply nth_error_firstn. exact H.
    - rewrite map_snd_combine by (rewrite skipn_length; lia). rewrite nth_error_skipn'. f_equal. lia.
  Qed.
  Lemma set_at_mid {A} (l1 l2 : list A) x v : set_at (length l1) v (l1 ++ x :: l2) = l1 ++ v :: l2.
  Proof. induction l1 as [|y l1 IH]; simpl; [reflexivity|]. rewrite IH. reflexivity. Qed.
  Lemma set_value_combine (keys : list nat) (l1 l2 : list expr) x v :
    set_value (length l1) v (combine keys (l1 ++ x :: l2)) = combine keys (l1 ++ v :: l2).
  Proof.
    revert keys. induction l1 as [|y l1 IH]; intros [|k keys]; simpl; try reflexivity.
    rewrite IH. reflexivity.
  Qed.
  Lemma mk_setitem c n keys l1 x l2 v :
    length (l1 ++ x :: l2) = n + length keys ->
    setitem (mk c n keys (l1 ++ x :: l2)) (length l1) v = mk c n keys (l1 ++ v :: l2).
  Proof.
    intros Hl. unfold setitem, mk. simpl. rewrite firstn_length.
    replace (Nat.min n (length (l1 ++ x :: l2))) with n by lia.
    destruct (Nat.ltb_spec (length l1) n) as [H|H].
    - f_equal.
      + rewrite !firstn_app. rewrite (firstn_all2 l1) by lia.
        destruct (n - length l1) as [|d] eqn:Hd; [lia|]. simpl. apply set_at_mid.
      + rewrite !skipn_app. destruct (n - length l1) as [|d] eqn:Hd; [lia|]. reflexivity.
    - f_equal.
      + rewrite !firstn_app. replace (n - length l1) with 0 by lia. reflexivity.
      + rewrite !skipn_app. replace (n - length l1) with 0 by lia. simpl.
        replace (length l1 - n) with (length (skipn n l1)) by (rewrite skipn_length; lia).
        apply set_value_combine.
  Qed.

  (** reaching a state or a result after finitely many iterations *)
  Inductive steps : list (proto * nat) -> next -> Prop :=
  | st_refl st : steps st (Running st)
  | st_done st r : iteration st = Done r -> steps st (Done r)
  | st_next st st' x : iteration st = Running st' -> steps st' x -> steps st x.

  Lemma steps_trans st st' x : steps st (Running st') -> steps st' x -> steps st x.
  Proof.
    intros H. remember (Running st') as y. induction H as [st|st r H|st st1 x1 H _ IH]; intros Hx; subst.
    - injection Heqy as ->. exact Hx.
    - discriminate.
    - eapply st_next; [exact H|]. apply IH; [reflexivity|exact Hx].
  Qed.
  Lemma steps_run st r : steps st (Done r) -> exists n, forall m, n <= m -> run m st = Some r.
  Proof.
    intros H. remember (Done r) as y. induction H as [st|st r' H|st st1 x1 H _ IH]; subst.
    - discriminate.
    - injection Heqy as ->. exists 1. intros [|m] Hm; [lia|]. simpl. rewrite H. reflexivity.
    - destruct (IH eq_refl) as [n Hn]. exists (S n). intros [|m] Hm; [lia|]. simpl. rewrite H. apply Hn. lia.
  Qed.

  (** where the machine goes when a node with result [r] is finished *)
  Definition deliver (r : res expr) (rest : list (proto * nat)) : next :=
    match r with
    | Err x => Done (Err x)
    | Ok e => match rest with [] => Done (Ok e) | (p, j) :: rest' => Running ((setitem p j e, S j) :: rest') end
    end.

  Definition visits (e : expr) : Prop := forall rest,
    match e with
    | Leaf _ => True
    | Node c l k => steps ((Proto l k c, 0) :: rest) (deliver (spec e) rest)
    end.

  Lemma items_ok c n keys rest todo : Forall visits todo -> forall done,
    length (done ++ todo) = n + length keys ->
    match mapMs spec todo with
    | Err x => steps ((mk c n keys (done ++ todo), length done) :: rest) (Done (Err x))
    | Ok todo' => steps ((mk c n keys (done ++ todo), length done) :: rest)
                        (Running ((mk c n keys (done ++ todo'), length (done ++ todo')) :: rest))
    end.
  Proof.
    induction 1 as [|x todo Hx _ IH]; intros done Hlen; simpl.
    - rewrite !app_nil_r. apply st_refl.
    - assert (Hget : getitem (mk c n keys (done ++ x :: todo)) (length done) = Some x).
      { rewrite mk_getitem by exact Hlen. rewrite nth_error_app2 by lia. rewrite Nat.sub_diag. reflexivity. }
      assert (Hafter : forall y,
        match mapMs spec todo with
        | Err ex => steps ((mk c n keys (done ++ y :: todo), S (length done)) :: rest) (Done (Err ex))
        | Ok todo' => steps ((mk c n keys (done ++ y :: todo), S (length done)) :: rest)
                        (Running ((mk c n keys (done ++ y :: todo'), length (done ++ y :: todo')) :: rest))
        end).
      { intros y. specialize (IH (done ++ [y])).
        replace ((done ++ [y]) ++ todo) with (done ++ y :: todo) in IH by (rewrite <- app_assoc; reflexivity).
        replace (length (done ++ [y])) with (S (length done)) in IH by (rewrite app_length; simpl; lia).
        assert (H1 : length (done ++ y :: todo) = n + length keys) by (rewrite app_length in *; simpl in *; lia).
        specialize (IH H1). destruct (mapMs spec todo) as [todo'|ex]; [|exact IH].
        replace ((done ++ [y]) ++ todo') with (done ++ y :: todo') in IH by (rewrite <- app_assoc; reflexivity). exact IH. }
      destruct x as [v|c' l' k'].
      + simpl. destruct (no_recurse rules (Leaf v)) as [y|ex] eqn:Hy; simpl.
        * specialize (Hafter y). assert (Hit : iteration ((mk c n keys (done ++ Leaf v :: todo), length done) :: rest)
            = Running ((mk c n keys (done ++ y :: todo), S (length done)) :: rest)).
          { unfold TreeModel.iteration. rewrite Hget, Hy. rewrite mk_setitem by exact Hlen. reflexivity. }
          destruct (mapMs spec todo) as [todo'|ex]; simpl; (eapply st_next; [exact Hit|exact Hafter]).
        * apply st_done. unfold TreeModel.iteration. rewrite Hget, Hy. reflexivity.
      + assert (Hit : iteration ((mk c n keys (done ++ Node c' l' k' :: todo), length done) :: rest)
            = Running ((Proto l' k' c', 0) :: (mk c n keys (done ++ Node c' l' k' :: todo), length done) :: rest)).
        { unfold TreeModel.iteration. rewrite Hget. reflexivity. }
        specialize (Hx ((mk c n keys (done ++ Node c' l' k' :: todo), length done) :: rest)). simpl in Hx.
        change (do l'0 <- mapMs spec l'; do k'0 <- mapMkw spec k'; do e' <- create c' l'0 k'0; no_recurse rules e')
          with (spec (Node c' l' k')) in Hx |- *.
        destruct (spec (Node c' l' k')) as [y|ex]; simpl in Hx |- *.
        * rewrite mk_setitem in Hx by exact Hlen. specialize (Hafter y).
          destruct (mapMs spec todo) as [todo'|ex]; simpl; (eapply st_next; [exact Hit|]); (eapply steps_trans; [exact Hx|exact Hafter]).
        * eapply st_next; [exact Hit|exact Hx].
  Qed.

  Lemma all_visits e : visits e.
  Proof.
    induction e as [v|c l k IHl IHk] using expr_ind'; intros rest; [exact I|].
    assert (Hall : Forall visits (l ++ map snd k)).
    { apply Forall_app. split; [exact IHl|]. apply Forall_map. exact IHk. }
    assert (Hmk : Proto l k c = mk c (length l) (map fst k) (l ++ map snd k)).
    { unfold mk. rewrite firstn_app, firstn_all, Nat.sub_diag, skipn_app, skipn_all, Nat.sub_diag. simpl. rewrite app_nil_r.
      f_equal. clear. induction k as [|[n x] k IH]; simpl; [reflexivity|]. rewrite <- IH. reflexivity. }
    pose proof (items_ok c (length l) (map fst k) rest (l ++ map snd k) Hall []) as Hi.
    simpl app in Hi. rewrite <- Hmk in Hi. specialize (Hi ltac:(rewrite app_length, !map_length; reflexivity)).
    simpl spec. rewrite mapMkw_vals. rewrite mapMs_app in Hi.
    destruct (mapMs spec l) as [l'|ex] eqn:Hl; simpl in Hi |- *; [|exact Hi].
    destruct (mapMs spec (map snd k)) as [k'|ex] eqn:Hk; simpl in Hi |- *; [|exact Hi].
    apply mapMs_length in Hl. apply mapMs_length in Hk. rewrite map_length in Hk.
    eapply steps_trans; [exact Hi|].
    assert (Hmk' : mk c (length l) (map fst k) (l' ++ k') = Proto l' (combine (map fst k) k') c).
    { unfold mk. rewrite <- Hl, firstn_app, firstn_all, Nat.sub_diag, skipn_app, skipn_all, Nat.sub_diag. simpl. rewrite app_nil_r. reflexivity. }
    assert (Hend : getitem (mk c (length l) (map fst k) (l' ++ k')) (length (l' ++ k')) = None).
    { rewrite mk_getitem by (rewrite app_length, map_length; lia). apply nth_error_None. lia. }
    assert (Hit : iteration ((mk c (length l) (map fst k) (l' ++ k'), length (l' ++ k')) :: rest)
       = deliver (do e' <- create c l' (combine (map fst k) k'); no_recurse rules e') rest).
    { unfold TreeModel.iteration. rewrite Hend, Hmk'. simpl.
      destruct (create c l' (combine (map fst k) k')) as [e'|ex]; simpl; [|reflexivity].
      destruct (no_recurse rules e') as [e''|ex]; simpl; [|reflexivity]. destruct rest as [|[p j] rest]; reflexivity. }
    destruct (deliver (do e' <- create c l' (combine (map fst k) k'); no_recurse rules e') rest) as [st|r] eqn:Hd.
    - eapply st_next; [exact Hit|]. apply st_refl.
    - apply st_done. exact Hit.
  Qed.

  Lemma machine_correct e : exists n, forall m, n <= m -> apply_rules_loop create rules m e = Some (spec e).
  Proof.
    destruct e as [v|c l k]; [exists 0; reflexivity|].
    pose proof (all_visits (Node c l k) []) as H. simpl visits in H.
    apply (steps_run [(Proto l k c, 0)]). destruct (spec (Node c l k)) as [e|x]; exact H.
  Qed.
End Machine.

Lemma no_recurse_first rs e : first_rule rs e (no_recurse rs e).
Proof.
  induction rs as [|[p f] rs IH]; simpl; [constructor|].
  destruct (p e) as [m| |x] eqn:Hp.
  - destruct (f m) as [t|ex] eqn:Hf.
    + eapply fr_apply; [exact Hp|exact Hf|discriminate].
    + destruct ex; try (eapply fr_apply; [exact Hp|exact Hf|discriminate]).
      eapply fr_decline; eassumption.
  - apply fr_skip; assumption.
  - apply fr_raise. exact Hp.
Qed.
Lemma first_rule_fun rs e r r' : first_rule rs e r -> first_rule rs e r' -> r = r'.
Proof.
  intros H. revert r'. induction H; intros r' H'; inversion H'; subst; try congruence; auto.
Qed.

(** ** substitution *)
Lemma vlookup_maps m e : match vlookup m e with Some t => maps_to m e t | None => unmapped m e end.
Proof.
  induction m as [|[k v] m IH]; cbn [vlookup]; [intros []|]. destruct (expr_eqb k e) eqn:E.
  - apply expr_eqb_spec in E. subst k. exists [], m. split; [reflexivity|intros []].
  - assert (k <> e) as N by (intros ->; assert (expr_eqb e e = true) by (now apply expr_eqb_spec); congruence).
    destruct (vlookup m e) as [t|].
    + destruct IH as (m1 & m2 & -> & Hn). exists ((k, v) :: m1), m2. split; [reflexivity|]. intros [H|H]; [exact (N H)|exact (Hn H)].
    + intros [H|H]; [exact (N H)|exact (IH H)].
Qed.
Lemma vlookup_some m e t : vlookup m e = Some t -> maps_to m e t.
Proof. intros E. pose proof (vlookup_maps m e) as H. now rewrite E in H. Qed.
Lemma vlookup_none m e : vlookup m e = None <-> unmapped m e.
Proof.
  pose proof (vlookup_maps m e) as H. destruct (vlookup m e) as [t|]; [|now split]. split; [discriminate|]. intros N. destruct H as (m1 & m2 & -> & _).
  exfalso. apply N. rewrite map_app, in_app_iff. right. now left.
Qed.
Definition builds (create : nat -> list expr -> list (nat * expr) -> res expr) : Prop :=
  forall c l k, create c l k = Ok (Node c l k).

Section Subst.
  Context (create : nat -> list expr -> list (nat * expr) -> res expr) (singleton : nat -> bool).
  (** singletons have no arguments *)
  Fixpoint singletons_ok (e : expr) : Prop :=
    match e with
    | Leaf _ => True
    | Node c l k => (singleton c = true -> l = [] /\ k = [])
                    /\ fold_right (fun x P => singletons_ok x /\ P) True l
                    /\ fold_right (fun x P => singletons_ok (snd x) /\ P) True k
    end.
  Lemma fold_Forall {A} (Q : A -> Prop) l : fold_right (fun x P => Q x /\ P) True l <-> Forall Q l.
  Proof. induction l as [|x l IH]; simpl; [split; constructor|]. rewrite IH. split; [intros [? ?]; constructor; assumption|intros H; inversion H; auto]. Qed.

  Lemma mapMs_Forall2 {A B} (f : A -> res B) (R : A -> B -> Prop) l :
    Forall (fun x => exists y, f x = Ok y /\ R x y) l -> exists l', mapMs f l = Ok l' /\ Forall2 R l l'.
  Proof.
    induction 1 as [|x l (y & Hy & Hr) _ IH]; simpl; [exists []; split; [reflexivity|constructor]|].
    destruct IH as (l' & Hl & Hf). rewrite Hy. simpl. rewrite Hl. simpl. exists (y :: l'). split; [reflexivity|constructor; assumption].
  Qed.

  Lemma psubstitute_replaced m : builds create -> forall e, singletons_ok e ->
    exists e', psubstitute create singleton m e = Ok e' /\ replaced m e e'.
  Proof.
    intros Hb. induction e as [v|c l k IHl IHk] using expr_ind'; intros Hs.
    - simpl. destruct (vlookup m (Leaf v)) as [t|] eqn:Hv.
      + exists t. split; [reflexivity|apply rep_here, vlookup_some, Hv].
      + exists (Leaf v). split; [reflexivity|apply rep_leaf, vlookup_none, Hv].
    - simpl in Hs. destruct Hs as (Hs0 & Hsl & Hsk). apply fold_Forall in Hsl.
      apply (fold_Forall (fun x => singletons_ok (snd x))) in Hsk.
      cbn [psubstitute]. destruct (vlookup m (Node c l k)) as [t|] eqn:Hv.
      + exists t. split; [reflexivity|apply rep_here, vlookup_some, Hv].
      + destruct (singleton c) eqn:Hc.
        * destruct (Hs0 eq_refl) as [-> ->]. eexists. split; [reflexivity|]. apply rep_node; [apply vlookup_none, Hv|constructor|constructor].
        * destruct (mapMs_Forall2 (psubstitute create singleton m) (replaced m) l) as (l' & Hl' & Hf').
          { rewrite Forall_forall in *. intros x Hx. exact (IHl x Hx (Hsl x Hx)). }
          assert (Hk : exists k', mapMkw (psubstitute create singleton m) k = Ok k'
                        /\ Forall2 (fun x y => fst x = fst y /\ replaced m (snd x) (snd y)) k k').
          { clear - IHk Hsk. induction k as [|[n x] k IH]; [exists []; split; [reflexivity|constructor]|].
            inversion IHk; inversion Hsk; subst. simpl. simpl in *. destruct H1 as (y & Hy & Hr); [assumption|]. rewrite Hy. simpl.
            destruct IH as (k' & Hk' & Hf); [assumption|assumption|]. rewrite Hk'. simpl. exists ((n, y) :: k'). split; [reflexivity|constructor; auto]. }
          destruct Hk as (k' & Hk' & Hfk).
          rewrite Hl'. simpl. rewrite Hk'. simpl. rewrite Hb. simpl. eexists. split; [reflexivity|]. apply rep_node; [apply vlookup_none, Hv|assumption|assumption].
  Qed.

  Lemma substitute_psubstitute m c l k r :
    substitute create singleton m (Node c l k) = r -> r <> Err AttributeError ->
    psubstitute create singleton m (Node c l k) = r.
  Proof.
    unfold substitute. cbn [psubstitute]. intros -> Hr. unfold wrap. destruct r as [?|[]]; congruence.
  Qed.

  (** a map without occurrences leaves the expression alone *)
  Fixpoint stable (e : expr) : Prop :=
    match e with
    | Leaf _ => True
    | Node c l k => create c l k = Ok e
                    /\ fold_right (fun x P => stable x /\ P) True l
                    /\ fold_right (fun x P => stable (snd x) /\ P) True k
    end.
  Lemma occurs_self e : occurs e e.
  Proof. unfold occurs. destruct e; simpl; [auto|]. rewrite !in_app_iff. right. right. left. reflexivity. Qed.
  Lemma occurs_arg x y c l k : In y l -> occurs x y -> occurs x (Node c l k).
  Proof. intros Hy Hx. unfold occurs in *. simpl. rewrite !in_app_iff. left. apply in_concat. exists (postorder y). split; [apply in_map; exact Hy|exact Hx]. Qed.
  Lemma occurs_kwarg x y c l k : In y k -> occurs x (snd y) -> occurs x (Node c l k).
  Proof. intros Hy Hx. unfold occurs in *. simpl. rewrite !in_app_iff. right. left. apply in_concat. exists (postorder (snd y)).
    split; [apply (in_map (fun kv => postorder (snd kv))); exact Hy|exact Hx]. Qed.

  Lemma mapMs_id {A} (f : A -> res A) l : Forall (fun x => f x = Ok x) l -> mapMs f l = Ok l.
  Proof. induction 1 as [|x l Hx _ IH]; simpl; [reflexivity|]. rewrite Hx. simpl. rewrite IH. reflexivity. Qed.
  Lemma mapMkw_id {A} (f : A -> res A) (k : list (nat * A)) : Forall (fun x => f (snd x) = Ok (snd x)) k -> mapMkw f k = Ok k.
  Proof. induction 1 as [|[n x] l Hx _ IH]; simpl; [reflexivity|]. simpl in Hx. rewrite Hx. simpl. rewrite IH. reflexivity. Qed.

  Lemma psubstitute_id m e : stable e -> (forall x, occurs x e -> vlookup m x = None) ->
    psubstitute create singleton m e = Ok e.
  Proof.
    induction e as [v|c l k IHl IHk] using expr_ind'; intros Hs Hm.
    - simpl. rewrite (Hm (Leaf v) (occurs_self _)). reflexivity.
    - cbn [psubstitute]. rewrite (Hm _ (occurs_self _)). destruct (singleton c); [reflexivity|].
      simpl in Hs. destruct Hs as (Hc & Hl & Hk). apply fold_Forall in Hl. apply (fold_Forall (fun x => stable (snd x))) in Hk.
      rewrite mapMs_id.
      2:{ rewrite Forall_forall in *. intros x Hx. apply IHl; [exact Hx|exact (Hl x Hx)|]. intros y Hy. apply Hm. exact (occurs_arg _ _ _ _ _ Hx Hy). }
      simpl. rewrite mapMkw_id.
      2:{ rewrite Forall_forall in *. intros x Hx. apply IHk; [exact Hx|exact (Hk x Hx)|]. intros y Hy. apply Hm. exact (occurs_kwarg _ _ _ _ _ Hx Hy). }
      simpl. rewrite Hc. reflexivity.
  Qed.
End Subst.

(** ** substitution lemma: substituting atoms = evaluating in the updated environment *)
Section Eval.
  Context {V : Type} (interp : nat -> list V -> list (nat * V) -> V).
  Fixpoint eval (rho : nat -> V) (e : expr) : V :=
    match e with
    | Leaf v => rho v
    | Node c l k => interp c (map (eval rho) l) (map (fun kv => (fst kv, eval rho (snd kv))) k)
    end.
  Definition update_env (rho : nat -> V) (m : var_map) : nat -> V :=
    fun v => match find (fun kv => match fst kv with Leaf w => w =? v | _ => false end) m with Some kv => eval rho (snd kv) | None => rho v end.
  Lemma update_env_lookup rho m v : update_env rho m v = match vlookup m (Leaf v) with Some t => eval rho t | None => rho v end.
  Proof.
    unfold update_env. induction m as [|[k t] m IH]; [reflexivity|]. cbn [find fst vlookup]. destruct k as [w|c l kw]; cbn [expr_eqb]; [|exact IH].
    destruct (w =? v); [reflexivity|exact IH].
  Qed.
  Definition sound_create (create : nat -> list expr -> list (nat * expr) -> res expr) : Prop :=
    forall rho c l k e, create c l k = Ok e -> eval rho e = eval rho (Node c l k).

  Lemma vlookup_leaf_only m c l k : Forall (fun kv => exists v, fst kv = Leaf v) m -> vlookup m (Node c l k) = None.
  Proof. induction 1 as [|[x y] m [v Hv] _ IH]; simpl; [reflexivity|]. simpl in Hv. subst x. simpl. exact IH. Qed.

  Lemma eval_psubstitute create singleton m rho :
    Forall (fun kv => exists v, fst kv = Leaf v) m ->
    sound_create create -> (forall c l k, create c l k <> Err AttributeError) -> 
    forall e e', singletons_ok singleton e ->
    psubstitute create singleton m e = Ok e' -> eval rho e' = eval (update_env rho m) e.
  Proof.
    intros Hm Hc Hna. 
    assert (HnoAE : forall e, psubstitute create singleton m e <> Err AttributeError).
    { intros e. destruct e; cbn [psubstitute]; unfold wrap.
      - destruct (vlookup m (Leaf v)); discriminate.
      - match goal with |- match ?A with _ => _ end <> _ => destruct A as [?|[]] end; try discriminate.
        destruct (vlookup m (Node cls args kwargs)); discriminate. }
    induction e as [v|c l k IHl IHk] using expr_ind'; intros e' Hs He.
    - cbn [psubstitute wrap] in He. cbn [eval]. rewrite update_env_lookup. destruct (vlookup m (Leaf v)); injection He as <-; reflexivity.
    - cbn [psubstitute] in He. rewrite (vlookup_leaf_only m c l k Hm) in He.
      simpl in Hs. destruct Hs as (Hs0 & Hsl & Hsk). apply fold_Forall in Hsl.
      apply (fold_Forall (fun x => singletons_ok singleton (snd x))) in Hsk.
      destruct (singleton c).
      + destruct (Hs0 eq_refl) as [-> ->]. simpl in He. injection He as <-. reflexivity.
      + assert (Hl : forall l', mapMs (psubstitute create singleton m) l = Ok l' -> map (eval rho) l' = map (eval (update_env rho m)) l).
        { clear He Hs0. revert IHl Hsl. induction l as [|x l IH]; intros IHl Hsl l' H; simpl in H; [injection H as <-; reflexivity|].
          inversion IHl; inversion Hsl; subst.
          destruct (psubstitute create singleton m x) as [y|] eqn:Hx; simpl in H; [|discriminate].
          destruct (mapMs (psubstitute create singleton m) l) as [ys|] eqn:Hys; simpl in H; [|discriminate].
          injection H as <-. simpl. rewrite (H2 y) by auto. rewrite (IH H3 H7 ys eq_refl). reflexivity. }
        assert (Hk : forall k', mapMkw (psubstitute create singleton m) k = Ok k' ->
           map (fun kv => (fst kv, eval rho (snd kv))) k' = map (fun kv => (fst kv, eval (update_env rho m) (snd kv))) k).
        { clear He Hl Hs0. revert IHk Hsk. induction k as [|[n x] k IH]; intros IHk Hsk l' H; simpl in H; [injection H as <-; reflexivity|].
          inversion IHk; inversion Hsk; subst. simpl in *.
          destruct (psubstitute create singleton m x) as [y|] eqn:Hx; simpl in H; [|discriminate].
          destruct (mapMkw (psubstitute create singleton m) k) as [ys|] eqn:Hys; simpl in H; [|discriminate].
          injection H as <-. simpl. rewrite (H2 y) by auto. rewrite (IH H3 H7 ys eq_refl). reflexivity. }
        assert (Hmm : forall l0, mapMs (psubstitute create singleton m) l0 <> Err AttributeError).
        { induction l0 as [|x l0 IH]; simpl; [discriminate|]. pose proof (HnoAE x). destruct (psubstitute create singleton m x); simpl; [|congruence].
          destruct (mapMs (psubstitute create singleton m) l0); simpl; congruence. }
        assert (Hmk : forall k0, mapMkw (psubstitute create singleton m) k0 <> Err AttributeError).
        { induction k0 as [|[n x] l0 IH]; simpl; [discriminate|]. pose proof (HnoAE x). destruct (psubstitute create singleton m x); simpl; [|congruence].
          destruct (mapMkw (psubstitute create singleton m) l0); simpl; congruence. }
        destruct (mapMs (psubstitute create singleton m) l) as [l'|x1] eqn:E1; simpl in He.
        2:{ specialize (Hmm l). rewrite E1 in Hmm. unfold wrap in He. destruct x1; congruence. }
        destruct (mapMkw (psubstitute create singleton m) k) as [k'|x1] eqn:E2; simpl in He.
        2:{ specialize (Hmk k). rewrite E2 in Hmk. unfold wrap in He. destruct x1; congruence. }
        destruct (create c l' k') as [e1|x1] eqn:E3.
        * simpl in He. injection He as <-. rewrite (Hc rho c l' k' e1 E3). simpl. rewrite (Hl l' eq_refl), (Hk k' eq_refl). reflexivity.
        * specialize (Hna c l' k'). rewrite E3 in Hna. unfold wrap in He. destruct x1; congruence.
  Qed.
End Eval.

(** ** findall *)
Definition is_match (pat : expr -> mres expr) (e : expr) : bool := match pat e with MOk _ => true | _ => false end.
Definition dict_of (pat : expr -> mres expr) (e : expr) : list (mdict expr) := match pat e with MOk m => [m] | _ => [] end.

Lemma concat_filter_map {A} (f : A -> bool) (ls : list (list A)) : concat (map (filter f) ls) = filter f (concat ls).
Proof. induction ls as [|l ls IH]; simpl; [reflexivity|]. rewrite filter_app, IH. reflexivity. Qed.

Lemma findall_ok pat : (forall e x, pat e <> MExc x) -> forall e,
  findall pat e = Ok (filter (is_match pat) (postorder e))
  /\ finditer pat e = Ok (concat (map (dict_of pat) (postorder e))).
Proof.
  intros Hx. induction e as [v|c l k IHl IHk] using expr_ind'.
  - simpl. unfold is_match, dict_of. destruct (pat (Leaf v)) as [m| |x] eqn:Hp; try (split; reflexivity). exfalso. exact (Hx _ _ Hp).
  - assert (Hl1 : mapMs (findall pat) l = Ok (map (fun e => filter (is_match pat) (postorder e)) l)
                  /\ mapMs (finditer pat) l = Ok (map (fun e => concat (map (dict_of pat) (postorder e))) l)).
    { clear IHk. induction IHl as [|x l [Ha Hb] _ [IH1 IH2]]; simpl; [split; reflexivity|]. rewrite Ha, Hb. simpl. rewrite IH1, IH2. split; reflexivity. }
    assert (Hk1 : mapMkw (findall pat) k = Ok (map (fun e => (fst e, filter (is_match pat) (postorder (snd e)))) k)
                  /\ mapMkw (finditer pat) k = Ok (map (fun e => (fst e, concat (map (dict_of pat) (postorder (snd e))))) k)).
    { clear IHl Hl1. induction IHk as [|[n x] k [Ha Hb] _ [IH1 IH2]]; simpl; [split; reflexivity|]. simpl in Ha, Hb. rewrite Ha, Hb. simpl. rewrite IH1, IH2. split; reflexivity. }
    destruct Hl1 as [Hl1 Hl2]. destruct Hk1 as [Hk1 Hk2]. cbn [findall finditer]. rewrite Hl1, Hl2. simpl. rewrite Hk1, Hk2. simpl.
    rewrite !map_map. simpl.
    assert (F1 : concat (map (fun e => filter (is_match pat) (postorder e)) l) = filter (is_match pat) (concat (map postorder l))).
    { rewrite <- concat_filter_map, map_map. reflexivity. }
    assert (F2 : concat (map (fun x : nat * expr => filter (is_match pat) (postorder (snd x))) k) = filter (is_match pat) (concat (map (fun kv => postorder (snd kv)) k))).
    { rewrite <- concat_filter_map, map_map. reflexivity. }
    assert (F3 : concat (map (fun e => concat (map (dict_of pat) (postorder e))) l) = concat (map (dict_of pat) (concat (map postorder l)))).
    { clear. induction l as [|x l IH]; simpl; [reflexivity|]. rewrite map_app, concat_app, IH. reflexivity. }
    assert (F4 : concat (map (fun x : nat * expr => concat (map (dict_of pat) (postorder (snd x)))) k) = concat (map (dict_of pat) (concat (map (fun kv => postorder (snd kv)) k)))).
    { clear. induction k as [|x l IH]; simpl; [reflexivity|]. rewrite map_app, concat_app, IH. reflexivity. }
    rewrite F1, F2, F3, F4, !filter_app, !map_app, !concat_app. cbn [filter map concat].
    assert (G1 : is_match pat (Node c l k) = match pat (Node c l k) with MOk _ => true | _ => false end) by reflexivity.
    assert (G2 : dict_of pat (Node c l k) = match pat (Node c l k) with MOk m => [m] | _ => [] end) by reflexivity.
    rewrite G1, G2.
    destruct (pat (Node c l k)) as [m| |x] eqn:Hp; simpl.
    + split; rewrite ?app_nil_r, ?app_assoc; reflexivity.
    + rewrite !app_nil_r. split; reflexivity.
    + exfalso. exact (Hx _ _ Hp).
Qed.
