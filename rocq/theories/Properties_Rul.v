(** C75 Rule dictionaries of the expression classes. *)
From Verif Require Import Prelude RulModel.

(** an item that is a rule: name, pattern against ProtoExpr, callable with exactly the wildcard names *)
Definition accepts (i : item) (q : nat * rule) : Prop :=
  exists k p f args, i = IPair (KStr k) (RPair (PPat p) (RCall f args)) /\ q = (k, (p, (f, args)))
    /\ p_proto p = true /\ forall x, In x args <-> In x (p_wc p).
Definition rule_ok (q : nat * rule) : Prop :=
  p_proto (fst (snd q)) = true /\ forall x, In x (snd (snd (snd q))) <-> In x (p_wc (fst (snd q))).
Definition dict_ok (d : rdict) : Prop := NoDup (map fst d) /\ Forall rule_ok d.

Lemma nmem_spec x l : nmem x l = true <-> In x l.
Proof.
  unfold nmem. rewrite existsb_exists. split; [intros [y [H1 H2]]; apply Nat.eqb_eq in H2; now subst|].
  intros H. exists x. split; [exact H|apply Nat.eqb_refl].
Qed.
Lemma nmem_false x l : nmem x l = false <-> ~ In x l.
Proof. rewrite <- nmem_spec. destruct (nmem x l); intuition congruence. Qed.
Lemma same_names_spec a b : same_names a b = true <-> forall x, In x a <-> In x b.
Proof.
  unfold same_names. rewrite andb_true_iff, !forallb_forall. setoid_rewrite nmem_spec. firstorder.
Qed.
Lemma check_item_ok keys i q : check_item keys i = Ok q <-> accepts i q /\ ~ In (fst q) keys.
Proof.
  split.
  - destruct i as [[k|] r| |]; cbn [check_item]; try discriminate. destruct (nmem k keys) eqn:N; [discriminate|].
    destruct r as [[p|] rep| |]; try discriminate. destruct (p_proto p) eqn:P; cbn [negb]; [|discriminate].
    destruct rep as [f args| |]; try discriminate. destruct (same_names args (p_wc p)) eqn:E; [|discriminate].
    intros H. injection H as <-. split; [|now apply nmem_false]. exists k, p, f, args. rewrite same_names_spec in E. auto.
  - intros [[k [p [f [args [-> [-> [P E]]]]]]] N]. cbn [check_item fst] in *. apply nmem_false in N. rewrite N, P. cbn [negb].
    apply same_names_spec in E. now rewrite E.
Qed.
Lemma check_items_ok l : forall keys d, check_items keys l = Ok d <->
  Forall2 accepts l d /\ NoDup (map fst d) /\ forall q, In q d -> ~ In (fst q) keys.
Proof.
  induction l as [|i l IH]; intros keys d; cbn [check_items].
  - split; [intros H; injection H as <-; repeat split; [constructor|constructor|intros q []]|].
    intros [H _]. now inversion H.
  - destruct (check_item keys i) as [kr|e] eqn:E; cbn [bind].
    + apply check_item_ok in E. destruct E as [E N]. split.
      * intros H. destruct (check_items (fst kr :: keys) l) as [d'|] eqn:D; [|discriminate]. injection H as <-.
        apply IH in D. destruct D as [D1 [D2 D3]]. split; [now constructor|]. split.
        { cbn [map]. constructor; [|exact D2]. intros F. apply in_map_iff in F. destruct F as [q [F1 F2]].
          apply (D3 q F2). left. now rewrite F1. }
        intros q [<-|F]; [exact N|]. intros G. apply (D3 q F). now right.
      * intros [H1 [H2 H3]]. inversion H1 as [|? q ? d' A1 A2]; subst.
        assert (Eq : q = kr).
        { destruct A1 as [k [p [f [args [-> [-> _]]]]]]. destruct E as [k' [p' [f' [args' [E1 [-> _]]]]]]. now injection E1 as -> -> -> ->. }
        subst q. cbn [map] in H2. inversion H2 as [|? ? M1 M2]; subst.
        assert (D : check_items (fst kr :: keys) l = Ok d').
        { apply IH. split; [exact A2|]. split; [exact M2|]. intros q F [G|G]; [|apply (H3 q); [now right|exact G]].
          apply M1. rewrite G. now apply in_map. }
        now rewrite D.
    + split; [discriminate|]. intros [H1 [H2 H3]]. inversion H1 as [|? q ? d' A1 A2]; subst.
      assert (Ok q = Err e); [|discriminate]. rewrite <- E. symmetry. apply check_item_ok. split; [exact A1|]. apply H3. now left.
Qed.

(** a list or mapping is accepted exactly if every item is a rule and the names differ; the
    result has these rules in order *)
Theorem C75_check l d : (check_rules_dict (RSeq l) = Ok d <-> Forall2 accepts l d /\ NoDup (map fst d))
  /\ (check_rules_dict (RMap l) = Ok d <-> Forall2 accepts l d /\ NoDup (map fst d)).
Proof.
  cbn [check_rules_dict]. rewrite check_items_ok.
  assert (H : (forall q, In q d -> ~ In (fst q) []) <-> True) by (split; [trivial|intros _ q _ []]).
  rewrite H. intuition.
Qed.
(** the first offending item and the exception it causes *)
Definition wrong_type (i : item) : Prop :=
  match i with IPair (KStr _) RNone | IPair (KStr _) (RPair PObj _) => True | IPair (KStr _) _ => False | _ => True end.
Definition item_name (i : item) : option nat := match i with IPair (KStr k) _ => Some k | _ => None end.
Definition fresh_name (i : item) (d : rdict) : Prop := forall k, item_name i = Some k -> ~ In k (map fst d).
Lemma check_item_err keys i e : check_item keys i = Err e ->
  (e = TypeError /\ wrong_type i /\ (forall k, item_name i = Some k -> ~ In k keys))
  \/ (e = ValueError /\ ((exists k, item_name i = Some k /\ In k keys) \/ (~ wrong_type i /\ ~ exists q, accepts i q))).
Proof.
  destruct i as [[k|] r| |]; cbn [check_item wrong_type item_name].
  2,3,4: intros H; injection H as <-; left; repeat split; discriminate.
  destruct (nmem k keys) eqn:N.
  { intros H. injection H as <-. right. split; [reflexivity|]. left. exists k. split; [reflexivity|now apply nmem_spec]. }
  apply nmem_false in N.
  assert (Hn : forall k0, Some k = Some k0 -> ~ In k0 keys) by (intros k0 H; injection H as <-; exact N).
  destruct r as [[p|] rep| |].
  - destruct (p_proto p) eqn:P; cbn [negb].
    + destruct rep as [f args|f|].
      * destruct (same_names args (p_wc p)) eqn:E; [discriminate|]. intros H. injection H as <-. right. split; [reflexivity|].
        right. split; [tauto|]. intros [q [k' [p' [f' [args' [A1 [_ [_ A2]]]]]]]]. injection A1 as <- <- <- <-.
        apply same_names_spec in A2. congruence.
      * intros H. injection H as <-. right. split; [reflexivity|]. right. split; [tauto|]. intros [q [k' [p' [f' [args' [A1 _]]]]]]. discriminate.
      * intros H. injection H as <-. right. split; [reflexivity|]. right. split; [tauto|]. intros [q [k' [p' [f' [args' [A1 _]]]]]]. discriminate.
    + intros H. injection H as <-. right. split; [reflexivity|]. right. split; [tauto|].
      intros [q [k' [p' [f' [args' [A1 [_ [A2 _]]]]]]]]. injection A1 as -> -> ->. congruence.
  - intros H. injection H as <-. left. auto.
  - intros H. injection H as <-. right. split; [reflexivity|]. right. split; [tauto|]. intros [q [k' [p' [f' [args' [A1 _]]]]]]. discriminate.
  - intros H. injection H as <-. left. auto.
Qed.
Theorem C75_check_errors l e : check_rules_dict (RSeq l) = Err e ->
  exists pre i post d, l = pre ++ i :: post /\ check_rules_dict (RSeq pre) = Ok d
    /\ ((e = TypeError /\ wrong_type i /\ fresh_name i d)
        \/ (e = ValueError /\ ((exists k, item_name i = Some k /\ In k (map fst d)) \/ (~ wrong_type i /\ ~ exists q, accepts i q)))).
Proof.
  cbn [check_rules_dict].
  assert (G : forall l keys, check_items keys l = Err e ->
    exists pre i post d, l = pre ++ i :: post /\ check_items keys pre = Ok d
      /\ exists ks, (forall x, In x ks <-> In x (map fst d) \/ In x keys) /\ check_item ks i = Err e).
  { clear l. induction l as [|i l IH]; intros keys H; cbn [check_items] in H; [discriminate|].
    destruct (check_item keys i) as [kr|e'] eqn:E; cbn [bind] in H.
    - destruct (check_items (fst kr :: keys) l) as [d'|e''] eqn:D; [discriminate|]. injection H as ->.
      destruct (IH _ D) as [pre [j [post [d [-> [Hd [ks [K1 K2]]]]]]]]. exists (i :: pre), j, post, (kr :: d).
      split; [reflexivity|]. split; [cbn [check_items]; rewrite E; cbn [bind]; now rewrite Hd|]. exists ks. split; [|exact K2].
      intros x. rewrite K1. cbn [map In]. tauto.
    - injection H as ->. exists [], i, l, []. split; [reflexivity|]. split; [reflexivity|]. exists keys. split; [|exact E].
      intros x. cbn. tauto. }
  intros H. destruct (G l [] H) as [pre [i [post [d [E1 [E2 [ks [K1 K2]]]]]]]]. exists pre, i, post, d.
  split; [exact E1|]. split; [exact E2|]. assert (K : forall x, In x ks <-> In x (map fst d)) by (intros x; rewrite K1; cbn; tauto).
  apply check_item_err in K2. destruct K2 as [[A1 [A2 A3]]|[A1 [[k [A2 A3]]|A2]]].
  - left. split; [exact A1|]. split; [exact A2|]. intros k Hk. rewrite <- K. now apply A3.
  - right. split; [exact A1|]. left. exists k. split; [exact A2|now apply K].
  - right. split; [exact A1|]. right. exact A2.
Qed.
(** the documentation promises TypeError for rules that are not pairs (pattern, callable) and
    accepts everything that OrderedDict accepts *)
Theorem C75_docs_refuted k p :
  check_rules_dict (RSeq [IPair (KStr k) RLen]) = Err ValueError
  /\ (p_proto p = true -> check_rules_dict (RSeq [IPair (KStr k) (RPair (PPat p) RObj)]) = Err ValueError).
Proof. split; [reflexivity|]. intros H. cbn. now rewrite H. Qed.
Theorem C75_iterator_refuted l d : check_rules_dict (RSeq l) = Ok d -> check_rules_dict (RIter l) = Ok [].
Proof. cbn [check_rules_dict]. now intros ->. Qed.

Section Classes.
  Context (mro : nat -> list nat) (has_match has_binary : nat -> bool).
  Notation getattr := (getattr mro). Notation pick := (pick has_match has_binary).
  Notation add_rule := (add_rule mro has_match has_binary). Notation del_rules := (del_rules mro has_match has_binary).
  Notation rules := (rules mro has_match has_binary). Notation show_rules := (show_rules mro has_match has_binary).
  Notation del_loop := (del_loop mro).

  Lemma getattr_put s x d c a : getattr (put s x d) c a = getattr s c a.
  Proof. reflexivity. Qed.
  Lemma heap_put s x d y : heap (put s x d) y = if y =? x then d else heap s y.
  Proof. reflexivity. Qed.
  Lemma rules_of s c attr a x : pick c attr = Ok a -> getattr s c a = Ok x -> rules c attr s = Ok (map fst (heap s x)).
  Proof. intros H1 H2. unfold RulModel.rules. rewrite H1. cbn [bind]. now rewrite H2. Qed.

  (** add_rule: when it succeeds and what it changes; a failing call changes nothing *)
  Theorem C75_add c name p r attr s :
    match add_rule c name p r attr s with
    | (Err _, s') => s' = s
    | (Ok _, s') => exists a x k pt f args, pick c attr = Ok a /\ getattr s c a = Ok x
        /\ name = KStr k /\ p = PPat pt /\ r = RCall f args /\ rule_ok (k, (pt, (f, args))) /\ ~ In k (map fst (heap s x))
        /\ heap s' x = heap s x ++ [(k, (pt, (f, args)))] /\ (forall y, y <> x -> heap s' y = heap s y) /\ attrs s' = attrs s
    end.
  Proof.
    unfold RulModel.add_rule. destruct (pick c attr) as [a|] eqn:P; [|reflexivity]. destruct (getattr s c a) as [x|] eqn:G; [|reflexivity].
    destruct (has name (heap s x)) eqn:H; [reflexivity|].
    destruct (check_rules_dict (RSeq [IPair name (RPair p r)])) as [d|] eqn:D; [|reflexivity].
    apply (proj1 (proj1 (C75_check _ _))) in D. destruct D as [D _]. inversion D as [|? q ? d' A1 A2]; subst. inversion A2; subst.
    destruct A1 as [k [pt [f [args [E1 [-> [E2 E3]]]]]]]. injection E1 as -> -> ->.
    exists a, x, k, pt, f, args. repeat (split; [first [reflexivity|exact G]|]).
    split; [split; [exact E2|exact E3]|]. split; [cbn [has] in H; now apply nmem_false|].
    split; [rewrite heap_put; now rewrite Nat.eqb_refl|]. split; [|reflexivity].
    intros y Hy. rewrite heap_put. apply Nat.eqb_neq in Hy. now rewrite Hy.
  Qed.
  Theorem C75_add_succeeds c k pt f args attr s a x :
    pick c attr = Ok a -> getattr s c a = Ok x -> ~ In k (map fst (heap s x)) -> rule_ok (k, (pt, (f, args))) ->
    exists s', add_rule c (KStr k) (PPat pt) (RCall f args) attr s = (Ok tt, s')
      /\ rules c attr s' = Ok (map fst (heap s x) ++ [k]).
  Proof.
    intros P G H [R1 R2]. unfold RulModel.add_rule. rewrite P, G. cbn [has]. apply nmem_false in H. rewrite H.
    assert (D : check_rules_dict (RSeq [IPair (KStr k) (RPair (PPat pt) (RCall f args))]) = Ok [(k, (pt, (f, args)))]).
    { apply C75_check. split; [|repeat constructor; tauto]. constructor; [|constructor]. exists k, pt, f, args. auto. }
    rewrite D. eexists. split; [reflexivity|]. rewrite (rules_of _ c attr a x P); [|exact G].
    rewrite heap_put, Nat.eqb_refl, map_app. reflexivity.
  Qed.

  (** del_rules with names that are all there and different: the others stay, in order *)
  Lemma remove_names n d : map fst (remove n d) = filter (fun x => negb (x =? n)) (map fst d).
  Proof. induction d as [|[m q] d IH]; [reflexivity|]. cbn [remove filter map fst]. destruct (m =? n); cbn [negb map fst]; [exact IH|]. f_equal. exact IH. Qed.
  Lemma In_remove q n d : In q (remove n d) <-> In q d /\ fst q <> n.
  Proof. unfold remove. rewrite filter_In, negb_true_iff, Nat.eqb_neq. tauto. Qed.
  Lemma filter_filter {X} (f g : X -> bool) l : filter f (filter g l) = filter (fun x => g x && f x) l.
  Proof. induction l as [|x l IH]; [reflexivity|]. cbn [filter]. destruct (g x); cbn [filter andb]; [destruct (f x)|]; now rewrite IH. Qed.
  Lemma del_loop_ok c a x ns : forall s, getattr s c a = Ok x -> NoDup ns -> (forall n, In n ns -> In n (map fst (heap s x))) ->
    exists s', del_loop c a (map KStr ns) s = (Ok tt, s') /\ attrs s' = attrs s /\ next s' = next s
      /\ heap s' x = filter (fun q => negb (nmem (fst q) ns)) (heap s x) /\ forall y, y <> x -> heap s' y = heap s y.
  Proof.
    induction ns as [|n ns IH]; intros s G N H; cbn [map RulModel.del_loop].
    - exists s. split; [reflexivity|]. split; [reflexivity|]. split; [reflexivity|]. split; [|reflexivity].
      clear H. induction (heap s x) as [|q d IHd]; [reflexivity|]. cbn [filter]. rewrite <- IHd. reflexivity.
    - rewrite G. assert (Hn : nmem n (map fst (heap s x)) = true) by (apply nmem_spec, H; now left). rewrite Hn.
      inversion N as [|? ? N1 N2]; subst. destruct (IH (put s x (remove n (heap s x)))) as [s' [E [A [X [E1 E2]]]]].
      + exact G.
      + exact N2.
      + intros m Hm. rewrite heap_put, Nat.eqb_refl, remove_names, filter_In. split; [apply H; now right|].
        rewrite negb_true_iff, Nat.eqb_neq. intros ->. contradiction.
      + exists s'. split; [exact E|]. split; [exact A|]. split; [exact X|]. split.
        * rewrite E1, heap_put, Nat.eqb_refl. unfold remove. rewrite filter_filter. apply filter_ext. intros q.
          cbn [nmem existsb]. rewrite negb_orb. reflexivity.
        * intros y Hy. rewrite E2 by exact Hy. rewrite heap_put. apply Nat.eqb_neq in Hy. now rewrite Hy.
  Qed.
  Theorem C75_del c ns attr s a x : ns <> [] -> pick c attr = Ok a -> getattr s c a = Ok x -> NoDup ns ->
    (forall n, In n ns -> In n (map fst (heap s x))) ->
    exists s', del_rules c (map KStr ns) attr s = (Ok tt, s') /\ attrs s' = attrs s
      /\ heap s' x = filter (fun q => negb (nmem (fst q) ns)) (heap s x) /\ forall y, y <> x -> heap s' y = heap s y.
  Proof.
    intros Hn P G N H. destruct (del_loop_ok c a x ns s G N H) as [s' [E [A [_ [E1 E2]]]]]. exists s'.
    split; [|auto]. unfold RulModel.del_rules. rewrite P. destruct ns; [congruence|]. exact E.
  Qed.
  (** adding a rule and deleting it restores every dictionary *)
  Theorem C75_add_del c k p r attr s s' : add_rule c (KStr k) p r attr s = (Ok tt, s') ->
    exists s'', del_rules c [KStr k] attr s' = (Ok tt, s'') /\ attrs s'' = attrs s /\ forall y, heap s'' y = heap s y.
  Proof.
    intros H. pose proof (C75_add c (KStr k) p r attr s) as A. rewrite H in A.
    destruct A as [a [x [k' [pt [f [args [P [G [K [-> [-> [R [N [E1 [E2 E3]]]]]]]]]]]]]]]. injection K as <-.
    assert (G' : getattr s' c a = Ok x) by (unfold RulModel.getattr in *; now rewrite E3).
    destruct (C75_del c [k] attr s' a x) as [s'' [D [A [D1 D2]]]]; auto.
    - discriminate.
    - repeat constructor; tauto.
    - intros n [<-|[]]. rewrite E1, map_app, in_app_iff. right. now left.
    - exists s''. split; [exact D|]. split; [congruence|]. intros y. destruct (Nat.eq_dec y x) as [->|Hy].
      + rewrite D1, E1, filter_app. cbn [filter fst nmem existsb]. rewrite Nat.eqb_refl. cbn [orb negb]. rewrite app_nil_r.
        clear - N. induction (heap s x) as [|q d IH]; [reflexivity|]. cbn [map In] in N. cbn [filter].
        assert (F : (fst q =? k) = false) by (apply Nat.eqb_neq; tauto). rewrite F. cbn [orb negb]. f_equal. apply IH. tauto.
      + rewrite D2 by exact Hy. now apply E2.
  Qed.
  (** a name that is missing: KeyError, but the names before it are deleted *)
  Theorem C75_del_key_error c ns m rest attr s a x : pick c attr = Ok a -> getattr s c a = Ok x -> NoDup ns ->
    (forall n, In n ns -> In n (map fst (heap s x))) -> (In m ns \/ ~ In m (map fst (heap s x))) ->
    exists s', del_rules c (map KStr ns ++ KStr m :: rest) attr s = (Err KeyError, s')
      /\ heap s' x = filter (fun q => negb (nmem (fst q) ns)) (heap s x).
  Proof.
    intros P G N H Hm. destruct (del_loop_ok c a x ns s G N H) as [s' [E [A [_ [E1 E2]]]]]. exists s'. split; [|exact E1].
    assert (D : forall l s0 s1 s2 t, del_loop c a l s0 = (Ok tt, s1) -> del_loop c a t s1 = s2 -> del_loop c a (l ++ t) s0 = s2).
    { induction l as [|k l IH]; intros s0 s1 s2 t H1 H2; cbn [app RulModel.del_loop] in *; [injection H1 as ->; exact H2|].
      destruct (getattr s0 c a) as [x0|]; [|discriminate]. destruct k as [n|]; [|discriminate].
      destruct (nmem n (map fst (heap s0 x0))); [|discriminate]. now apply (IH _ s1). }
    assert (L : del_loop c a (KStr m :: rest) s' = (Err KeyError, s')).
    { cbn [RulModel.del_loop]. assert (G' : getattr s' c a = Ok x) by (unfold RulModel.getattr in *; now rewrite A). rewrite G'.
      assert (F : nmem m (map fst (heap s' x)) = false).
      { apply nmem_false. rewrite E1. intros F. apply in_map_iff in F. destruct F as [q [F1 F2]]. apply filter_In in F2. destruct F2 as [F2 F3].
        rewrite negb_true_iff in F3. apply nmem_false in F3. rewrite F1 in F3. destruct Hm as [Hm|Hm]; [contradiction|].
        apply Hm. rewrite <- F1. now apply in_map. }
      now rewrite F. }
    unfold RulModel.del_rules. rewrite P. destruct (map KStr ns ++ KStr m :: rest) as [|k l] eqn:El; [destruct ns; discriminate|].
    rewrite <- El. apply (D _ _ s'); assumption.
  Qed.
  (** rules and show_rules read the same dictionary; show_rules keeps the order and prints the
      rules with the given names, all of them if no names are given *)
  Theorem C75_show c names attr s :
    match show_rules c names attr s with
    | Err e => rules c attr s = Err e
    | Ok d => exists ks, rules c attr s = Ok ks
        /\ map fst d = filter (fun k => match names with [] => true | _ => existsb (fun n => match n with KStr m => m =? k | KObj => false end) names end) ks
    end.
  Proof.
    unfold RulModel.show_rules, RulModel.rules. destruct (pick c attr) as [a|e]; [|destruct e; try reflexivity; exists []; now split].
    destruct (getattr s c a) as [x|e]; cbn [bind]; [|reflexivity]. eexists. split; [reflexivity|].
    induction (heap s x) as [|q d IH]; [reflexivity|]. cbn [filter map]. destruct names as [|n names]; [cbn [map]; now f_equal|].
    destruct (existsb _ (n :: names)); cbn [map]; [now f_equal|exact IH].
  Qed.
  Theorem C75_show_all c attr s a x : pick c attr = Ok a -> getattr s c a = Ok x -> show_rules c [] attr s = Ok (heap s x).
  Proof.
    intros P G. unfold RulModel.show_rules. rewrite P, G. cbn [bind]. f_equal. induction (heap s x) as [|q d IH]; [reflexivity|]. cbn [filter]. now f_equal.
  Qed.
  (** classes whose simplifications match no rules: no rules, and nothing can be added or deleted *)
  Theorem C75_no_rules c s names p r : has_match c = false -> has_binary c = false ->
    rules c None s = Ok [] /\ show_rules c names None s = Ok []
    /\ (forall k, add_rule c k p r None s = (Err TypeError, s)) /\ del_rules c names None s = (Err TypeError, s).
  Proof.
    intros H1 H2. unfold RulModel.rules, RulModel.show_rules, RulModel.add_rule, RulModel.del_rules, RulModel.pick, rules_attr. rewrite H1, H2. auto.
  Qed.

  (** ** Invariant *)
  Definition store_ok (s : store) : Prop :=
    (forall y, dict_ok (heap s y)) /\ forall c a x, attrs s c a = Some x -> x < next s.
  Lemma getattr_own s c a x : getattr s c a = Ok x -> exists d, In d (mro c) /\ attrs s d a = Some x.
  Proof.
    unfold RulModel.getattr. destruct (find _ (mro c)) as [d|] eqn:F; [|discriminate]. apply find_some in F. destruct F as [F1 F2].
    destruct (attrs s d a) as [y|] eqn:E; [|discriminate]. intros H. injection H as ->. exists d. auto.
  Qed.
  Lemma dict_ok_filter g d : dict_ok d -> dict_ok (filter g d).
  Proof.
    intros [H1 H2]. split.
    - induction d as [|q d IH]; [constructor|]. cbn [map] in H1. inversion H1 as [|? ? M1 M2]; subst. inversion H2 as [|? ? R1 R2]; subst.
      cbn [filter]. destruct (g q); [|auto]. cbn [map]. constructor; [|auto]. intros F. apply M1. apply in_map_iff in F.
      destruct F as [q' [F1 F2]]. apply filter_In in F2. destruct F2 as [F2 _]. rewrite <- F1. now apply in_map.
    - apply Forall_forall. intros q Hq. apply filter_In in Hq. destruct Hq as [Hq _]. rewrite Forall_forall in H2. now apply H2.
  Qed.
  Lemma del_loop_any c a names : forall s, let s' := snd (del_loop c a names s) in
    attrs s' = attrs s /\ next s' = next s /\ forall y, exists g, heap s' y = filter g (heap s y).
  Proof.
    assert (I : forall d : rdict, filter (fun _ => true) d = d) by (induction d as [|q d IH]; [reflexivity|]; cbn [filter]; now f_equal).
    induction names as [|k names IH]; intros s; cbn zeta; cbn [RulModel.del_loop].
    { split; [reflexivity|]. split; [reflexivity|]. intros y. exists (fun _ => true). now rewrite I. }
    assert (Z : attrs s = attrs s /\ next s = next s /\ forall y, exists g, heap s y = filter g (heap s y)).
    { split; [reflexivity|]. split; [reflexivity|]. intros y. exists (fun _ => true). now rewrite I. }
    destruct (getattr s c a) as [x|]; [|exact Z]. destruct k as [n|]; [|exact Z]. destruct (nmem n (map fst (heap s x))); [|exact Z].
    destruct (IH (put s x (remove n (heap s x)))) as [A [X F]]. split; [exact A|]. split; [exact X|]. intros y. destruct (F y) as [g Hg].
    rewrite Hg, heap_put. destruct (y =? x) eqn:E; [|now exists g]. apply Nat.eqb_eq in E. subst. unfold remove. rewrite filter_filter. eexists. reflexivity.
  Qed.
  (** after any history of calls, successful or not: in every dictionary the names differ, and
      every rule has a pattern for ProtoExpr and a replacement taking exactly its wildcards *)
  Theorem C75_invariant calls : forall s, store_ok s -> store_ok (fold_left (run mro has_match has_binary) calls s).
  Proof.
    induction calls as [|q calls IH]; intros s H; [exact H|]. cbn [fold_left]. apply IH. clear IH. destruct H as [H1 H2].
    destruct q as [c name p r attr|c names attr]; cbn [run].
    - pose proof (C75_add c name p r attr s) as A. destruct (add_rule c name p r attr s) as [[u|e] s'] eqn:E; cbn [snd]; [|rewrite A; split; assumption].
      assert (X : next s' = next s).
      { unfold RulModel.add_rule in E. destruct (pick c attr); [|discriminate]. destruct (getattr s c a); [|discriminate].
        destruct (has name (heap s a0)); [discriminate|]. destruct (check_rules_dict _); [|discriminate]. now injection E as _ <-. }
      destruct A as [a [x [k [pt [f [args [P [G [-> [-> [-> [R [N [E1 [E2 E3]]]]]]]]]]]]]]]. split.
      + intros y. destruct (Nat.eq_dec y x) as [->|Hy]; [|rewrite E2 by exact Hy; apply H1]. rewrite E1. destruct (H1 x) as [D1 D2]. split.
        * rewrite map_app. cbn [map fst]. apply NoDup_rev in D1. rewrite <- (rev_involutive (map fst (heap s x) ++ [k])). apply NoDup_rev.
          rewrite rev_app_distr. cbn [rev app]. constructor; [|exact D1]. rewrite <- in_rev. exact N.
        * apply Forall_app. split; [exact D2|]. constructor; [exact R|constructor].
      + intros d b z Hz. rewrite E3 in Hz. rewrite X. now apply (H2 d b).
    - unfold RulModel.del_rules. destruct (pick c attr) as [a|]; [|split; assumption]. destruct names as [|k names].
      + destruct (getattr s c a) as [x|]; [|split; assumption]. cbn [snd]. split; cbn [heap attrs next].
        * intros y. destruct (y =? next s); [split; constructor|apply H1].
        * intros d b z. destruct ((d =? c) && (b =? a)); [intros Hz; injection Hz as <-; lia|]. intros Hz. specialize (H2 d b z Hz). lia.
      + destruct (del_loop_any c a (k :: names) s) as [A [X F]]. split.
        * intros y. destruct (F y) as [g Hg]. rewrite Hg. now apply dict_ok_filter.
        * intros d b z. rewrite A, X. apply H2.
  Qed.
  (** del_rules without names: the class gets an empty dictionary of its own; classes that do not
      inherit from it, in particular its bases, keep their rules *)
  Theorem C75_del_all c attr s a x rest : store_ok s -> mro c = c :: rest -> pick c attr = Ok a -> getattr s c a = Ok x ->
    exists s', del_rules c [] attr s = (Ok tt, s') /\ rules c attr s' = Ok []
      /\ (forall y, y < next s -> heap s' y = heap s y)
      /\ forall d b, ~ In c (mro d) \/ b <> a -> rules d (Some b) s' = rules d (Some b) s.
  Proof.
    intros [H1 H2] M P G. unfold RulModel.del_rules. rewrite P, G. eexists. split; [reflexivity|]. split; [|split].
    - unfold RulModel.rules. rewrite P. cbn [bind]. unfold RulModel.getattr. rewrite M. cbn [find attrs]. rewrite !Nat.eqb_refl. cbn [andb attrs].
      rewrite !Nat.eqb_refl. cbn [andb bind heap]. now rewrite Nat.eqb_refl.
    - intros y Hy. cbn [heap]. assert (F : (y =? next s) = false) by (apply Nat.eqb_neq; lia). now rewrite F.
    - intros d b Hd.
      assert (A : forall e, In e (mro d) -> (if (e =? c) && (b =? a) then Some (next s) else attrs s e b) = attrs s e b).
      { intros e He. destruct (e =? c) eqn:E1, (b =? a) eqn:E2; try reflexivity. apply Nat.eqb_eq in E1, E2. subst. tauto. }
      unfold RulModel.rules. cbn [RulModel.pick bind]. 
      set (s' := mk_store _ _ _).
      assert (E : getattr s' d b = getattr s d b).
      { unfold RulModel.getattr. assert (Fd : forall l, (forall e, In e l -> In e (mro d)) ->
          find (fun e => match attrs s' e b with Some _ => true | None => false end) l = find (fun e => match attrs s e b with Some _ => true | None => false end) l).
        { induction l as [|e l IHl]; intros Hl; [reflexivity|]. cbn [find]. cbn [s' attrs]. rewrite (A e) by (apply Hl; now left).
          destruct (attrs s e b); [reflexivity|]. apply IHl. intros e' He'. apply Hl. now right. }
        rewrite Fd by auto. destruct (find _ (mro d)) as [e|] eqn:F; [|reflexivity]. apply find_some in F. destruct F as [F _].
        cbn [s' attrs]. now rewrite (A e F). }
      rewrite E. destruct (getattr s d b) as [z|] eqn:Gz; [|reflexivity]. cbn [bind]. do 2 f_equal. cbn [s' heap].
      destruct (getattr_own _ _ _ _ Gz) as [e [_ He]]. specialize (H2 _ _ _ He).
      assert (Fz : (z =? next s) = false) by (apply Nat.eqb_neq; lia). now rewrite Fz.
  Qed.
  (** a class without a dictionary of its own: its rules are those of the class it inherits them
      from, so adding a rule adds it to that class and to all that share the dictionary *)
  Theorem C75_shared c d name p r attr s s' a : pick c attr = Ok a -> getattr s c a = getattr s d a ->
    add_rule c name p r attr s = (Ok tt, s') -> exists ks k, name = KStr k /\ rules d (Some a) s = Ok ks /\ rules d (Some a) s' = Ok (ks ++ [k]).
  Proof.
    intros P G H. pose proof (C75_add c name p r attr s) as A. rewrite H in A.
    destruct A as [a' [x [k [pt [f [args [P' [G' [-> [_ [_ [_ [_ [E1 [_ E3]]]]]]]]]]]]]]]. rewrite P in P'. injection P' as <-.
    rewrite G in G'. exists (map fst (heap s x)), k. split; [reflexivity|]. split; [now apply (rules_of s d (Some a) a x)|].
    assert (G2 : getattr s' d a = Ok x) by (unfold RulModel.getattr in *; now rewrite E3).
    rewrite (rules_of s' d (Some a) a x eq_refl G2), E1, map_app. reflexivity.
  Qed.
End Classes.

(** classes 0 and its subclass 1, which has no rules of its own, and 2 with its own *)
Local Definition mro0 (c : nat) : list nat := match c with 1 => [1; 0] | _ => [c] end.
Local Definition s0 : store :=
  mk_store (fun c a => match c, a with 0, 0 => Some 0 | 2, 0 => Some 1 | _, _ => None end)
    (fun y => match y with 0 => [(7, (mk_pattern true [1; 2], (3, [2; 1])))] | _ => [] end) 2.
Example C75_hyps :
  store_ok s0
  /\ rules mro0 (fun _ => true) (fun _ => false) 0 None (run mro0 (fun _ => true) (fun _ => false) s0 (CAdd 0 (KStr 8) (PPat (mk_pattern true [4])) (RCall 5 [4]) None)) = Ok [7; 8]
  /\ check_rules_dict (RSeq [IPair (KStr 1) (RPair (PPat (mk_pattern true [4; 5])) (RCall 0 [5; 4])); IPair (KStr 2) (RPair (PPat (mk_pattern true [])) (RCall 1 []))])
     = Ok [(1, (mk_pattern true [4; 5], (0, [5; 4]))); (2, (mk_pattern true [], (1, [])))]
  /\ check_rules_dict (RSeq [IPair (KStr 1) (RPair (PPat (mk_pattern true [4; 5])) (RCall 0 [4]))]) = Err ValueError.
Proof.
  split; [|split; [reflexivity|split; reflexivity]]. split.
  - intros [|y]; cbn [s0 heap]; [|split; constructor]. split; [repeat constructor; cbn; tauto|]. constructor; [|constructor]. split; [reflexivity|].
    intros x. cbn. tauto.
  - intros [|[|[|c]]] [|a] x; cbn [s0 attrs next]; intros H; try discriminate; injection H as <-; lia.
Qed.
(** adding a rule to a subclass adds it to the base class; deleting names is not atomic *)
Theorem C75_subclass_refuted :
  exists s', add_rule mro0 (fun _ => true) (fun _ => false) 1 (KStr 8) (PPat (mk_pattern true [])) (RCall 5 []) None s0 = (Ok tt, s')
  /\ rules mro0 (fun _ => true) (fun _ => false) 0 None s0 = Ok [7] /\ rules mro0 (fun _ => true) (fun _ => false) 0 None s' = Ok [7; 8].
Proof. eexists. split; [reflexivity|]. split; reflexivity. Qed.
Theorem C75_del_not_atomic_refuted :
  exists s', del_rules mro0 (fun _ => true) (fun _ => false) 0 [KStr 7; KStr 9] None s0 = (Err KeyError, s')
  /\ rules mro0 (fun _ => true) (fun _ => false) 0 None s0 = Ok [7] /\ rules mro0 (fun _ => true) (fun _ => false) 0 None s' = Ok [].
Proof. eexists. split; [reflexivity|]. split; reflexivity. Qed.
Print Assumptions C75_check. Print Assumptions C75_check_errors. Print Assumptions C75_docs_refuted. Print Assumptions C75_iterator_refuted.
Print Assumptions C75_add. Print Assumptions C75_add_succeeds. Print Assumptions C75_del. Print Assumptions C75_add_del. Print Assumptions C75_del_key_error.
Print Assumptions C75_show. Print Assumptions C75_show_all. Print Assumptions C75_no_rules. Print Assumptions C75_invariant. Print Assumptions C75_del_all.
Print Assumptions C75_shared. Print Assumptions C75_hyps. Print Assumptions C75_subclass_refuted. Print Assumptions C75_del_not_atomic_refuted.
