(** C17 (instance cache), C18 (context managers), C19 (equality). *)
From Verif Require Import Prelude CreateModel CreateSpec CreateProofs CtxModel CtxSpec CtxProofs EqModel EqProofs.

(** *** C17 *)
(** Any session of create calls, each with caching switched on or off,
    starting from an empty cache, returns exactly what the cache-free meaning
    of [create] prescribes. *)
Theorem C17_cache_transparent : forall C AR V K (W : classes C AR V K) Keqb,
  keys_sound W Keqb -> idempotent_claims_hold W Keqb ->
  forall depth calls results final,
  session W Keqb depth calls [] = Some (results, final) ->
  Forall2 (fun call r => creates W (snd (fst call)) (snd call) r) calls results.
Proof.
  intros C AR V K W Keqb Hk Hi d calls rs s H.
  exact (proj1 (session_ok W Keqb Hk Hi d calls [] rs s (consistent_nil W Keqb) H)).
Qed.
Print Assumptions C17_cache_transparent.

(** and the prescribed result is unique *)
Theorem C17_result_unique : forall C AR V K (W : classes C AR V K) c a r r',
  creates W c a r -> creates W c a r' -> r = r'.
Proof. intros C AR V K W c a r r'. exact (creates_det W (fun _ _ => false) c a r r'). Qed.
Print Assumptions C17_result_unique.

(** whatever happened before, a create call that has a result without the
    cache also returns (that same result) with it *)
Theorem C17_cached_call_returns : forall C AR V K (W : classes C AR V K) Keqb,
  keys_sound W Keqb -> idempotent_claims_hold W Keqb ->
  forall depth history results s caching c a r,
  session W Keqb depth history [] = Some (results, s) -> creates W c a r ->
  exists d s', create W Keqb caching d c a s = Some (r, s').
Proof.
  intros C AR V K W Keqb Hk Hi d hist rs s b c a r H Hc.
  apply (proj1 (cached_complete W Keqb Hk Hi b) c a r Hc).
  exact (proj2 (session_ok W Keqb Hk Hi d hist [] rs s (consistent_nil W Keqb) H)).
Qed.
Print Assumptions C17_cached_call_returns.

(** A world satisfying the hypotheses: class 0 adds its arguments by creating
    the sum of the tail first and catching errors; class 1 claims idempotence. *)
Definition demo_world : classes nat (list nat) nat (nat * list nat) := {|
  simplifications := fun c => match c with
    | 0 => [fun a => match a with
                     | x :: y :: l => PCreate 0 (y :: l) (fun r => match r with Ok v => PRet (inr [x + v]) | Err _ => PRet (inl 0) end)
                     | _ => PRet (inr a) end]
    | _ => [] end;
  instantiate := fun c a => match a with [x] => PRet (inl x) | _ => PRaise ValueError end;
  get_instance_key := fun c a => (c, a);
  instance_key := fun v => Some (1, [v]);
  create_idempotent := fun c => c =? 1 |}.
Definition demo_keqb (a b : nat * list nat) : bool := (fst a =? fst b) && eqb_list_nat (snd a) (snd b).
Lemma eqb_list_nat_eq a : forall b, eqb_list_nat a b = true -> a = b.
Proof.
  induction a as [|x a IH]; intros [|y b]; cbn; try discriminate; [reflexivity|].
  rewrite andb_true_iff, Nat.eqb_eq. intros [-> H]. f_equal. apply IH; exact H.
Qed.
Example C17_hyps : keys_sound demo_world demo_keqb /\ idempotent_claims_hold demo_world demo_keqb /\
  session demo_world demo_keqb 9 [(true, 0, [3;4;5]); (true, 0, [4;5]); (false, 0, [4;5]); (true, 1, [7]); (true, 1, [])] []
  = Some ([Ok 12; Ok 9; Ok 9; Ok 7; Err ValueError],
          [((1, [7]), 7); ((1, [7]), 7); ((0, [3; 4; 5]), 12); ((0, [4; 5]), 9); ((0, [5]), 5)]).
Proof.
  split; [|split; [|reflexivity]].
  - intros c a c' a' r E H. unfold demo_keqb in E. cbn in E. apply andb_true_iff in E. destruct E as [E1 E2].
    apply Nat.eqb_eq in E1. apply eqb_list_nat_eq in E2. congruence.
  - intros c Hc. cbn in Hc. apply Nat.eqb_eq in Hc. subst c. split.
    + intros a v k c' a' H Hk E. cbn in Hk. injection Hk as <-. unfold demo_keqb in E. cbn in E.
      apply andb_true_iff in E. destruct E as [E1 E2]. apply Nat.eqb_eq in E1. apply eqb_list_nat_eq in E2. subst.
      constructor. cbn. apply simplifies_instance. cbn. constructor.
    + intros a v H. constructor. cbn. apply simplifies_instance. exact H.
Qed.

(** Circuit expressions as a world: no simplifications, constructors as in the
    repository, keys and [==] as in the repository. *)
Definition circuit_world : classes nat (list obj * list (nat * obj)) obj (nat * list obj) := {|
  simplifications := fun _ => [];
  instantiate := fun c a => PRet (inl (new circuit_forwarding c (fst a) (snd a)));
  get_instance_key := fun c a => (c, key_parts (fst a) (snd a));
  instance_key := fun v => match v with Inst c _ _ k => Some (c, k) | _ => None end;
  create_idempotent := fun _ => false |}.
Definition circuit_keqb (a b : nat * list obj) : bool := (fst a =? fst b) && objs_eqb (snd a) (snd b).

Definition symbol_ (label n : nat) : obj := new circuit_forwarding CLS_SYMBOL [Atom label] [(0, Atom n)].
(** Feedback(circuit, in_port=i, out_port=o) *)
Definition feedback_ (c : obj) (o i : nat) : obj := new circuit_forwarding CLS_FEEDBACK [c] [(1, Atom i); (2, Atom o)].

(** Because == on Feedback ignores the ports, the cache hands out a series
    product with the wrong feedback in it. *)
Theorem C17_feedback_collision_refuted :
  exists A f01 f10 x y final,
    f01 = feedback_ A 0 1 /\ f10 = feedback_ A 1 0 /\ f01 <> f10 /\
    session circuit_world circuit_keqb 9
      [(true, CLS_SERIES, ([A; f01], [])); (true, CLS_SERIES, ([A; f10], []))] [] = Some ([Ok x; Ok x], final) /\
    creates circuit_world CLS_SERIES ([A; f10], []) (Ok y) /\ x <> y.
Proof.
  exists (symbol_ 5 2), (feedback_ (symbol_ 5 2) 0 1), (feedback_ (symbol_ 5 2) 1 0).
  eexists; eexists; eexists. split; [reflexivity|]. split; [reflexivity|]. split; [discriminate|].
  split; [cbn; reflexivity|]. split.
  - constructor. cbn. apply simplifies_instance. cbn. constructor.
  - discriminate.
Qed.
Print Assumptions C17_feedback_collision_refuted.

(** Changing the rules of a class (add_rule) does not invalidate its cache:
    without a temporary_rules context the old result keeps being returned. *)
Theorem C17_stale_after_add_rule_refuted :
  exists (W W' : classes nat (list nat) nat (nat * list nat)) s v v',
    keys_sound W' demo_keqb /\
    (forall c, instantiate W' c = instantiate W c /\ get_instance_key W' c = get_instance_key W c) /\
    create W demo_keqb true 5 0 [1;2] [] = Some (Ok v, s) /\
    create W' demo_keqb true 5 0 [1;2] s = Some (Ok v, s) /\
    creates W' 0 [1;2] (Ok v') /\ v <> v'.
Proof.
  pose (w := fun rules => {| simplifications := fun _ : nat => rules : list (list nat -> prog nat (list nat) nat);
    instantiate := fun c a => PRet (inl (length a));
    get_instance_key := fun (c : nat) (a : list nat) => (c, a);
    instance_key := fun v => None; create_idempotent := fun _ : nat => false |}).
  exists (w []), (w [fun a => PRet (inl 77)]). eexists; eexists; eexists.
  split.
  { intros c a c' a' r E H. unfold demo_keqb in E. cbn in E. apply andb_true_iff in E. destruct E as [E1 E2].
    apply Nat.eqb_eq in E1. apply eqb_list_nat_eq in E2. congruence. }
  split; [intros c; split; reflexivity|].
  split; [cbn; reflexivity|]. split; [cbn; reflexivity|]. split.
  - constructor. cbn. apply simplifies_object. constructor.
  - discriminate.
Qed.
Print Assumptions C17_stale_after_add_rule_refuted.

(** *** C18 *)
(** On leaving [temporary_rules] — normally or by an exception, whatever the
    body does (creating instances of any class, changing rules and
    simplifications of the protected classes, catching exceptions, opening
    further contexts for any classes) — each of the given classes sees the
    same rule dictionaries, simplifications and cached instances as before. *)
Theorem C18_temporary_rules_restores : forall mro cs clear body st st' e,
  hierarchy mro -> well_formed st -> independent mro cs ->
  Forall (expression_class mro st) cs -> modifies_within cs body ->
  exec mro (TempRules cs clear body) st = (st', e) ->
  forall c at_, In c cs -> sees mro st' c at_ = sees mro st c at_.
Proof.
  intros mro cs clear body st st' e Hh W Hind Hex Hw H c at_ Hc. cbn [exec] in H.
  assert (forall a, existsb (attr_eqb a) [AInst; ASimp; ARules; ABin] = true) as Hall by (intros []; reflexivity).
  destruct (enter_total mro AInst (next st) true (enter_rules_one mro clear)) with (cs := cs) (st := st) as (st1 & l & E1).
  - apply enter_rules_ok; exact Hh.
  - apply one_total_rules; exact Hh.
  - split; [lia|]. split; [exact W|intros d []].
  - exact Hex.
  - rewrite E1 in H. destruct (exec mro body st1) as [st2 e2] eqn:E2. injection H as <- <-.
    refine (context_restores mro Hh [AInst; ASimp; ARules; ABin] (enter_rules_one mro clear)
      (one_saved_rules mro Hh clear) _ cs body st st1 l st2 e2 at_ W Hind E1 E2 (Hall at_) (fun _ => Hw) c Hc).
    intros at0 N0. rewrite Hall. apply enter_rules_ok; exact Hh.
Qed.
Print Assumptions C18_temporary_rules_restores.

Theorem C18_temporary_instance_cache_restores : forall mro cs body st st' e,
  hierarchy mro -> well_formed st -> independent mro cs -> Forall (expression_class mro st) cs ->
  exec mro (TempCache cs body) st = (st', e) ->
  forall c, In c cs -> sees mro st' c AInst = sees mro st c AInst.
Proof.
  intros mro cs body st st' e Hh W Hind Hex H c Hc. cbn [exec] in H.
  destruct (enter_total mro AInst (next st) true (enter_cache_one mro)) with (cs := cs) (st := st) as (st1 & l & E1).
  - exact (enter_cache_ok mro Hh AInst (next st)).
  - apply one_total_cache; exact Hh.
  - split; [lia|]. split; [exact W|intros d []].
  - exact Hex.
  - rewrite E1 in H. destruct (exec mro body st1) as [st2 e2] eqn:E2. injection H as <- <-.
    refine (context_restores mro Hh [AInst] (enter_cache_one mro)
      (one_saved_cache mro Hh) _ cs body st st1 l st2 e2 AInst W Hind E1 E2 eq_refl _ c Hc); [|congruence].
    intros at0 N0. replace (existsb (attr_eqb at0) [AInst]) with (attr_eqb at0 AInst) by (cbn; rewrite orb_false_r; reflexivity).
    apply enter_cache_ok; exact Hh.
Qed.
Print Assumptions C18_temporary_instance_cache_restores.

(** the caching switch is restored by every statement, in any nesting *)
Theorem C18_no_instance_caching_restores : forall mro s st st' e,
  exec mro s st = (st', e) -> flag st' = flag st.
Proof. exact exec_flag. Qed.
Print Assumptions C18_no_instance_caching_restores.

(** the exception raised in the body is the one that leaves the context *)
Theorem C18_exception_propagates : forall mro cs clear body st st1 l,
  enter (enter_rules_one mro clear) cs st = (st1, inl l) ->
  snd (exec mro (TempRules cs clear body) st) = snd (exec mro body st1).
Proof. intros mro cs clear body st st1 l H. cbn [exec]. rewrite H. destruct (exec mro body st1); reflexivity. Qed.
Print Assumptions C18_exception_propagates.

(** A small hierarchy: 1 = Expression (owns _instances, simplifications),
    2 = a class with _rules, 3 = its subclass, 4 = another class, 0 = a class
    that is no Expression (like int). *)
Definition demo_mro (c : nat) : list nat :=
  match c with 2 => [2;1] | 3 => [3;2;1] | 4 => [4;1] | _ => [c] end.
Definition demo_state : state := {|
  heap := fun a p => match a, p with
    | AInst, 0 => [((2, 8), 80); ((4, 9), 90)]
    | ARules, 2 => [((0, 5), 50)]
    | _, _ => [] end;
  next := 3;
  own := fun a c => match a, c with
    | AInst, 1 => Some 0 | ASimp, 1 => Some 1 | ARules, 2 => Some 2 | _, _ => None end;
  flag := true |}.
Lemma demo_hierarchy : hierarchy demo_mro.
Proof.
  split.
  - intros c. do 5 (destruct c as [|c]; [eexists; reflexivity|]). eexists; reflexivity.
  - intros b c H.
    do 5 (destruct c as [|c]; [cbn in H; intuition subst; cbn; intros x; cbn; tauto|]).
    cbn in H. destruct H as [<-|[]]. intros x Hx. exact Hx.
Qed.
Definition demo_body : stmt :=
  Seq (Prim (PAddRule false 2 7 70)) (Seq (Prim (PStore 2 8 81)) (Seq (Prim (PStore 4 9 91))
  (Seq (TempRules [4;2] true (Seq (Prim (PDelRules false 2 [])) (Try (Raise KeyError))))
  (Seq (NoCaching (Prim (PDelRules false 2 [5]))) (Raise ValueError))))).
Example C18_hyps : hierarchy demo_mro /\ well_formed demo_state /\ independent demo_mro [4;2] /\
  Forall (expression_class demo_mro demo_state) [4;2] /\ modifies_within [4;2] demo_body /\
  snd (exec demo_mro (TempRules [4;2] false demo_body) demo_state) = Some ValueError /\
  sees demo_mro (fst (exec demo_mro (TempRules [4;2] false demo_body) demo_state)) 2 ARules = Some (2, [((0, 5), 50)]) /\
  sees demo_mro (fst (exec demo_mro (TempRules [4;2] false demo_body) demo_state)) 2 AInst = Some (0, [((2, 8), 80)]).
Proof.
  split; [exact demo_hierarchy|]. split.
  { intros a c p H. destruct a, c as [|[|[|c]]]; cbn in H; try discriminate; injection H as <-; cbn; lia. }
  split. { repeat constructor; cbn; lia. }
  split. { repeat constructor; cbn; discriminate. }
  split; [cbn; tauto|]. split; [reflexivity|]. split; reflexivity.
Qed.

(** What is not guaranteed. Listing a class twice with clear=True loses its
    rules for good. *)
Theorem C18_duplicate_class_refuted :
  sees demo_mro demo_state 2 ARules = Some (2, [((0, 5), 50)]) /\
  option_map snd (sees demo_mro (fst (exec demo_mro (TempRules [2;2] true Skip) demo_state)) 2 ARules) = Some [].
Proof. split; reflexivity. Qed.
Print Assumptions C18_duplicate_class_refuted.

(** Naming a base class before its subclass: a rule added to the base class
    inside the context stays in the subclass after leaving it. *)
Theorem C18_base_before_subclass_refuted :
  option_map snd (sees demo_mro (fst (exec demo_mro (TempRules [2;3] false (Prim (PAddRule false 2 7 70))) demo_state)) 3 ARules)
  = Some [((0, 5), 50); ((0, 7), 70)] /\
  option_map snd (sees demo_mro demo_state 3 ARules) = Some [((0, 5), 50)].
Proof. split; reflexivity. Qed.
Print Assumptions C18_base_before_subclass_refuted.

(** An exception while *entering* (a later argument is not an Expression
    class) leaves earlier classes modified: here the rules are lost. *)
Theorem C18_crash_on_entry_refuted :
  snd (exec demo_mro (TempRules [2;0] true Skip) demo_state) = Some AttributeError /\
  option_map snd (sees demo_mro (fst (exec demo_mro (TempRules [2;0] true Skip) demo_state)) 2 ARules) = Some [].
Proof. split; reflexivity. Qed.
Print Assumptions C18_crash_on_entry_refuted.

(** Instances of a class that is *not* listed, created under temporary rules,
    stay in its cache. *)
Theorem C18_other_class_cache_refuted :
  option_map snd (sees demo_mro (fst (exec demo_mro (TempRules [2] false (Seq (Prim (PAddRule false 2 7 70)) (Prim (PStore 4 9 91)))) demo_state)) 4 AInst)
  = Some [((4, 9), 91)] /\ option_map snd (sees demo_mro demo_state 4 AInst) = Some [((4, 9), 90)].
Proof. split; reflexivity. Qed.
Print Assumptions C18_other_class_cache_refuted.

(** Restoring turns an inherited attribute into an own one, so a later
    temporary cache of the base class no longer covers the class. *)
Theorem C18_later_base_context_refuted :
  let enter1 st := fst (enter (enter_cache_one demo_mro) [1] st) in
  option_map snd (sees demo_mro (enter1 demo_state) 2 AInst) = Some [] /\
  option_map snd (sees demo_mro (enter1 (fst (exec demo_mro (TempCache [2] Skip) demo_state))) 2 AInst) = Some [((2, 8), 80)].
Proof. split; reflexivity. Qed.
Print Assumptions C18_later_base_context_refuted.

(** *** C19 *)
Theorem C19_equivalence : forall a b c,
  obj_eqb a a = true /\ obj_eqb a b = obj_eqb b a /\
  (obj_eqb a b = true -> obj_eqb b c = true -> obj_eqb a c = true).
Proof.
  intros a b c. split; [apply obj_eqb_refl|]. split; [apply obj_eqb_sym_|apply obj_eqb_trans_].
Qed.
Print Assumptions C19_equivalence.

(** If the constructors of all classes in [ok] hand all their arguments on,
    equal expressions built from these classes are the same expression: same
    class, same arguments, same keyword arguments, recursively. *)
Theorem C19_equal_means_identical : forall fw (ok : nat -> Prop) keywords,
  (forall c args kw, ok c -> fw c args kw = (args, kw)) ->
  forall a b, proper fw ok keywords a -> proper fw ok keywords b ->
  obj_eqb a b = true -> a = b.
Proof. intros fw ok kws Hf a b Pa Pb. exact (eqb_sound_ fw ok Hf kws a Pa b Pb). Qed.
Print Assumptions C19_equal_means_identical.

(** keywords of the circuit classes: CircuitSymbol has cdim *)
Definition circuit_keywords (c : nat) : list nat := if c =? CLS_SYMBOL then [0] else if c =? CLS_FEEDBACK then [1;2] else [].

(** circuit expressions without Feedback *)
Theorem C19_circuits_without_feedback : forall a b,
  proper circuit_forwarding (fun c => c <> CLS_FEEDBACK) circuit_keywords a ->
  proper circuit_forwarding (fun c => c <> CLS_FEEDBACK) circuit_keywords b ->
  obj_eqb a b = true -> a = b.
Proof.
  apply C19_equal_means_identical. intros c args kw H. unfold circuit_forwarding.
  destruct (Nat.eqb_spec c CLS_FEEDBACK); [congruence|reflexivity].
Qed.
Print Assumptions C19_circuits_without_feedback.

(** Feedback(C, out_port=o, in_port=i) compares equal for *all* ports. *)
Theorem C19_feedback_ports_refuted : forall c o i o' i',
  obj_eqb (feedback_ c o i) (feedback_ c o' i') = true /\
  ((o, i) <> (o', i') -> feedback_ c o i <> feedback_ c o' i').
Proof.
  intros c o i o' i'. split.
  - unfold feedback_, new. cbn. rewrite obj_eqb_refl. reflexivity.
  - intros Hne E. unfold feedback_, new in E. cbn in E. injection E as -> ->. congruence.
Qed.
Print Assumptions C19_feedback_ports_refuted.

Example C19_hyps : proper circuit_forwarding (fun c => c <> CLS_FEEDBACK) circuit_keywords
  (new circuit_forwarding CLS_SERIES [symbol_ 5 2; new circuit_forwarding CLS_PERM [Tup [Atom 1; Atom 0]] []] []).
Proof. repeat (constructor; try discriminate; try reflexivity). Qed.
