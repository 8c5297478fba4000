(** C20 (pattern matching) and C21 (substitution, rule application). *)
From Verif Require Import Prelude PatModel PatSpec PatProofs TreeModel TreeSpec TreeProofs.

(** ** C20 *)
Section C20.
  Context {E : Type} (E_eqb : E -> E -> bool) (eargs : E -> option (list E)) (ekwargs : E -> option (list (nat * E)))
          (isinst : E -> nat -> bool) (cond : nat -> E -> bool).
  Notation pmatch := (pmatch E_eqb eargs ekwargs isinst cond).
  Notation matches := (matches eargs ekwargs isinst cond).
  Notation decides := (forall x y, E_eqb x y = true <-> x = y).

  (** a successful match returns bindings under which the expression is an
      instance of the pattern *)
  Theorem C20_match_sound p e m :
    decides -> pattern_ok p -> pmatch p e = MOk m -> matches (get m) p e.
  Proof.
    intros Hd Hok Hm. destruct (pmatch_good E_eqb Hd eargs ekwargs isinst cond p Hok) as [_ Hg].
    destruct (Hg e) as [Hs _]. destruct (Hs m Hm) as (H1 & _ & H3). apply H3. intros k v Hi. apply get_NoDup; assumption.
  Qed.

  (** if the expression is an instance of the pattern under any assignment, the
      match succeeds with (part of) that assignment; the only other outcome is
      the UnboundLocalError of C20_zero_arguments_refuted *)
  Theorem C20_match_complete p e sigma :
    decides -> pattern_ok p -> matches sigma p e ->
    (exists m, pmatch p e = MOk m /\ forall k v, get m k = Some v -> sigma k = Some v)
    \/ pmatch p e = MExc UnboundLocalError.
  Proof.
    intros Hd Hok Hm. destruct (pmatch_good E_eqb Hd eargs ekwargs isinst cond p Hok) as [_ Hg].
    destruct (Hg e) as [_ Hc]. destruct (Hc sigma Hm) as [(m & H1 & H2)|He]; [left|right; exact He].
    exists m. split; [exact H1|]. intros k v Hk. apply H2, get_In, Hk.
  Qed.

  Theorem C20_no_match p e sigma :
    decides -> pattern_ok p -> pmatch p e = MFail -> ~ matches sigma p e.
  Proof.
    intros Hd Hok Hf Hm. destruct (C20_match_complete p e sigma Hd Hok Hm) as [(m & H & _)|H]; congruence.
  Qed.

  (** no exception as long as no expression has an empty argument list *)
  Theorem C20_no_exception p e x :
    (forall e', eargs e' <> Some []) -> pmatch p e <> MExc x.
  Proof.
    intros Hne H. apply pmatch_exc in H as [_ [e' He']]. exact (Hne e' He').
  Qed.

  Theorem C20_unique_bindings p e sigma sigma' :
    decides -> pattern_ok p -> (forall e', eargs e' <> Some []) ->
    matches sigma p e -> matches sigma' p e ->
    exists m, matches (get m) p e
              /\ (forall k v, get m k = Some v -> sigma k = Some v /\ sigma' k = Some v).
  Proof.
    intros Hd Hok Hne H1 H2.
    destruct (C20_match_complete p e sigma Hd Hok H1) as [(m & Hm & Hs)|He].
    2:{ exfalso. exact (C20_no_exception p e _ Hne He). }
    destruct (C20_match_complete p e sigma' Hd Hok H2) as [(m' & Hm' & Hs')|He].
    2:{ exfalso. exact (C20_no_exception p e _ Hne He). }
    rewrite Hm in Hm'. injection Hm' as <-. exists m. split; [exact (C20_match_sound p e m Hd Hok Hm)|].
    intros k v Hk. split; [exact (Hs k v Hk)|exact (Hs' k v Hk)].
  Qed.
End C20.

(** Concrete trees: the docstring example. Classes: 0 Concatenation, 1
    SeriesProduct, 2 CircuitSymbol, 3 CPermutation; wildcards A=0, B=1, C=2, D=3. *)
Definition ex_isinst (e : expr) (h : nat) : bool := match e with Node c _ _ => c =? h | Leaf _ => false end.
Definition ex_match := pmatch expr_eqb eargs_of ekwargs_of ex_isinst (fun _ _ => true).
Definition ex_wc (m : mode) (w h : nat) : pat expr := Pat (Some h) None None m (Some w) [].
Definition ex_C n := Node 2 [Leaf n] [(7, Leaf 3)].
Definition ex_P n := Node 3 [Leaf n] [].
Definition ex_expr := Node 0 [Node 1 [ex_C 1; ex_C 2; ex_P 1] []; Node 1 [ex_C 3; ex_C 4; ex_P 2] []] [].
Definition ex_pat : pat expr :=
  Pat (Some 0) (Some [Pat (Some 1) (Some [ex_wc OneOrMore 0 2; ex_wc Single 1 3]) None Single None [];
                      Pat (Some 1) (Some [ex_wc OneOrMore 2 2; ex_wc Single 3 3]) None Single None []]) None Single None [].
Example C20_docstring_example :
  ex_match ex_pat ex_expr
  = MOk [(1, BOne (ex_P 1)); (0, BList [ex_C 1; ex_C 2]); (3, BOne (ex_P 2)); (2, BList [ex_C 3; ex_C 4])].
Proof. reflexivity. Qed.
Example C20_docstring_pattern_ok : pattern_ok ex_pat.
Proof.
  assert (H : forall w v x y, w <> v ->
    pattern_ok (Pat (Some x) (Some [ex_wc OneOrMore w 2; ex_wc Single v y]) None Single None [])).
  { intros w v x y Hwv. simpl. split; [|exact I]. split; [auto|]. right.
    exists [], (ex_wc OneOrMore w 2), [ex_wc Single v y]. simpl.
    split; [reflexivity|split; [auto|split; [reflexivity|split; [|split; [reflexivity|]]]]].
    - constructor; [reflexivity|constructor].
    - constructor; [constructor; [intros k []|constructor; [intros k []|constructor]]|].
      constructor; [constructor; [intros k _ []|constructor]|]. constructor; [constructor|constructor]. }
  assert (H1 := H 0 1 1 3 ltac:(discriminate)). assert (H2 := H 2 3 1 3 ltac:(discriminate)).
  unfold ex_pat. cbn [pattern_ok] in *. cbn [fold_right]. split; [|exact I]. split.
  - split; [exact H1|split; [exact H2|exact I]].
  - left. constructor; [reflexivity|constructor; [reflexivity|constructor]].
Qed.

(** A pattern with arguments raises on an expression without arguments, although
    it matches declaratively: [pattern(F, wc('A___')).match(F())]. *)
Theorem C20_zero_arguments_refuted :
  exists (p : pat expr) e sigma, pattern_ok p
    /\ matches eargs_of ekwargs_of ex_isinst (fun _ _ => true) sigma p e
    /\ ex_match p e = MExc UnboundLocalError.
Proof.
  exists (Pat (Some 0) (Some [Pat None None None ZeroOrMore (Some 0) []]) None Single None []), (Node 0 [] []),
         (fun k => if k =? 0 then Some (BList []) else None).
  split; [|split; [|reflexivity]].
  - simpl. split; [|exact I]. split; [auto|]. right. exists [], (Pat None None None ZeroOrMore (Some 0) []), [].
    split; [reflexivity|split; [auto|split; [reflexivity|split; [constructor|split; [reflexivity|]]]]].
    constructor; [constructor; [intros k []|constructor]|]. constructor; constructor.
  - split; [|exact I]. simpl. split; [reflexivity|split; [constructor|split; [|exact I]]].
    exists []. split; [reflexivity|]. exists [], []. split; [reflexivity|split; [exact I|split; [constructor|split; [|reflexivity]]]].
    exists (BList []). split; reflexivity.
Qed.

(** Two non-single arguments, first and last, are accepted by the constructor;
    the match then ignores the first one. *)
Theorem C20_both_ends_refuted :
  exists (ps : list (pat expr)) e m, init_ok ps = true
    /\ ex_match (Pat (Some 0) (Some ps) None Single None []) e = MOk m
    /\ ~ matches eargs_of ekwargs_of ex_isinst (fun _ _ => true) (get m) (Pat (Some 0) (Some ps) None Single None []) e.
Proof.
  exists [ex_wc OneOrMore 0 2; ex_wc OneOrMore 1 2], (Node 0 [ex_C 1; ex_C 2] []), [(1, BList [ex_C 1; ex_C 2])].
  split; [reflexivity|split; [reflexivity|]]. intros [H _]. simpl in H. destruct H as (_ & _ & (as_ & _ & H) & _).
  destruct H as (seg & rest & _ & _ & _ & (v & Hv & _) & _). discriminate.
Qed.

(** The same list wildcard inside a nested pattern and in its parent is merged,
    not compared: [pattern(F, pattern(F, A__), A__)] matches [F(F(x), y)] with
    [A = [x, y]]. *)
Theorem C20_repeated_list_wildcard_refuted :
  exists (p : pat expr) e m, ex_match p e = MOk m
    /\ ~ exists sigma, matches eargs_of ekwargs_of ex_isinst (fun _ _ => true) sigma p e.
Proof.
  exists (Pat (Some 0) (Some [Pat (Some 0) (Some [ex_wc OneOrMore 0 2]) None Single None []; ex_wc OneOrMore 0 2]) None Single None []),
         (Node 0 [Node 0 [ex_C 1] []; ex_C 2] []), [(0, BList [ex_C 1; ex_C 2])].
  split; [reflexivity|]. intros [sigma [H _]]. simpl in H. destruct H as (_ & _ & (as_ & Has & H) & _).
  injection Has as <-. destruct H as (seg & rest & Hsr & Hc & Hf & _ & (seg2 & rest2 & Hsr2 & Hc2 & Hf2 & (v & Hv & Hv2) & Hr2)).
  destruct seg as [|a [|b seg]]; try discriminate. simpl in Hsr. injection Hsr as <- <-. subst rest2. rewrite app_nil_r in Hsr2. subst seg2.
  inversion Hf as [|? ? Ha _]; subst. simpl in Ha. destruct Ha as (_ & _ & (as_ & Has & (seg3 & rest3 & Hsr3 & _ & _ & (v3 & Hv3 & Hv3') & ->)) & _).
  injection Has as <-. rewrite app_nil_r in Hsr3. subst seg3. rewrite Hv3 in Hv. injection Hv as Hv. cbn in *. rewrite Hv3' in Hv. discriminate.
Qed.

(** ** C21 *)

(** Substitution replaces all maximal occurrences simultaneously (when creating
    an expression from the new arguments does not simplify further). *)
Theorem C21_substitute_maximal create singleton m e :
  builds create -> singletons_ok singleton e ->
  exists e', psubstitute create singleton m e = Ok e' /\ replaced m e e'.
Proof. intros Hb Hs. exact (psubstitute_replaced create singleton m Hb e Hs). Qed.

(** Substituting symbols means evaluating in the updated environment, for every
    interpretation under which creating expressions is sound. *)
Theorem C21_substitution_lemma (V : Type) (interp : nat -> list V -> list (nat * V) -> V) create singleton m rho e e' :
  Forall (fun kv => exists v, fst kv = Leaf v) m ->
  sound_create interp create -> (forall c l k, create c l k <> Err AttributeError) ->
  singletons_ok singleton e ->
  psubstitute create singleton m e = Ok e' ->
  eval interp rho e' = eval interp (update_env interp rho m) e.
Proof. intros Hm Hc Hn Hs He. exact (eval_psubstitute interp create singleton m rho Hm Hc Hn e e' Hs He). Qed.

(** Nothing to replace: the expression comes back unchanged. *)
Theorem C21_substitute_absent create singleton m c l k :
  stable create (Node c l k) -> (forall x, occurs x (Node c l k) -> unmapped m x) ->
  substitute create singleton m (Node c l k) = Ok (Node c l k).
Proof.
  intros Hs Hm0. assert (forall x, occurs x (Node c l k) -> vlookup m x = None) as Hm by (intros x Hx; apply vlookup_none, Hm0, Hx).
  pose proof (psubstitute_id create singleton m (Node c l k) Hs Hm) as H.
  unfold substitute. rewrite (Hm _ (occurs_self _)). destruct (singleton c) eqn:Hc; [reflexivity|].
  simpl in Hs. destruct Hs as (Hcr & Hl & Hk). apply fold_Forall in Hl. apply (fold_Forall (fun x => stable create (snd x))) in Hk.
  rewrite mapMs_id.
  2:{ rewrite Forall_forall in *. intros x Hx. apply psubstitute_id; [exact (Hl x Hx)|]. intros y Hy. apply Hm. exact (occurs_arg _ _ _ _ _ Hx Hy). }
  simpl. rewrite mapMkw_id.
  2:{ rewrite Forall_forall in *. intros x Hx. apply psubstitute_id; [exact (Hk x Hx)|]. intros y Hy. apply Hm. exact (occurs_kwarg _ _ _ _ _ Hx Hy). }
  simpl. exact Hcr.
Qed.

(** An AttributeError raised while re-creating a sub-expression is swallowed and
    the sub-expression is left unsubstituted. *)
Theorem C21_substitute_swallows_attribute_error_refuted :
  exists create singleton m e,
    (forall c l k e', create c l k = Ok e' -> e' = Node c l k)
    /\ substitute create singleton m e = Ok e /\ ~ replaced m e e.
Proof.
  exists (fun c l k => if (c =? 1) && match l with [Leaf 0] => false | _ => true end then Err AttributeError else Ok (Node c l k)),
         (fun _ => false), [(Leaf 0, Leaf 5)], (Node 0 [Node 1 [Leaf 0] []] []).
  split; [|split; [reflexivity|]].
  - intros c l k e'. destruct ((c =? 1) && match l with [Leaf 0] => false | _ => true end); [discriminate|]. intros H. injection H as <-. reflexivity.
  - assert (forall e t, maps_to [(Leaf 0, Leaf 5)] e t -> e = Leaf 0 /\ t = Leaf 5) as G.
    { intros e t (m1 & m2 & E & _). destruct m1 as [|? m1]; [injection E as <- <- _; now split|]. apply (f_equal (@length _)) in E. rewrite app_length in E. cbn in E. lia. }
    intros H. inversion H as [? ? H1| |? ? ? ? ? H1 H2 H3]; subst; [now apply G in H1|].
    inversion H2 as [|? ? ? ? H4 _]; subst. inversion H4 as [? ? H5| |? ? ? ? ? H5 H6 H7]; subst; [now apply G in H5|].
    inversion H6 as [|? ? ? ? H8 _]; subst. inversion H8 as [? ? H9|? H9|]; subst; [now apply G in H9|]. apply H9. now left.
Qed.

(** The explicit stack machine terminates on every expression and computes the
    recursive bottom-up rewriting, including which exception is raised first. *)
Theorem C21_apply_rules_bottom_up create rules e :
  exists n, forall k, n <= k ->
    apply_rules_loop create rules k e = Some (rewrite_up create (no_recurse rules) e).
Proof. exact (machine_correct create rules e). Qed.

(** ... where at each node the first applicable rule is used, once. *)
Theorem C21_first_rule rs e r : no_recurse rs e = r <-> first_rule rs e r.
Proof.
  split.
  - intros <-. apply no_recurse_first.
  - intros H. exact (first_rule_fun rs e _ _ (no_recurse_first rs e) H).
Qed.

(** findall lists exactly the matching sub-expressions, children first, and
    finditer their bindings in the same order. *)
Theorem C21_findall pat e :
  (forall e' x, pat e' <> MExc x) ->
  findall pat e = Ok (filter (fun s => match pat s with MOk _ => true | _ => false end) (postorder e))
  /\ finditer pat e = Ok (concat (map (fun s => match pat s with MOk m => [m] | _ => [] end) (postorder e))).
Proof. intros H. exact (findall_ok pat H e). Qed.

Example C21_example :
  let m := [(Leaf 1, Leaf 2); (Node 0 [Leaf 1] [], Leaf 9); (Leaf 2, Leaf 1)] in
  substitute (fun c l k => Ok (Node c l k)) (fun _ => false) m
    (Node 0 [Leaf 1; Leaf 2; Node 0 [Leaf 1] []; Node 0 [Leaf 2] [(0, Leaf 1)]] [])
  = Ok (Node 0 [Leaf 2; Leaf 1; Leaf 9; Node 0 [Leaf 1] [(0, Leaf 2)]] []).
Proof. reflexivity. Qed.
Example C21_machine_example :
  let r : rule := (ex_match (ex_wc Single 0 2), fun m => match get m 0 with Some (BOne e) => Ok (Node 4 [e] []) | _ => Err CannotSimplify end) in
  apply_rules_loop (fun c l k => Ok (Node c l k)) [r] 100 ex_expr
  = Some (Ok (Node 0 [Node 1 [Node 4 [ex_C 1] []; Node 4 [ex_C 2] []; ex_P 1] []; Node 1 [Node 4 [ex_C 3] []; Node 4 [ex_C 4] []; ex_P 2] []] [])).
Proof. reflexivity. Qed.

Print Assumptions C20_match_sound.
Print Assumptions C20_match_complete.
Print Assumptions C20_no_match.
Print Assumptions C20_no_exception.
Print Assumptions C20_unique_bindings.
Print Assumptions C20_zero_arguments_refuted.
Print Assumptions C20_both_ends_refuted.
Print Assumptions C20_repeated_list_wildcard_refuted.
Print Assumptions C21_substitute_maximal.
Print Assumptions C21_substitution_lemma.
Print Assumptions C21_substitute_absent.
Print Assumptions C21_substitute_swallows_attribute_error_refuted.
Print Assumptions C21_apply_rules_bottom_up.
Print Assumptions C21_first_rule.
Print Assumptions C21_findall.
