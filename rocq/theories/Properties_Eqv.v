(** C73 Calculating with equations keeps them true. *)
From Coq Require Import List ZArith Bool Lia.
From Verif Require Import Prelude EquationModel EqvModel.
Import ListNotations.

Section Props.
Context {E O X : Type} (eqb : E -> E -> bool) (int_of : O -> option Z).
(** the value of an expression, for some values of the symbols; equal expressions have equal values *)
Context (val : E -> X) (eqb_val : forall a b, eqb a b = true -> val a = val b).
Local Notation eqn := (eqn E O).
Local Notation call := (call E O).

(** the equation is true *)
Definition holds (e : eqn) : Prop := exists l, lhs e = Ok l /\ val l = val (e_rhs e).
Definition holds_op (o : operand E O) : Prop := match o with XE _ => True | XQ q => holds q end.
(** every printed line is true, reading a blank left side as the last one above *)
Fixpoint printed_true (above : option E) (ls : list (option E * E * tag O)) : Prop :=
  match ls with
  | [] => True
  | (l, r, _) :: rest =>
    let now := match l with Some x => Some x | None => above end in
    (exists x, now = Some x /\ val x = val r) /\ printed_true now rest
  end.
(** functions that send equal values to equal values; that keep the value *)
Definition respects (f g : E -> res E) : Prop := forall a b a' b', val a = val b -> f a = Ok a' -> g b = Ok b' -> val a' = val b'.
Definition keeps (f : E -> res E) : Prop := forall a a', f a = Ok a' -> val a' = val a.
Definition sound_call (c : call) : Prop :=
  match c with
  | Apply f _ _ => respects f f
  | ApplyToLhs f _ _ | ApplyToRhs f _ _ => keeps f
  | SetTag _ | Copy => True
  | Arith f g => respects f g
  end.

(** * one line more *)
Definition tidy (e : eqn) : Prop := length (e_plhs e) = length (e_prhs e) /\ length (e_ptags e) = length (e_prhs e).
Fixpoint last_above (above : option E) (ls : list (option E)) : option E :=
  match ls with [] => above | l :: r => last_above (match l with Some x => Some x | None => above end) r end.
Lemma last_above_snoc ls l : forall a, last_above a (ls ++ [l]) = match l with Some x => Some x | None => last_above a ls end.
Proof. induction ls as [|m r IH]; intros a; [reflexivity|]. apply IH. Qed.
Lemma last_some_rev ls : last_some (rev ls) = match last_above None ls with Some x => Ok x | None => Err IndexError end.
Proof.
  induction ls as [|l r IH] using rev_ind; [reflexivity|]. rewrite rev_app_distr, last_above_snoc. cbn [rev app last_some]. destruct l; [reflexivity|exact IH].
Qed.
Lemma printed_app ls r : forall a, printed_true a (ls ++ r) <-> printed_true a ls /\ printed_true (last_above a (map (fun p => fst (fst p)) ls)) r.
Proof.
  induction ls as [|[[l x] t] ls IH]; intros a; cbn [app printed_true map fst last_above]; [tauto|]. rewrite IH. tauto.
Qed.
Lemma combine_snoc {P Q} (a : list P) (b : list Q) x y : length a = length b -> combine (a ++ [x]) (b ++ [y]) = combine a b ++ [(x, y)].
Proof. revert b. induction a as [|p a IH]; intros [|q b] H; try discriminate; [reflexivity|]. cbn [app combine]. rewrite IH; [reflexivity|]. now injection H. Qed.
Lemma combine_fsts {P Q} (a : list P) (b : list Q) : length a = length b -> map fst (combine a b) = a.
Proof. revert b. induction a as [|p a IH]; intros [|q b] H; try discriminate; [reflexivity|]. cbn [combine map fst]. rewrite IH; [reflexivity|]. now injection H. Qed.
Definition old_lines (e : eqn) : list (option E * E * tag O) := combine (combine (e_plhs e) (e_prhs e)) (e_ptags e).
Lemma eq_lines_split e : tidy e -> eq_lines e = old_lines e ++ [(e_lhs e, e_rhs e, e_tag e)].
Proof. intros [H1 H2]. unfold eq_lines, old_lines. rewrite combine_snoc by exact H1. rewrite combine_snoc; [reflexivity|]. rewrite combine_length. lia. Qed.
Lemma old_lines_lhs e : tidy e -> map (fun p => fst (fst p)) (old_lines e) = e_plhs e.
Proof.
  intros [H1 H2]. unfold old_lines. rewrite <- (map_map fst fst). rewrite combine_fsts by (rewrite combine_length; lia). now apply combine_fsts.
Qed.
Lemma lhs_above (e : eqn) : lhs e = match last_above None (e_plhs e ++ [e_lhs e]) with Some x => Ok x | None => Err IndexError end.
Proof. unfold lhs. rewrite <- last_some_rev, rev_app_distr. reflexivity. Qed.
Definition all_true (e : eqn) : Prop := tidy e /\ printed_true None (eq_lines e).
Lemma all_true_iff (e : eqn) : tidy e -> (printed_true None (eq_lines e) <-> printed_true None (old_lines e) /\ holds e).
Proof.
  intros Ht. rewrite (eq_lines_split e Ht), printed_app, (old_lines_lhs e Ht). cbn [printed_true]. unfold holds. rewrite lhs_above, last_above_snoc.
  destruct (e_lhs e) as [x|]; [|destruct (last_above None (e_plhs e)) as [y|]].
  - split; [intros [A [[y [[= <-] V]] _]]; split; [exact A|]; now exists x|intros [A [y [[= <-] V]]]; split; [exact A|]; split; [now exists x|exact I]].
  - split; [intros [A [[z [[= <-] V]] _]]; split; [exact A|]; now exists y|intros [A [z [[= <-] V]]]; split; [exact A|]; split; [now exists y|exact I]].
  - split; [intros [A [[y [[=] V]] _]]|intros [A [y [[=] V]]]].
Qed.
Lemma fresh_true l r : val l = val r -> all_true (fresh int_of l r).
Proof. intros H. split; [split; reflexivity|]. cbn. split; [exists l; now split|exact I]. Qed.
Lemma init_one l r t : val l = val r -> all_true (eq_init int_of (Some l) r t [] [] []).
Proof. intros H. split; [split; reflexivity|]. cbn. split; [exists l; now split|exact I]. Qed.
Lemma update_cont_true (e : eqn) l r t : all_true e -> (exists x, match l with Some x => Ok x | None => lhs e end = Ok x /\ val x = val r) -> all_true (update int_of e l r t true).
Proof.
  intros [Ht Hp] [x [Hx V]]. assert (Ht' : tidy (update int_of e l r t true)).
  { destruct Ht as [H1 H2]. unfold tidy, update, eq_init. cbn [e_plhs e_prhs e_ptags]. rewrite !app_length. cbn [length]. lia. }
  split; [exact Ht'|]. apply (all_true_iff _ Ht'). split.
  - unfold old_lines, update, eq_init. cbn [e_plhs e_prhs e_ptags]. exact Hp.
  - exists x. split; [|exact V]. rewrite lhs_above. unfold update, eq_init. cbn [e_plhs e_lhs]. rewrite last_above_snoc. destruct l; [exact Hx|]. rewrite <- Hx. symmetry. apply lhs_above.
Qed.
Lemma exec1_true (c : call) (e e' : eqn) : sound_call c -> all_true e -> exec1 eqb int_of c e = Ok e' -> all_true e'.
Proof.
  intros Hs Ha H. pose proof Ha as [Ht Hp]. apply (all_true_iff e Ht) in Hp. destruct Hp as [Ho [l [Hl V]]].
  destruct c as [f cont t|f cont t|f cont t|t| |f g]; cbn [exec1 sound_call] in *.
  - unfold eq_apply in H. rewrite Hl in H. cbn [bind] in H. destruct (f l) as [l'|] eqn:F1; [|discriminate]. cbn [bind] in H. destruct (f (e_rhs e)) as [r'|] eqn:F2; [|discriminate]. cbn [bind] in H. injection H as <-.
    pose proof (Hs l (e_rhs e) l' r' V F1 F2) as V'. destruct cont.
    + apply update_cont_true; [exact Ha|]. rewrite andb_true_r. destruct (eqb l' l) eqn:Q; [exists l|exists l']; split; auto. rewrite <- V'. symmetry. now apply eqb_val.
    + rewrite andb_false_r. now apply init_one.
  - unfold eq_apply_lhs in H. rewrite Hl in H. cbn [bind] in H. destruct (f l) as [l'|] eqn:F1; [|discriminate]. cbn [bind] in H. injection H as <-. pose proof (Hs _ _ F1) as V'. destruct cont.
    + apply update_cont_true; [exact Ha|]. exists l'. split; [reflexivity|congruence].
    + apply init_one. congruence.
  - unfold eq_apply_rhs in H. destruct cont.
    + cbn [bind] in H. destruct (f (e_rhs e)) as [r'|] eqn:F2; [|discriminate]. cbn [bind] in H. injection H as <-. apply update_cont_true; [exact Ha|]. exists l. split; [exact Hl|]. rewrite (Hs _ _ F2). exact V.
    + rewrite Hl in H. cbn [rmap bind] in H. destruct (f (e_rhs e)) as [r'|] eqn:F2; [|discriminate]. cbn [bind] in H. injection H as <-. apply init_one. rewrite (Hs _ _ F2). exact V.
  - injection H as <-. assert (Ht' : tidy (set_tag int_of t e)) by exact Ht. split; [exact Ht'|]. apply (all_true_iff _ Ht'). split; [exact Ho|exists l; now split].
  - injection H as <-. assert (Ht' : tidy (copy int_of e)) by exact Ht. split; [exact Ht'|]. apply (all_true_iff _ Ht'). split; [exact Ho|exists l; now split].
  - unfold eq_arith in H. rewrite Hl in H. cbn [bind] in H. destruct (f l) as [l'|] eqn:F1; [|discriminate]. cbn [bind] in H. destruct (g (e_rhs e)) as [r'|] eqn:F2; [|discriminate]. cbn [bind] in H. injection H as <-. apply init_one. exact (Hs _ _ _ _ V F1 F2).
Qed.

(** Starting from a true equation, after any sequence of calls with functions that respect values (on both
    sides) or keep values (on one side), every printed line is true, and so is the equation *)
Theorem C73_history (cs : list call) : forall l r t e, Forall sound_call cs -> val l = val r -> exec eqb int_of cs (eq_new int_of l r t) = Ok e ->
  printed_true None (eq_lines e) /\ holds e.
Proof.
  intros l r t e Hs V H. assert (G : forall cs e0, Forall sound_call cs -> all_true e0 -> exec eqb int_of cs e0 = Ok e -> all_true e).
  { clear cs Hs V H. induction cs as [|c cs IH]; intros e0 Hs Ha H; cbn [exec] in H; [now injection H as <-|]. inversion Hs; subst. destruct (exec1 eqb int_of c e0) as [e1|] eqn:F; [|discriminate]. cbn [bind] in H.
    apply (IH e1); auto. eapply exec1_true; eauto. }
  destruct (G cs _ Hs (init_one l r t V) H) as [Ht Hp]. split; [exact Hp|]. now apply (all_true_iff e Ht).
Qed.
(** Adding, subtracting, multiplying and dividing true equations and expressions; [op] is any operation of the
    expressions whose value depends only on the values *)
Definition compatible (op : E -> E -> res E) : Prop := forall a b c d x y, val a = val b -> val c = val d -> op a c = Ok x -> op b d = Ok y -> val x = val y.
Theorem C73_arithmetic op (e e' : eqn) : compatible op -> holds e ->
  (forall o, holds_op o -> eq_addsub int_of op e o = Ok e' -> holds e') /\
  (forall x, eq_mul int_of op e x = Ok e' -> holds e') /\ (forall x, eq_rmul int_of op e x = Ok e' -> holds e').
Proof.
  intros Hop [l [Hl V]]. assert (F : forall a b, val a = val b -> holds (fresh int_of a b)) by (intros a b Hab; exists a; now split).
  split; [|split].
  - intros [x|q] Ho H; cbn [eq_addsub] in H; rewrite Hl in H; cbn [bind] in H.
    + destruct (op l x) as [l'|] eqn:F1; [|discriminate]. cbn [bind] in H. destruct (op (e_rhs e) x) as [r'|] eqn:F2; [|discriminate]. cbn [bind] in H. injection H as <-. apply F. exact (Hop _ _ _ _ _ _ V eq_refl F1 F2).
    + destruct Ho as [m [Hm W]]. rewrite Hm in H. cbn [bind] in H. destruct (op l m) as [l'|[]] eqn:F1; try discriminate. cbn [bind] in H. destruct (op (e_rhs e) (e_rhs q)) as [r'|[]] eqn:F2; try discriminate. cbn [bind caught] in H. injection H as <-.
      apply F. exact (Hop _ _ _ _ _ _ V W F1 F2).
  - intros x H. unfold eq_mul in H. rewrite Hl in H. cbn [bind] in H. destruct (op l x) as [l'|] eqn:F1; [|discriminate]. cbn [bind] in H. destruct (op (e_rhs e) x) as [r'|] eqn:F2; [|discriminate]. cbn [bind] in H. injection H as <-. apply F. exact (Hop _ _ _ _ _ _ V eq_refl F1 F2).
  - intros x H. unfold eq_rmul in H. rewrite Hl in H. cbn [bind] in H. destruct (op x l) as [l'|] eqn:F1; [|discriminate]. cbn [bind] in H. destruct (op x (e_rhs e)) as [r'|] eqn:F2; [|discriminate]. cbn [bind] in H. injection H as <-. apply F. exact (Hop _ _ _ _ _ _ eq_refl V F1 F2).
Qed.
(** verify: the value of the result is the difference of the sides, so it is zero exactly if the equation holds *)
Theorem C73_verify simp sub (e : eqn) d (minus : X -> X -> X) (zero : X) : keeps simp -> (forall a b c, sub a b = Ok c -> val c = minus (val a) (val b)) ->
  (forall x y, minus x y = zero <-> x = y) -> verify simp sub e = Ok d ->
  (exists l, lhs e = Ok l /\ val d = minus (val l) (val (e_rhs e))) /\ (val d = zero <-> holds e).
Proof.
  intros Hk Hs Hm H. unfold verify in H. destruct (lhs e) as [l|] eqn:Hl; [|discriminate]. cbn [bind] in H. destruct (simp l) as [a|] eqn:F1; [|discriminate]. cbn [bind] in H. destruct (simp (e_rhs e)) as [b|] eqn:F2; [|discriminate]. cbn [bind] in H.
  assert (Vd : val d = minus (val l) (val (e_rhs e))) by now rewrite (Hs _ _ _ H), (Hk _ _ F1), (Hk _ _ F2).
  split; [exists l; now split|]. rewrite Vd, Hm. unfold holds. rewrite Hl. split; [intros V; exists l; now split|intros [m [[= <-] V]]; exact V].
Qed.
(** the sides of the results *)
Theorem C73_sides op (e e' : eqn) l : lhs e = Ok l ->
  (forall q m, lhs q = Ok m -> eq_addsub int_of op e (XQ q) = Ok e' -> exists l', lhs e' = Ok l' /\ op l m = Ok l' /\ op (e_rhs e) (e_rhs q) = Ok (e_rhs e')) /\
  (forall x, eq_addsub int_of op e (XE x) = Ok e' \/ eq_mul int_of op e x = Ok e' -> exists l', lhs e' = Ok l' /\ op l x = Ok l' /\ op (e_rhs e) x = Ok (e_rhs e')) /\
  (forall x, eq_rmul int_of op e x = Ok e' -> exists l', lhs e' = Ok l' /\ op x l = Ok l' /\ op x (e_rhs e) = Ok (e_rhs e')).
Proof.
  intros Hl. split; [|split].
  - intros q m Hm H. cbn [eq_addsub] in H. rewrite Hl, Hm in H. cbn [bind] in H. destruct (op l m) as [l'|[]] eqn:F1; try discriminate. cbn [bind] in H. destruct (op (e_rhs e) (e_rhs q)) as [r'|[]] eqn:F2; try discriminate. injection H as <-. exists l'. now repeat split.
  - intros x H. unfold eq_addsub, eq_mul in H. rewrite Hl in H. cbn [bind] in H. destruct (op l x) as [l'|] eqn:F1; [|destruct H; discriminate]. cbn [bind] in H. destruct (op (e_rhs e) x) as [r'|] eqn:F2; [|destruct H; discriminate]. cbn [bind] in H.
    assert (E1 : Ok (fresh int_of l' r') = Ok e') by now destruct H. injection E1 as <-. exists l'. now repeat split.
  - intros x H. unfold eq_rmul in H. rewrite Hl in H. cbn [bind] in H. destruct (op x l) as [l'|] eqn:F1; [|discriminate]. cbn [bind] in H. destruct (op x (e_rhs e)) as [r'|] eqn:F2; [|discriminate]. cbn [bind] in H. injection H as <-. exists l'. now repeat split.
Qed.
(** as_dict maps the left side to the right side: with a true equation a substitution keeps values *)
Theorem C73_as_dict (e : eqn) : holds e -> exists l, lhs e = Ok l /\ as_dict e = Ok [(l, e_rhs e)] /\ forall a b, In (a, b) [(l, e_rhs e)] -> val a = val b.
Proof. intros [l [Hl V]]. exists l. split; [exact Hl|]. unfold as_dict. rewrite Hl. split; [reflexivity|]. intros a b [[= <- <-]|[]]. exact V. Qed.
(** comparing with an equation compares both sides, with an expression the right side *)
Theorem C73_eq (e : eqn) o : (exists l, lhs e = Ok l) -> (forall q, o = XQ q -> exists m, lhs q = Ok m) ->
  exists b, eq_eq eqb e o = Ok b /\ (b = true -> match o with XE x => val (e_rhs e) = val x | XQ q => (holds e <-> holds q) end).
Proof.
  intros [l Hl] Ho. destruct o as [x|q]; cbn [eq_eq].
  - eexists. split; [reflexivity|]. apply eqb_val.
  - destruct (Ho q eq_refl) as [m Hm]. rewrite Hl, Hm. cbn [bind]. eexists. split; [reflexivity|]. intros H. apply andb_true_iff in H. destruct H as [H1 H2]. apply eqb_val in H1, H2.
    unfold holds. rewrite Hl, Hm. split; intros [y [[= <-] V]]; [exists m|exists l]; split; try reflexivity; congruence.
Qed.
End Props.

(** The symbols of an equation: whether it is true depends only on its free symbols *)
Theorem C73_symbols {E O A : Type} (fs : E -> option (list nat)) (val : (nat -> A) -> E -> A) (e : eqn E O) l :
  (forall x rho rho', (forall i, In i (match fs x with Some s => s | None => [] end) -> rho i = rho' i) -> val rho x = val rho' x) ->
  eq_symbols fs e = Ok l -> forall rho rho', (forall i, In i l -> rho i = rho' i) -> (holds (val rho) e <-> holds (val rho') e).
Proof.
  intros Hf H rho rho' Hr. unfold eq_symbols in H. destruct (lhs e) as [m|] eqn:Hl; [|discriminate]. cbn [bind] in H. injection H as <-.
  assert (V1 : val rho m = val rho' m) by (apply Hf; intros i Hi; apply Hr, in_or_app; now left).
  assert (V2 : val rho (e_rhs e) = val rho' (e_rhs e)) by (apply Hf; intros i Hi; apply Hr, in_or_app; now right).
  unfold holds. rewrite Hl. split; intros [y [[= <-] V]]; exists m; split; try reflexivity; congruence.
Qed.
(** all_symbols are the free and the bound symbols of both sides *)
Theorem C73_all_symbols {E O : Type} (fs bs : E -> option (list nat)) (e : eqn E O) l i : lhs e = Ok l ->
  exists s, all_symbols fs bs e = Ok s /\ (In i s <-> exists x a, (x = l \/ x = e_rhs e) /\ (fs x = Some a \/ bs x = Some a) /\ In i a).
Proof.
  intros Hl. unfold all_symbols, eq_symbols. rewrite Hl. cbn [bind]. eexists. split; [reflexivity|]. rewrite !in_app_iff. split.
  - intros [[H|H]|[H|H]]; [destruct (fs l) as [a|] eqn:F|destruct (fs (e_rhs e)) as [a|] eqn:F|destruct (bs l) as [a|] eqn:F|destruct (bs (e_rhs e)) as [a|] eqn:F]; try (destruct H; fail);
      [exists l, a|exists (e_rhs e), a|exists l, a|exists (e_rhs e), a]; auto.
  - intros [x [a [[->| ->] [[F|F] H]]]]; rewrite F; auto.
Qed.
(** Substituting in an equation that is true for all values of the symbols *)
Theorem C73_substitute {E O A : Type} (eqb : E -> E -> bool) (int_of : O -> option Z) (val : (nat -> A) -> E -> A) (sub : E -> res E) (sigma : (nat -> A) -> nat -> A) cont t (e e' : eqn E O) :
  (forall rho a b, eqb a b = true -> val rho a = val rho b) -> (forall rho a b, sub a = Ok b -> val rho b = val (sigma rho) a) ->
  (forall rho, holds (val rho) e) -> eq_apply eqb int_of sub cont t e = Ok e' -> forall rho, holds (val rho) e'.
Proof.
  intros Hq Hs He H rho. unfold eq_apply in H. destruct (He (sigma rho)) as [l [Hl V]]. rewrite Hl in H. cbn [bind] in H. destruct (sub l) as [l'|] eqn:F1; [|discriminate]. cbn [bind] in H. destruct (sub (e_rhs e)) as [r'|] eqn:F2; [|discriminate]. cbn [bind] in H. injection H as <-.
  assert (V' : val rho l' = val rho r') by (rewrite (Hs _ _ _ F1), (Hs _ _ _ F2); exact V). destruct cont.
  - rewrite andb_true_r. unfold holds, update, eq_init, lhs. cbn [e_lhs e_plhs e_rhs]. destruct (eqb l' l) eqn:Q.
    + exists l. split; [|rewrite <- V'; symmetry; now apply Hq]. cbn [last_some]. rewrite rev_app_distr. exact Hl.
    + exists l'. now split.
  - rewrite andb_false_r. exists l'. now split.
Qed.

(** [==] between equations and expressions is not transitive: Eq(a, c) == c, c == c, Eq(b, c) == c, but not Eq(a, c) == Eq(b, c) *)
Theorem C73_eq_transitive_refuted : exists (e q : eqn nat nat) x, eq_eq Nat.eqb e (XE x) = Ok true /\ eq_eq Nat.eqb q (XE x) = Ok true /\ eq_eq Nat.eqb e (XQ q) = Ok false.
Proof. exists (eq_new (fun _ => None) 1 3 NoTag), (eq_new (fun _ => None) 2 3 NoTag), 3. repeat split. Qed.

Local Notation NoInt := (fun _ : nat => @None Z).
(** 2 + 2 = 4; both sides doubled, the right side rewritten, the equation added to itself: the lines are true; a subtraction verifies *)
Example C73_nonvacuous : let e := eq_new NoInt 4%Z 4%Z NoTag in
  exists e', exec Z.eqb NoInt [Apply (fun x => Ok (2 * x)%Z) true (OtherTag 1); ApplyToRhs (fun x => Ok (x + 0)%Z) true NoTag; SetTag (IntTag 7)] e = Ok e' /\
  length (eq_lines e') = 3 /\ Forall (sound_call (fun x : Z => x)) [Apply (fun x => Ok (2 * x)%Z) true (OtherTag 1); ApplyToRhs (fun x => Ok (x + 0)%Z) true NoTag; SetTag (IntTag 7)] /\
  eq_addsub NoInt (fun a b => Ok (a + b)%Z) e' (XQ e) = Ok (fresh NoInt 12%Z 12%Z) /\ compatible (fun x : Z => x) (fun a b => Ok (a + b)%Z) /\
  verify (fun x => Ok x) (fun a b => Ok (a - b)%Z) e' = Ok 0%Z.
Proof.
  cbn zeta. eexists. split; [reflexivity|]. split; [reflexivity|]. split; [|split; [reflexivity|split; [|reflexivity]]].
  - repeat constructor; cbn.
    + intros a b a' b' V [= <-] [= <-]. now subst.
    + intros a a' [= <-]. lia.
  - intros a b c d x y V W [= <-] [= <-]. now subst.
Qed.
Print Assumptions C73_history.
Print Assumptions C73_arithmetic.
Print Assumptions C73_verify.
Print Assumptions C73_sides.
Print Assumptions C73_as_dict.
Print Assumptions C73_all_symbols.
Print Assumptions C73_eq.
Print Assumptions C73_symbols.
Print Assumptions C73_substitute.
Print Assumptions C73_eq_transitive_refuted.
Print Assumptions C73_nonvacuous.
