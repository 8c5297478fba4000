(** Sums, multiples and products of operators without commutators (or without sums with
    the conjugate) contain none either; [doit] leaves none. *)
From Coq Require Import QArith Qcanon Permutation.
From Verif Require Import Prelude ListFacts SortModel SortProofs BinModel BinProofs OpModel OpSpec OpProofs1 OpForms OpForm OpFuel DoitModel DoitSpec DoitProofs1.
Local Open Scope nat_scope.

Section Closed.
  Context {S : scalars} (P : op S -> Prop).
  Local Notation op := (op S).
  Record closed : Prop := {
    c_zero : P OZero;
    c_one : P OOne;
    c_scal : forall c t, P (OScal c t) <-> P t;
    c_plus : forall es, P (OPlus es) <-> Forall P es;
    c_times : forall es, P (OTimes es) <-> Forall P es;
    c_adj : forall a, P (OAdj a) <-> P a;
    c_tr : forall a h, P (OTr a h) <-> P a;
    c_atom : forall a b, atom_space b = atom_space a -> P (OAtom a) -> P (OAtom b)
  }.
  Context (HP : closed).

  (** a result is not the exception CannotSimplify, and has the property *)
  Definition fine (r : res op) : Prop := r <> Err CannotSimplify /\ forall e, r = Ok e -> P e.
  Lemma fine_ok e : P e -> fine (Ok e).
  Proof. intros H. split; [discriminate|]. intros e' E. now injection E as <-. Qed.
  Lemma fine_err x : x <> CannotSimplify -> fine (Err x).
  Proof. intros H. split; [congruence|discriminate]. Qed.
  Lemma fine_bind r k : fine r -> (forall e, P e -> fine (k e)) -> fine (bind r k).
  Proof. intros [H1 H2] Hk. destruct r as [e|x]; [apply Hk, H2; reflexivity|]. cbn [bind]. apply fine_err. congruence. Qed.
  Definition fineo (r : outcome op) : Prop := match r with NoMatch => True | Refuses => False | Replaces (Some e) => P e | Replaces None => False | Raises x => x <> CannotSimplify end.
  Lemma fineo_lift r : fine r -> fineo (olift r).
  Proof. intros [H1 H2]. destruct r as [e|[]]; cbn; try discriminate; try (now apply H2). now apply H1. Qed.

  Record fineK (K : ocreators S) : Prop := {
    f_scal : forall c x, P x -> fine (k_scal K c x);
    f_plus : forall es, Forall P es -> fine (k_plus K es);
    f_times : forall es, Forall P es -> fine (k_times K es)
  }.
  Definition fines (r : res (list op)) : Prop := r <> Err CannotSimplify /\ forall es, r = Ok es -> Forall P es.
  Lemma fines_ok es : Forall P es -> fines (Ok es).
  Proof. intros H. split; [discriminate|]. intros e' E. now injection E as <-. Qed.
  Lemma fines_err x : x <> CannotSimplify -> fines (Err x).
  Proof. intros H. split; [congruence|discriminate]. Qed.
  Lemma fines_bind r k : fines r -> (forall es, Forall P es -> fine (k es)) -> fine (bind r k).
  Proof. intros [H1 H2] Hk. destruct r as [e|x]; [apply Hk, H2; reflexivity|]. cbn [bind]. apply fine_err. congruence. Qed.
  Lemma fines_bind2 r k : fines r -> (forall es, Forall P es -> fines (k es)) -> fines (bind r k).
  Proof. intros [H1 H2] Hk. destruct r as [e|x]; [apply Hk, H2; reflexivity|]. cbn [bind]. apply fines_err. congruence. Qed.
  Lemma fines_mapM {X} (f : X -> res op) xs : (forall x, In x xs -> fine (f x)) -> fines (mapM f xs).
  Proof.
    induction xs as [|x xs IH]; intros H; [apply fines_ok; constructor|]. cbn [mapM].
    destruct (H x (or_introl eq_refl)) as [E1 H1]. destruct (f x) as [y|e]; [|apply fines_err; congruence]. cbn [bind].
    apply fines_bind2; [apply IH; intros; apply H; now right|]. intros ys Hys. apply fines_ok. constructor; [now apply H1|exact Hys].
  Qed.

  Context (dim : nat -> option nat) (olt : op -> op -> bool) (slt : list nat -> list nat -> bool).
  Context (ord : list op -> res (list op)).
  Context (Hord : forall es, Forall P es -> fines (ord es)).

  Section Step.
  Context (K : ocreators S) (HK : fineK K).
  Lemma scal_fine c x : P x -> fine (scal_step K c x).
  Proof.
    intros H. unfold scal_step. destruct (seqb c s1); [now apply fine_ok|]. destruct (seqb c s0); [apply fine_ok, (c_zero HP)|].
    assert (fine (Ok (OScal c x))) as Hs by (apply fine_ok, (c_scal HP), H).
    destruct x; try exact Hs.
    - apply fine_ok, (c_zero HP).
    - apply (f_scal K HK). now apply (c_scal HP) in H.
    - destruct (seqb c sm1); [|exact Hs]. apply (c_plus HP) in H. apply fines_bind; [|intros; now apply (f_plus K HK)].
      apply fines_mapM. intros x Hx. apply (f_scal K HK). rewrite Forall_forall in H. now apply H.
  Qed.
  Lemma flat_plus_P es : Forall P es -> Forall P (flat_plus es).
  Proof.
    intros H. unfold flat_plus. induction H as [|x es Hx _ IH]; [constructor|]. cbn [flat_map]. apply Forall_app. split; [|exact IH].
    destruct x; try (constructor; [exact Hx|constructor]). now apply (c_plus HP) in Hx.
  Qed.
  Lemma flat_times_P es : Forall P es -> Forall P (flat_times es).
  Proof.
    intros H. unfold flat_times. induction H as [|x es Hx _ IH]; [constructor|]. cbn [flat_map]. apply Forall_app. split; [|exact IH].
    destruct x; try (constructor; [exact Hx|constructor]). now apply (c_times HP) in Hx.
  Qed.
  Lemma filter_P f es : Forall P es -> Forall P (filter f es).
  Proof. intros H. rewrite Forall_forall in *. intros x Hx. apply filter_In in Hx. now apply H. Qed.
  Lemma plus_fine es : Forall P es -> fine (plus_step olt slt K es).
  Proof.
    intros H. apply flat_plus_P in H. unfold plus_step. assert (Forall P (pysorted (ofull_lt olt slt) (flat_plus es))) as H'.
    { rewrite Forall_forall in *. intros x Hx. apply H. now apply pysorted_In in Hx. }
    revert H'. generalize (pysorted (ofull_lt olt slt) (flat_plus es)). clear es H. intros es H. apply fines_bind.
    - unfold collect_summands. apply fines_bind2.
      + apply fines_mapM. intros [t c] Ht. apply (f_scal K HK). apply (in_map fst) in Ht. apply collect_terms in Ht. destruct Ht as [x [Hx E]]. cbn [fst] in E. subst t.
        rewrite Forall_forall in H. specialize (H x Hx). destruct x; try exact H. now apply (c_scal HP) in H.
      + intros fs Hf. apply fines_ok. now apply filter_P.
    - intros [|x [|y fs]] Hf; apply fine_ok; [apply (c_zero HP)|exact (Forall_inv Hf)|]. now apply (c_plus HP).
  Qed.
  Lemma raise_P a j k i i' : P (OAtom a) -> atom_space a = [k] -> forall j', P (raise_jk dim j j' k i i').
  Proof. intros H E j'. unfold raise_jk. destruct (_ && _); [|apply (c_zero HP)]. apply (c_atom HP a); [now rewrite E|exact H]. Qed.
  Lemma phase_P a u l : P (OAtom a) -> atom_space a = [l] -> P (phase_create u l).
  Proof. intros H E. unfold phase_create. destruct (seqb u s0); [apply (c_one HP)|]. apply (c_atom HP a); [now rewrite E|exact H]. Qed.
  Lemma disp_P a u l : P (OAtom a) -> atom_space a = [l] -> P (disp_create u l).
  Proof. intros H E. unfold disp_create. destruct (seqb u s0); [apply (c_one HP)|]. apply (c_atom HP a); [now rewrite E|exact H]. Qed.
  Lemma fine_coeff (l m : nat) (f : nat -> S) k : (forall c, fine (k c)) -> fine (bind (spin_coeff dim l m f) k).
  Proof. intros Hk. unfold spin_coeff. destruct (dim l) as [n|]; [|now apply fine_err]. destruct (m <? n); [apply Hk|now apply fine_err]. Qed.

  Ltac pa :=
    match goal with
    | H : P (OAtom ?a) |- P (OAtom ?b) => apply (c_atom HP a); [reflexivity|exact H]
    | H : P (OAtom ?a) |- P (raise_jk _ _ _ _ _ _) => apply (raise_P a); [exact H|reflexivity]
    | H : P (OAtom ?a) |- P (phase_create _ _) => apply (phase_P a); [exact H|reflexivity]
    | H : P (OAtom ?a) |- P (disp_create _ _) => apply (disp_P a); [exact H|reflexivity]
    end.
  Ltac ag :=
    repeat first
      [ assumption | pa | apply (c_one HP) | apply (c_zero HP)
      | apply (f_scal K HK) | apply (f_plus K HK) | apply (f_times K HK)
      | apply Forall_cons | apply Forall_nil
      | apply fine_ok | apply fine_coeff; intros | apply fine_bind; [|intros] ].
  Ltac rule := intros a b Ha Hb; unfold r001, r002, r003, r004, r005, r009, r010, r011, r012, r013, r014, r015, r016, r017, r018, r019, r020, r021,
      r022, r023, r024, r025, r026, r027, r028, r029, r030, local_rule, add_scalar, Jpjmcoeff, Jmjmcoeff, Jzjmcoeff;
    repeat match goal with |- fineo (match ?x with _ => _ end) => is_var x; destruct x; try exact Logic.I end;
    try match goal with |- fineo (if ?x =? ?y then _ else _) => destruct (Nat.eqb_spec x y) as [E|_]; [rewrite <- ?E in *; clear E|exact Logic.I] end;
    try match goal with H : P (OScal _ _) |- _ => apply (c_scal HP) in H end;
    first [apply fineo_lift; ag | cbn [fineo]; ag].
  Lemma times_rules_fine : Forall (fun f => forall a b, P a -> P b -> fineo (f a b)) (times_rules dim K).
  Proof. unfold times_rules. repeat (apply Forall_cons; [solve [rule]|]). apply Forall_nil. Qed.
  Lemma gbr_fine a b : P a -> P b ->
    get_binary_replacement (times_cls dim K) a b <> Err CannotSimplify
    /\ forall r, get_binary_replacement (times_cls dim K) a b = Ok (Some r) -> P r.
  Proof.
    intros Ha Hb. unfold get_binary_replacement. cbn [binary_rules times_cls]. pose proof times_rules_fine as H. revert H. generalize (times_rules dim K).
    intros fs H. induction H as [|f fs Hfg _ [IH1 IH2]]; [now split|]. cbn [try_rules]. specialize (Hfg a b Ha Hb). destruct (f a b) as [| |[r|]|e]; cbn [fineo] in Hfg.
    - now split.
    - contradiction.
    - split; [discriminate|]. intros r' E. now injection E as <-.
    - contradiction.
    - split; [congruence|discriminate].
  Qed.
  Lemma combine_fine : forall f a b, Forall P a -> Forall P b -> fines (mrb_combine (times_cls dim K) f a b).
  Proof.
    induction f as [|f IH]; intros a b Ha Hb; [now apply fines_err|]. cbn [mrb_combine].
    assert (fines (Ok (a ++ b))) as Hab by (apply fines_ok, Forall_app; now split).
    destruct (split_last a) as [[a' x]|] eqn:Ea; [|exact Hab]. destruct b as [|y b']; [exact Hab|].
    apply split_last_inv in Ea. subst a. apply Forall_app in Ha. destruct Ha as [Ha' Hx]. apply Forall_inv in Hx.
    destruct (gbr_fine x y Hx (Forall_inv Hb)) as [E1 E2]. destruct (get_binary_replacement (times_cls dim K) x y) as [[r|]|e].
    - cbn [bind]. assert (P r) as Hr by now apply E2.
      destruct (is_neutral (times_cls dim K) r); [apply IH; [exact Ha'|exact (Forall_inv_tail Hb)]|]. apply fines_bind2.
      + apply IH; [exact Ha'|]. cbn [instance_args times_cls]. destruct r; try (constructor; [exact Hr|constructor]). now apply (c_times HP) in Hr.
      + intros es Hes. apply IH; [exact Hes|exact (Forall_inv_tail Hb)].
    - exact Hab.
    - apply fines_err. congruence.
  Qed.
  Lemma reduce_fine f : forall d es, Forall P es -> fines (mrb_reduce (times_cls dim K) d f es).
  Proof.
    induction d as [|d IH]; intros es H; [now apply fines_err|]. cbn [mrb_reduce]. destruct (length es <=? 1).
    - now apply fines_ok.
    - pose proof H as H2. rewrite <- (firstn_skipn (length es / 2) es) in H2. apply Forall_app in H2. destruct H2 as [H2 H3].
      apply fines_bind2; [now apply IH|]. intros x Hx. apply fines_bind2; [now apply IH|]. intros y Hy. now apply combine_fine.
  Qed.
  Lemma times_fine f es : Forall P es -> fine (times_step dim ord K f es).
  Proof.
    intros H. apply flat_times_P in H. unfold times_step. apply fines_bind; [now apply Hord|]. intros [|x fs] Hf; [apply fine_ok, (c_one HP)|].
    pose proof (filter_P (fun o => negb (is_one o)) _ Hf) as Hf2. destruct (filter _ _) as [|y [|z gs]].
    - apply fine_ok. exact (Forall_inv Hf).
    - apply fine_ok. exact (Forall_inv Hf2).
    - unfold match_replace_binary. destruct (reduce_fine f (Datatypes.S (length (y :: z :: gs))) _ Hf2) as [E1 E2].
      destruct (mrb_reduce (times_cls dim K) _ f _) as [r|e]; [|apply fine_err; congruence]. specialize (E2 r eq_refl). cbn [bind].
      destruct r as [|w [|w2 r]]; cbn [bind]; apply fine_ok; [apply (c_one HP)|exact (Forall_inv E2)|now apply (c_times HP)].
  Qed.

  Lemma sub_fine a b : P a -> P b -> fine (osub K a b).
  Proof. intros. unfold osub. ag. Qed.
  Lemma written_out_fine a b : P a -> P b -> fine (written_out K a b).
  Proof. intros. unfold written_out. apply fine_bind; [ag|]. intros. apply fine_bind; [ag|]. intros. now apply sub_fine. Qed.

  (** *** Commutators of such operators *)
  Inductive cform : op -> Prop :=
  | cf_comm a b : P a -> P b -> cform (OComm a b)
  | cf_scal c t : cform t -> cform (OScal c t).
  Definition finec (r : res op) : Prop := forall e, r = Ok e -> P e \/ cform e.
  Context (HC : forall a b, P a -> P b -> finec (k_comm K a b)).
  Context (HS : forall c x, cform x -> finec (k_scal K c x)).
  Lemma fine_c r : fine r -> finec r.
  Proof. intros [_ H] e E. left. now apply H. Qed.
  Lemma scal_c c x : P x \/ cform x -> finec (k_scal K c x).
  Proof. intros [H|H]; [apply fine_c; now apply (f_scal K HK)|now apply HS]. Qed.
  Lemma scal_cform c x : cform x -> finec (scal_step K c x).
  Proof.
    intros H e E. unfold scal_step in E. destruct (seqb c s1); [injection E as <-; now right|]. destruct (seqb c s0); [injection E as <-; left; apply (c_zero HP)|].
    destruct H as [a b Ha Hb|d t Ht]; [injection E as <-; right; now apply cf_scal, cf_comm|]. exact (HS _ _ Ht e E).
  Qed.
  Lemma comm_c a b : P a -> P b -> finec (comm_step olt slt K a b).
  Proof.
    intros Ha Hb. unfold comm_step. destruct (sp_disjoint _ _); [apply fine_c, fine_ok, (c_zero HP)|].
    assert (forall c x y, P x -> P y -> finec (bind (k_comm K x y) (fun t => k_scal K c t))) as HB.
    { intros c x y Hx Hy e E. destruct (k_comm K x y) as [t|] eqn:Et; [|discriminate E]. cbn [bind] in E. exact (scal_c c t (HC x y Hx Hy t Et) e E). }
    destruct (ofull_lt _ _ _ _); [now apply HB|].
    unfold comm_rules. destruct (oeqb a b); [apply fine_c, fine_ok, (c_zero HP)|].
    assert (finec (written_out K a b)) as HW by (apply fine_c; now apply written_out_fine).
    assert (finec (Ok (OComm a b))) as HCo by (intros e E; injection E as <-; right; now apply cf_comm).
    destruct a as [| |x|u a|es|es|a1 a2|a|a h|s a], b as [| |y|v b|fs|fs|b1 b2|b|b h'|s' b]; try exact HCo;
      try (apply HB; first [assumption | now apply (c_scal HP) in Ha | now apply (c_scal HP) in Hb]).
    destruct x, y; try exact HCo; try exact HW. destruct (ls =? ls0); [|exact HW]. apply fine_c, fine_ok, (c_scal HP), (c_one HP).
  Qed.
  End Step.
End Closed.
