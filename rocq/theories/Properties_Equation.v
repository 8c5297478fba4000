(** C44: the history of an equation is faithful. *)
From Verif Require Import Prelude EquationModel EquationSpec.

Section Eqn.
  Context {E O : Type} (eqb : E -> E -> bool) (int_of : O -> option Z) (HE : equivalence eqb).
  Local Notation same := (same eqb).
  Local Notation shows := (shows (O:=O) eqb).

  (** the stored lists have the same length *)
  Definition wf (e : eqn E O) : Prop := length (e_plhs e) = length (e_prhs e) /\ length (e_ptags e) = length (e_prhs e).
  Lemma combine_snoc {A B} (l : list A) (m : list B) x y : length l = length m -> combine (l ++ [x]) (m ++ [y]) = combine l m ++ [(x, y)].
  Proof. revert m. induction l as [|a l IH]; intros [|b m] H; try discriminate; [reflexivity|]. cbn [app combine]. f_equal. apply IH. now injection H. Qed.
  Definition prev_lines (e : eqn E O) := combine (combine (e_plhs e) (e_prhs e)) (e_ptags e).
  Lemma lines_snoc e : wf e -> eq_lines e = prev_lines e ++ [(e_lhs e, e_rhs e, e_tag e)].
  Proof. intros [H1 H2]. unfold eq_lines, prev_lines. rewrite combine_snoc by exact H1. apply combine_snoc. rewrite combine_length. lia. Qed.
  Lemma shows_snoc ab ls hs x y : shows ab ls hs ->
    (forall ab', (ls = [] -> ab' = ab) -> (forall k, hs <> [] -> ab' = Some (fst (fst (last hs k)))) -> shows ab' [x] [y]) -> shows ab (ls ++ [x]) (hs ++ [y]).
  Proof.
    induction 1 as [ab|ab l l' r t ls hs Hl H IH|a l' r t ls hs Hl H IH]; intros G; cbn [app].
    - apply G; [reflexivity|]. intros k Hk. contradiction.
    - apply shows_full; [exact Hl|]. apply IH. intros ab' H1 H2. apply G; [discriminate|]. intros k _. destruct hs as [|h hs].
      + inversion H. subst ls. now rewrite (H1 eq_refl).
      + rewrite (H2 k) by discriminate. reflexivity.
    - apply shows_blank; [exact Hl|]. apply IH. intros ab' H1 H2. apply G; [discriminate|]. intros k _. destruct hs as [|h hs].
      + inversion H. subst ls. now rewrite (H1 eq_refl).
      + rewrite (H2 k) by discriminate. reflexivity.
  Qed.
  (** the relation between an equation and its history *)
  Definition faithful (e : eqn E O) (h : history) : Prop :=
    wf e /\ shows None (eq_lines e) (fst h ++ [snd h]) /\ exists l, lhs e = Ok l /\ same l (fst (fst (snd h))).
  Lemma shows_last ab ls hs x y : shows ab (ls ++ [x]) (hs ++ [y]) -> snd x = snd y /\ snd (fst x) = snd (fst y) /\ shows ab ls hs.
  Proof.
    revert ab hs. induction ls as [|a ls IH]; intros ab hs H; cbn [app] in H.
    - destruct hs as [|h hs]; cbn [app] in H.
      + inversion H; subst; repeat split; constructor.
      + inversion H; subst; match goal with G : EquationSpec.shows _ _ [] _ |- _ => inversion G; destruct hs; discriminate end.
    - destruct hs as [|h hs]; cbn [app] in H.
      + inversion H; subst; match goal with G : EquationSpec.shows _ _ _ [] |- _ => inversion G; destruct ls; discriminate end.
      + inversion H; subst; match goal with G : EquationSpec.shows _ _ (ls ++ [x]) _ |- _ => destruct (IH _ _ G) as [H1 [H2 H3]] end; (split; [exact H1|]; split; [exact H2|]).
        * now apply shows_full.
        * now apply shows_blank.
  Qed.
  Lemma update_faithful e h l l' r t cont : faithful e h -> (forall x, l = Some x -> same x l') -> (l = None -> cont = true /\ same (fst (fst (snd h))) l') ->
    faithful (update int_of e l r t cont) (next cont h (l', r, norm_tag int_of t)).
  Proof.
    intros [Hw [Hs [l0 [Hl0 Hsl]]]] H1 H2. destruct cont; unfold update, next, eq_init; cbn [fst snd].
    - destruct Hw as [W1 W2]. assert (wf (MkEq l r (norm_tag int_of t) (e_plhs e ++ [e_lhs e]) (e_prhs e ++ [e_rhs e]) (e_ptags e ++ [e_tag e]))) as W by (split; cbn [e_plhs e_prhs e_ptags]; rewrite !app_length; cbn [length]; lia).
      split; [exact W|]. split.
      + rewrite (lines_snoc _ W). cbn [e_lhs e_rhs e_tag]. unfold prev_lines. cbn [e_plhs e_prhs e_ptags]. fold (eq_lines e). apply shows_snoc; [exact Hs|].
        intros ab' _ Hab. specialize (Hab (snd h) ltac:(destruct (fst h); discriminate)). assert (ab' = Some (fst (fst (snd h)))) as -> by (rewrite Hab; do 3 f_equal; apply last_last). clear Hab. destruct l as [x|].
        * apply shows_full; [now apply H1|constructor].
        * apply shows_blank; [exact (proj2 (H2 eq_refl))|constructor].
      + unfold lhs. cbn [e_lhs e_plhs]. destruct l as [x|].
        * exists x. split; [reflexivity|now apply H1].
        * rewrite rev_app_distr. cbn [rev app]. change (last_some (None :: e_lhs e :: rev (e_plhs e))) with (lhs e). exists l0. split; [exact Hl0|]. eapply (eq_trans' eqb HE); [exact Hsl|exact (proj2 (H2 eq_refl))].
    - destruct l as [x|]; [|destruct (H2 eq_refl); discriminate]. split; [now split|]. split.
      + apply shows_full; [now apply H1|constructor].
      + exists x. split; [reflexivity|now apply H1].
  Qed.
  Lemma same_ok f l l' : respectful eqb f -> same l l' -> (exists x y, f l = Ok x /\ f l' = Ok y /\ same x y) \/ (exists x, f l = Err x /\ f l' = Err x).
  Proof.
    intros Hf H. specialize (Hf _ _ H). destruct (f l) as [x|x], (f l') as [y|y]; try contradiction.
    - left. now exists x, y.
    - right. exists x. now rewrite <- Hf.
  Qed.
  Lemma shows_retag ls : forall ab hs l l' r t t2, shows ab (ls ++ [(l, r, t)]) (hs ++ [(l', r, t)]) -> shows ab (ls ++ [(l, r, t2)]) (hs ++ [(l', r, t2)]).
  Proof.
    induction ls as [|a ls IH]; intros ab hs l l' r t t2 H; cbn [app] in *.
    - destruct hs as [|h hs]; cbn [app] in *.
      + inversion H; subst; [apply shows_full|apply shows_blank]; try assumption; constructor.
      + inversion H; subst; match goal with G : EquationSpec.shows _ _ [] _ |- _ => inversion G; destruct hs; discriminate end.
    - destruct hs as [|h hs]; cbn [app] in *.
      + inversion H; subst; match goal with G : EquationSpec.shows _ _ _ [] |- _ => inversion G; destruct ls; discriminate end.
      + inversion H; subst; [apply shows_full|apply shows_blank]; try assumption; eapply IH; eassumption.
  Qed.
  Definition outcome (r : res (eqn E O)) (s : res history) : Prop := match r, s with Ok e, Ok h => faithful e h | Err x, Err y => x = y | _, _ => False end.
  Lemma faithful_rhs e h : faithful e h -> e_rhs e = snd (fst (snd h)) /\ e_tag e = snd (snd h).
  Proof. intros [Hw [Hs _]]. rewrite (lines_snoc _ Hw) in Hs. destruct (shows_last _ _ _ _ _ Hs) as [H1 [H2 _]]. now split. Qed.
  Definition normal (e : eqn E O) : Prop := exists u, e_tag e = norm_tag int_of u.
  Lemma exec1_faithful c e h : good_call eqb c -> normal e -> faithful e h -> outcome (exec1 eqb int_of c e) (spec1 int_of c h).
  Proof.
    intros Hc Hn He. destruct (faithful_rhs _ _ He) as [Hr Ht]. pose proof He as [Hw [Hs [l0 [Hl0 Hsl]]]]. destruct h as [hs [[l r] t0]]. cbn [fst snd] in *. subst r t0.
    destruct c as [f cont t|f cont t|f cont t|t| |f g]; cbn [exec1 spec1 good_call] in *; unfold spec1; cbn [snd fst].
    - unfold eq_apply. rewrite Hl0. cbn [bind]. destruct (same_ok f l0 l Hc Hsl) as [[x [y [-> [-> Hxy]]]]|[x [-> ->]]]; cbn [bind]; [|reflexivity].
      destruct (f (e_rhs e)) as [r'|x']; cbn [bind outcome]; [|reflexivity]. apply (update_faithful e (hs, (l, e_rhs e, e_tag e)) _ y r' t cont He).
      + intros z Hz. destruct (eqb x l0 && cont); [discriminate|]. now injection Hz as <-.
      + intros Hz. destruct (eqb x l0) eqn:Ex; [|discriminate]. destruct cont; [|discriminate]. split; [reflexivity|]. cbn [snd fst].
        eapply (eq_trans' eqb HE); [apply (eq_sym' eqb HE); exact Hsl|]. eapply (eq_trans' eqb HE); [apply (eq_sym' eqb HE); exact Ex|exact Hxy].
    - unfold eq_apply_lhs. rewrite Hl0. cbn [bind]. destruct (same_ok f l0 l Hc Hsl) as [[x [y [-> [-> Hxy]]]]|[x [-> ->]]]; cbn [bind outcome]; [|reflexivity].
      apply (update_faithful e (hs, (l, e_rhs e, e_tag e)) (Some x) y (e_rhs e) t cont He); [|discriminate]. now intros z [= <-].
    - unfold eq_apply_rhs. destruct cont; [|rewrite Hl0]; cbn [bind rmap]; (destruct (f (e_rhs e)) as [r'|x']; cbn [bind outcome]; [|reflexivity]).
      + apply (update_faithful e (hs, (l, e_rhs e, e_tag e)) None l r' t true He); [discriminate|]. intros _. split; [reflexivity|apply (eq_refl' eqb HE)].
      + apply (update_faithful e (hs, (l, e_rhs e, e_tag e)) (Some l0) l r' t false He); [|discriminate]. now intros z [= <-].
    - cbn [outcome]. unfold set_tag, eq_init. split; [exact Hw|]. split; [|now exists l0].
      rewrite (lines_snoc _ Hw) in Hs. rewrite lines_snoc by exact Hw. cbn [fst snd]. exact (shows_retag _ _ _ _ _ _ _ _ Hs).
    - destruct Hn as [u Hu]. cbn [outcome]. unfold copy, eq_init. replace (norm_tag int_of (e_tag e)) with (e_tag e).
      + destruct e; exact He.
      + rewrite Hu. destruct u as [|z|o]; cbn [norm_tag]; try reflexivity. destruct (int_of o) as [z|] eqn:Eo; cbn [norm_tag]; [reflexivity|now rewrite Eo].
    - unfold eq_arith. rewrite Hl0. cbn [bind]. destruct (same_ok f l0 l Hc Hsl) as [[x [y [-> [-> Hxy]]]]|[x [-> ->]]]; cbn [bind]; [|reflexivity].
      destruct (g (e_rhs e)) as [r'|x']; cbn [bind outcome]; [|reflexivity].
      apply (update_faithful e (hs, (l, e_rhs e, e_tag e)) (Some x) y r' NoTag false He); [|discriminate]. now intros z [= <-].
  Qed.
  (** tags are stored as int() leaves them *)
  Lemma exec1_normal c e e' : normal e -> exec1 eqb int_of c e = Ok e' -> normal e'.
  Proof.
    intros Hn H. assert (forall l r t cont, normal (update int_of e l r t cont)) as G by (intros l r t cont; exists t; now destruct cont).
    destruct c as [f cont t|f cont t|f cont t|t| |f g]; cbn [exec1] in H.
    - unfold eq_apply in H. destruct (lhs e) as [e0|]; [|discriminate]. cbn [bind] in H. destruct (f e0); [|discriminate]. cbn [bind] in H. destruct (f (e_rhs e)); [|discriminate]. cbn [bind] in H. injection H as <-. apply G.
    - unfold eq_apply_lhs in H. destruct (lhs e) as [e0|]; [|discriminate]. cbn [bind] in H. destruct (f e0); [|discriminate]. cbn [bind] in H. injection H as <-. apply G.
    - unfold eq_apply_rhs in H. destruct (if cont then Ok None else rmap Some (lhs e)); [|discriminate]. cbn [bind] in H. destruct (f (e_rhs e)); [|discriminate]. cbn [bind] in H. injection H as <-. apply G.
    - injection H as <-. now exists t.
    - injection H as <-. now exists (e_tag e).
    - unfold eq_arith in H. destruct (lhs e) as [e0|]; [|discriminate]. cbn [bind] in H. destruct (f e0); [|discriminate]. cbn [bind] in H. destruct (g (e_rhs e)); [|discriminate]. cbn [bind] in H. injection H as <-. now exists NoTag.
  Qed.
  Lemma exec_faithful cs : forall e h, Forall (good_call eqb) cs -> normal e -> faithful e h -> outcome (exec eqb int_of cs e) (spec int_of cs h).
  Proof.
    induction cs as [|c cs IH]; intros e h Hc Hn He; cbn [exec spec]; [exact He|].
    pose proof (exec1_faithful c e h (Forall_inv Hc) Hn He) as H1. pose proof (exec1_normal c e) as Hn1. destruct (exec1 eqb int_of c e) as [e'|x], (spec1 int_of c h) as [h'|y]; try contradiction; cbn [bind].
    - apply IH; [exact (Forall_inv_tail Hc)|now apply Hn1|exact H1].
    - exact H1.
  Qed.
End Eqn.

(** For every sequence of calls with functions that respect [==]: the code raises exactly
    when applying the functions one after the other raises, with the same exception; and
    otherwise eq.lhs is equal to the result of the functions applied to the left side,
    eq.rhs and eq.tag are exactly those of the current line, and the stored and printed
    lines are exactly the equations since the last step without cont=True, in order. *)
Theorem C44_history E O (eqb : E -> E -> bool) (int_of : O -> option Z) cs l r t : equivalence eqb -> Forall (good_call eqb) cs ->
  match exec eqb int_of cs (eq_new int_of l r t), spec int_of cs ([], (l, r, tagged int_of t)) with
  | Ok e, Ok (prev, (l', r', t')) =>
      (exists l0, lhs e = Ok l0 /\ same eqb l0 l') /\ e_rhs e = r' /\ e_tag e = t' /\ shows eqb None (eq_lines e) (prev ++ [(l', r', t')])
  | Err x, Err y => x = y
  | _, _ => False
  end.
Proof.
  intros HE Hc. assert (faithful eqb (eq_new int_of l r t) ([], (l, r, tagged int_of t))) as H0.
  { split; [now split|]. split; [apply shows_full; [apply (eq_refl' eqb HE)|constructor]|]. exists l. split; [reflexivity|apply (eq_refl' eqb HE)]. }
  assert (normal int_of (eq_new int_of l r t)) as Hn by now exists t.
  pose proof (exec_faithful eqb int_of HE cs _ _ Hc Hn H0) as H. unfold outcome in H.
  destruct (exec eqb int_of cs (eq_new int_of l r t)) as [e|x], (spec int_of cs ([], (l, r, tagged int_of t))) as [[prev [[l' r'] t']]|y]; try contradiction; [|exact H].
  destruct (faithful_rhs eqb _ _ H) as [Hr Ht]. destruct H as [_ [Hs Hl]]. now repeat split.
Qed.
Print Assumptions C44_history.

(** A step without cont=True forgets the history; one with cont=True keeps every line above. *)
Theorem C44_lines E O (eqb : E -> E -> bool) (int_of : O -> option Z) f cont t (e e' : eqn E O) :
  length (e_plhs e) = length (e_prhs e) -> length (e_ptags e) = length (e_prhs e) ->
  exec1 eqb int_of (Apply f cont t) e = Ok e' \/ exec1 eqb int_of (ApplyToLhs f cont t) e = Ok e' \/ exec1 eqb int_of (ApplyToRhs f cont t) e = Ok e' ->
  exists x, eq_lines e' = (if cont then eq_lines e else []) ++ [x].
Proof.
  intros W1 W2 H. assert (forall l r, exists x, eq_lines (update int_of e l r t cont) = (if cont then eq_lines e else []) ++ [x]) as G.
  { intros l r. destruct cont; cbn [update]; [|eexists; reflexivity]. exists (l, r, norm_tag int_of t). unfold update, eq_init. rewrite lines_snoc; [reflexivity|].
    split; cbn [e_plhs e_prhs e_ptags]; rewrite !app_length; cbn [length]; lia. }
  destruct H as [H|[H|H]]; cbn [exec1] in H.
  - unfold eq_apply in H. destruct (lhs e) as [e0|]; [|discriminate]. cbn [bind] in H. destruct (f e0); [|discriminate]. cbn [bind] in H. destruct (f (e_rhs e)); [|discriminate]. cbn [bind] in H. injection H as <-. apply G.
  - unfold eq_apply_lhs in H. destruct (lhs e) as [e0|]; [|discriminate]. cbn [bind] in H. destruct (f e0); [|discriminate]. cbn [bind] in H. injection H as <-. apply G.
  - unfold eq_apply_rhs in H. destruct (if cont then Ok None else rmap Some (lhs e)); [|discriminate]. cbn [bind] in H. destruct (f (e_rhs e)); [|discriminate]. cbn [bind] in H. injection H as <-. apply G.
Qed.
Print Assumptions C44_lines.

(** ** A concrete history: integers, tags read as ints *)
Definition x_calls : list (call Z nat) :=
  [Apply (fun x => Ok (x + 1)%Z) false NoTag; SetTag (OtherTag 7); ApplyToRhs (fun x => Ok (x * 2)%Z) true NoTag; Apply (fun x => if (x =? 0)%Z then Err ZeroDivisionError else Ok (Z.abs x)) true (IntTag 3); Copy].
Example C44_nonvacuous : equivalence Z.eqb /\ Forall (good_call Z.eqb) x_calls /\
  rmap (fun e => (lhs e, eq_lines e)) (exec Z.eqb (fun o => Some (Z.of_nat o)) x_calls (eq_new (fun o => Some (Z.of_nat o)) 4%Z (-6)%Z NoTag)) =
    Ok (Ok 5%Z, [(Some 5%Z, (-5)%Z, IntTag 7); (None, (-10)%Z, NoTag); (None, 10%Z, IntTag 3)]).
Proof.
  split; [split; unfold same; intros; rewrite ?Z.eqb_eq in *; congruence|]. split; [|reflexivity].
  assert (forall f : Z -> res Z, respectful Z.eqb f) as G.
  { intros f a b H. apply Z.eqb_eq in H. subst b. destruct (f a); [apply Z.eqb_refl|reflexivity]. }
  repeat constructor; apply G.
Qed.
