(** Reading back what srepr prints: the printers with their caches. *)
From Verif Require Import Prelude ListFacts SreprModel SreprSpec SreprProofs1.

Lemma px_ind' (P : px -> Prop) (H1 : forall n, P (XSing n)) (H2 : forall h args kw, Forall P args -> Forall (fun p => P (snd p)) kw -> P (XExpr h args kw))
  (H3 : forall l, Forall P l -> P (XTup l)) (H4 : forall l, Forall P l -> P (XList l)) (H5 : forall n, P (XLeaf n)) (H6 : forall s, P (XStr s)) : forall x, P x.
Proof.
  fix go 1. intros x. pose (fix gl (l : list px) : Forall P l := match l with [] => Forall_nil P | y :: l' => Forall_cons y (go y) (gl l') end) as gl.
  pose (fix gk (l : list (nat * px)) : Forall (fun p => P (snd p)) l := match l with [] => Forall_nil _ | p :: l' => Forall_cons p (go (snd p)) (gk l') end) as gk.
  destruct x as [n|h args kw|l|l|n|s].
  - apply H1.
  - apply H2; [apply gl|apply gk].
  - apply H3, gl.
  - apply H4, gl.
  - apply H5.
  - apply H6.
Qed.

Section Print.
Context (peq : px -> px -> bool) (env : nat -> option px) (P : px -> Prop).
Context (honest : forall x y, P x -> P y -> peq x y = true -> x = y) (sing : forall n, P (XSing n) -> env n = None).
Local Notation rd := (rd env). Local Notation rdk := (rdk env).

(** *** caches *)
Section Cache.
Context {A : Type} (R : A -> px -> Prop).
Definition okc (c : list (px * A)) : Prop := Forall (fun p => P (fst p) /\ R (snd p) (fst p)) c.
Lemma lookup_ok c x s : okc c -> P x -> lookup peq c x = Some s -> R s x.
Proof.
  intros Hc Hx. unfold lookup. destruct (find (fun p => peq (fst p) x) c) as [[k s']|] eqn:E; [|discriminate]. cbn [option_map snd]. intros H. injection H as ->.
  apply find_some in E. destruct E as [E1 E2]. cbn [fst] in E2. unfold okc in Hc. rewrite Forall_forall in Hc. destruct (Hc _ E1) as [G1 G2]. cbn [fst snd] in *. now rewrite <- (honest k x G1 Hx E2).
Qed.
Lemma store_ok c x s : okc c -> P x -> R s x -> okc (store peq c x s).
Proof.
  intros Hc Hx Hs. induction Hc as [|[k t] c [G1 G2] Hc IH]; cbn [store fst].
  - constructor; [now split|constructor].
  - cbn [fst snd] in *. destruct (peq k x) eqn:E.
    + constructor; [|exact Hc]. cbn [fst snd]. rewrite (honest k x G1 Hx E). now split.
    + constructor; [now split|exact IH].
Qed.
End Cache.

Definition inside (x : px) : Prop := forall y, In y (parts x) -> P y.
Lemma inside_self x : inside x -> P x.
Proof. intros H. apply H. destruct x; now left. Qed.
Lemma inside_args h args kw y : inside (XExpr h args kw) -> In y args -> inside y.
Proof. intros H Hy z Hz. apply H. right. apply in_app_iff. left. apply in_flat_map. now exists y. Qed.
Lemma inside_kw h args kw p : inside (XExpr h args kw) -> In p kw -> inside (snd p).
Proof. intros H Hy z Hz. apply H. right. apply in_app_iff. right. apply in_flat_map. now exists p. Qed.
Lemma inside_tup l y : inside (XTup l) -> In y l -> inside y.
Proof. intros H Hy z Hz. apply H. right. apply in_flat_map. now exists y. Qed.
Lemma inside_list l y : inside (XList l) -> In y l -> inside y.
Proof. intros H Hy z Hz. apply H. right. apply in_flat_map. now exists y. Qed.

(** *** the flat form *)
Definition goodp (x : px) : Prop := forall b c, inside x -> okc rd c -> okc rd (fst (pr peq b c x)) /\ rd (snd (pr peq b c x)) x.
Definition go_args (b : bool) := fix go (c : cache) (l : list px) := match l with
   | [] => (c, [])
   | y :: l' => let '(c1, s) := pr peq b c y in let '(c2, ss) := go c1 l' in (c2, s :: ss) end.
Definition go_kw := fix go (c : cache) (l : list (nat * px)) := match l with
   | [] => (c, [])
   | (k, y) :: l' => let '(c1, s) := pr peq true c y in let '(c2, ss) := go c1 l' in (c2, (k, s) :: ss) end.
Lemma go_args_ok b l : Forall goodp l -> Forall inside l -> forall c, okc rd c -> okc rd (fst (go_args b c l)) /\ Forall2 rd (snd (go_args b c l)) l.
Proof.
  induction 1 as [|y l Hy _ IH]; intros Hi c Hc; cbn [go_args]; [split; [exact Hc|constructor]|]. inversion Hi as [|y' l' Hiy Hil]. subst.
  destruct (Hy b c Hiy Hc) as [G1 G2]. destruct (pr peq b c y) as [c1 s]. cbn [fst snd] in *. destruct (IH Hil c1 G1) as [G3 G4]. destruct (go_args b c1 l) as [c2 ss]. cbn [fst snd] in *.
  split; [exact G3|]. now constructor.
Qed.
Lemma go_kw_ok l : Forall (fun p => goodp (snd p)) l -> Forall (fun p => inside (snd p)) l -> forall c, okc rd c -> okc rd (fst (go_kw c l)) /\ Forall2 rdk (snd (go_kw c l)) l.
Proof.
  induction 1 as [|[k y] l Hy _ IH]; intros Hi c Hc; cbn [go_kw]; [split; [exact Hc|constructor]|]. inversion Hi as [|y' l' Hiy Hil]. subst. cbn [snd] in *.
  destruct (Hy true c Hiy Hc) as [G1 G2]. destruct (pr peq true c y) as [c1 s]. cbn [fst snd] in *. destruct (IH Hil c1 G1) as [G3 G4]. destruct (go_kw c1 l) as [c2 ss]. cbn [fst snd] in *.
  split; [exact G3|]. constructor; [|exact G4]. split; [reflexivity|exact G2].
Qed.
Definition body (c : cache) (x : px) : cache * list tok := match x with
      | XSing n => (c, [TName n])
      | XExpr h args kw => let '(c1, ss) := go_args true c args in let '(c2, ks) := go_kw c1 kw in (c2, call_text h ss ks)
      | XTup l => let '(c1, ss) := go_args false c l in (c1, seq_text TLp TRp ss)
      | XList l => let '(c1, ss) := go_args false c l in (c1, seq_text TLb TRb ss)
      | XLeaf n => (c, [TLeaf n])
      | XStr s => (c, [TStr s])
      end.
Lemma pr_step b c x : pr peq b c x = match (if b && cacheable x then lookup peq c x else None) with Some s => (c, s) | None =>
    let '(c1, s) := body c x in if b && cacheable x then (store peq c1 x s, s) else (c1, s) end.
Proof. destruct x; reflexivity. Qed.
Theorem pr_ok x : goodp x.
Proof.
  assert (forall x, (forall c, inside x -> okc rd c -> exists c1 s, body c x = (c1, s) /\ okc rd c1 /\ rd s x) -> goodp x) as W.
  { intros y H b c Hi Hc. rewrite (pr_step b c y). destruct (if b && cacheable y then lookup peq c y else None) as [s|] eqn:E.
    - cbn [fst snd]. split; [exact Hc|]. destruct (b && cacheable y); [|discriminate]. apply (lookup_ok rd c y s Hc (inside_self y Hi) E).
    - destruct (H c Hi Hc) as [c1 [s [Eb [G1 G2]]]]. rewrite Eb. destruct (b && cacheable y); cbn [fst snd]; (split; [|exact G2]); [|exact G1]. apply store_ok; [exact G1|now apply inside_self|exact G2]. }
  induction x as [n|h args kw Ha Hk|l Hl|l Hl|n|s] using px_ind'; apply W; intros c Hi Hc; cbn [body].
  - exists c, [TName n]. split; [reflexivity|]. split; [exact Hc|]. apply rd_name, sing. now apply inside_self in Hi.
  - destruct (go_args_ok true args Ha ltac:(apply Forall_forall; intros y Hy; eapply inside_args; eassumption) c Hc) as [G1 G2]. destruct (go_args true c args) as [c1 ss]. cbn [fst snd] in *.
    destruct (go_kw_ok kw Hk ltac:(apply Forall_forall; intros y Hy; eapply inside_kw; eassumption) c1 G1) as [G3 G4]. destruct (go_kw c1 kw) as [c2 ks]. cbn [fst snd] in *.
    exists c2, (call_text h ss ks). split; [reflexivity|]. split; [exact G3|]. now apply rd_call.
  - destruct (go_args_ok false l Hl ltac:(apply Forall_forall; intros y Hy; eapply inside_tup; eassumption) c Hc) as [G1 G2]. destruct (go_args false c l) as [c1 ss]. cbn [fst snd] in *.
    exists c1, (seq_text TLp TRp ss). split; [reflexivity|]. split; [exact G1|]. now apply rd_tup.
  - destruct (go_args_ok false l Hl ltac:(apply Forall_forall; intros y Hy; eapply inside_list; eassumption) c Hc) as [G1 G2]. destruct (go_args false c l) as [c1 ss]. cbn [fst snd] in *.
    exists c1, (seq_text TLb TRb ss). split; [reflexivity|]. split; [exact G1|]. now apply rd_list.
  - exists c, [TLeaf n]. split; [reflexivity|]. split; [exact Hc|]. apply rd_leaf.
  - exists c, [TStr s]. split; [reflexivity|]. split; [exact Hc|]. apply rd_str.
Qed.

(** *** the text itself *)
Definition goodf (x : px) : Prop := forall b c, inside x -> okc (fun s y => s = flat y) c -> okc (fun s y => s = flat y) (fst (pr peq b c x)) /\ snd (pr peq b c x) = flat x.
Lemma go_args_flat b l : Forall goodf l -> Forall inside l -> forall c, okc (fun s y => s = flat y) c -> okc (fun s y => s = flat y) (fst (go_args b c l)) /\ snd (go_args b c l) = map flat l.
Proof.
  induction 1 as [|y l Hy _ IH]; intros Hi c Hc; cbn [go_args]; [split; [exact Hc|reflexivity]|]. inversion Hi as [|y' l' Hiy Hil]. subst.
  destruct (Hy b c Hiy Hc) as [G1 G2]. destruct (pr peq b c y) as [c1 s]. cbn [fst snd] in *. destruct (IH Hil c1 G1) as [G3 G4]. destruct (go_args b c1 l) as [c2 ss]. cbn [fst snd] in *.
  split; [exact G3|]. now subst.
Qed.
Lemma go_kw_flat l : Forall (fun p => goodf (snd p)) l -> Forall (fun p => inside (snd p)) l -> forall c, okc (fun s y => s = flat y) c ->
  okc (fun s y => s = flat y) (fst (go_kw c l)) /\ snd (go_kw c l) = map (fun p : nat * px => (fst p, flat (snd p))) l.
Proof.
  induction 1 as [|[k y] l Hy _ IH]; intros Hi c Hc; cbn [go_kw]; [split; [exact Hc|reflexivity]|]. inversion Hi as [|y' l' Hiy Hil]. subst. cbn [snd] in *.
  destruct (Hy true c Hiy Hc) as [G1 G2]. destruct (pr peq true c y) as [c1 s]. cbn [fst snd] in *. destruct (IH Hil c1 G1) as [G3 G4]. destruct (go_kw c1 l) as [c2 ss]. cbn [fst snd] in *.
  split; [exact G3|]. now subst.
Qed.
Theorem pr_flat x : goodf x.
Proof.
  assert (forall x, (forall c, inside x -> okc (fun s y => s = flat y) c -> exists c1, body c x = (c1, flat x) /\ okc (fun s y => s = flat y) c1) -> goodf x) as W.
  { intros y H b c Hi Hc. rewrite (pr_step b c y). destruct (if b && cacheable y then lookup peq c y else None) as [s|] eqn:E.
    - cbn [fst snd]. split; [exact Hc|]. destruct (b && cacheable y); [|discriminate]. apply (lookup_ok (fun s y => s = flat y) c y s Hc (inside_self y Hi) E).
    - destruct (H c Hi Hc) as [c1 [Eb G1]]. rewrite Eb. destruct (b && cacheable y); cbn [fst snd]; (split; [|reflexivity]); [|exact G1]. apply store_ok; [exact G1|now apply inside_self|reflexivity]. }
  induction x as [n|h args kw Ha Hk|l Hl|l Hl|n|s] using px_ind'; apply W; intros c Hi Hc; cbn [body flat]; try (eexists; split; [reflexivity|exact Hc]).
  - destruct (go_args_flat true args Ha ltac:(apply Forall_forall; intros y Hy; eapply inside_args; eassumption) c Hc) as [G1 G2]. destruct (go_args true c args) as [c1 ss]. cbn [fst snd] in *.
    destruct (go_kw_flat kw Hk ltac:(apply Forall_forall; intros y Hy; eapply inside_kw; eassumption) c1 G1) as [G3 G4]. destruct (go_kw c1 kw) as [c2 ks]. cbn [fst snd] in *.
    exists c2. split; [now subst|exact G3].
  - destruct (go_args_flat false l Hl ltac:(apply Forall_forall; intros y Hy; eapply inside_tup; eassumption) c Hc) as [G1 G2]. destruct (go_args false c l) as [c1 ss]. cbn [fst snd] in *. exists c1. split; [now subst|exact G1].
  - destruct (go_args_flat false l Hl ltac:(apply Forall_forall; intros y Hy; eapply inside_list; eassumption) c Hc) as [G1 G2]. destruct (go_args false c l) as [c1 ss]. cbn [fst snd] in *. exists c1. split; [now subst|exact G1].
Qed.

(** *** the cache-free text *)
Lemma flat_rd x : inside x -> rd (flat x) x.
Proof.
  induction x as [n|h args kw Ha Hk|l Hl|l Hl|n|s] using px_ind'; intros Hi; cbn [flat].
  - apply rd_name, sing. now apply inside_self in Hi.
  - apply rd_call.
    + assert (forall y, In y args -> inside y) as Hi' by (intros; eapply inside_args; eassumption). clear Hi Hk. induction Ha as [|y l Hy _ IH]; cbn [map]; constructor.
      * apply Hy, Hi'. now left.
      * apply IH. intros; apply Hi'. now right.
    + assert (forall y, In y kw -> inside (snd y)) as Hi' by (intros; eapply inside_kw; eassumption). clear Hi Ha. induction Hk as [|y l Hy _ IH]; cbn [map]; constructor.
      * split; [reflexivity|]. apply Hy, Hi'. now left.
      * apply IH. intros; apply Hi'. now right.
  - apply rd_tup. assert (forall y, In y l -> inside y) as Hi' by (intros; eapply inside_tup; eassumption). clear Hi. induction Hl as [|y l Hy _ IH]; cbn [map]; constructor.
    + apply Hy, Hi'. now left.
    + apply IH. intros; apply Hi'. now right.
  - apply rd_list. assert (forall y, In y l -> inside y) as Hi' by (intros; eapply inside_list; eassumption). clear Hi. induction Hl as [|y l Hy _ IH]; cbn [map]; constructor.
    + apply Hy, Hi'. now left.
    + apply IH. intros; apply Hi'. now right.
  - apply rd_leaf.
  - apply rd_str.
Qed.

(** *** the indented form *)
Definition toks (l : lines) : list tok := concat (map snd l).
Definition rdl (l : lines) (x : px) : Prop := l <> [] /\ rd (toks l) x.
Lemma rd_spaceless s s' x : spaceless s = spaceless s' -> rd s x -> rd s' x.
Proof. intros E [H1 H2]. unfold SreprProofs1.rd. rewrite <- E. now split. Qed.
Lemma toks_app a b : toks (a ++ b) = toks a ++ toks b.
Proof. unfold toks. now rewrite map_app, concat_app. Qed.
Lemma add_end_snoc l i s t : add_end (l ++ [(i, s)]) t = l ++ [(i, s ++ t)].
Proof. unfold add_end. rewrite rev_app_distr. cbn [rev app]. now rewrite rev_involutive. Qed.
Lemma drop_end_snoc l i s t : drop_end (l ++ [(i, s ++ [t])]) = l ++ [(i, s)].
Proof. unfold drop_end. rewrite rev_app_distr. cbn [rev app]. now rewrite removelast_last, rev_involutive. Qed.
Lemma snoc (l : lines) : l <> [] -> exists l' i s, l = l' ++ [(i, s)].
Proof. intros H. destruct (exists_last H) as [l' [[i s] ->]]. now exists l', i, s. Qed.
Lemma add_end_toks l t : l <> [] -> toks (add_end l t) = toks l ++ t.
Proof. intros H. destruct (snoc l H) as [l' [i [s ->]]]. rewrite add_end_snoc, !toks_app. unfold toks at 2 4. cbn [map snd concat]. now rewrite !app_nil_r, app_assoc. Qed.
Lemma indent_toks n l : toks (indent n l) = toks l.
Proof. unfold toks, indent. rewrite map_map. reflexivity. Qed.
Lemma dedent_toks l : toks (dedent l) = toks l.
Proof. unfold toks, dedent. rewrite map_map. reflexivity. Qed.
Lemma key_toks n k l : l <> [] -> toks (key_line n k l) = TKey k :: TEq :: toks l.
Proof. destruct l as [|[i s] l]; [contradiction|]. reflexivity. Qed.
Lemma key_ne n k l : key_line n k l <> [].
Proof. destruct l as [|[i s] l]; discriminate. Qed.
Lemma rdl_indent n l x : rdl l x -> rdl (indent n l) x.
Proof. intros [H1 H2]. split; [destruct l; [contradiction|discriminate]|now rewrite indent_toks]. Qed.
Lemma rdl_dedent l x : rdl l x -> rdl (dedent l) x.
Proof. intros [H1 H2]. split; [destruct l; [contradiction|discriminate]|now rewrite dedent_toks]. Qed.

Definition goodi (x : px) : Prop := forall n c, inside x -> okc rdl c -> okc rdl (fst (ipr peq n c x)) /\ rdl (snd (ipr peq n c x)) x.
Definition igo_args (n : nat) := fix go (c : icache) (l : list px) := match l with
   | [] => (c, [])
   | y :: l' => let '(c1, s) := ipr peq (S n) c y in let '(c2, ss) := go c1 l' in (c2, add_end s [TComma] ++ ss) end.
Definition igo_kw (n : nat) := fix go (c : icache) (l : list (nat * px)) := match l with
   | [] => (c, [])
   | (k, y) :: l' => let '(c1, s) := ipr peq (S n) c y in let '(c2, ss) := go c1 l' in (c2, add_end (key_line (S n) k s) [TComma] ++ ss) end.
(** lines of items, each closed by a comma *)
Definition closed (ls : lines) (ts : list tok) : Prop := toks ls = ts /\ (ts = [] -> ls = []) /\ (ts <> [] -> exists l' i s, ls = l' ++ [(i, s ++ [TComma])]).
Lemma igo_args_ok n l : Forall goodi l -> Forall inside l -> forall c, okc rdl c -> okc rdl (fst (igo_args n c l)) /\
  exists ss, Forall2 rd ss l /\ closed (snd (igo_args n c l)) (concat (map (fun s => s ++ [TComma]) ss)).
Proof.
  induction 1 as [|y l Hy _ IH]; intros Hi c Hc; cbn [igo_args]; [split; [exact Hc|]; exists []; split; [constructor|]; repeat split; contradiction|]. inversion Hi as [|y' l' Hiy Hil]. subst.
  destruct (Hy (S n) c Hiy Hc) as [G1 [G2 G2']]. destruct (ipr peq (S n) c y) as [c1 s]. cbn [fst snd] in *. destruct (IH Hil c1 G1) as [G3 [ss [G4 [G5 [G6 G7]]]]]. destruct (igo_args n c1 l) as [c2 ls]. cbn [fst snd] in *.
  split; [exact G3|]. exists (toks s :: ss). split; [now constructor|]. destruct (snoc s G2) as [l' [i [t ->]]]. rewrite add_end_snoc. unfold closed. cbn [map concat]. rewrite !toks_app, G5. split; [|split].
  - unfold toks at 2 4. cbn [map snd concat]. now rewrite !app_nil_r, !app_assoc.
  - intros E. exfalso. apply (f_equal (@length tok)) in E. rewrite !app_length in E. cbn in E. lia.
  - intros _. destruct ss as [|s2 ss].
    + rewrite (G6 eq_refl). exists l', i, t. now rewrite app_nil_r.
    + destruct G7 as [l2 [i2 [t2 ->]]]; [cbn [map concat]; intros E; apply (f_equal (@length tok)) in E; rewrite !app_length in E; cbn in E; lia|].
      exists ((l' ++ [(i, t ++ [TComma])]) ++ l2), i2, t2. now rewrite app_assoc.
Qed.
Lemma igo_kw_ok n l : Forall (fun p => goodi (snd p)) l -> Forall (fun p => inside (snd p)) l -> forall c, okc rdl c -> okc rdl (fst (igo_kw n c l)) /\
  exists ss, Forall2 rdk ss l /\ closed (snd (igo_kw n c l)) (concat (map (fun p => TKey (fst p) :: TEq :: snd p ++ [TComma]) ss)).
Proof.
  induction 1 as [|[k y] l Hy _ IH]; intros Hi c Hc; cbn [igo_kw]; [split; [exact Hc|]; exists []; split; [constructor|]; repeat split; contradiction|]. inversion Hi as [|y' l' Hiy Hil]. subst. cbn [snd] in *.
  destruct (Hy (S n) c Hiy Hc) as [G1 [G2 G2']]. destruct (ipr peq (S n) c y) as [c1 s]. cbn [fst snd] in *. destruct (IH Hil c1 G1) as [G3 [ss [G4 [G5 [G6 G7]]]]]. destruct (igo_kw n c1 l) as [c2 ls]. cbn [fst snd] in *.
  split; [exact G3|]. exists ((k, toks s) :: ss). split; [constructor; [split; [reflexivity|exact G2']|exact G4]|]. pose proof (key_toks (S n) k s G2) as Ek. destruct (snoc _ (key_ne (S n) k s)) as [l' [i [t El]]]. rewrite El in *. rewrite add_end_snoc. unfold closed. cbn [map concat fst snd]. rewrite toks_app, G5.
  rewrite toks_app in Ek. unfold toks at 2 in Ek. cbn [map snd concat] in Ek. rewrite app_nil_r in Ek. split; [|split].
  - rewrite toks_app. unfold toks at 2. cbn [map snd concat]. rewrite app_nil_r, app_assoc, Ek. reflexivity.
  - discriminate.
  - intros _. destruct ss as [|s2 ss].
    + rewrite (G6 eq_refl). exists l', i, t. now rewrite app_nil_r.
    + destruct G7 as [l2 [i2 [t2 ->]]]; [discriminate|].
      exists ((l' ++ [(i, t ++ [TComma])]) ++ l2), i2, t2. now rewrite app_assoc.
Qed.
Lemma closed_app a b s t : closed a s -> closed b t -> closed (a ++ b) (s ++ t).
Proof.
  intros [A1 [A2 A3]] [B1 [B2 B3]]. split; [now rewrite toks_app, A1, B1|]. split.
  - intros E. apply app_eq_nil in E. destruct E as [E1 E2]. now rewrite (A2 E1), (B2 E2).
  - intros E. destruct t as [|t0 t].
    + rewrite (B2 eq_refl), app_nil_r. apply A3. now rewrite app_nil_r in E.
    + destruct B3 as [l' [i [u ->]]]; [discriminate|]. exists (a ++ l'), i, u. now rewrite app_assoc.
Qed.
Lemma spaceless_commas ss : ss <> [] -> spaceless (concat (map (fun s => s ++ [TComma]) ss)) = spaceless (join ss) ++ [TComma].
Proof.
  induction ss as [|s ss IH]; [contradiction|]. intros _. destruct ss as [|s2 ss].
  - cbn [map concat join]. rewrite app_nil_r. now rewrite spaceless_app.
  - change (join (s :: s2 :: ss)) with (s ++ TComma :: TSp :: join (s2 :: ss)). change (concat (map (fun s => s ++ [TComma]) (s :: s2 :: ss))) with ((s ++ [TComma]) ++ concat (map (fun s => s ++ [TComma]) (s2 :: ss))).
    rewrite !(spaceless_app (s ++ _)), IH by discriminate. rewrite !spaceless_app. change (spaceless (TComma :: TSp :: join (s2 :: ss))) with (TComma :: spaceless (join (s2 :: ss))).
    rewrite <- !app_assoc. reflexivity.
Qed.
Lemma spaceless_keys ks : ks <> [] -> spaceless (concat (map (fun p : nat * list tok => TKey (fst p) :: TEq :: snd p ++ [TComma]) ks)) = spaceless (kw_text ks) ++ [TComma].
Proof.
  intros H. unfold kw_text. rewrite <- spaceless_commas by (destruct ks; [contradiction|discriminate]). rewrite map_map. reflexivity.
Qed.
Lemma spaceless_call ss ks : ss <> [] \/ ks <> [] ->
  spaceless (concat (map (fun s => s ++ [TComma]) ss) ++ concat (map (fun p : nat * list tok => TKey (fst p) :: TEq :: snd p ++ [TComma]) ks)) =
  spaceless (join ss ++ kw_tail ss ks) ++ [TComma].
Proof.
  intros H. rewrite !spaceless_app. unfold kw_tail. destruct ks as [|p ks].
  - cbn [map concat]. rewrite spaceless_commas by (destruct H; [assumption|contradiction]). cbn [spaceless filter]. now rewrite !app_nil_r.
  - rewrite (spaceless_keys (p :: ks)) by discriminate. destruct ss as [|s ss].
    + reflexivity.
    + rewrite spaceless_commas by discriminate. cbn [app spaceless filter]. fold (spaceless (kw_text (p :: ks))). rewrite <- !app_assoc. reflexivity.
Qed.
Definition ibody (n : nat) (c : icache) (x : px) : icache * lines := match x with
      | XSing m => (c, [(n, [TName m])])
      | XExpr h args kw =>
        let '(c1, ss) := igo_args n c args in
        let '(c2, ks) := igo_kw n c1 kw in
        let ls := (n, [TName h; TLp]) :: ss ++ ks in
        let ls := match args, kw with [], [] => ls | _, _ => drop_end ls end in
        (c2, add_end ls [TRp])
      | XTup l => (c, [(n, seq_text TLp TRp (map flat l))])
      | XList l => (c, [(n, seq_text TLb TRb (map flat l))])
      | XLeaf m => (c, [(n, [TLeaf m])])
      | XStr s => (c, [(n, [TStr s])])
      end.
Lemma ipr_step n c x : ipr peq n c x = match (if cacheable x then lookup peq c x else None) with Some s => (c, indent n s) | None =>
    let '(c1, s) := ibody n c x in if cacheable x then (store peq c1 x (dedent s), s) else (c1, s) end.
Proof. destruct x; reflexivity. Qed.
Lemma rdl_one n s x : rd s x -> rdl [(n, s)] x.
Proof. intros H. split; [discriminate|]. unfold toks. cbn [map snd concat]. now rewrite app_nil_r. Qed.
Lemma iexpr_ok n h args kw ls ks ss kks : Forall2 rd ss args -> Forall2 rdk kks kw ->
  closed ls (concat (map (fun s => s ++ [TComma]) ss)) -> closed ks (concat (map (fun p => TKey (fst p) :: TEq :: snd p ++ [TComma]) kks)) ->
  rdl (add_end (match args, kw with [], [] => (n, [TName h; TLp]) :: ls ++ ks | _, _ => drop_end ((n, [TName h; TLp]) :: ls ++ ks) end) [TRp]) (XExpr h args kw).
Proof.
  intros F1 F2 C1 C2.
  assert (ss = [] /\ kks = [] /\ args = [] /\ kw = [] \/ (ss <> [] \/ kks <> []) /\ (args <> [] \/ kw <> [])) as [[-> [-> [-> ->]]]|[Hne Hne2]].
  { destruct F1 as [|s x ss args Hs F1]; [|right; split; left; discriminate]. destruct F2 as [|s x kks kw Hs F2]; [left; auto|right; split; right; discriminate]. }
  - destruct C1 as [_ [C1 _]], C2 as [_ [C2 _]]. rewrite (C1 eq_refl), (C2 eq_refl). cbn [app]. change (add_end [(n, [TName h; TLp])] [TRp]) with [(n, [TName h; TLp; TRp])].
    apply rdl_one. apply (rd_call env h [] [] [] []); constructor.
  - assert (forall u v : lines, match args, kw with [], [] => u | _, _ => v end = v) as M by (intros; destruct args, kw; try reflexivity; exfalso; destruct Hne2 as [Hne2|Hne2]; now apply Hne2).
    rewrite M. clear M.
    destruct (closed_app _ _ _ _ C1 C2) as [C3 [_ C4]].
    destruct C4 as [l' [i [t El]]].
    { intros E. apply app_eq_nil in E. destruct E as [E1 E2]. destruct Hne as [Hne|Hne]; [destruct ss as [|s ss]; [now apply Hne|]|destruct kks as [|q kks]; [now apply Hne|discriminate E2]].
      cbn [map concat] in E1. apply (f_equal (@length tok)) in E1. rewrite !app_length in E1. cbn in E1. lia. }
    rewrite El in *. rewrite (app_comm_cons l' [(i, t ++ [TComma])] (n, [TName h; TLp])), drop_end_snoc. rewrite (add_end_snoc ((n, [TName h; TLp]) :: l') i t [TRp]). split; [destruct l'; discriminate|].
    apply (rd_spaceless (call_text h ss kks)); [|now apply rd_call].
    rewrite call_kw. pose proof (spaceless_call ss kks Hne) as E. rewrite <- C3 in E. rewrite toks_app in E. unfold toks at 2 in E. cbn [map snd concat] in E. rewrite app_nil_r, app_assoc, spaceless_app in E.
    cbn [spaceless filter] in E. apply app_inj_tail in E. destruct E as [E _].
    rewrite toks_app. unfold toks at 2. cbn [map snd concat]. rewrite app_nil_r. unfold toks. cbn [map snd concat app]. fold (toks l').
    change (TName h :: TLp :: spaceless ((join ss ++ kw_tail ss kks) ++ [TRp]) = TName h :: TLp :: spaceless (toks l' ++ t ++ [TRp])). do 2 f_equal.
    rewrite app_assoc, !(spaceless_app _ [TRp]). f_equal. symmetry. exact E.
Qed.
Theorem ipr_ok x : goodi x.
Proof.
  assert (forall x, (forall n c, inside x -> okc rdl c -> exists c1 s, ibody n c x = (c1, s) /\ okc rdl c1 /\ rdl s x) -> goodi x) as W.
  { intros y H n c Hi Hc. rewrite (ipr_step n c y). destruct (if cacheable y then lookup peq c y else None) as [s|] eqn:E.
    - cbn [fst snd]. split; [exact Hc|]. destruct (cacheable y); [|discriminate]. apply rdl_indent. apply (lookup_ok rdl c y s Hc (inside_self y Hi) E).
    - destruct (H n c Hi Hc) as [c1 [s [Eb [G1 G2]]]]. rewrite Eb. destruct (cacheable y); cbn [fst snd]; (split; [|exact G2]); [|exact G1]. apply store_ok; [exact G1|now apply inside_self|now apply rdl_dedent]. }
  induction x as [m|h args kw Ha Hk|l Hl|l Hl|m|s] using px_ind'; apply W; intros n c Hi Hc; cbn [ibody].
  - eexists. eexists. split; [reflexivity|]. split; [exact Hc|]. apply rdl_one, rd_name, sing. now apply inside_self in Hi.
  - destruct (igo_args_ok n args Ha ltac:(apply Forall_forall; intros y Hy; eapply inside_args; eassumption) c Hc) as [G1 [ss [G2 G2']]]. destruct (igo_args n c args) as [c1 ls]. cbn [fst snd] in *.
    destruct (igo_kw_ok n kw Hk ltac:(apply Forall_forall; intros y Hy; eapply inside_kw; eassumption) c1 G1) as [G3 [kks [G4 G4']]]. destruct (igo_kw n c1 kw) as [c2 ks]. cbn [fst snd] in *.
    eexists. eexists. split; [reflexivity|]. split; [exact G3|]. eapply iexpr_ok; eassumption.
  - eexists. eexists. split; [reflexivity|]. split; [exact Hc|]. apply rdl_one. exact (flat_rd (XTup l) Hi).
  - eexists. eexists. split; [reflexivity|]. split; [exact Hc|]. apply rdl_one. exact (flat_rd (XList l) Hi).
  - eexists. eexists. split; [reflexivity|]. split; [exact Hc|]. apply rdl_one, rd_leaf.
  - eexists. eexists. split; [reflexivity|]. split; [exact Hc|]. apply rdl_one, rd_str.
Qed.
Lemma spaceless_text l : spaceless (text_of l) = spaceless (toks l).
Proof.
  unfold text_of, toks. induction l as [|[i s] l IH]; [reflexivity|]. cbn [map concat fst snd]. rewrite !spaceless_app, IH. f_equal. cbn [spaceless filter]. rewrite app_nil_r.
  replace (spaceless (repeat TSp (4 * i))) with (@nil tok); [reflexivity|]. generalize (4 * i). intros k. induction k as [|k IHk]; [reflexivity|exact IHk].
Qed.
Lemma rdl_text l x : rdl l x -> reads env (text_of l) x.
Proof. intros [_ H]. apply rd_reads in H. destruct H as [f H]. exists f. now setoid_rewrite spaceless_text. Qed.
End Print.
