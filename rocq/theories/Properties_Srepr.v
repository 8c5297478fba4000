(** C51: what srepr prints reads back, in Python, as the same expression. *)
From Verif Require Import Prelude ListFacts SreprModel SreprSpec SreprProofs1 SreprProofs2 SreprProofs3.

(** Python's equality is honest on the objects that satisfy [P]: equal ones are the same
    (ScalarValue(2) == 2 is the known exception, see [C51_scalar_confusion_refuted]) *)
Definition honest (peq : px -> px -> bool) (P : px -> Prop) : Prop := forall x y, P x -> P y -> peq x y = true -> x = y.
(** a session: expressions printed one after the other by the same printer, the texts *)
Fixpoint session peq (c : cache) (xs : list px) : list (list tok) :=
  match xs with [] => [] | x :: xs' => let '(c', s) := pr peq true c x in s :: session peq c' xs' end.
Fixpoint isession peq (c : icache) (xs : list px) : list lines :=
  match xs with [] => [] | x :: xs' => let '(c', s) := ipr peq 0 c x in s :: isession peq c' xs' end.
(** the cache argument of srepr: expressions and the names of variables that hold them *)
Definition named (uc : list (px * nat)) : cache := map (fun p => (fst p, [TName (snd p)])) uc.
Definition inamed (uc : list (px * nat)) : icache := map (fun p => (fst p, [(0, [TName (snd p)])])) uc.
(** all objects in a session *)
Definition pool (uc : list (px * nat)) (xs : list px) (y : px) : Prop := In y (map fst uc) \/ exists x, In x xs /\ In y (parts x).

Lemma session_ok peq env P (H1 : honest peq P) (H2 : forall n, P (XSing n) -> env n = None) xs : (forall x, In x xs -> inside P x) -> forall c, okc P (rd env) c ->
  Forall2 (reads env) (session peq c xs) xs.
Proof.
  induction xs as [|x xs IH]; intros Hi c Hc; [constructor|]. cbn [session]. destruct (pr_ok peq env P H1 H2 x true c (Hi x (or_introl eq_refl)) Hc) as [G1 G2].
  destruct (pr peq true c x) as [c' s]. cbn [fst snd] in *. constructor; [now apply rd_reads|]. apply IH; [intros y Hy; apply Hi; now right|exact G1].
Qed.
Lemma isession_ok peq env P (H1 : honest peq P) (H2 : forall n, P (XSing n) -> env n = None) xs : (forall x, In x xs -> inside P x) -> forall c, okc P (rdl env) c ->
  Forall2 (fun l => reads env (text_of l)) (isession peq c xs) xs.
Proof.
  induction xs as [|x xs IH]; intros Hi c Hc; [constructor|]. cbn [isession]. destruct (ipr_ok peq env P H1 H2 x 0 c (Hi x (or_introl eq_refl)) Hc) as [G1 G2].
  destruct (ipr peq 0 c x) as [c' s]. cbn [fst snd] in *. constructor; [now apply rdl_text|]. apply IH; [intros y Hy; apply Hi; now right|exact G1].
Qed.
Lemma session_flat peq P (H1 : honest peq P) xs : (forall x, In x xs -> inside P x) -> forall c, okc P (fun s y => s = flat y) c -> session peq c xs = map flat xs.
Proof.
  induction xs as [|x xs IH]; intros Hi c Hc; [reflexivity|]. cbn [session map]. destruct (pr_flat peq P H1 x true c (Hi x (or_introl eq_refl)) Hc) as [G1 G2].
  destruct (pr peq true c x) as [c' s]. cbn [fst snd] in *. subst s. f_equal. apply IH; [intros y Hy; apply Hi; now right|exact G1].
Qed.
Lemma session_lay peq P (H1 : honest peq P) xs : (forall x, In x xs -> inside P x) -> forall c, okc P (fun (l : lines) y => l = layout 0 y) c -> isession peq c xs = map (layout 0) xs.
Proof.
  induction xs as [|x xs IH]; intros Hi c Hc; [reflexivity|]. cbn [isession map]. destruct (ipr_layout peq P H1 x 0 c (Hi x (or_introl eq_refl)) Hc) as [G1 G2].
  destruct (ipr peq 0 c x) as [c' s]. cbn [fst snd] in *. subst s. f_equal. apply IH; [intros y Hy; apply Hi; now right|exact G1].
Qed.
Lemma pool_inside uc xs x : In x xs -> inside (pool uc xs) x.
Proof. intros Hx y Hy. right. now exists x. Qed.
(** C51_srepr_roundtrip: whatever was printed before with the same printer (which keeps a
    cache of everything it has printed), the text of each expression, evaluated in a context
    where the variables of the user's cache hold their expressions, gives the expression. *)
Theorem C51_srepr_roundtrip peq env uc xs :
  honest peq (pool uc xs) -> (forall n, pool uc xs (XSing n) -> env n = None) -> (forall y n, In (y, n) uc -> env n = Some y) ->
  Forall2 (reads env) (session peq (named uc) xs) xs.
Proof.
  intros H1 H2 H3. apply (session_ok peq env (pool uc xs) H1 H2); [intros x; apply pool_inside|].
  apply Forall_map, Forall_forall. intros [y n] Hy. cbn [fst snd]. split; [left; apply in_map_iff; now exists (y, n)|]. apply rd_var, H3, Hy.
Qed.
(** C51_indented_roundtrip: the same for srepr(..., indented=True). *)
Theorem C51_indented_roundtrip peq env uc xs :
  honest peq (pool uc xs) -> (forall n, pool uc xs (XSing n) -> env n = None) -> (forall y n, In (y, n) uc -> env n = Some y) ->
  Forall2 (fun l => reads env (text_of l)) (isession peq (inamed uc) xs) xs.
Proof.
  intros H1 H2 H3. apply (isession_ok peq env (pool uc xs) H1 H2); [intros x; apply pool_inside|].
  apply Forall_map, Forall_forall. intros [y n] Hy. cbn [fst snd]. split; [left; apply in_map_iff; now exists (y, n)|]. apply rdl_one, rd_var, H3, Hy.
Qed.
(** reading is a function of the text *)
Theorem C51_reads_unique env s x y : reads env s x -> reads env s y -> x = y.
Proof. intros [f1 H1] [f2 H2]. specialize (H1 (max f1 f2) ltac:(lia)). specialize (H2 (max f1 f2) ltac:(lia)). congruence. Qed.
(** C51_exact_text: without variables the cache does not show: the text is the plain
    functional form of the expression, and two expressions with the same text are the same. *)
Theorem C51_exact_text peq xs : honest peq (pool [] xs) -> session peq [] xs = map flat xs.
Proof.
  intros H1. apply (session_flat peq (pool [] xs) H1); [intros x; apply pool_inside|constructor].
Qed.
Theorem C51_injective x y : flat x = flat y -> x = y.
Proof.
  intros E. assert (forall z, reads (fun _ => None) (flat z) z) as H.
  { intros z. apply rd_reads. apply (flat_rd (fun _ => None) (fun _ => True)); [reflexivity|]. intros w _. exact Logic.I. }
  apply (C51_reads_unique (fun _ => None) (flat x)); [apply H|rewrite E; apply H].
Qed.
(** C51_indented_layout: the indented form puts every argument on lines of its own. *)
Theorem C51_indented_layout peq xs : honest peq (pool [] xs) -> isession peq [] xs = map (layout 0) xs.
Proof.
  intros H1. apply (session_lay peq (pool [] xs) H1); [intros x; apply pool_inside|constructor].
Qed.
(** C51_local_space_rebuild: calling LocalSpace with the printed arguments gives the space
    again, with all its data. *)
Theorem C51_local_space_rebuild default_basis sort_ids a o : (forall l, sort_ids (sort_ids l) = sort_ids l) ->
  local_space default_basis sort_ids a = Ok o -> local_space default_basis sort_ids (printed_args o) = Ok o.
Proof. intros H. apply local_space_rebuild, H. Qed.
Theorem C51_spin_space_rebuild sort_ids spin_basis a o : (forall l, sort_ids (sort_ids l) = sort_ids l) -> sa_basis a = None ->
  spin_space sort_ids spin_basis a = Ok o -> spin_space sort_ids spin_basis (printed_spin_args o) = Ok o.
Proof. intros H. apply spin_space_rebuild, H. Qed.

(** ** counterexamples *)
(** ScalarValue compares (and hashes) as the number it holds, so the cache takes one for the
    other: in 2 * LocalSigma(2, 1, hs=LocalSpace(0)) the label 2 is printed as ScalarValue(2).
    Names: 10 ScalarTimesOperator, 11 ScalarValue, 12 LocalSigma, 13 LocalSpace, 14 ScalarOne;
    key 5: hs. *)
Fixpoint same (x y : px) : bool :=
  let all := fix all (l m : list px) := match l, m with [], [] => true | a :: l', b :: m' => same a b && all l' m' | _, _ => false end in
  let allk := fix allk (l m : list (nat * px)) := match l, m with [], [] => true | (k, a) :: l', (j, b) :: m' => (k =? j) && same a b && allk l' m' | _, _ => false end in
  match x, y with
  | XSing a, XSing b => a =? b
  | XExpr h l k, XExpr g m j => (h =? g) && all l m && allk k j
  | XTup l, XTup m | XList l, XList m => all l m
  | XLeaf a, XLeaf b => a =? b
  | XStr a, XStr b => a =? b
  | _, _ => false
  end.
Definition python_eq (x y : px) : bool :=
  let strip z := match z with XExpr 11 [v] [] => v | XSing 14 => XLeaf 1 | _ => z end in same (strip x) (strip y).
Definition sigma21 := XExpr 12 [XLeaf 2; XLeaf 1] [(5, XExpr 13 [XStr 0] [])].
Definition two_sigma := XExpr 10 [XExpr 11 [XLeaf 2] []; sigma21] [].
Theorem C51_scalar_confusion_refuted :
  ~ (forall x, reads (fun _ => None) (srepr python_eq [] x) x).
Proof.
  intros H. specialize (H two_sigma). assert (reads (fun _ => None) (srepr python_eq [] two_sigma) (XExpr 10 [XExpr 11 [XLeaf 2] []; XExpr 12 [XExpr 11 [XLeaf 2] []; XLeaf 1] [(5, XExpr 13 [XStr 0] [])]] [])) as G.
  { exists 20. intros f Hf. do 20 (destruct f as [|f]; [lia|]). reflexivity. }
  discriminate (C51_reads_unique _ _ _ _ H G).
Qed.
(** and the confusion goes from one call to the next: printing the number 1 after
    ScalarOne (the singleton [One]) prints [One] *)
Theorem C51_one_confusion_refuted : session python_eq [] [XSing 14; XLeaf 1] = [[TName 14]; [TName 14]].
Proof. reflexivity. Qed.
(** the keyword arguments of a SpinSpace do not have the basis: a SpinSpace with its own
    labels is printed as a call that makes a space with the standard labels. *)
Theorem C51_spin_basis_refuted : exists a o o', spin_space (fun l => l) (fun d => seq 0 d) a = Ok o /\
  spin_space (fun l => l) (fun d => seq 0 d) (printed_spin_args o) = Ok o' /\ so_basis o' <> so_basis o.
Proof.
  exists {| sa_label := 0; sa_spin := 2; sa_basis := Some [7; 8]; sa_ids := None; sa_order := None |}. eexists. eexists. split; [reflexivity|]. split; [reflexivity|]. cbn. discriminate.
Qed.

(** ** the hypotheses are met: a sum of an operator and its displaced copy on a space held in
    a variable, with a list and a one-member tuple among the arguments, printed twice *)
Definition ex_space := XExpr 13 [XStr 0] [(6, XTup [XStr 1; XStr 2])].
Definition ex_term := XExpr 20 [XExpr 12 [XStr 1; XStr 2] [(5, ex_space)]; XSing 30; XList [XTup [XLeaf 3]; XTup []]] [(5, ex_space); (7, XLeaf 4)].
Lemma same_eq x : forall y, same x y = true -> x = y.
Proof.
  assert (forall l, Forall (fun x => forall y, same x y = true -> x = y) l -> forall m, (fix all (l m : list px) := match l, m with [], [] => true | a :: l', b :: m' => same a b && all l' m' | _, _ => false end) l m = true -> l = m) as HA.
  { induction 1 as [|x0 l Hx _ IH]; intros [|y m]; intros E; try discriminate; [reflexivity|]. apply andb_prop in E. destruct E as [E1 E2]. f_equal; [now apply Hx|now apply IH]. }
  assert (forall l, Forall (fun p : nat * px => forall y, same (snd p) y = true -> snd p = y) l -> forall m, (fix allk (l m : list (nat * px)) := match l, m with [], [] => true | (k, a) :: l', (j, b) :: m' => (k =? j) && same a b && allk l' m' | _, _ => false end) l m = true -> l = m) as HK.
  { induction 1 as [|[k x0] l Hx _ IH]; intros [|[j y] m]; intros E; try discriminate; [reflexivity|]. apply andb_prop in E. destruct E as [E1 E2]. apply andb_prop in E1. destruct E1 as [E0 E1]. cbn [snd] in Hx.
    f_equal; [|now apply IH]. f_equal; [now apply Nat.eqb_eq|now apply Hx]. }
  induction x as [n|h args kw Ha Hk|l Hl|l Hl|n|s] using px_ind'; intros y E; destruct y as [n'|h' args' kw'|l'|l'|n'|s']; try discriminate E; cbn [same] in E.
  - f_equal. now apply Nat.eqb_eq.
  - apply andb_prop in E. destruct E as [E1 E2]. apply andb_prop in E1. destruct E1 as [E0 E1]. f_equal; [now apply Nat.eqb_eq|now apply HA|now apply HK].
  - f_equal. now apply HA.
  - f_equal. now apply HA.
  - f_equal. now apply Nat.eqb_eq.
  - f_equal. now apply Nat.eqb_eq.
Qed.
Definition ex_env (n : nat) := if n =? 99 then Some ex_space else None.
Example C51_nonvacuous : Forall2 (reads ex_env) (session same (named [(ex_space, 99)]) [ex_term; XExpr 21 [ex_term; ex_term] []]) [ex_term; XExpr 21 [ex_term; ex_term] []].
Proof.
  apply C51_srepr_roundtrip.
  - intros x y _ _. apply same_eq.
  - intros n. unfold ex_env. destruct (Nat.eqb_spec n 99) as [-> |_]; [|reflexivity]. intros [[H|[]]|[x [[<-|[<-|[]]] H]]]; [discriminate H| |]; cbn in H; repeat (destruct H as [H|H]; [discriminate H|]); contradiction.
  - intros y n [H|[]]. injection H as <- <-. reflexivity.
Qed.
Example C51_nonvacuous_text : session same (named [(ex_space, 99)]) [sigma21; ex_term] =
 [[TName 12; TLp; TLeaf 2; TComma; TSp; TLeaf 1; TComma; TSp; TKey 5; TEq; TName 13; TLp; TStr 0; TRp; TRp];
  [TName 20; TLp; TName 12; TLp; TStr 1; TComma; TSp; TStr 2; TComma; TSp; TKey 5; TEq; TName 99; TRp; TComma; TSp; TName 30; TComma; TSp;
   TLb; TLp; TLeaf 3; TComma; TRp; TComma; TSp; TLp; TRp; TRb; TComma; TSp; TKey 5; TEq; TName 99; TComma; TSp; TKey 7; TEq; TLeaf 4; TRp]].
Proof. reflexivity. Qed.
Example C51_nonvacuous_layout : isession same [] [two_sigma] = [[(0, [TName 10; TLp]); (1, [TName 11; TLp]); (2, [TLeaf 2; TRp; TComma]); (1, [TName 12; TLp]); (2, [TLeaf 2; TComma]); (2, [TLeaf 1; TComma]); (2, [TKey 5; TEq; TName 13; TLp]); (3, [TStr 0; TRp; TRp; TRp])]].
Proof. reflexivity. Qed.
Example C51_nonvacuous_space : local_space (fun d => seq 0 d) (fun l => l) {| a_label := 3; a_basis := Some [5; 6]; a_dim := None; a_ids := Some [(1, 2)]; a_order := Some 4 |} =
  Ok {| o_label := 3; o_basis := Some [5; 6]; o_dim := Some 2; o_ids := [(1, 2)]; o_order := Some 4; m_basis := true; m_dim := false; m_ids := true; m_order := true |}.
Proof. reflexivity. Qed.
Print Assumptions C51_srepr_roundtrip.
Print Assumptions C51_indented_roundtrip.
Print Assumptions C51_reads_unique.
Print Assumptions C51_exact_text.
Print Assumptions C51_injective.
Print Assumptions C51_indented_layout.
Print Assumptions C51_local_space_rebuild.
Print Assumptions C51_spin_space_rebuild.
Print Assumptions C51_scalar_confusion_refuted.
Print Assumptions C51_one_confusion_refuted.
Print Assumptions C51_spin_basis_refuted.
