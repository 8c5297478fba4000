(** The matrix of an expression is its value in the interpretation by matrices; the
    conversions do not depend on more of [expand] than its results. *)
From Coq Require Import Bool QArith Qcanon.
From Verif Require Import Prelude ListFacts SortModel BinModel AlgSpec CAlg OpModel OpSpec OpProofs1 OpFuel ConvModel ConvSpec ConvProofs1 ConvProofs2 QutipModel LvlInst LvlSpec.
Local Open Scope nat_scope.

Section Value.
Context {S : scalars} (r : reading S) (dim : nat -> option nat) (h : list nat) (Hn : NoDup h).
Local Notation I := (lvl_interp r dim h Hn).
Lemma level_ops_list l : fold_right (fun x P => level_ops dim x /\ P) True l <-> Forall (level_ops dim (S:=S)) l.
Proof. induction l as [|x l IH]; cbn [fold_right]; split; intros H; [constructor|exact Logic.I|constructor; [apply H|apply IH, H]|inversion H; subst; split; [assumption|now apply IH]]. Qed.
Lemma level_ops_legal e : level_ops dim e <-> legal I e.
Proof.
  induction e as [| |a|c t IH|l IH|l IH|a b IHa IHb|a IH|a hh IH|s a IH] using op_ind'; cbn [level_ops legal]; try reflexivity; try assumption.
Qed.
Lemma value_mat e : incl (space e) h -> legal I e -> value I e = of_mat r dim h (mat_of r dim false h e).
Proof.
  induction e as [| |a|c t IH|l IH|l IH|a b IHa IHb|a IH|a hh IH|s a IH] using op_ind'; intros Hi Hl; cbn [value mat_of]; try reflexivity.
  - destruct a as [nm hs| | |j k l| | | | | | ]; try contradiction.
    + cbn [atom_val]. apply of_mat_eq. intros i j _ _. unfold at_site, element. now destruct (forallb _ h).
    + cbn [atom_val isigma lvl_interp]. unfold lsigma. cbn [atom_space hd]. destruct (sp_mem l h) eqn:E; [reflexivity|].
      assert (In l h) as Hm by (apply Hi; now left). apply sp_mem_In in Hm. congruence.
  - rewrite (IH Hi Hl). apply (smul_of r dim h).
  - assert (Forall (fun x => incl (space x) h) l) as Hl'. { apply Forall_forall. intros x Hx y Hy. apply Hi. cbn [space]. apply space_list_In. now exists x. }
    clear Hi. cbn [legal] in Hl. revert Hl Hl'. induction IH as [|x l Hx _ IHl]; intros HL HS; [reflexivity|]. cbn [map msum fold_right] in *. destruct HL as [L1 L2]. inversion HS; subst.
    unfold msum in IHl. rewrite (Hx H1 L1), (IHl L2 H2). apply (add_of r dim h).
  - assert (Forall (fun x => incl (space x) h) l) as Hl'. { apply Forall_forall. intros x Hx y Hy. apply Hi. cbn [space]. apply space_list_In. now exists x. }
    clear Hi. cbn [legal] in Hl. revert Hl Hl'. induction IH as [|x l Hx _ IHl]; intros HL HS; [reflexivity|]. cbn [map mprod fold_right] in *. destruct HL as [L1 L2]. inversion HS; subst.
    unfold mprod in IHl. rewrite (Hx H1 L1), (IHl L2 H2). apply (mul_of r dim h).
  - assert (incl (space a) h) as Sa by (intros y Hy; apply Hi; cbn [space]; apply sp_union_In; now left).
    assert (incl (space b) h) as Sb by (intros y Hy; apply Hi; cbn [space]; apply sp_union_In; now right).
    destruct Hl as [La Lb]. unfold mcomm. rewrite (IHa Sa La), (IHb Sb Lb). cbn [aadd amul smul lvl_interp rd lvl_reading cal lvl_calg sal lvl_star alg lvl_alg].
    rewrite !mul_of. rewrite (smul_of r dim h). apply (add_of r dim h).
  - rewrite (IH Hi Hl). apply (star_of r dim h).
  - rewrite (IH Hi Hl). cbn [aadd amul smul star lvl_interp rd lvl_reading cal lvl_calg sal lvl_star alg lvl_alg].
    destruct s; rewrite star_of; [apply (add_of r dim h)|]. rewrite (smul_of r dim h). apply (add_of r dim h).
Qed.
End Value.

Section Mono.
Context {S : scalars} (r : reading S) (dim : nat -> option nat) (expand expand' : op S -> res (op S)) (He : forall e, le (expand e) (expand' e)).
Lemma conv_mono : forall n e h, le (conv r dim expand n e h) (conv r dim expand' n e h).
Proof.
  induction n as [|n IH]; intros e h; [apply le_refl|]. cbn [conv]. destruct (negb _); [apply le_refl|].
  destruct e as [| |a|c t|l|l|a b|a|a h'|s a]; try apply le_refl.
  - destruct a; try apply le_refl; (apply le_bind; [apply le_refl|]; intros d; destruct (eqb_list_nat _ _); [apply le_refl|];
      apply le_bind; [apply le_refl|]; intros i; apply le_bind; [apply le_refl|]; intros pre; apply le_bind; [apply IH|]; intros; apply le_refl).
  - apply le_bind; [apply IH|]. intros; apply le_refl.
  - destruct l as [|x l]; [apply le_refl|]. apply le_bind; [apply IH|]. intros s. apply le_foldM. intros. apply le_bind; [apply IH|]. intros; apply le_refl.
  - destruct (existsb _ l).
    + apply le_bind; [apply He|]. intros se. destruct (oeqb se (OTimes l)); [apply le_refl|apply IH].
    + apply le_bind; [|intros; apply le_refl]. apply le_mapM. intros ls. apply le_bind; [apply le_mapM; intros; apply IH|]. intros; apply le_refl.
  - apply le_bind; [apply IH|]. intros; apply le_refl.
Qed.
Context (is_num : S -> bool) (mapping : op S -> option (nat * mat r)).
Lemma convq_mono : forall n e h, le (conv_q r dim is_num mapping expand n e h) (conv_q r dim is_num mapping expand' n e h).
Proof.
  induction n as [|n IH]; intros e h; [apply le_refl|]. cbn [conv_q]. destruct (negb _); [apply le_refl|]. destruct (match h with [] => true | _ => false end); [apply le_refl|].
  destruct (mapping e) as [[m M]|]; [apply le_refl|].
  destruct e as [| |a|c t|l|l|a b|a|a h'|s a]; try apply le_refl.
  - destruct a; try apply le_refl; (apply le_bind; [apply le_refl|]; intros d; destruct (eqb_list_nat _ _); [apply le_refl|];
      apply le_bind; [apply le_refl|]; intros i; apply le_bind; [apply le_refl|]; intros pre; apply le_bind; [apply IH|]; intros; apply le_refl).
  - destruct (is_num c); [|apply le_refl]. apply le_bind; [apply IH|]. intros; apply le_refl.
  - apply le_foldM. intros. apply le_bind; [apply IH|]. intros; apply le_refl.
  - destruct (existsb _ l).
    + apply le_bind; [apply He|]. intros se. destruct (oeqb se (OTimes l)); [apply le_refl|apply IH].
    + apply le_bind; [|intros; apply le_refl]. apply le_mapM. intros ls. apply le_bind; [apply le_mapM; intros; apply IH|]. intros; apply le_refl.
Qed.
End Mono.
