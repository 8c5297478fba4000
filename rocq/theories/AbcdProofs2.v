(** Proofs for C57: reading off the coefficients, displacements, monotonicity. *)
From Coq Require Import QArith Qcanon Ring Sorting.
From Verif Require Import Prelude ListFacts BinModel AlgSpec CAlg NcRing MatModel SlhModel MatSpec OpModel OpSpec OpForms OpProofs1 OpProofs2 OpProofs3 OpFuel DiffModel DiffSpec DiffProofs NoiseSpec AbcdModel AbcdSpec AbcdProofs.
Local Open Scope nat_scope.

(** keys that are equal to an expression only if they are that expression *)
Definition rigid {S : scalars} (t : op S) : Prop := forall t', oeqb t' t = true <-> t' = t.
Section Keys.
  Context {S : scalars}.
  Local Notation op := (op S).
  Lemma rigid_one : rigid (OOne : op).
  Proof. intros t. destruct t; cbn; split; try discriminate; reflexivity. Qed.
  Lemma rigid_down l : rigid (OAtom (ADestroy l) : op).
  Proof.
    intros t. destruct t as [| |a| | | | | | |]; cbn [oeqb]; try (split; discriminate). destruct a; cbn [atom_eqb]; split; try discriminate.
    - intros H. apply Nat.eqb_eq in H. now subst.
    - intros H. injection H as ->. apply Nat.eqb_refl.
  Qed.
  Lemma rigid_up l : rigid (OAtom (ACreate l) : op).
  Proof.
    intros t. destruct t as [| |a| | | | | | |]; cbn [oeqb]; try (split; discriminate). destruct a; cbn [atom_eqb]; split; try discriminate.
    - intros H. apply Nat.eqb_eq in H. now subst.
    - intros H. injection H as ->. apply Nat.eqb_refl.
  Qed.
  Lemma rigid_sym n h : rigid (OAtom (ASym n h) : op).
  Proof.
    intros t. destruct t as [| |a| | | | | | |]; cbn [oeqb]; try (split; discriminate). destruct a; cbn [atom_eqb]; split; try discriminate.
    - intros H. apply andb_prop in H. destruct H as [H1 H2]. apply Nat.eqb_eq in H1. apply eqb_list_nat_spec in H2. now subst.
    - intros H. injection H as -> ->. rewrite Nat.eqb_refl. now apply eqb_list_nat_spec.
  Qed.
  Lemma rigid_adj t : rigid t -> rigid (OAdj t : op).
  Proof.
    intros Ht t'. destruct t'; cbn [oeqb]; try (split; discriminate). rewrite (Ht t'). split; [now intros -> | now injection 1].
  Qed.
End Keys.

Section Coeffs.
  Context {S : scalars} {dim : nat -> option nat} (I : interp S dim).
  Add Ring Kr3 : (kring I).
  Local Notation op := (op S).
  Local Notation value := (value I).
  Local Notation comb := (comb I).
  Local Notation "x + y" := (aadd x y).

  Definition term (s : op) : op := snd (coeff_term s).
  Definition other (keys : list op) (s : op) : bool := negb (existsb (oeqb (term s)) keys).
  Definition rest (keys : list op) (e : op) : list op := filter (other keys) (summands_of e).
  Definition gstep (t : op) (acc : S) (s : op) : S := let '(c, t') := coeff_term s in if oeqb t' t then sadd acc c else acc.
  Lemma gstep_acc t l : forall acc, ev (r:=I) (fold_left (gstep t) l acc) = kadd (ev acc) (ev (fold_left (gstep t) l s0)).
  Proof.
    induction l as [|s l IH]; intros acc; cbn [fold_left]; [rewrite ev_s0; ring|]. rewrite IH, (IH (gstep t s0 s)). unfold gstep. destruct (coeff_term s) as [c t'].
    destruct (oeqb t' t); rewrite ?(ev_add S I), ev_s0; ring.
  Qed.
  Definition hit (s t : op) : K I := if oeqb (term s) t then ev (fst (coeff_term s)) else k0.
  Lemma comb_split (f g : op -> S) (h : op -> K I) keys : (forall t, In t keys -> ev (r:=I) (f t) = kadd (h t) (ev (g t))) ->
    comb (map f keys) (map value keys) = asum (fun t => smul (h t) (value t)) keys + comb (map g keys) (map value keys).
  Proof.
    induction keys as [|t keys IH]; intros H; [symmetry; apply aadd_0|]. cbn [map AbcdSpec.comb]. rewrite asum_cons, IH by (intros; apply H; now right).
    rewrite (H t) by (now left). rewrite smul_addl. apply aadd_perm4.
  Qed.
  Lemma hit_sum keys s : NoDup keys -> Forall rigid keys ->
    asum (fun t => smul (hit s t) (value t)) keys = if other keys s then a0 else value s.
  Proof.
    intros Hd Hr. unfold other. assert (value s = smul (ev (fst (coeff_term s))) (value (term s))) as Hs.
    { unfold term. destruct s; cbn [coeff_term fst snd]; try (unfold OpModel.s1; rewrite (ev_Q S I), kQ_1, smul_1; reflexivity). reflexivity. }
    induction keys as [|t keys IH]; [reflexivity|]. rewrite asum_cons. apply NoDup_cons_iff in Hd. destruct Hd as [Hn Hd]. cbn [existsb]. unfold hit at 1.
    destruct (oeqb (term s) t) eqn:E; cbn [orb negb].
    - apply (Forall_inv Hr) in E. rewrite <- E, <- Hs. rewrite IH by (first [exact Hd|exact (Forall_inv_tail Hr)]).
      destruct (existsb (oeqb (term s)) keys) eqn:E2; cbn [negb]; [|apply aadd_0r]. exfalso. apply Hn. apply existsb_exists in E2. destruct E2 as (t2 & H2 & E2).
      rewrite Forall_forall in Hr. apply (Hr t2 (or_intror H2)) in E2. now rewrite <- E, E2.
    - rewrite smul_0, aadd_0. apply IH; [exact Hd|exact (Forall_inv_tail Hr)].
  Qed.
  Lemma get_coeff_split keys e : legal I e -> NoDup keys -> Forall rigid keys ->
    value e = comb (map (get_coeff e) keys) (map value keys) + msum I (map value (rest keys e)).
  Proof.
    intros L Hd Hr. rewrite <- (proj2 (summands_sound I e L)). unfold rest, get_coeff. clear L. generalize (summands_of e). intros l.
    induction l as [|s l IH].
    - cbn [map filter fold_left]. change (msum I []) with (@a0 I). rewrite aadd_0r. clear. induction keys as [|t keys IH]; [reflexivity|].
      cbn [map AbcdSpec.comb]. rewrite <- IH, ev_s0, smul_0. symmetry. apply aadd_0.
    - cbn [map]. rewrite msum_cons, IH.
      rewrite (comb_split (fun t => fold_left (gstep t) (s :: l) s0) (fun t => fold_left (gstep t) l s0) (hit s)).
      2:{ intros t _. cbn [fold_left]. rewrite gstep_acc. f_equal. unfold gstep, hit, term. destruct (coeff_term s) as [c t']. cbn [fst snd].
          destruct (oeqb t' t); [|apply ev_s0]. rewrite (ev_add S I), ev_s0. ring. }
      rewrite hit_sum by assumption. cbn [filter]. destruct (other keys s); cbn [map]; [rewrite msum_cons, aadd_0|].
      + rewrite !aadd_assoc. f_equal. apply aadd_comm.
      + apply aadd_assoc.
  Qed.
  Lemma comb_app cs xs cs' xs' : length cs = length xs -> comb (cs ++ cs') (xs ++ xs') = comb cs xs + comb cs' xs'.
  Proof.
    revert xs. induction cs as [|c cs IH]; intros [|x xs] H; try discriminate; cbn [app AbcdSpec.comb]; [symmetry; apply aadd_0|]. rewrite IH by (now injection H). apply aadd_assoc.
  Qed.
  Lemma comb_star cs xs : star (comb cs xs) = comb (map sconj cs) (map star xs).
  Proof.
    revert xs. induction cs as [|c cs IH]; intros [|x xs]; cbn [map AbcdSpec.comb]; try apply star_0. rewrite star_add, star_smul, IH, (ev_conj S I). reflexivity.
  Qed.
  Definition unscaled (t : op) : Prop := match t with OScal _ _ => False | _ => True end.
  Lemma rest_other keys e s : In s (rest keys e) -> Forall rigid keys -> Forall unscaled keys -> In s (summands_of e) /\ forall t, In t keys -> ~ term_is t s.
  Proof.
    unfold rest. intros H Hr Hu. apply filter_In in H. destruct H as [H1 H2]. split; [exact H1|]. intros t Ht Hs. unfold other in H2. apply Bool.negb_true_iff in H2.
    assert (existsb (oeqb (term s)) keys = true) as G; [|now rewrite G in H2]. apply existsb_exists. exists t. split; [exact Ht|]. rewrite Forall_forall in Hr, Hu. apply (Hr t Ht).
    destruct Hs as [-> |[c ->]]; [|reflexivity]. pose proof (Hu t Ht) as G. destruct t; try reflexivity. destruct G.
  Qed.
End Coeffs.

(** the modes are sorted and different *)
Lemma sp_insert_sorted x h : StronglySorted lt h -> StronglySorted lt (sp_insert x h).
Proof.
  induction 1 as [|y h Hs IH Hy]; cbn [sp_insert]; [repeat constructor|]. destruct (Nat.ltb_spec x y) as [H|H].
  - constructor; [now constructor|]. constructor; [exact H|]. rewrite Forall_forall in *. intros z Hz. specialize (Hy z Hz). lia.
  - destruct (Nat.eqb_spec x y) as [E|E]; [now constructor|]. constructor; [exact IH|]. rewrite Forall_forall in *. intros z Hz. apply sp_insert_In in Hz. destruct Hz as [-> |Hz]; [lia|auto].
Qed.
Lemma sp_union_sorted a b : StronglySorted lt b -> StronglySorted lt (sp_union a b).
Proof. intros Hb. induction a as [|x a IH]; [exact Hb|]. cbn. now apply sp_insert_sorted. Qed.
Lemma modes_sorted {S : scalars} (s : osys S) : StronglySorted lt (modes s).
Proof. unfold modes. generalize (concat (oS s) ++ oL s ++ [oH s]). intros l. induction l as [|e l IH]; [constructor|]. cbn [fold_right]. now apply sp_union_sorted. Qed.
Lemma modes_NoDup {S : scalars} (s : osys S) : NoDup (modes s).
Proof.
  pose proof (modes_sorted s) as H. induction H as [|x l _ IH Hx]; constructor; [|exact IH]. intros Hin. rewrite Forall_forall in Hx. specialize (Hx x Hin). lia.
Qed.
Lemma modes_In {S : scalars} (s : osys S) l : In l (modes s) <-> exists e, (In e (concat (oS s)) \/ In e (oL s) \/ e = oH s) /\ In l (space e).
Proof.
  assert (forall es, In l (fold_right (fun e h => sp_union (space e) h) [] es) <-> exists e : op S, In e es /\ In l (space e)) as G.
  { induction es as [|e es IH]; cbn [fold_right]; [split; [intros []|intros (e & [] & _)]|]. rewrite sp_union_In, IH. split.
    - intros [H|(e' & H1 & H2)]; [exists e; split; [now left|exact H]|exists e'; split; [now right|exact H2]].
    - intros (e' & [-> |H1] & H2); [now left|right; now exists e']. }
  unfold modes. rewrite G. split; intros (e & H1 & H2); exists e; (split; [|exact H2]).
  - apply in_app_or in H1. destruct H1 as [H1|H1]; [now left|]. apply in_app_or in H1. destruct H1 as [H1|[<- |[]]]; auto.
  - apply in_or_app. destruct H1 as [H1|[H1| ->]]; [now left|right; apply in_or_app; now left|right; apply in_or_app; right; now left].
Qed.
