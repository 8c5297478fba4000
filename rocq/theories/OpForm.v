(** The shape of simplified sums and of expanded expressions. *)
From Coq Require Import QArith Qcanon Permutation.
From Verif Require Import Prelude ListFacts SortModel SortSpec SortProofs BinModel OpModel OpSpec OpForms.
Local Open Scope nat_scope.
Ltac step H x E := match type of H with bind ?r _ = _ => destruct r as [x|] eqn:E; [cbn [bind] in H|discriminate H] end.

Section Form.
  Context {S : scalars}.
  Local Notation op := (op S).

  (** ** Collected sums *)
  Lemma cmap_add_terms c t m : map fst (cmap_add c t m) = map fst m \/ map fst (cmap_add (S:=S) c t m) = map fst m ++ [t].
  Proof.
    induction m as [|[t' c'] m IH]; [now right|]. cbn [cmap_add]. destruct (oeqb t' t); [now left|]. cbn [map fst].
    destruct IH as [-> | ->]; [now left|now right].
  Qed.
  Lemma cmap_add_distinct c t m : ForallOrdPairs (fun x y => oeqb x y = false) (map fst m) ->
    ForallOrdPairs (fun x y => oeqb x y = false) (map fst (cmap_add (S:=S) c t m)).
  Proof.
    induction m as [|[t' c'] m IH]; cbn [cmap_add map fst]; intros H; [repeat constructor|]. destruct (oeqb t' t) eqn:E; [exact H|]. cbn [map fst].
    inversion H as [|x l H1 H2 [E1 E2]]. constructor; [|now apply IH]. destruct (cmap_add_terms c t m) as [-> | ->]; [exact H1|].
    apply Forall_app. split; [exact H1|]. now repeat constructor.
  Qed.
  Lemma collect_distinct l : ForallOrdPairs (fun x y => oeqb x y = false) (map fst (collect (S:=S) l)).
  Proof.
    unfold collect. assert (ForallOrdPairs (fun x y => oeqb x y = false) (map fst ([] : list (op * S)))) as H by constructor. revert H.
    generalize ([] : list (op * S)) as m. induction l as [|x l IH]; intros m H; [exact H|]. cbn [fold_left]. apply IH.
    destruct (coeff_term x) as [c t]. now apply cmap_add_distinct.
  Qed.
  Lemma collect_terms l t : In t (map fst (collect (S:=S) l)) -> exists x, In x l /\ t = snd (coeff_term x).
  Proof.
    unfold collect. intros H.
    assert (forall l m, In t (map fst (fold_left (fun m o => let '(c, t) := coeff_term o in cmap_add (S:=S) c t m) l m)) ->
      In t (map fst m) \/ exists x, In x l /\ t = snd (coeff_term x)) as G.
    { clear l H. induction l as [|x l IH]; intros m H; [now left|]. cbn [fold_left] in H. apply IH in H. destruct H as [H|[y [Hy E]]].
      - destruct (coeff_term x) as [c t0] eqn:E. destruct (cmap_add_terms c t0 m) as [E2|E2]; rewrite E2 in H; [now left|].
        apply in_app_or in H. destruct H as [H|[<- |[]]]; [now left|]. right. exists x. split; [now left|]. now rewrite E.
      - right. exists y. split; [now right|exact E]. }
    destruct (G l [] H) as [[]|H']. exact H'.
  Qed.

  Section Plus.
  Context (dim : nat -> option nat) (olt : op -> op -> bool) (slt : list nat -> list nat -> bool) (ord : list op -> res (list op)).
  Local Notation cr := (creators_n dim olt slt ord).

  Lemma scal_plain n c t : plain t -> k_scal (cr (Datatypes.S n)) c t = Ok (if seqb c s1 then t else if seqb c s0 then OZero else OScal c t).
  Proof. intros H. cbn [creators_n k_scal scal_step]. unfold scal_step. destruct (seqb c s1); [reflexivity|]. destruct (seqb c s0); [reflexivity|]. destruct t; try reflexivity; contradiction H. Qed.
  (** the summands made from the collected coefficients *)
  Definition rebuild (tc : op * S) : list op :=
    if seqb (snd tc) s1 then [fst tc] else if seqb (snd tc) s0 then [] else [OScal (snd tc) (fst tc)].
  Lemma collect_summands_eq n l : Forall (fun x => plain (term x)) l ->
    collect_summands (cr (Datatypes.S n)) l = Ok (flat_map rebuild (collect l)).
  Proof.
    intros H. unfold collect_summands. assert (Forall (fun tc : op * S => plain (fst tc)) (collect l)) as Hp.
    { apply Forall_forall. intros tc Htc. apply (in_map fst) in Htc. apply collect_terms in Htc. destruct Htc as [x [Hx ->]].
      rewrite Forall_forall in H. specialize (H x Hx). now destruct x. }
    assert (forall m, Forall (fun tc : op * S => plain (fst tc)) m -> exists l',
      mapM (fun tc : op * S => let '(t, c) := tc in k_scal (cr (Datatypes.S n)) c t) m = Ok l' /\ filter (fun o => negb (is_zero o)) l' = flat_map rebuild m) as G.
    { clear. induction m as [|[t c] m IH]; intros Hm; [now exists []|]. destruct (IH (Forall_inv_tail Hm)) as [l' [E1 E2]].
      pose proof (Forall_inv Hm) as Ht. cbn [fst] in Ht. eexists. split.
      - cbn [mapM]. rewrite (scal_plain n c t Ht). cbn [bind]. rewrite E1. reflexivity.
      - cbn [filter flat_map]. rewrite E2. generalize (flat_map rebuild m) as R. intros R. unfold rebuild. cbn [fst snd]. destruct (seqb c s1); [destruct t; try reflexivity; contradiction Ht|].
        destruct (seqb c s0); reflexivity. }
    destruct (G _ Hp) as [l' [-> E2]]. cbn [bind]. now rewrite E2.
  Qed.
  Lemma rebuild_terms m : Forall (fun tc : op * S => plain (fst tc)) m -> ForallOrdPairs (fun x y => oeqb x y = false) (map fst m) ->
    seqb (@s1 S) s0 = false -> collected (flat_map rebuild m).
  Proof.
    intros Hp Hd H10. unfold collected.
    assert (forall o, In o (flat_map rebuild m) -> plain (term o) /\ seqb (coeff o) s0 = false /\ exists tc, In tc m /\ term o = fst tc) as G.
    { clear Hd. intros o Ho. apply in_flat_map in Ho. destruct Ho as [[t c] [Htc Ho]]. rewrite Forall_forall in Hp. specialize (Hp _ Htc). cbn [fst] in Hp.
      unfold rebuild in Ho. cbn [fst snd] in Ho. destruct (seqb c s1).
      - destruct Ho as [<- |[]]. assert (term t = t /\ coeff t = s1) as [-> ->] by (destruct t; try (split; reflexivity); contradiction Hp).
        split; [exact Hp|]. split; [exact H10|]. now exists (t, c).
      - destruct (seqb c s0) eqn:E; [contradiction|]. destruct Ho as [<- |[]]. cbn [term coeff]. split; [exact Hp|]. split; [exact E|]. now exists (t, c). }
    split; [apply Forall_forall; intros o Ho; now apply G|]. split; [apply Forall_forall; intros o Ho; apply G, Ho|].
    clear H10. induction m as [|[t c] m IH]; [constructor|]. cbn [map fst] in Hd. inversion Hd as [|x l H1 H2 [E1 E2]].
    assert (ForallOrdPairs (fun x y => oeqb (term x) (term y) = false) (flat_map rebuild m)) as HI.
    { apply IH; [exact (Forall_inv_tail Hp)|exact H2|]. intros o Ho. cbn [flat_map] in G. destruct (G o (in_or_app _ _ _ (or_intror Ho))) as [G1 [G2 _]]. split; [exact G1|]. split; [exact G2|].
      apply in_flat_map in Ho. destruct Ho as [tc [Htc Ho]]. exists tc. split; [exact Htc|]. pose proof (Forall_inv_tail Hp) as Hp'. rewrite Forall_forall in Hp'. specialize (Hp' _ Htc).
      unfold rebuild in Ho. destruct (seqb (snd tc) s1); [destruct Ho as [<- |[]]; destruct (fst tc); try reflexivity; contradiction Hp'|].
      destruct (seqb (snd tc) s0); [contradiction|]. destruct Ho as [<- |[]]. reflexivity. }
    assert (forall o, In o (flat_map rebuild m) -> oeqb t (term o) = false) as Hto.
    { intros o Ho. cbn [flat_map] in G.
      apply in_flat_map in Ho. destruct Ho as [tc [Htc Ho]]. pose proof (Forall_inv_tail Hp) as Hp'. rewrite Forall_forall in Hp'. specialize (Hp' _ Htc).
      assert (term o = fst tc) as ->.
      { unfold rebuild in Ho. destruct (seqb (snd tc) s1); [destruct Ho as [<- |[]]; destruct (fst tc); try reflexivity; contradiction Hp'|].
        destruct (seqb (snd tc) s0); [contradiction|]. destruct Ho as [<- |[]]. reflexivity. }
      rewrite Forall_forall in H1. apply H1. now apply in_map. }
    pose proof (Forall_inv Hp) as Ht. cbn [fst] in Ht. cbn [flat_map]. unfold rebuild at 1. cbn [fst snd]. destruct (seqb c s1); cbn [app].
    - constructor; [|exact HI]. apply Forall_forall. intros o Ho. replace (term t) with t by (destruct t; try reflexivity; contradiction Ht). now apply Hto.
    - destruct (seqb c s0); [exact HI|]. cbn [app]. constructor; [|exact HI]. apply Forall_forall. intros o Ho. cbn [term]. now apply Hto.
  Qed.

  Theorem plus_collected n l e : seqb (@s1 S) s0 = false -> Forall (fun x => plain (term x)) (flat_plus l) ->
    k_plus (cr (Datatypes.S (Datatypes.S n))) l = Ok e ->
    match e with
    | OZero => True
    | OPlus l' => 2 <= length l' /\ collected l'
    | _ => plain (term e) /\ seqb (coeff e) s0 = false
    end.
  Proof.
    intros H10 Hl H. change (plus_step olt slt (cr (Datatypes.S n)) l = Ok e) in H. unfold plus_step in H.
    assert (Forall (fun x => plain (term x)) (pysorted (ofull_lt olt slt) (flat_plus l))) as Hl'.
    { rewrite Forall_forall in *. intros x Hx. apply Hl. now apply pysorted_In in Hx. }
    rewrite (collect_summands_eq n _ Hl') in H. cbn [bind] in H.
    assert (collected (flat_map rebuild (collect (pysorted (ofull_lt olt slt) (flat_plus l))))) as [HC1 [HC2 HC3]].
    { apply rebuild_terms; [|apply collect_distinct|exact H10]. apply Forall_forall. intros tc Htc. apply (in_map fst) in Htc. apply collect_terms in Htc.
      destruct Htc as [x [Hx ->]]. rewrite Forall_forall in Hl'. specialize (Hl' x Hx). now destruct x. }
    destruct (flat_map rebuild _) as [|x [|y l']].
    - injection H as <-. exact I.
    - injection H as <-. pose proof (Forall_inv HC1) as P1. pose proof (Forall_inv HC2) as P2. cbn beta in P1, P2. destruct x; now split.
    - injection H as <-. split; [cbn; lia|]. now split.
  Qed.
  (** the order of the summands does not matter *)
  Theorem plus_reorder n l l' : Permutation l l' ->
    consistent (ofull_lt olt slt) (flat_plus l) ->
    (forall x y, In x (flat_plus l) -> In y (flat_plus l) -> tied (ofull_lt olt slt) x y = true -> x = y) ->
    k_plus (cr (Datatypes.S n)) l = k_plus (cr (Datatypes.S n)) l'.
  Proof.
    intros Hp Hc Ht. cbn [creators_n k_plus]. unfold plus_step. rewrite (pysorted_permutation _ (flat_plus l) (flat_plus l')); [reflexivity|exact Hc|exact Ht|].
    unfold flat_plus. now apply Permutation_flat_map.
  Qed.
  End Plus.
End Form.
