(** Laws of the Pauli operators; what PauliX, PauliY and PauliZ return *)
From Coq Require Import Bool ZArith QArith Qcanon.
From Verif Require Import Prelude ListFacts SortModel SortProofs BinModel AlgSpec CAlg NcRing OpModel OpSpec OpForms OpProofs1 OpProofs2 OpProofs3 OpOrder OpFuel OpLocal OpRun.
From Verif Require Import HilbertModel BasisModel BasisProofs PauliModel PauliSpec Properties_Op1.
Local Open Scope nat_scope.

Section Table.
  (** abstract multiplication table *)
  Context (M : calgebra) (a b p q : A M).
  Add Ring Kr : (kring M).
  Context (aa : amul a a = a0) (ab : amul a b = p) (ba : amul b a = q) (bb : amul b b = a0)
    (pa : amul p a = a) (ap : amul a p = a0) (pb : amul p b = a0) (bp : amul b p = b)
    (qa : amul q a = a0) (aq : amul a q = a) (qb : amul q b = b) (bq : amul b q = a0)
    (pp : amul p p = p) (qq : amul q q = q) (pq : amul p q = a0) (qp : amul q p = a0).
  Local Notation X := (aadd a b).
  Local Notation Y := (smul iu (aadd (aopp a) b)).
  Local Notation Z := (aadd p (aopp q)).
  Local Notation P := (aadd p q).
  Ltac expa := rewrite ?amul_addl, ?amul_addr, ?aopp_mul_l, ?aopp_mul_r, ?aa, ?ab, ?ba, ?bb, ?pa, ?ap, ?pb, ?bp, ?qa, ?aq, ?qb, ?bq, ?pp, ?qq, ?pq, ?qp.
  Lemma ii (x : A M) : smul iu (smul iu x) = aopp x.
  Proof. rewrite <- smul_mul, iu_sq. reflexivity. Qed.
  Lemma i_neg (x : A M) : smul iu (aopp x) = smul (kopp iu) x.
  Proof. unfold aopp. rewrite <- smul_mul. f_equal. ring. Qed.
  Lemma XX : amul X X = P. Proof. expa. ncr. Qed.
  Lemma ZZ : amul Z Z = P. Proof. expa. ncr. Qed.
  Lemma YY : amul Y Y = P. Proof. rewrite smul_amul_l, smul_amul_r, ii. expa. ncr. Qed.
  Lemma XY : amul X Y = smul iu Z. Proof. rewrite smul_amul_r. f_equal. expa. ncr. Qed.
  Lemma YX : amul Y X = smul (kopp iu) Z. Proof. rewrite smul_amul_l, <- i_neg. f_equal. expa. ncr. Qed.
  Lemma YZ : amul Y Z = smul iu X. Proof. rewrite smul_amul_l. f_equal. expa. ncr. Qed.
  Lemma ZY : amul Z Y = smul (kopp iu) X. Proof. rewrite smul_amul_r, <- i_neg. f_equal. expa. ncr. Qed.
  Lemma ZX : amul Z X = smul iu Y. Proof. rewrite ii. expa. ncr. Qed.
  Lemma neg_ii (x : A M) : smul (kopp iu) (smul iu x) = x.
  Proof.
    rewrite <- smul_mul. transitivity (smul k1 x); [|apply smul_1]. f_equal. transitivity (kopp (kmul iu (@iu M))); [ring|]. rewrite iu_sq. ring.
  Qed.
  Lemma XZ : amul X Z = smul (kopp iu) Y. Proof. rewrite neg_ii. expa. ncr. Qed.
End Table.

Section Interp.
  Context {S : scalars} {dim : nat -> option nat} (I : interp S dim) (l g e : nat) (Hge : g <> e).
  Context (Lg : level (dim:=dim) l g) (Le : level (dim:=dim) l e).
  Lemma sig a b c d : (a = g \/ a = e) -> (b = g \/ b = e) -> (c = g \/ c = e) -> (d = g \/ d = e) ->
    amul (isigma (i:=I) a b l) (isigma c d l) = if b =? c then isigma a d l else a0.
  Proof.
    intros Ha Hb Hc Hd. apply sigma_sigma. intros n En. unfold level in *. rewrite En in *.
    repeat split; [destruct Ha|destruct Hb|destruct Hc|destruct Hd]; subst; assumption.
  Qed.
  Lemma ge_eqb : (g =? e) = false /\ (e =? g) = false.
  Proof. split; apply Nat.eqb_neq; congruence. Qed.
  Ltac tab := rewrite sig by tauto; rewrite ?Nat.eqb_refl, ?(proj1 ge_eqb), ?(proj2 ge_eqb); reflexivity.
  Lemma sy_form : sy I l g e = smul iu (aadd (aopp (M:=I) (isigma g e l)) (isigma e g l)).
  Proof. unfold sy. rewrite smul_addr. f_equal. symmetry. apply (i_neg I). Qed.
  Lemma pauli_table :
    amul (sx I l g e) (sx I l g e) = s_id I l g e /\ amul (sy I l g e) (sy I l g e) = s_id I l g e /\ amul (sz I l g e) (sz I l g e) = s_id I l g e /\
    amul (sx I l g e) (sy I l g e) = smul iu (sz I l g e) /\ amul (sy I l g e) (sx I l g e) = smul (kopp iu) (sz I l g e) /\
    amul (sy I l g e) (sz I l g e) = smul iu (sx I l g e) /\ amul (sz I l g e) (sy I l g e) = smul (kopp iu) (sx I l g e) /\
    amul (sz I l g e) (sx I l g e) = smul iu (sy I l g e) /\ amul (sx I l g e) (sz I l g e) = smul (kopp iu) (sy I l g e).
  Proof.
    rewrite sy_form. unfold sx, sz, s_id.
    repeat split; [apply (XX I) | apply (YY I) | apply (ZZ I) | apply (XY I) | apply (YX I) | apply (YZ I) | apply (ZY I) | apply (ZX I) | apply (XZ I)]; tab.
  Qed.
End Interp.
Section Herm.
  Context {S : scalars} {dim : nat -> option nat} (I : interp S dim) (l g e : nat).
  Lemma pauli_herm : star (sx I l g e) = sx I l g e /\ star (sy I l g e) = sy I l g e /\ star (sz I l g e) = sz I l g e.
  Proof.
    unfold sx, sy, sz. repeat split; rewrite star_add, ?star_smul, !sigma_star.
    - apply aadd_comm.
    - rewrite kconj_opp, iu_conj. rewrite aadd_comm. f_equal. f_equal. rewrite (Ropp_opp (Eqsth _) (Eq_ext _ _ _) (kring I)). reflexivity.
    - rewrite kconj_opp, kconj_1. reflexivity.
  Qed.
End Herm.

(** ** labels *)
Lemma names_unpack s a j : names_level s a j -> exists x, unpack s a = Ok (x, Z.of_nat j).
Proof.
  unfold names_level, unpack, local_labels. destruct a as [i|x], (l_basis s) as [b|]; try contradiction; cbn [of_option bind].
  - intros [-> H]. destruct (Z.ltb_spec (Z.of_nat j) 0); [lia|]. destruct (Z.leb_spec (Z.of_nat (length b)) (Z.of_nat j)); [lia|]. rewrite Nat2Z.id.
    destruct (nth_error b j) as [x|] eqn:E; [now exists x|]. apply nth_error_None in E. lia.
  - intros ->. destruct (Z.ltb_spec (Z.of_nat j) 0); [lia|]. eexists. reflexivity.
  - intros H. apply str_index_Some in H. rewrite H. now exists x.
Qed.
Lemma names_levels dim s ls a j : space_of dim s ls -> names_level s a j -> level (dim:=dim) ls j.
Proof.
  unfold space_of, names_level, level. intros ->. destruct a as [i|x], (l_basis s) as [b|]; cbn [option_map]; try contradiction; try exact (fun _ => Logic.I).
  - tauto.
  - intros [H _]. apply nth_error_Some. congruence.
Qed.
Lemma args_levels s st g e : two_levels s st g e -> exists a b, pauli_args s st = Ok (a, b) /\ names_level s a g /\ names_level s b e.
Proof.
  unfold two_levels, pauli_args. destruct st as [[|a [|b [|c l]]]|]; try contradiction.
  - intros [H1 H2]. now exists a, b.
  - intros [-> [-> H]]. destruct (l_basis s) as [b|] eqn:Eb.
    + destruct H as [x [y [b' [-> N]]]]. exists (Lab x), (Lab y). split; [reflexivity|]. unfold names_level. rewrite Eb. repeat split; [intros k Hk; lia|].
      intros k Hk. assert (k = 0) as -> by lia. cbn. congruence.
    + exists (Idx 0), (Idx 1). unfold names_level. rewrite Eb. now repeat split.
Qed.

Section Defined.
  Context {S : scalars} {dim : nat -> option nat} (olt : op S -> op S -> bool) (slt : list nat -> list nat -> bool).
  Local Notation code := (code dim olt slt).

  (** sums of multiples of local operators are returned *)
  Definition simple (o : op S) : Prop := o = OZero \/ exists a, o = OAtom a \/ exists c, o = OScal c (OAtom a).
  Lemma scal_atom n c (a : atom S) : exists t, k_scal (code (Datatypes.S n)) c (OAtom a) = Ok t /\ simple t.
  Proof.
    unfold OpRun.code. cbn [creators_n k_scal]. unfold scal_step. destruct (seqb c s1); [eexists; split; [reflexivity|right; eauto]|].
    destruct (seqb c s0); eexists; split; try reflexivity; [left; reflexivity|right; eauto].
  Qed.
  Lemma scal_zero n c : k_scal (code (Datatypes.S n)) c OZero = Ok OZero.
  Proof. unfold OpRun.code. cbn [creators_n k_scal]. unfold scal_step. destruct (seqb c s1); [reflexivity|]. destruct (seqb c s0); reflexivity. Qed.
  Lemma scal_simple n c o : simple o -> exists t, k_scal (code (2 + n)) c o = Ok t /\ simple t.
  Proof.
    intros [-> | [a [-> | [d ->]]]]; [exists OZero; split; [apply (scal_zero (1 + n))|now left]|apply (scal_atom (1 + n))|].
    change (k_scal (code (2 + n)) c (OScal d (OAtom a))) with (scal_step (code (1 + n)) c (OScal d (OAtom a))). unfold scal_step.
    destruct (seqb c s1); [eexists; split; [reflexivity|right; eauto]|]. destruct (seqb c s0); [eexists; split; [reflexivity|now left]|]. apply (scal_atom n).
  Qed.
  Definition bare (o : op S) : Prop := o = OZero \/ exists a, o = OAtom a.
  Lemma collect_atoms (l : list (op S)) : Forall simple l -> forall m, Forall (fun tc : op S * S => bare (fst tc)) m ->
    Forall (fun tc : op S * S => bare (fst tc)) (fold_left (fun m o => let '(c, t) := coeff_term o in cmap_add c t m) l m).
  Proof.
    induction 1 as [|o l Ho _ IH]; intros m Hm; [exact Hm|]. cbn [fold_left]. apply IH.
    assert (exists d t, coeff_term o = (d, t) /\ bare t) as [d [t [-> Ht]]].
    { destruct Ho as [-> | [a [-> | [c ->]]]]; cbn [coeff_term]; eexists; eexists; (split; [reflexivity|]); [now left|right; eauto|right; eauto]. }
    clear - Hm Ht. induction Hm as [|[t' c'] m H Hm' IH]; cbn [cmap_add]; [constructor; [exact Ht|constructor]|]. destruct (oeqb t' t); constructor; assumption.
  Qed.
  Lemma plus_atoms n (l : list (op S)) : Forall simple l -> exists e, k_plus (code (2 + n)) l = Ok e /\ (simple e \/ exists fs, e = OPlus fs /\ Forall simple fs).
  Proof.
    intros Hl. change (k_plus (code (2 + n)) l) with (plus_step olt slt (code (1 + n)) l). unfold plus_step.
    assert (flat_plus l = l) as ->.
    { unfold flat_plus. induction Hl as [|o l Ho _ IH]; [reflexivity|]. cbn [flat_map]. rewrite IH. destruct Ho as [-> | [a [-> | [c ->]]]]; reflexivity. }
    assert (Forall (fun tc : op S * S => bare (fst tc)) (collect (pysorted (ofull_lt olt slt) l))) as HC.
    { apply collect_atoms; [|constructor]. rewrite Forall_forall in *. intros x Hx. apply Hl. now apply pysorted_In in Hx. }
    unfold collect_summands.
    assert (exists ts, mapM (fun tc : op S * S => let '(t, c) := tc in k_scal (code (1 + n)) c t) (collect (pysorted (ofull_lt olt slt) l)) = Ok ts /\ Forall simple ts) as [ts [-> Hts]].
    { induction HC as [|[t c] m Ht _ IH]; [eexists; split; [reflexivity|constructor]|]. cbn [mapM fst] in *. destruct IH as [ts [-> Hts]].
      assert (exists y, k_scal (code (1 + n)) c t = Ok y /\ simple y) as [y [-> Hy]]; [|eexists; split; [reflexivity|now constructor]].
      destruct Ht as [-> |[a ->]]; [exists OZero; split; [apply (scal_zero n)|now left]|]. apply (scal_atom n). }
    cbn [bind].
    assert (Forall simple (filter (fun o => negb (is_zero o)) ts)) as Hf. { apply Forall_forall. intros x Hx. apply filter_In in Hx as [Hx _]. rewrite Forall_forall in Hts. now apply Hts. }
    destruct (filter _ ts) as [|x [|y fs]]; (eexists; split; [reflexivity|]); [left; now left|left; now inversion Hf|right; eauto].
  Qed.
  Lemma scal_sum n c (e : op S) : simple e \/ (exists fs, e = OPlus fs /\ Forall simple fs) -> exists t, k_scal (code (3 + n)) c e = Ok t.
  Proof.
    intros [H|[fs [-> Hf]]]. { destruct (scal_simple (1 + n) c e H) as [t [E _]]. now exists t. }
    change (k_scal (code (3 + n)) c (OPlus fs)) with (scal_step (code (2 + n)) c (OPlus fs)). unfold scal_step.
    destruct (seqb c s1); [eexists; reflexivity|]. destruct (seqb c s0); [eexists; reflexivity|]. destruct (seqb c sm1); [|eexists; reflexivity].
    assert (exists l', mapM (k_scal (code (2 + n)) sm1) fs = Ok l' /\ Forall simple l') as [l' [-> Hl]].
    { induction Hf as [|o fs Ho _ IH]; [eexists; split; [reflexivity|constructor]|]. cbn [mapM]. destruct (scal_simple n sm1 o Ho) as [t [-> Ht]]. destruct IH as [ts [-> Hts]].
      eexists. split; [reflexivity|now constructor]. }
    cbn [bind]. destruct (plus_atoms n l' Hl) as [t [E _]]. now exists t.
  Qed.
  Lemma sigma_level s ls a b g e : names_level s a g -> names_level s b e -> local_sigma (S:=S) s ls a b = Ok (OAtom (ASigma g e ls)).
  Proof.
    intros Ha Hb. unfold local_sigma. destruct (names_unpack s a g Ha) as [x ->]. cbn [bind]. destruct (names_unpack s b e Hb) as [y ->]. cbn [bind snd]. now rewrite !Nat2Z.id.
  Qed.
End Defined.
