(** Finite-level operators as matrices: an interpretation (OpSpec.interp) of the operator
    algebra in the matrices on a product [h] of local spaces. Used by C49 and C50: converting to
    matrices commutes with simplification. There are no harmonic oscillators and no
    spin operators in it: only transition operators between numbered levels (see
    C49_truncation_refuted and C49_spin_refuted for the others). *)
From Coq Require Import Bool Sumbool QArith Qcanon Eqdep_dec FunctionalExtensionality.
From Verif Require Import Prelude ListFacts AlgSpec CAlg OpModel OpSpec OpProofs1 ConvModel ConvSpec ConvProofs1 ConvProofs2.
Local Open Scope nat_scope.

Section Lvl.
Context {S : scalars} (r : reading S) (dim : nat -> option nat) (h : list nat).
Add Ring Kr : (kring r).
Local Notation mat := (mat r).
Local Notation N := (size dim h).
Local Notation meq := (meq r).

Definition ix : Type := {i : nat | (i <? N) = true}.
Definition lmat : Type := ix -> ix -> K r.
Definition to_mat (X : lmat) : mat := fun i j =>
  match sumbool_of_bool (i <? N), sumbool_of_bool (j <? N) with
  | left p, left q => X (exist _ i p) (exist _ j q)
  | _, _ => k0
  end.
Definition of_mat (M : mat) : lmat := fun i j => M (proj1_sig i) (proj1_sig j).
Lemma of_mat_eq M M' : meq N M M' -> of_mat M = of_mat M'.
Proof.
  intros H. apply functional_extensionality. intros [i Hi]. apply functional_extensionality. intros [j Hj]. apply H; now apply Nat.ltb_lt.
Qed.
Lemma to_of M : meq N (to_mat (of_mat M)) M.
Proof.
  intros i j Hi Hj. unfold to_mat. apply Nat.ltb_lt in Hi, Hj.
  destruct (sumbool_of_bool (i <? N)) as [p|p]; [|congruence]. destruct (sumbool_of_bool (j <? N)) as [q|q]; [reflexivity|congruence].
Qed.
Lemma of_to X : of_mat (to_mat X) = X.
Proof.
  apply functional_extensionality. intros [i Hi]. apply functional_extensionality. intros [j Hj]. unfold of_mat, to_mat. cbn [proj1_sig].
  destruct (sumbool_of_bool (i <? N)) as [p|p]; [|congruence]. destruct (sumbool_of_bool (j <? N)) as [q|q]; [|congruence].
  f_equal; f_equal; apply UIP_dec; apply bool_dec.
Qed.
Lemma of_mat_inj M M' : of_mat M = of_mat M' -> meq N M M'.
Proof. intros H. eapply meq_trans; [apply meq_sym, to_of|]. rewrite H. apply to_of. Qed.

Definition ladd (X Y : lmat) : lmat := of_mat (madd r (to_mat X) (to_mat Y)).
Definition lmul (X Y : lmat) : lmat := of_mat (mmul r N (to_mat X) (to_mat Y)).
Definition lsmul (c : K r) (X : lmat) : lmat := of_mat (mscale r c (to_mat X)).
Definition lstar (X : lmat) : lmat := of_mat (mherm r (to_mat X)).
Lemma add_of M M' : ladd (of_mat M) (of_mat M') = of_mat (madd r M M').
Proof. apply of_mat_eq, madd_eq; apply to_of. Qed.
Lemma mul_of M M' : lmul (of_mat M) (of_mat M') = of_mat (mmul r N M M').
Proof. apply of_mat_eq, mmul_eq; apply to_of. Qed.
Lemma smul_of c M : lsmul c (of_mat M) = of_mat (mscale r c M).
Proof. apply of_mat_eq, mscale_eq; apply to_of. Qed.
Lemma star_of M : lstar (of_mat M) = of_mat (mherm r M).
Proof. apply of_mat_eq, mherm_eq; apply to_of. Qed.
Ltac out := repeat match goal with X : lmat |- _ => rewrite <- (of_to X); generalize (to_mat X); clear X; intros X end;
  rewrite ?add_of, ?mul_of, ?smul_of, ?star_of, ?add_of, ?mul_of, ?smul_of, ?star_of; try apply of_mat_eq.
Ltac byent := intros ? ? ? ?; unfold madd, mscale, mherm, mzero, mmul.

Definition lvl_alg : algebra.
Proof.
  refine (mk_algebra (K r) k0 k1 kadd kmul kopp (kring r) lmat (of_mat (mzero r)) (of_mat (meye r)) ladd lmul lsmul _ _ _ _ _ _ _ _ _ _ _ _ _ _ _).
  - intros X Y. out. byent. ring.
  - intros X Y Z. out. byent. ring.
  - intros X. out. byent. ring.
  - intros X. out. byent. ring.
  - intros X Y Z. out. apply mmul_assoc.
  - intros X. out. apply mmul_1l.
  - intros X. out. apply mmul_1r.
  - intros X Y Z. out. byent. rewrite <- nsum_add. apply nsum_ext. intros. ring.
  - intros X Y Z. out. byent. rewrite <- nsum_add. apply nsum_ext. intros. ring.
  - intros X. out. byent. ring.
  - intros c d X. out. byent. ring.
  - intros c d X. out. byent. ring.
  - intros c X Y. out. byent. ring.
  - intros c X Y. out. byent. rewrite <- nsum_mul_l. apply nsum_ext. intros. ring.
  - intros c X Y. out. byent. rewrite <- nsum_mul_l. apply nsum_ext. intros. ring.
Defined.
Definition lvl_star : star_algebra.
Proof.
  refine (mk_star lvl_alg (@kconj r) lstar (kconj_add r) (kconj_mul r) (kconj_conj r) (kconj_1 r) _ _ _ _ _); cbn [A lvl_alg a1 aadd amul smul].
  - intros X Y. change (A lvl_alg) with lmat in X, Y. change (lstar (ladd X Y) = ladd (lstar X) (lstar Y)). out. byent. apply kconj_add.
  - intros X Y. change (A lvl_alg) with lmat in X, Y. change (lstar (lmul X Y) = lmul (lstar Y) (lstar X)). out. apply mherm_mul.
  - intros c X. change (A lvl_alg) with lmat in X. change (lstar (lsmul c X) = lsmul (kconj c) (lstar X)). out. byent. apply kconj_mul.
  - intros X. change (A lvl_alg) with lmat in X. change (lstar (lstar X) = X). out. byent. apply kconj_conj.
  - change (lstar (of_mat (meye r)) = of_mat (meye r)). out. apply meye_herm.
Defined.
Definition lvl_calg : calgebra := mk_calg lvl_star (@iu r) (@khalf r) (iu_sq r) (iu_conj r) (khalf_2 r).
Definition lvl_reading : reading S :=
  Build_reading S lvl_calg (@kQ S r) (@kexp S r) (@ksqrt S r) (kQ_0 _ r) (kQ_1 _ r) (kQ_add _ r) (kQ_mul _ r) (kQ_real _ r) (ksqrt_real _ r) (kexp_conj _ r)
    (@ev S r) (ev_eq _ r) (ev_Q _ r) (ev_add _ r) (ev_sub _ r) (ev_mul _ r) (ev_neg _ r) (ev_div2 _ r) (ev_conj _ r) (ev_I _ r) (ev_exp _ r) (ev_sqrt _ r).

(** matrices on some of the factors *)
Inductive acts (hh : list nat) : lmat -> Prop :=
| acts_site x M : In x hh -> In x h -> acts hh (of_mat (at_site r dim h x M))
| acts_0 : acts hh (of_mat (mzero r))
| acts_1 : acts hh (of_mat (meye r))
| acts_add X Y : acts hh X -> acts hh Y -> acts hh (ladd X Y)
| acts_mul X Y : acts hh X -> acts hh Y -> acts hh (lmul X Y)
| acts_smul c X : acts hh X -> acts hh (lsmul c X).
Lemma acts_incl hh hh' X : incl hh hh' -> acts hh X -> acts hh' X.
Proof. intros Hi H. induction H; constructor; auto. Qed.
Lemma acts_star hh X : acts hh X -> acts hh (lstar X).
Proof.
  induction 1 as [x M H1 H2| | |X Y H1 G1 H2 G2|X Y H1 G1 H2 G2|c X H1 G1].
  - rewrite star_of. replace (of_mat (mherm r (at_site r dim h x M))) with (of_mat (at_site r dim h x (mherm r M))); [now constructor|]. apply of_mat_eq, site_herm.
  - replace (lstar (of_mat (mzero r))) with (of_mat (mzero r)); [constructor|]. rewrite star_of. apply of_mat_eq. intros i j _ _. unfold mherm, mzero. symmetry. apply kconj_0.
  - replace (lstar (of_mat (meye r))) with (of_mat (meye r)); [constructor|]. symmetry. apply (star_1 lvl_star).
  - replace (lstar (ladd X Y)) with (ladd (lstar X) (lstar Y)); [now constructor|]. symmetry. apply (star_add lvl_star).
  - replace (lstar (lmul X Y)) with (lmul (lstar Y) (lstar X)); [now constructor|]. symmetry. apply (star_mul lvl_star).
  - replace (lstar (lsmul c X)) with (lsmul (kconj c) (lstar X)); [now constructor|]. symmetry. apply (star_smul lvl_star).
Qed.
Context (Hn : NoDup h).
Lemma site_comm x y M M' : In x h -> In y h -> x <> y ->
  meq N (mmul r N (at_site r dim h x M) (at_site r dim h y M')) (mmul r N (at_site r dim h y M') (at_site r dim h x M)).
Proof.
  intros Hx Hy Hxy.
  assert (forall x y M M', In x h -> In y h -> meq N (mmul r N (at_site r dim h x M) (at_site r dim h y M')) (sites_prod r dim h [(x, M); (y, M')])) as G.
  { intros x' y' m m' _ _. unfold sites_prod, mprodl. cbn [map fold_right fst snd]. apply mmul_eq; [apply meq_refl|apply meq_sym, mmul_1r]. }
  eapply meq_trans; [now apply G|]. eapply meq_trans; [|apply meq_sym; now apply G].
  eapply meq_trans; [apply meq_sym, grouped; [exact Hn|repeat constructor; assumption]|]. eapply meq_trans; [|apply grouped; [exact Hn|repeat constructor; assumption]].
  apply chain_ext. intros s _. unfold on. cbn [filter fst]. destruct (Nat.eqb_spec x s), (Nat.eqb_spec y s); try congruence; apply meq_refl.
Qed.
Lemma acts_commute hh hh' X Y : acts hh X -> acts hh' Y -> apart hh hh' -> lmul X Y = lmul Y X.
Proof.
  intros HX HY Ha. pose (M := lvl_alg).
  induction HX as [x m H1 H2| | |X1 X2 H1 G1 H2 G2|X1 X2 H1 G1 H2 G2|c X H1 G1].
  - induction HY as [y m' H3 H4| | |Y1 Y2 H3 G3 H4 G4|Y1 Y2 H3 G3 H4 G4|c Y H3 G3].
    + rewrite !mul_of. apply of_mat_eq, site_comm; [assumption..|]. intros <-. exact (Ha x H1 H3).
    + rewrite !mul_of. apply of_mat_eq. eapply meq_trans; [apply mmul_0r|apply meq_sym, mmul_0l].
    + etransitivity; [apply (amul_1r M)|symmetry; apply (amul_1l M)].
    + etransitivity; [apply (amul_addr M)|]. cbn [amul M lvl_alg aadd]. rewrite G3, G4. symmetry. apply (amul_addl M).
    + etransitivity; [apply (amul_assoc M)|]. cbn [amul M lvl_alg]. rewrite G3. etransitivity; [symmetry; apply (amul_assoc M)|]. cbn [amul M lvl_alg]. rewrite G4. apply (amul_assoc M).
    + etransitivity; [apply (smul_amul_r M)|]. cbn [amul M lvl_alg smul]. rewrite G3. symmetry. apply (smul_amul_l M).
  - etransitivity; [apply (amul_0l M)|symmetry; apply (amul_0r M)].
  - etransitivity; [apply (amul_1l M)|symmetry; apply (amul_1r M)].
  - etransitivity; [apply (amul_addl M)|]. cbn [amul M lvl_alg aadd]. rewrite G1, G2. symmetry. apply (amul_addr M).
  - etransitivity; [symmetry; apply (amul_assoc M)|]. cbn [amul M lvl_alg]. rewrite G2. etransitivity; [apply (amul_assoc M)|]. cbn [amul M lvl_alg]. rewrite G1. symmetry. apply (amul_assoc M).
  - etransitivity; [apply (smul_amul_l M)|]. cbn [amul M lvl_alg smul]. rewrite G1. symmetry. apply (smul_amul_r M).
Qed.

(** transition operators *)
Definition lsigma (j k l : nat) : lmat :=
  if sp_mem l h then of_mat (at_site r dim h l (element r false (ASigma j k l) (levels dim l))) else of_mat (mzero r).
Lemma acts_sigma j k l : acts [l] (lsigma j k l).
Proof. unfold lsigma. destruct (sp_mem l h) eqn:E; [|apply acts_0]. apply sp_mem_In in E. apply acts_site; [now left|exact E]. Qed.
Lemma lsigma_star j k l : lstar (lsigma j k l) = lsigma k j l.
Proof.
  unfold lsigma. destruct (sp_mem l h) eqn:E; rewrite star_of.
  - apply of_mat_eq. apply sp_mem_In in E. eapply meq_trans; [apply meq_sym, site_herm|]. apply site_eq; [|exact E]. intros a b _ _. unfold mherm, element.
    rewrite (andb_comm (b =? j)). destruct ((a =? k) && (b =? j)); [apply kconj_1|apply kconj_0].
  - apply of_mat_eq. intros a b _ _. apply kconj_0.
Qed.
Lemma lsigma_mul a b c d l : (forall n, dim l = Some n -> a < n /\ b < n /\ c < n /\ d < n) ->
  lmul (lsigma a b l) (lsigma c d l) = if b =? c then lsigma a d l else of_mat (mzero r).
Proof.
  intros Hl. unfold lsigma. destruct (sp_mem l h) eqn:E.
  2:{ rewrite mul_of. transitivity (of_mat (mzero r)); [apply of_mat_eq, mmul_0l|]. now destruct (b =? c). }
  apply sp_mem_In in E. rewrite mul_of.
  transitivity (of_mat (at_site r dim h l (if b =? c then element r false (ASigma a d l) (levels dim l) else mzero r))).
  - apply of_mat_eq. eapply meq_trans; [apply site_mul; assumption|]. apply site_eq; [|exact E]. intros i j Hi Hj. unfold mmul.
    assert (exists n, dim l = Some n) as [n Ed] by (unfold levels in Hi; destruct (dim l) as [n|]; [now exists n|lia]).
    destruct (Hl n Ed) as [H1 [H2 [H3 H4]]]. unfold levels in *. rewrite Ed in *.
    transitivity (nsum r n (fun t => if t =? b then (if (i =? a) && (b =? c) && (j =? d) then k1 else k0) else k0)).
    + apply nsum_ext. intros t _. unfold element. destruct (Nat.eqb_spec t b) as [-> |Nb].
      * destruct (i =? a), (b =? c), (j =? d); cbn [andb]; ring.
      * rewrite andb_false_r. ring.
    + rewrite nsum_delta by exact H2. destruct (b =? c); unfold element, mzero; destruct (i =? a), (j =? d); reflexivity.
  - destruct (b =? c); [reflexivity|]. apply of_mat_eq, site_zero.
Qed.

Definition no_site (_ : nat) : Prop := False.
Definition lvl_interp : interp S dim.
Proof.
  refine (Build_interp S dim lvl_reading no_site no_site no_site acts (fun _ _ => of_mat (mzero r)) (fun _ => of_mat (mzero r)) (fun _ => of_mat (mzero r)) lsigma
    (fun _ _ => of_mat (mzero r)) (fun _ _ => of_mat (mzero r)) (fun _ _ => of_mat (mzero r)) (fun _ => of_mat (mzero r)) (fun _ => of_mat (mzero r)) (fun _ => of_mat (mzero r))
    (fun _ _ => of_mat (mzero r))
    _ _ _ acts_incl _ _ _ _ _ acts_star _ acts_commute _ _ _ acts_sigma _ _ _ _ _ _ _ lsigma_star _ _ _ _ _ lsigma_mul _ _ _ _ _ _ _ _ _ _ _ _ _ _ _ _ _);
  try (intros; contradiction); intros; try constructor; assumption.
Defined.
End Lvl.
