(** Kets: more fuel and fewer monitors change nothing about a completed run. For C43. *)
From Coq Require Import QArith Qcanon.
From Verif Require Import Prelude SortModel BinModel OpModel OpFuel TrProofs KetModel.
Local Open Scope nat_scope.

Section Mono.
  Context {S : scalars} (dim : nat -> option nat).
  Local Notation ket := (ket S).
  Local Notation op := (op S).
  Record leQ (Q Q' : kcreators S) : Prop := {
    l_scal : forall c t, le (kc_scal Q c t) (kc_scal Q' c t);
    l_plus : forall l, le (kc_plus Q l) (kc_plus Q' l);
    l_tens : forall l, le (kc_tens Q l) (kc_tens Q' l);
    l_op : forall a t, le (kc_op Q a t) (kc_op Q' a t);
    l_bk : forall a b, le (kc_bk Q a b) (kc_bk Q' a b);
    l_kb : forall a b, le (kc_kb Q a b) (kc_kb Q' a b)
  }.
  Context (K K' : ocreators S) (HK : leK K K').
  Context (klt : ket -> ket -> bool) (slt : list nat -> list nat -> bool) (bk : ket -> ket -> S) (kb : ket -> ket -> op).
  Context (chk_phase : S -> bool) (chk_split : list op -> list op -> list nat -> list nat -> bool).
  Section Step.
  Context (Q Q' : kcreators S) (HQ : leQ Q Q') (f f' : nat) (Hf : f <= f').
  Ltac prim := first [apply le_refl | apply (l_scal Q Q' HQ) | apply (l_plus Q Q' HQ) | apply (l_tens Q Q' HQ) | apply (l_op Q Q' HQ) | apply (l_bk Q Q' HQ) | apply (l_kb Q Q' HQ)
    | apply (m_scal K K' HK) | apply (m_plus K K' HK) | apply (m_times K K' HK) | apply (m_comm K K' HK) | apply (oadj_mono K K' HK)].
  Ltac mono := repeat first [prim | apply le_bind; [|intros] | apply le_rmap | apply le_mapM; intros | match goal with |- le (match ?x with _ => _ end) _ => destruct x end | match goal with |- le (if ?x then _ else _) _ => destruct x end].
  Lemma kscal_mono c t : le (kscal_step Q c t) (kscal_step Q' c t).
  Proof. unfold kscal_step. mono. Qed.
  Lemma kplus_mono l : le (kplus_step klt slt Q l) (kplus_step klt slt Q' l).
  Proof. unfold kplus_step. mono. Qed.
  Lemma ktens_mono l : le (ktens_step klt slt Q f l) (ktens_step klt slt Q' f' l).
  Proof.
    unfold ktens_step. destruct (existsb is_kzero l); [apply le_refl|]. destruct l; [mono|]. cbn zeta. destruct (pysorted _ _); [apply le_refl|]. destruct (filter _ _) as [|y [|z l2]]; [apply le_refl|apply le_refl|].
    apply le_bind; [|intros; apply le_refl]. apply match_replace_mono; try reflexivity; [|exact Hf]. cbn [tens_cls binary_rules].
    apply Forall2_cons; [|apply Forall2_cons; [|apply Forall2_nil]]; intros a b; unfold t001, t002; [destruct a|destruct b]; try apply leo_refl; apply leo_lift; mono.
  Qed.
  Lemma kfactor_mono spc l : le (kfactor Q spc l) (kfactor Q' spc l).
  Proof. unfold kfactor. mono. Qed.
  Lemma ofactor_mono spc l : le (ofactor K spc l) (ofactor K' spc l).
  Proof. unfold ofactor. mono. Qed.
  Lemma act_locally_mono a l : le (act_locally Q a l) (act_locally Q' a l).
  Proof. unfold act_locally. apply le_bind; [apply kfactor_mono|]. intros [x y]. mono. Qed.
  Lemma times_while_mono ops l : forall n n' spc, n <= n' -> le (times_while K chk_split Q n ops l spc) (times_while K' any_split Q' n' ops l spc).
  Proof.
    induction n as [|n IH]; intros n' spc Hn; destruct n' as [|n']; try lia.
    - cbn [times_while]. destruct (sp_lt _ _); [apply le_fuel|apply le_refl].
    - unfold times_while at 1. destruct (sp_lt _ _) eqn:E; [apply le_fuel|]. unfold times_while. rewrite E. apply le_refl.
    - cbn [times_while]. destruct (sp_lt _ _); [|apply le_refl]. apply le_bind; [apply ofactor_mono|]. intros [o1 o2]. apply le_bind; [apply kfactor_mono|]. intros [k1 k2].
      destruct (_ && _); [|apply IH; lia]. unfold any_split. destruct (chk_split _ _ _ _); [mono|left; now right].
  Qed.
  Lemma first_some_mono {A B} (g g' : A -> res (option B)) l : (forall x, le (g x) (g' x)) -> le (first_some g l) (first_some g' l).
  Proof. intros H. induction l as [|x l IH]; [apply le_refl|]. cbn [first_some]. apply le_bind; [apply H|]. intros [y|]; [apply le_refl|exact IH]. Qed.
  Lemma act_times_mono ops l : le (act_times K chk_split Q f ops l) (act_times K' any_split Q' f' ops l).
  Proof. unfold act_times. apply first_some_mono. intros s. now apply times_while_mono. Qed.
  Lemma atom_basis_mono a j l : le (atom_basis dim Q a j l) (atom_basis dim Q' a j l).
  Proof. unfold atom_basis. destruct a; mono. Qed.
  Lemma atom_coh_mono a v l : le (atom_coh K chk_phase Q a v l) (atom_coh K' any_phase Q' a v l).
  Proof.
    unfold atom_coh. destruct a; try (mono; fail). unfold any_phase. destruct (_ =? _); [|apply le_refl]. destruct (chk_phase _); [apply le_refl|left; now right].
  Qed.
  Lemma times_local_mono ops t : le (times_local K Q ops t) (times_local K' Q' ops t).
  Proof. unfold times_local. mono. Qed.
  Lemma kop_mono a t : le (kop_step dim K chk_phase chk_split Q f a t) (kop_step dim K' any_phase any_split Q' f' a t).
  Proof.
    unfold kop_step. destruct a; try apply le_refl; destruct t; try apply le_refl; try (mono; fail);
      try apply atom_basis_mono; try apply atom_coh_mono; try apply times_local_mono;
      try (destruct (is_local _); [apply act_locally_mono|apply le_refl]);
      try (apply le_bind; [apply act_times_mono|intros [?|]; apply le_refl]).
  Qed.
  Lemma decompose_while_mono {B} (g g' : ket -> ket -> res B) mul mul' l m : (forall a b, le (g a b) (g' a b)) -> (forall a b, le (mul a b) (mul' a b)) ->
    forall n n' spc, n <= n' -> le (decompose_while Q n g mul l m spc) (decompose_while Q' n' g' mul' l m spc).
  Proof.
    intros Hg Hm. induction n as [|n IH]; intros n' spc Hn; destruct n' as [|n']; try lia.
    - cbn [decompose_while]. destruct (sp_lt _ _); [apply le_fuel|apply le_refl].
    - unfold decompose_while at 1. destruct (sp_lt _ _) eqn:E; [apply le_fuel|]. unfold decompose_while. rewrite E. apply le_refl.
    - cbn [decompose_while]. destruct (sp_lt _ _); [|apply le_refl]. apply le_bind; [apply kfactor_mono|]. intros [p1 p2]. apply le_bind; [apply kfactor_mono|]. intros [q1 q2].
      destruct (_ && _); [|apply IH; lia]. apply le_rmap. apply le_bind; [apply Hg|]. intros x. apply le_bind; [apply Hg|]. intros y. apply Hm.
  Qed.
  Lemma decompose_mono {B} (g g' : ket -> ket -> res B) mul mul' l m : (forall a b, le (g a b) (g' a b)) -> (forall a b, le (mul a b) (mul' a b)) ->
    le (decompose Q f g mul l m) (decompose Q' f' g' mul' l m).
  Proof. intros Hg Hm. unfold decompose. apply first_some_mono. intros s. now apply decompose_while_mono. Qed.
  Lemma bk_mono a b : le (bk_step K bk Q f a b) (bk_step K' bk Q' f' a b).
  Proof.
    unfold bk_step. destruct a; destruct b; try apply le_refl; try (mono; fail). apply le_bind; [|intros [?|]; apply le_refl]. apply decompose_mono; [apply (l_bk Q Q' HQ)|intros; apply le_refl].
  Qed.
  Lemma kb_mono a b : le (kb_step K kb Q f a b) (kb_step K' kb Q' f' a b).
  Proof.
    unfold kb_step, kb_rest. destruct a; destruct b; try apply le_refl; try (mono; fail). apply le_bind; [|intros [?|]; apply le_refl]. apply decompose_mono; [apply (l_kb Q Q' HQ)|intros; apply (m_times K K' HK)].
  Qed.
  End Step.
  Theorem kcreators_mono : forall n n', n <= n' -> leQ (kcreators_n dim K klt slt bk kb chk_phase chk_split n) (kcreators_n dim K' klt slt bk kb any_phase any_split n').
  Proof.
    induction n as [|n IH]; intros n' Hn; [constructor; intros; apply le_fuel|]. destruct n' as [|n']; [lia|]. assert (n <= n') as Hn' by lia. specialize (IH n' Hn').
    constructor; cbn [kcreators_n kc_scal kc_plus kc_tens kc_op kc_bk kc_kb]; intros.
    - now apply kscal_mono.
    - now apply kplus_mono.
    - now apply ktens_mono.
    - now apply kop_mono.
    - now apply bk_mono.
    - now apply kb_mono.
  Qed.

  (** expansion *)
  Section Exp.
  Context (Q Q' : kcreators S) (HQ : leQ Q Q').
  Lemma kexpand_mono : forall n n' k, n <= n' -> le (kexpand K Q n k) (kexpand K' Q' n' k).
  Proof.
    induction n as [|n IH]; intros n' k Hn; [apply le_fuel|]. destruct n' as [|n']; [lia|]. assert (n <= n') as Hn' by lia. cbn [kexpand].
    assert (forall l, le (kadd_all Q l) (kadd_all Q' l)) as Hadd. { intros [|x l]; [apply le_refl|]. cbn [kadd_all]. apply le_foldM. intros; apply (l_plus Q Q' HQ). }
    assert (forall l, le (kmul_combo Q l) (kmul_combo Q' l)) as Hmul. { intros [|x l]; [apply le_refl|]. cbn [kmul_combo]. apply le_foldM. intros; apply (l_tens Q Q' HQ). }
    assert (forall l, le (ksum Q l) (ksum Q' l)) as Hsum. { intros l. unfold ksum. apply le_foldM. intros; apply (l_plus Q Q' HQ). }
    assert (forall r, le (match r with KPlus _ => kexpand K Q n r | _ => Ok r end) (match r with KPlus _ => kexpand K' Q' n' r | _ => Ok r end)) as Hfin.
    { intros r. destruct r; try apply le_refl. now apply IH. }
    destruct k; try apply le_refl.
    - apply le_bind; [now apply IH|]. intros t'. apply le_bind; [apply le_mapM; intros; apply (l_scal Q Q' HQ)|]. intros s. apply le_bind; [apply Hadd|]. exact Hfin.
    - apply le_bind; [apply le_mapM; intros; now apply IH|]. intros l'. apply (l_plus Q Q' HQ).
    - apply le_bind; [apply le_mapM; intros; now apply IH|]. intros ks. apply le_bind; [apply le_mapM; intros; apply Hmul|]. intros s. apply le_bind; [apply Hadd|]. exact Hfin.
    - apply le_bind; [now apply (expand_mono K K' HK)|]. intros a'. apply le_bind; [now apply IH|]. intros t'.
      destruct t'; destruct a'; try apply (l_op Q Q' HQ); (apply le_bind; [apply le_mapM; intros; apply (l_op Q Q' HQ)|]; intros; apply Hsum).
  Qed.
  End Exp.
End Mono.
