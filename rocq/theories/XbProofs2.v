(** The canonical basis of a space (XbModel.basis_states): legal kets of the space,
    orthonormal, and complete if the levels of each local space are. *)
From Coq Require Import QArith Qcanon.
From Verif Require Import Prelude ListFacts SortModel BinModel AlgSpec CAlg OpModel OpSpec OpForms OpProofs1 OpProofs2 OpProofs3 CSimpProofs5.
From Verif Require Import KetModel KetSpec KetProofs1 KetProofs2 XbModel XbProofs.
Local Open Scope nat_scope.

Section Xb.
  Context {S : scalars} {dim : nat -> option nat} {I : interp S dim} (W : kets I).
  Local Notation ket := (ket S).
  Local Notation A := (A I).
  Local Notation kvalue := (kvalue W).
  Local Notation klegal := (klegal (I:=I)).
  Local Notation kat := (kat (I:=I)).
  Local Notation kval t := (kvalue (KTensor t)).
  Add Ring Kxb2 : (kring I).

  (** tuples of basis kets, one for each label *)
  Definition tuple (h : list nat) (t : list ket) : Prop := Forall2 (fun k l => exists j, k = KBasis j l /\ level (dim:=dim) l j) t h.
  (** the levels of the local space [l] resolve the identity *)
  Definition complete_level (l : nat) : Prop := forall d, dim l = Some d -> msum I (map (fun j => isigma j j l) (seq 0 d)) = a1.

  Lemma local_states_tuple l s : local_states (S:=S) dim l = Ok s -> exists d, dim l = Some d /\ s = map (fun j => KBasis j l) (seq 0 d).
  Proof. unfold local_states. destruct (dim l) as [d|]; [|discriminate]. intros H. injection H as <-. now exists d. Qed.
  Lemma tuples h ls : mapM (local_states (S:=S) dim) h = Ok ls -> Forall (tuple h) (cartesian ls).
  Proof.
    revert ls. induction h as [|l h IH]; intros ls H; [injection H as <-; constructor; [constructor|constructor]|].
    cbn [mapM] in H. destruct (local_states (S:=S) dim l) as [s|] eqn:E; [|discriminate H]. cbn [bind] in H. destruct (mapM (local_states (S:=S) dim) h) as [r|]; [|discriminate H]. cbn [bind] in H. injection H as <-.
    destruct (local_states_tuple l s E) as (d & Ed & ->). cbn [cartesian]. rewrite Forall_forall. intros t Ht. apply in_flat_map in Ht. destruct Ht as (k & Hk & Ht).
    apply in_map_iff in Ht. destruct Ht as (c & <- & Hc). apply in_map_iff in Hk. destruct Hk as (j & <- & Hj). apply in_seq in Hj.
    constructor; [exists j; split; [reflexivity|unfold level; rewrite Ed; lia]|]. specialize (IH r eq_refl). rewrite Forall_forall in IH. now apply IH.
  Qed.
  Lemma tuple_space h t : tuple h t -> flat_map kspace t = h.
  Proof. induction 1 as [|k l t h [j [-> _]] _ IH]; [reflexivity|]. cbn [flat_map kspace app]. now rewrite IH. Qed.
  Lemma tuple_legal h t : NoDup h -> tuple h t -> klegal (KTensor t).
  Proof.
    intros Hn Ht. split.
    - revert Hn. induction Ht as [|k l t h [j [-> _]] Ht IH]; intros Hn; [constructor|]. constructor; [|apply IH; now inversion Hn].
      intros y Hy z [<-|[]] Hz. inversion Hn as [|? ? H1 H2]; subst. apply H1. rewrite <- (tuple_space h t Ht). apply in_flat_map. now exists y.
    - induction Ht as [|k l t h [j [-> Hl]] Ht IH]; [exact Logic.I|]. cbn [fold_right]. split; [split; [discriminate|exact Hl]|]. apply IH. now inversion Hn.
  Qed.
  Lemma tuple_kat h t : NoDup h -> tuple h t -> kat h (KTensor t).
  Proof.
    intros Hn Ht. split; [now apply (tuple_legal h)|]. right. rewrite <- (tuple_space h t Ht). apply kspace_tensor.
  Qed.
  Lemma tuple_on h t : NoDup h -> tuple h t -> on (w:=W) h (kval t).
  Proof. intros Hn Ht. apply kat_on. now apply tuple_kat. Qed.
  Lemma kval_cons k t : kval (k :: t) = vm (w:=W) (kvalue k) (kval t).
  Proof. reflexivity. Qed.
  Lemma kval_1 k : kval [k] = kvalue k.
  Proof. apply vprod_1. Qed.

  Lemma outer_split l h k t k' t' : NoDup (l :: h) -> tuple (l :: h) (k :: t) -> tuple (l :: h) (k' :: t') ->
    outer (w:=W) (l :: h) (kval (k :: t)) (kval (k' :: t')) = amul (outer [l] (kvalue k) (kvalue k')) (outer h (kval t) (kval t')).
  Proof.
    intros Hn Ht Ht'. inversion Ht as [|? ? ? ? (j & -> & Hj) Htt]; subst. inversion Ht' as [|? ? ? ? (j' & -> & Hj') Htt']; subst.
    rewrite !kval_cons. inversion Hn as [|? ? H1 H2]; subst. change (l :: h) with ([l] ++ h). apply (outer_mul I W).
    - intros z [<-|[]]. exact H1.
    - now apply (on_basis I W).
    - now apply (on_basis I W).
    - now apply tuple_on.
    - now apply tuple_on.
  Qed.
  Lemma inner_split l h k t k' t' : NoDup (l :: h) -> tuple (l :: h) (k :: t) -> tuple (l :: h) (k' :: t') ->
    inner (w:=W) (l :: h) (kval (k :: t)) (kval (k' :: t')) = kmul (inner [l] (kvalue k) (kvalue k')) (inner h (kval t) (kval t')).
  Proof.
    intros Hn Ht Ht'. inversion Ht as [|? ? ? ? (j & -> & Hj) Htt]; subst. inversion Ht' as [|? ? ? ? (j' & -> & Hj') Htt']; subst.
    rewrite !kval_cons. inversion Hn as [|? ? H1 H2]; subst. change (l :: h) with ([l] ++ h). apply (inner_mul I W).
    - intros z [<-|[]]. exact H1.
    - now apply (on_basis I W).
    - now apply (on_basis I W).
    - now apply tuple_on.
    - now apply tuple_on.
  Qed.

  Lemma local_span l s : local_states (S:=S) dim l = Ok s -> complete_level l -> asum (fun k => outer (w:=W) [l] (kvalue k) (kvalue k)) s = a1.
  Proof.
    intros H Hc. destruct (local_states_tuple l s H) as (d & Ed & ->). rewrite asum_map. rewrite <- (Hc d Ed), msum_map. apply asum_ext. intros j Hj. apply in_seq in Hj.
    cbn [KetSpec.kvalue]. apply (outer_basis I W); unfold level; rewrite Ed; lia.
  Qed.
  Lemma asum_flat {X Y} (f : Y -> A) (g : X -> list Y) l : asum f (flat_map g l) = asum (fun v => asum f (g v)) l.
  Proof. apply asum_flat_map. Qed.
  Lemma tuples_span h ls : h <> [] -> NoDup h -> Forall complete_level h -> mapM (local_states (S:=S) dim) h = Ok ls ->
    asum (fun t => outer (w:=W) h (kval t) (kval t)) (cartesian ls) = a1.
  Proof.
    revert ls. induction h as [|l h IH]; intros ls Hne Hn Hc H; [now elim Hne|]. pose proof (tuples (l :: h) ls H) as HT.
    cbn [mapM] in H. destruct (local_states (S:=S) dim l) as [s|] eqn:E; [|discriminate H]. cbn [bind] in H. destruct (mapM (local_states (S:=S) dim) h) as [r|] eqn:Er; [|discriminate H]. cbn [bind] in H. injection H as <-.
    inversion Hc as [|? ? Hl Hh]; subst. inversion Hn as [|? ? Hx Hy]; subst. cbn [cartesian] in *. rewrite asum_flat.
    destruct h as [|l2 h].
    - injection Er as <-. cbn [cartesian map asum fold_right]. transitivity (asum (fun k => outer (w:=W) [l] (kvalue k) (kvalue k)) s); [|now apply local_span].
      apply asum_ext. intros k _. change (aadd (outer (w:=W) [l] (kval [k]) (kval [k])) a0 = outer [l] (kvalue k) (kvalue k)). rewrite kval_1. apply aadd_0r.
    - transitivity (asum (fun k => amul (outer (w:=W) [l] (kvalue k) (kvalue k)) a1) s).
      + apply asum_ext. intros k Hk. rewrite asum_map. rewrite <- (IH r) by (first [discriminate | assumption | reflexivity]). rewrite <- asum_mul_l. apply asum_ext. intros t Ht.
        assert (tuple (l :: l2 :: h) (k :: t)) as Hkt.
        { rewrite Forall_forall in HT. apply HT. apply in_flat_map. exists k. split; [exact Hk|]. apply in_map_iff. now exists t. }
        now apply outer_split.
      + rewrite <- (local_span l s E Hl) at 1. apply asum_ext. intros k _. apply amul_1r.
  Qed.
  Lemma tuples_orthonormal h t t' : h <> [] -> NoDup h -> tuple h t -> tuple h t' ->
    (t = t' -> inner (w:=W) h (kval t) (kval t') = k1) /\ (t <> t' -> inner (w:=W) h (kval t) (kval t') = k0).
  Proof.
    revert t t'. induction h as [|l h IH]; intros t t' Hne Hn Ht Ht'; [now elim Hne|].
    inversion Ht as [|? ? t1 ? (j & -> & Hj) Htt]; subst. inversion Ht' as [|? ? t2 ? (j' & -> & Hj') Htt']; subst.
    pose proof (inner_basis I W j j' l Hj Hj') as HB. inversion Hn as [|? ? H1 H2]; subst. destruct h as [|l2 h].
    - inversion Htt; subst. inversion Htt'; subst. rewrite !kval_1. cbn [KetSpec.kvalue]. rewrite HB. split.
      + intros Q. injection Q as <-. now rewrite Nat.eqb_refl.
      + intros Q. destruct (Nat.eqb_spec j j') as [<-|_]; [now elim Q|reflexivity].
    - rewrite inner_split by assumption. cbn [KetSpec.kvalue] in *. rewrite HB. destruct (IH t1 t2) as [G1 G2]; [discriminate|assumption..|]. cbn [KetSpec.kvalue] in G1, G2. split.
      + intros Q. injection Q as <- <-. rewrite Nat.eqb_refl, G1 by reflexivity. ring.
      + intros Q. destruct (Nat.eqb_spec j j') as [<-|_]; [|ring]. rewrite G2; [ring|]. intros ->. now apply Q.
  Qed.
  Lemma cartesian_length {X} (ls : list (list X)) : length (cartesian ls) = fold_right (fun l n => length l * n) 1 ls.
  Proof.
    induction ls as [|l ls IH]; [reflexivity|]. cbn [cartesian fold_right]. rewrite <- IH. clear IH. induction l as [|x l IH]; [reflexivity|]. cbn [flat_map length]. rewrite app_length, map_length, IH. reflexivity.
  Qed.
  Lemma NoDup_two {X} (p q : list X) : NoDup p -> NoDup q -> (forall c, In c p -> ~ In c q) -> NoDup (p ++ q).
  Proof.
    intros Hp Hq. induction Hp as [|z p Hz Hp IHp]; intros Hd; [exact Hq|]. cbn [app]. constructor; [|apply IHp; intros c Hc; apply Hd; now right].
    rewrite in_app_iff. intros [Q|Q]; [now apply Hz|]. apply (Hd z); [now left|exact Q].
  Qed.
  Lemma cartesian_NoDup {X} (ls : list (list X)) : Forall (@NoDup X) ls -> NoDup (cartesian ls).
  Proof.
    induction 1 as [|l ls Hl _ IH]; [constructor; [intros []|constructor]|]. cbn [cartesian]. induction Hl as [|x l Hx Hl IHl]; [constructor|]. cbn [flat_map].
    assert (NoDup (map (cons x) (cartesian ls))) as H1 by (apply FinFun.Injective_map_NoDup; [intros a b Q; now injection Q|exact IH]).
    assert (forall c, In c (map (cons x) (cartesian ls)) -> ~ In c (flat_map (fun y => map (cons y) (cartesian ls)) l)) as H2.
    { intros c Hc Hc'. apply in_map_iff in Hc. destruct Hc as (u & <- & _). apply in_flat_map in Hc'. destruct Hc' as (y & Hy & Hc'). apply in_map_iff in Hc'. destruct Hc' as (v & Q & _). injection Q as -> _. now apply Hx. }
    exact (NoDup_two _ _ H1 IHl H2).
  Qed.
  Lemma local_NoDup h ls : mapM (local_states (S:=S) dim) h = Ok ls -> Forall (@NoDup ket) ls.
  Proof.
    revert ls. induction h as [|l h IH]; intros ls H; [injection H as <-; constructor|]. cbn [mapM] in H. destruct (local_states (S:=S) dim l) as [s|] eqn:E; [|discriminate H]. cbn [bind] in H.
    destruct (mapM (local_states (S:=S) dim) h) as [r|]; [|discriminate H]. cbn [bind] in H. injection H as <-. constructor; [|now apply IH]. destruct (local_states_tuple l s E) as (d & _ & ->).
    apply FinFun.Injective_map_NoDup; [intros a b Q; now injection Q|apply seq_NoDup].
  Qed.

  (** the same for [basis_states] *)
  Lemma states_shape h l : h <> [] -> basis_states (S:=S) dim h = Ok l ->
    exists ls, mapM (local_states (S:=S) dim) h = Ok ls /\ Forall2 (fun k t => kvalue k = kval t /\ (k = KTensor t \/ t = [k])) l (cartesian ls).
  Proof.
    intros Hne H. destruct h as [|x h]; [now elim Hne|]. unfold basis_states in H. destruct h as [|y h].
    - cbn [mapM]. rewrite H. cbn [bind]. exists [l]. split; [reflexivity|]. cbn [cartesian]. clear H. induction l as [|k l IH]; [constructor|]. cbn [flat_map map app]. constructor; [|exact IH].
      split; [symmetry; apply kval_1|now right].
    - destruct (mapM (local_states (S:=S) dim) (x :: y :: h)) as [ls|]; [|discriminate H]. cbn [bind] in H. injection H as <-. exists ls. split; [reflexivity|].
      induction (cartesian ls) as [|t c IH]; [constructor|]. cbn [map]. constructor; [|exact IH]. split; [reflexivity|now left].
  Qed.
  Lemma Forall2_length' {X Y} (R : X -> Y -> Prop) a b : Forall2 R a b -> length a = length b.
  Proof. induction 1 as [|? ? ? ? _ _ IH]; [reflexivity|]. cbn [length]. now rewrite IH. Qed.
  Theorem states_kat h l : NoDup h -> basis_states (S:=S) dim h = Ok l -> Forall (kat h) l.
  Proof.
    intros Hn H. destruct h as [|x h].
    - injection H as <-. constructor; [|constructor]. split; [exact Logic.I|]. right. intros z. reflexivity.
    - destruct (states_shape (x :: h) l) as (ls & H1 & HF); [discriminate|exact H|]. pose proof (tuples _ ls H1) as HT. clear H.
      induction HF as [|k t l c [_ Hs] HF IH]; [constructor|]. inversion HT as [|? ? Ht HT']; subst. constructor; [|now apply IH]. destruct Hs as [-> | ->]; [now apply tuple_kat|].
      pose proof (tuple_kat _ _ Hn Ht) as [HL HS]. split; [exact (proj2 (proj1 (proj2 HL)))|]. right. pose proof (tuple_space _ _ Ht) as Q. cbn [flat_map] in Q. rewrite app_nil_r in Q. rewrite Q. intros z. reflexivity.
  Qed.
  Theorem states_span h l : h <> [] -> NoDup h -> Forall complete_level h -> basis_states (S:=S) dim h = Ok l -> span W h l = a1.
  Proof.
    intros Hne Hn Hc H. destruct (states_shape h l Hne H) as (ls & H1 & HF). rewrite <- (tuples_span h ls Hne Hn Hc H1). unfold span. clear H H1.
    induction HF as [|k t l c [Hv _] _ IH]; [reflexivity|]. rewrite !asum_cons, IH. f_equal. unfold proj. now rewrite Hv.
  Qed.
  Theorem states_orthonormal h l i j k k' : h <> [] -> NoDup h -> basis_states (S:=S) dim h = Ok l -> nth_error l i = Some k -> nth_error l j = Some k' ->
    inner (w:=W) h (kvalue k) (kvalue k') = if i =? j then k1 else k0.
  Proof.
    intros Hne Hn H Hi Hj. destruct (states_shape h l Hne H) as (ls & H1 & HF). pose proof (cartesian_NoDup ls (local_NoDup h ls H1)) as HND. pose proof (tuples h ls H1) as HT. clear H H1.
    assert (forall n k0, nth_error l n = Some k0 -> exists t, nth_error (cartesian ls) n = Some t /\ kvalue k0 = kval t) as Hnth.
    { clear Hi Hj HND HT. induction HF as [|k0 t l c [Hv _] _ IH]; intros n q Hq; [destruct n; discriminate Hq|]. destruct n as [|n]; [injection Hq as <-; now exists t|]. exact (IH n q Hq). }
    destruct (Hnth i k Hi) as (t & Ht & ->). destruct (Hnth j k' Hj) as (t' & Ht' & ->). rewrite Forall_forall in HT.
    destruct (tuples_orthonormal h t t' Hne Hn (HT t (nth_error_In _ _ Ht)) (HT t' (nth_error_In _ _ Ht'))) as [G1 G2]. destruct (Nat.eqb_spec i j) as [->|Hd].
    - apply G1. rewrite Ht in Ht'. now injection Ht'.
    - apply G2. intros ->. apply Hd. apply (proj1 (NoDup_nth_error (cartesian ls)) HND); [apply nth_error_Some; rewrite Ht; discriminate|]. now rewrite Ht, Ht'.
  Qed.
End Xb.

Theorem states_length {S : scalars} (dim : nat -> option nat) h l : basis_states (S:=S) dim h = Ok l -> length l = fold_right (fun x n => match dim x with Some d => d * n | None => 0 end) 1 h.
Proof.
  assert (forall g ls, mapM (local_states (S:=S) dim) g = Ok ls -> length (cartesian ls) = fold_right (fun x n => match dim x with Some d => d * n | None => 0 end) 1 g) as G.
  { induction g as [|x g IH]; intros ls H; [now injection H as <-|]. cbn [mapM] in H. destruct (local_states dim x) as [s|] eqn:E; [|discriminate H]. cbn [bind] in H.
    destruct (mapM (local_states dim) g) as [r|]; [|discriminate H]. cbn [bind] in H. injection H as <-. rewrite cartesian_length. cbn [fold_right]. rewrite <- (IH r eq_refl), cartesian_length.
    unfold local_states in E. destruct (dim x) as [d|]; [|discriminate E]. injection E as <-. now rewrite map_length, seq_length. }
  intros H. destruct h as [|x [|y h]].
  - now injection H as <-.
  - unfold basis_states, local_states in H. cbn [fold_right]. destruct (dim x) as [d|]; [|discriminate H]. injection H as <-. rewrite map_length, seq_length. lia.
  - unfold basis_states in H. destruct (mapM _ _) as [ls|] eqn:E; [|discriminate H]. injection H as <-. rewrite map_length. exact (G _ ls E).
Qed.
