(** Spaces, equality, reordering of super-operator expressions. *)
From Coq Require Import QArith Qcanon.
From Verif Require Import Prelude ListFacts SortModel SortProofs BinModel BinSpec AlgSpec CAlg OpModel OpSpec OpProofs1 SupModel SupSpec.
Local Open Scope nat_scope.

Section Ind.
  Context {S : Type} (P : sop S -> Prop)
    (H0 : P SZero) (H1 : P SOne) (Hy : forall n h, P (SSym n h)) (Ha : forall a, P (SPre a)) (Hb : forall a, P (SPost a))
    (Hs : forall c t, P t -> P (SScal c t)) (Hp : forall l, Forall P l -> P (SPlus l)) (Ht : forall l, Forall P l -> P (STimes l))
    (Hj : forall t, P t -> P (SAdj t)).
  Fixpoint sop_ind' (e : sop S) : P e :=
    let go := fix go (l : list (sop S)) : Forall P l :=
      match l with [] => Forall_nil P | x :: l' => Forall_cons x (sop_ind' x) (go l') end in
    match e with
    | SZero => H0
    | SOne => H1
    | SSym n h => Hy n h
    | SPre a => Ha a
    | SPost a => Hb a
    | SScal c t => Hs c t (sop_ind' t)
    | SPlus l => Hp l (go l)
    | STimes l => Ht l (go l)
    | SAdj t => Hj t (sop_ind' t)
    end.
End Ind.

Lemma sspace_list_In {S} (l : list (sop S)) y :
  In y (fold_right (fun o h => sp_union (sspace o) h) [] l) <-> exists o, In o l /\ In y (sspace o).
Proof.
  induction l as [|o l IH]; cbn [fold_right]; [split; [now intros []|intros [o [[] _]]]|]. rewrite sp_union_In, IH. split.
  - intros [H|[o' [H1 H2]]]; [exists o; split; [now left|exact H]|exists o'; split; [now right|exact H2]].
  - intros [o' [[-> |H1] H2]]; [now left|right; now exists o'].
Qed.

Section Val.
  Context {S : scalars} {dim : nat -> option nat} (T : sinterp S dim).
  Local Notation sop := (sop S).
  Add Ring Kr : (kring T).
  Local Notation slegal := (slegal T).
  Local Notation svalue := (svalue T).

  Lemma slegal_list l : fold_right (fun x P => slegal x /\ P) True l <-> Forall slegal l.
  Proof.
    induction l as [|x l IH]; cbn [fold_right]; [split; constructor|]. rewrite IH. split.
    - intros [H1 H2]. now constructor.
    - intros H. split; [exact (Forall_inv H)|exact (Forall_inv_tail H)].
  Qed.
  Lemma slegal_plus l : slegal (SPlus l) <-> Forall slegal l.
  Proof. exact (slegal_list l). Qed.
  Lemma slegal_times l : slegal (STimes l) <-> Forall slegal l.
  Proof. exact (slegal_list l). Qed.

  Lemma fsum_cons f l x : fsum T (f :: l) x = aadd (f x) (fsum T l x).
  Proof. reflexivity. Qed.
  Lemma fsum_nil x : fsum T [] x = a0.
  Proof. reflexivity. Qed.
  Lemma fsum_app l l' x : fsum T (l ++ l') x = aadd (fsum T l x) (fsum T l' x).
  Proof. unfold fsum. now rewrite map_app, msum_app. Qed.
  Lemma fsum_1 f x : fsum T [f] x = f x.
  Proof. apply aadd_0r. Qed.
  Lemma fsum_2 f g x : fsum T [f; g] x = aadd (f x) (g x).
  Proof. rewrite fsum_cons, fsum_1. reflexivity. Qed.
  Lemma fsum_perm l l' x : Permutation l l' -> fsum T l x = fsum T l' x.
  Proof. intros H. unfold fsum. apply msum_perm. now apply Permutation_map. Qed.
  Lemma fcomp_cons f l x : fcomp T (f :: l) x = f (fcomp T l x).
  Proof. reflexivity. Qed.
  Lemma fcomp_app l l' x : fcomp T (l ++ l') x = fcomp T l (fcomp T l' x).
  Proof. unfold fcomp. apply fold_right_app. Qed.
  Lemma fcomp_ext f l l' x : (forall g y, In g l -> f g y = g y) -> l' = map f l -> fcomp T l' x = fcomp T l x.
  Proof.
    intros H ->. induction l as [|g l IH]; [reflexivity|]. cbn [map]. rewrite !fcomp_cons, IH.
    - apply H. now left.
    - intros g' y Hg. apply H. now right.
  Qed.
  (** lists of pairwise equal maps *)
  Definition feqs (l l' : list (A T -> A T)) : Prop := Forall2 (fun f g => forall x, f x = g x) l l'.
  Lemma fcomp_eqs l l' : feqs l l' -> forall x, fcomp T l x = fcomp T l' x.
  Proof. induction 1 as [|f g l l' H _ IH]; intros x; [reflexivity|]. rewrite !fcomp_cons, IH. apply H. Qed.
  Lemma fsum_eqs l l' : feqs l l' -> forall x, fsum T l x = fsum T l' x.
  Proof. induction 1 as [|f g l l' H _ IH]; intros x; [reflexivity|]. rewrite !fsum_cons, IH. f_equal. apply H. Qed.

  Lemma slives_list h (l : list sop) : Forall (fun s => slives (s:=T) h (svalue s)) l ->
    slives (s:=T) h (fsum T (map svalue l)) /\ slives (s:=T) h (fcomp T (map svalue l)).
  Proof.
    assert (incl [] h) as Hn by (intros y []).
    induction l as [|s l IH]; intros H; cbn [map].
    - split; [apply (slives_incl _ _ T [] h); [exact Hn|]; exact (slives_0 _ _ T)|apply (slives_incl _ _ T [] h); [exact Hn|]; exact (slives_id _ _ T)].
    - destruct (IH (Forall_inv_tail H)) as [I1 I2]. split.
      + exact (slives_add _ _ T h _ _ (Forall_inv H) I1).
      + exact (slives_comp _ _ T h _ _ (Forall_inv H) I2).
  Qed.
  Lemma svalue_lives s : slegal s -> slives (s:=T) (sspace s) (svalue s).
  Proof.
    induction s as [| |n h|a|a|c t IH|l IH|l IH|t IH] using sop_ind'; intros HL; cbn [sspace SupSpec.svalue].
    - exact (slives_0 _ _ T).
    - exact (slives_id _ _ T).
    - apply slives_sym.
    - apply slives_pre. now apply value_lives.
    - apply slives_post. now apply value_lives.
    - apply (slives_smul _ _ T). now apply IH.
    - rewrite slegal_plus in HL. apply slives_list. rewrite Forall_forall in *. intros x Hx.
      apply (slives_incl _ _ T (sspace x)); [intros y Hy; apply sspace_list_In; now exists x|auto].
    - rewrite slegal_times in HL. apply slives_list. rewrite Forall_forall in *. intros x Hx.
      apply (slives_incl _ _ T (sspace x)); [intros y Hy; apply sspace_list_In; now exists x|auto].
    - destruct HL as [Hd HL]. apply (slives_dual _ _ T); [exact Hd|]. now apply IH.
  Qed.
  Lemma svalue_linear s : slegal s -> linear_map (svalue s).
  Proof. intros H. exact (slives_linear _ _ T _ _ (svalue_lives s H)). Qed.
  Lemma svalue_add s x y : slegal s -> svalue s (aadd x y) = aadd (svalue s x) (svalue s y).
  Proof. intros H. apply (svalue_linear s H). Qed.
  Lemma svalue_smul s c x : slegal s -> svalue s (smul c x) = smul c (svalue s x).
  Proof. intros H. apply (svalue_linear s H). Qed.
  Lemma svalue_0 s : slegal s -> svalue s a0 = a0.
  Proof. intros H. rewrite <- (smul_0 T a0) at 1. rewrite (svalue_smul s _ _ H). apply smul_0. Qed.
  Lemma svalue_msum s l : slegal s -> svalue s (msum T l) = msum T (map (svalue s) l).
  Proof. intros H. induction l as [|x l IH]; [now apply svalue_0|]. cbn [map]. now rewrite !msum_cons, svalue_add, IH. Qed.
  Lemma fcomp_0 l : Forall slegal l -> fcomp T (map svalue l) a0 = a0.
  Proof. induction l as [|s l IH]; intros H; [reflexivity|]. cbn [map]. rewrite fcomp_cons, (IH (Forall_inv_tail H)). apply svalue_0. exact (Forall_inv H). Qed.

  Lemma sop_eqb_value : forall a b, sop_eqb a b = true -> forall x, svalue a x = svalue b x.
  Proof.
    induction a as [| |n h|a|a|c t IH|l IH|l IH|t IH] using sop_ind'; intros b; destruct b; cbn [sop_eqb]; try discriminate; intros H x.
    - reflexivity.
    - reflexivity.
    - apply andb_true_iff in H. destruct H as [Hn Hh]. apply Nat.eqb_eq in Hn. apply eqb_list_nat_spec in Hh. now subst.
    - cbn [SupSpec.svalue]. now rewrite (oeqb_value T _ _ H).
    - cbn [SupSpec.svalue]. now rewrite (oeqb_value T _ _ H).
    - apply andb_true_iff in H. destruct H as [Hc Ht]. cbn [SupSpec.svalue]. rewrite (IH _ Ht). apply (ev_eq _ T) in Hc. now rewrite Hc.
    - cbn [SupSpec.svalue]. apply fsum_eqs. revert l0 H. induction l as [|y l IHl]; intros [|z l0]; try discriminate; [constructor|].
      intros H. apply andb_true_iff in H. destruct H as [Hx Hl]. cbn [map]. constructor; [exact (Forall_inv IH _ Hx)|exact (IHl (Forall_inv_tail IH) _ Hl)].
    - cbn [SupSpec.svalue]. apply fcomp_eqs. revert l0 H. induction l as [|y l IHl]; intros [|z l0]; try discriminate; [constructor|].
      intros H. apply andb_true_iff in H. destruct H as [Hx Hl]. cbn [map]. constructor; [exact (Forall_inv IH _ Hx)|exact (IHl (Forall_inv_tail IH) _ Hl)].
    - cbn [SupSpec.svalue]. apply (dual_ext _ _ T). exact (IH _ H).
  Qed.

  (** reordering does not change a product *)
  Lemma smoves_legal (l l' : list sop) : smoves l l' -> Forall slegal l -> Forall slegal l'.
  Proof.
    induction 1 as [pre x y post H|l|l1 l2 l3 _ IH1 _ IH2]; intros HL; [|exact HL|now apply IH2, IH1].
    rewrite Forall_app in *. destruct HL as [H1 H2]. split; [exact H1|].
    pose proof (Forall_inv H2). pose proof (Forall_inv_tail H2) as H3. constructor; [exact (Forall_inv H3)|constructor; [assumption|exact (Forall_inv_tail H3)]].
  Qed.
  Lemma may_swap_commute (x y : sop) v : slegal x -> slegal y -> may_swap x y -> svalue x (svalue y v) = svalue y (svalue x v).
  Proof.
    intros Hx Hy [H|H].
    - apply (slives_commute _ _ T (sspace x) (sspace y)); [now apply svalue_lives|now apply svalue_lives|exact H].
    - destruct x, y; try discriminate H; cbn [SupSpec.svalue]; [apply amul_assoc|symmetry; apply amul_assoc].
  Qed.
  Lemma smoves_product (l l' : list sop) : smoves l l' -> Forall slegal l -> forall x, fcomp T (map svalue l') x = fcomp T (map svalue l) x.
  Proof.
    induction 1 as [pre x y post H|l|l1 l2 l3 H12 IH1 _ IH2]; intros HL v; [|reflexivity|].
    - rewrite !map_app. cbn [map]. rewrite !fcomp_app, !fcomp_cons. apply Forall_app in HL. destruct HL as [_ H2].
      pose proof (Forall_inv H2) as Hx. pose proof (Forall_inv (Forall_inv_tail H2)) as Hy. f_equal. symmetry. now apply may_swap_commute.
    - rewrite IH2 by (now apply (smoves_legal l1)). now apply IH1.
  Qed.
End Val.
