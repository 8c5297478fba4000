(** Spaces, equality and reordering of operator expressions. *)
From Coq Require Import QArith Qcanon.
From Verif Require Import Prelude ListFacts SortModel BinModel BinSpec AlgSpec CAlg OpModel OpSpec.
Local Open Scope nat_scope.

Lemma qn_add a b : qn (a + b) = (qn a + qn b)%Qc.
Proof.
  unfold qn, Qcplus, Qcmult. apply Q2Qc_eq_iff. repeat match goal with |- context [this (Q2Qc ?x)] => change (this (Q2Qc x)) with (Qred x) end. rewrite !Qred_correct. rewrite Nat2Z.inj_add, inject_Z_plus. reflexivity.
Qed.
Lemma qn_mul a b : qn (a * b) = (qn a * qn b)%Qc.
Proof.
  unfold qn, Qcplus, Qcmult. apply Q2Qc_eq_iff. repeat match goal with |- context [this (Q2Qc ?x)] => change (this (Q2Qc x)) with (Qred x) end. rewrite !Qred_correct. rewrite Nat2Z.inj_mul, inject_Z_mult. reflexivity.
Qed.
Lemma qn_0 : qn 0 = 0%Qc.
Proof. reflexivity. Qed.
Lemma qn_1 : qn 1 = 1%Qc.
Proof. reflexivity. Qed.
Lemma qn_sub a b : b <= a -> qn (a - b) = (qn a - qn b)%Qc.
Proof. intros H. rewrite <- (Nat.sub_add b a H) at 2. rewrite qn_add. ring. Qed.
Lemma qn2 : qn 2 <> 0%Qc.
Proof. intros H. discriminate H. Qed.

(** induction over expressions *)
Section Ind.
  Context {S : Type} (P : op S -> Prop)
    (H0 : P OZero) (H1 : P OOne) (Ha : forall a, P (OAtom a)) (Hs : forall c t, P t -> P (OScal c t))
    (Hp : forall l, Forall P l -> P (OPlus l)) (Ht : forall l, Forall P l -> P (OTimes l))
    (Hc : forall a b, P a -> P b -> P (OComm a b)) (Hj : forall a, P a -> P (OAdj a))
    (Htr : forall a h, P a -> P (OTr a h)) (Hpm : forall s a, P a -> P (OPM s a)).
  Fixpoint op_ind' (e : op S) : P e :=
    let go := fix go (l : list (op S)) : Forall P l :=
      match l with [] => Forall_nil P | x :: l' => Forall_cons x (op_ind' x) (go l') end in
    match e with
    | OZero => H0
    | OOne => H1
    | OAtom a => Ha a
    | OScal c t => Hs c t (op_ind' t)
    | OPlus l => Hp l (go l)
    | OTimes l => Ht l (go l)
    | OComm a b => Hc a b (op_ind' a) (op_ind' b)
    | OAdj a => Hj a (op_ind' a)
    | OTr a h => Htr a h (op_ind' a)
    | OPM s a => Hpm s a (op_ind' a)
    end.
End Ind.

(** ** Spaces *)
Lemma sp_mem_In x h : sp_mem x h = true <-> In x h.
Proof.
  unfold sp_mem. rewrite existsb_exists. split.
  - intros [y [Hy E]]. apply Nat.eqb_eq in E. now subst.
  - intros H. exists x. split; [exact H|apply Nat.eqb_refl].
Qed.
Lemma sp_disjoint_apart a b : sp_disjoint a b = true <-> apart a b.
Proof.
  unfold sp_disjoint, apart. rewrite forallb_forall. split; intros H x Hx.
  - specialize (H x Hx). rewrite <- sp_mem_In. destruct (sp_mem x b); [discriminate|discriminate].
  - specialize (H x Hx). rewrite <- sp_mem_In in H. destruct (sp_mem x b); [now elim H|reflexivity].
Qed.
Lemma apart_sym a b : apart a b -> apart b a.
Proof. intros H x Hb Ha. exact (H x Ha Hb). Qed.
Lemma sp_insert_In x h y : In y (sp_insert x h) <-> y = x \/ In y h.
Proof.
  induction h as [|z h IH]; cbn [sp_insert]; [cbn; firstorder|].
  destruct (x <? z); [cbn; firstorder|]. destruct (Nat.eqb_spec x z) as [->|_]; cbn [In]; [firstorder|]. rewrite IH. firstorder.
Qed.
Lemma sp_union_In a b y : In y (sp_union a b) <-> In y a \/ In y b.
Proof.
  unfold sp_union. induction a as [|x a IH]; cbn [fold_right]; [cbn; firstorder|]. rewrite sp_insert_In, IH. cbn [In]. firstorder.
Qed.
Lemma sp_diff_In a b y : In y (sp_diff a b) <-> In y a /\ ~ In y b.
Proof.
  unfold sp_diff. rewrite filter_In. split; intros [H1 H2]; split; try exact H1.
  - rewrite <- sp_mem_In. destruct (sp_mem y b); [discriminate|discriminate].
  - rewrite <- sp_mem_In in H2. destruct (sp_mem y b); [now elim H2|reflexivity].
Qed.
Lemma space_list_In {S} (l : list (op S)) y :
  In y (fold_right (fun o h => sp_union (space o) h) [] l) <-> exists o, In o l /\ In y (space o).
Proof.
  induction l as [|o l IH]; cbn [fold_right]; [split; [now intros []|intros [o [[] _]]]|]. rewrite sp_union_In, IH. split.
  - intros [H|[o' [H1 H2]]]; [exists o; split; [now left|exact H]|exists o'; split; [now right|exact H2]].
  - intros [o' [[-> |H1] H2]]; [now left|right; now exists o'].
Qed.

Section Val.
  Context {S : scalars} {dim : nat -> option nat} (I : interp S dim).
  Local Notation op := (op S).
  Add Ring Kr : (kring I).
  Notation legalI := (legal I).

  Lemma legal_list l : fold_right (fun x P => legalI x /\ P) True l <-> Forall legalI l.
  Proof.
    induction l as [|x l IH]; cbn [fold_right]; [split; constructor|]. rewrite IH. split.
    - intros [H1 H2]. now constructor.
    - intros H. split; [exact (Forall_inv H)|exact (Forall_inv_tail H)].
  Qed.
  Lemma legal_plus l : legalI (OPlus l) <-> Forall legalI l.
  Proof. exact (legal_list l). Qed.
  Lemma legal_times l : legalI (OTimes l) <-> Forall legalI l.
  Proof. exact (legal_list l). Qed.

  Lemma msum_app l l' : msum I (l ++ l') = aadd (msum I l) (msum I l').
  Proof. induction l as [|x l IH]; cbn [app msum fold_right]; [symmetry; apply aadd_0|]. fold (msum I l). change (fold_right aadd a0 (l ++ l')) with (msum I (l ++ l')). rewrite IH. apply aadd_assoc. Qed.
  Lemma mprod_app l l' : mprod I (l ++ l') = amul (mprod I l) (mprod I l').
  Proof. induction l as [|x l IH]; cbn [app mprod fold_right]; [symmetry; apply amul_1l|]. fold (mprod I l). change (fold_right amul a1 (l ++ l')) with (mprod I (l ++ l')). rewrite IH. apply amul_assoc. Qed.
  Lemma msum_cons x l : msum I (x :: l) = aadd x (msum I l).
  Proof. reflexivity. Qed.
  Lemma mprod_cons x l : mprod I (x :: l) = amul x (mprod I l).
  Proof. reflexivity. Qed.
  Lemma msum_1 x : msum I [x] = x.
  Proof. apply aadd_0r. Qed.
  Lemma mprod_1 x : mprod I [x] = x.
  Proof. apply amul_1r. Qed.
  Lemma msum_2 x y : msum I [x; y] = aadd x y.
  Proof. rewrite msum_cons, msum_1. reflexivity. Qed.
  Lemma mprod_2 x y : mprod I [x; y] = amul x y.
  Proof. rewrite mprod_cons, mprod_1. reflexivity. Qed.
  Lemma msum_perm l l' : Permutation l l' -> msum I l = msum I l'.
  Proof.
    induction 1 as [|x l l' _ IH|x y l|l1 l2 l3 _ IH1 _ IH2]; [reflexivity| | |now rewrite IH1].
    - now rewrite !msum_cons, IH.
    - rewrite !msum_cons, !aadd_assoc. f_equal. apply aadd_comm.
  Qed.
  Lemma msum_map {X} (f : X -> A I) l : msum I (map f l) = asum f l.
  Proof. induction l as [|x l IH]; [reflexivity|]. cbn [map]. rewrite msum_cons, IH. reflexivity. Qed.
  Lemma msum_smul c l : msum I (map (smul c) l) = smul c (msum I l).
  Proof. induction l as [|x l IH]; [symmetry; apply smul_zero|]. cbn [map]. rewrite !msum_cons, IH. symmetry. apply smul_addr. Qed.

  (** values live on the space of the expression *)
  Lemma value_lives e : legalI e -> lives (i:=I) (space e) (value I e).
  Proof.
    induction e as [| |a|c t IH|l IH|l IH|a b IHa IHb|a IH|a h IH|s a IH] using op_ind'; intros HL; cbn [space value].
    - apply lives_0.
    - apply lives_1.
    - destruct a; cbn [atom_space atom_val] in *;
        [apply lives_sym|now apply lives_create|now apply lives_destroy|apply lives_sigma|now apply lives_phase|now apply lives_disp
        |now apply lives_squeeze|now apply lives_jp|now apply lives_jm|now apply lives_jz].
    - apply lives_smul. now apply IH.
    - rewrite legal_plus in HL.
      assert (forall x, In x l -> lives (i:=I) (fold_right (fun o h => sp_union (space o) h) [] l) (value I x)) as H.
      { intros x Hx. apply (lives_incl _ _ I (space x)).
        - intros y Hy. apply space_list_In. now exists x.
        - rewrite Forall_forall in IH, HL. auto. }
      revert H. generalize (fold_right (fun o h => sp_union (space o) h) [] l). intros h H. clear IH HL.
      induction l as [|x l IHl]; cbn [map].
      + apply (lives_incl _ _ I []); [intros y []|apply lives_0].
      + rewrite msum_cons. apply lives_add; [apply H; now left|]. apply IHl. intros y Hy. apply H. now right.
    - rewrite legal_times in HL.
      assert (forall x, In x l -> lives (i:=I) (fold_right (fun o h => sp_union (space o) h) [] l) (value I x)) as H.
      { intros x Hx. apply (lives_incl _ _ I (space x)).
        - intros y Hy. apply space_list_In. now exists x.
        - rewrite Forall_forall in IH, HL. auto. }
      revert H. generalize (fold_right (fun o h => sp_union (space o) h) [] l). intros h H. clear IH HL.
      induction l as [|x l IHl]; cbn [map].
      + apply (lives_incl _ _ I []); [intros y []|apply lives_1].
      + rewrite mprod_cons. apply lives_mul; [apply H; now left|]. apply IHl. intros y Hy. apply H. now right.
    - destruct HL as [La Lb].
      assert (lives (i:=I) (sp_union (space a) (space b)) (value I a)) as Ha.
      { apply (lives_incl _ _ I (space a)); [|now apply IHa]. intros y Hy. apply sp_union_In. now left. }
      assert (lives (i:=I) (sp_union (space a) (space b)) (value I b)) as Hb.
      { apply (lives_incl _ _ I (space b)); [|now apply IHb]. intros y Hy. apply sp_union_In. now right. }
      unfold mcomm. apply lives_add; [now apply lives_mul|]. apply lives_smul. now apply lives_mul.
    - apply lives_star. now apply IH.
    - apply lives_trace. now apply IH.
    - destruct s; apply lives_add; try (now apply IH).
      + apply lives_star. now apply IH.
      + apply lives_smul, lives_star. now apply IH.
  Qed.
  Lemma apart_commute a b : legalI a -> legalI b -> apart (space a) (space b) ->
    amul (value I a) (value I b) = amul (value I b) (value I a).
  Proof. intros Ha Hb. apply (lives_commute _ _ I); now apply value_lives. Qed.

  (** equal expressions have equal values *)
  Lemma atom_eqb_value a b : atom_eqb a b = true -> atom_val I a = atom_val I b.
  Proof.
    destruct a, b; cbn [atom_eqb]; try discriminate; intros H;
      repeat (apply andb_true_iff in H; destruct H as [H ?]);
      repeat match goal with
        | E : (_ =? _) = true |- _ => apply Nat.eqb_eq in E; subst
        | E : eqb_list_nat _ _ = true |- _ => apply eqb_list_nat_spec in E; subst
        | E : seqb _ _ = true |- _ => apply (ev_eq _ I) in E; cbn [atom_val]; rewrite E end; reflexivity.
  Qed.
  Lemma oeqb_value : forall a b, oeqb a b = true -> value I a = value I b.
  Proof.
    induction a as [| |a|c t IH|l IH|l IH|a a' IHa IHb|a IH|a h IH|s a IH] using op_ind'; intros b; destruct b; cbn [oeqb]; try discriminate; intros H.
    - reflexivity.
    - reflexivity.
    - now apply atom_eqb_value.
    - apply andb_true_iff in H. destruct H as [Hc Ht]. cbn [value]. rewrite (IH _ Ht). apply (ev_eq _ I) in Hc. now rewrite Hc.
    - cbn [value]. f_equal. revert l0 H. induction l as [|x l IHl]; intros [|y l0]; try discriminate; [reflexivity|].
      intros H. apply andb_true_iff in H. destruct H as [Hx Hl]. cbn [map].
      rewrite (Forall_inv IH _ Hx). f_equal. exact (IHl (Forall_inv_tail IH) _ Hl).
    - cbn [value]. f_equal. revert l0 H. induction l as [|x l IHl]; intros [|y l0]; try discriminate; [reflexivity|].
      intros H. apply andb_true_iff in H. destruct H as [Hx Hl]. cbn [map].
      rewrite (Forall_inv IH _ Hx). f_equal. exact (IHl (Forall_inv_tail IH) _ Hl).
    - apply andb_true_iff in H. destruct H as [Ha Hb]. cbn [value]. now rewrite (IHa _ Ha), (IHb _ Hb).
    - cbn [value]. now rewrite (IH _ H).
    - apply andb_true_iff in H. destruct H as [Ha Hb]. apply eqb_list_nat_spec in Hb. subst. cbn [value]. now rewrite (IH _ Ha).
    - apply andb_true_iff in H. destruct H as [Ha Hb]. apply eqb_prop in Ha. subst. cbn [value]. now rewrite (IH _ Hb).
  Qed.

  (** reordering does not change a product *)
  Lemma moves_legal l l' : moves l l' -> Forall legalI l -> Forall legalI l'.
  Proof.
    induction 1 as [pre x y post H|l|l1 l2 l3 _ IH1 _ IH2]; intros HL; [|exact HL|now apply IH2, IH1].
    rewrite Forall_app in *. destruct HL as [H1 H2]. split; [exact H1|].
    pose proof (Forall_inv H2). pose proof (Forall_inv_tail H2) as H3. constructor; [exact (Forall_inv H3)|constructor; [assumption|exact (Forall_inv_tail H3)]].
  Qed.
  Lemma moves_product l l' : moves l l' -> Forall legalI l -> mprod I (map (value I) l') = mprod I (map (value I) l).
  Proof.
    induction 1 as [pre x y post H|l|l1 l2 l3 H12 IH1 _ IH2]; intros HL; [|reflexivity|].
    - rewrite !map_app. cbn [map]. rewrite !mprod_app, !mprod_cons, !amul_assoc.
      apply Forall_app in HL. destruct HL as [_ H2].
      pose proof (Forall_inv H2) as Hx. pose proof (Forall_inv (Forall_inv_tail H2)) as Hy.
      rewrite <- (amul_assoc I _ (value I y)), <- (amul_assoc I _ (value I x) (value I y)).
      now rewrite (apart_commute x y Hx Hy H).
    - rewrite IH2 by (now apply (moves_legal l1)). now apply IH1.
  Qed.

  (** scalars *)
  Lemma ev_s0 : ev (r:=I) s0 = k0.
  Proof. unfold s0. rewrite ev_Q. apply kQ_0. Qed.
  Lemma ev_s1 : ev (r:=I) s1 = k1.
  Proof. unfold s1. rewrite ev_Q. apply kQ_1. Qed.
  Lemma kQ_opp q : kQ (r:=I) (- q)%Qc = kopp (kQ q).
  Proof.
    assert (kadd (kQ (r:=I) (- q)%Qc) (kQ q) = k0) as H.
    { rewrite <- kQ_add, <- (kQ_0 _ I). f_equal. ring. }
    transitivity (kadd (kadd (kQ (r:=I) (- q)%Qc) (kQ q)) (kopp (kQ q))); [ring|]. rewrite H. ring.
  Qed.
  Lemma ev_sm1 : ev (r:=I) sm1 = kopp k1.
  Proof. unfold sm1. rewrite ev_Q. rewrite kQ_opp, kQ_1. reflexivity. Qed.
End Val.
