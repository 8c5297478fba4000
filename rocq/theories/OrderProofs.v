From Verif Require Import Prelude ListFacts SortModel SortSpec SortProofs HilbertModel.
From Coq Require Import Lia.

(** ** the dictionary order is a strict total order *)
Section DictLaws.
  Context {A : Type} (c : A -> A -> comparison).
  Lemma dict_eq l l' :
    Forall (fun x => forall y, c x y = Eq <-> x = y) l -> dict c l l' = Eq <-> l = l'.
  Proof.
    revert l'; induction l as [|a x IH]; intros [|b y] HP; cbn;
      try (split; [discriminate|discriminate]); try (split; reflexivity).
    inversion_clear HP as [|? ? Ha Hx].
    destruct (c a b) eqn:E.
    - apply (Ha b) in E. subst b. rewrite (IH y Hx). split; [congruence|].
      intros H; injection H; auto.
    - split; [discriminate|]. intros H; injection H as <- <-.
      assert (c a a = Eq) by (apply Ha; reflexivity). congruence.
    - split; [discriminate|]. intros H; injection H as <- <-.
      assert (c a a = Eq) by (apply Ha; reflexivity). congruence.
  Qed.
  Lemma dict_opp l l' :
    Forall (fun x => forall y, c y x = CompOpp (c x y)) l -> dict c l' l = CompOpp (dict c l l').
  Proof.
    revert l'; induction l as [|a x IH]; intros [|b y] HP; cbn; try reflexivity.
    inversion_clear HP as [|? ? Ha Hx].
    rewrite (Ha b). destruct (c a b); cbn; [apply (IH y Hx)|reflexivity|reflexivity].
  Qed.
  Lemma dict_trans l l' l'' :
    (forall x y, c x y = Eq -> x = y) ->
    Forall (fun x => forall y z, c x y = Lt -> c y z = Lt -> c x z = Lt) l ->
    dict c l l' = Lt -> dict c l' l'' = Lt -> dict c l l'' = Lt.
  Proof.
    intros He. revert l' l''; induction l as [|a x IH]; intros [|b y] [|d z] HP; cbn; try congruence.
    inversion_clear HP as [|? ? Ha Hx].
    destruct (c a b) eqn:E1; intros H1; try discriminate.
    - apply He in E1. subst b. destruct (c a d); intros H2; try congruence.
      apply (IH y z Hx H1 H2).
    - destruct (c b d) eqn:E2; intros H2; try discriminate.
      + apply He in E2. subst d. rewrite E1. reflexivity.
      + rewrite (Ha b d E1 E2). reflexivity.
  Qed.
End DictLaws.

Fixpoint elt_rect' (P : elt -> Prop)
  (Hn : forall n, P (ENum n)) (Hs : forall s, P (EStr s)) (Ho : forall s, P (EObj s))
  (Ht : forall l, Forall P l -> P (ETup l)) (e : elt) : P e :=
  match e with
  | ENum n => Hn n
  | EStr s => Hs s
  | EObj s => Ho s
  | ETup l => Ht l ((fix go (l : list elt) : Forall P l :=
      match l with
      | [] => Forall_nil P
      | x :: l' => Forall_cons x (elt_rect' P Hn Hs Ho Ht x) (go l')
      end) l)
  end.

Lemma str_cmp_eq (s t : list nat) : dict Nat.compare s t = Eq <-> s = t.
Proof. apply dict_eq, Forall_forall. intros x _ y. apply Nat.compare_eq_iff. Qed.
Lemma str_cmp_opp (s t : list nat) : dict Nat.compare t s = CompOpp (dict Nat.compare s t).
Proof. apply dict_opp, Forall_forall. intros x _ y. apply Nat.compare_antisym. Qed.
Lemma str_cmp_trans (s t u : list nat) :
  dict Nat.compare s t = Lt -> dict Nat.compare t u = Lt -> dict Nat.compare s u = Lt.
Proof.
  apply dict_trans.
  - intros x y H. apply Nat.compare_eq_iff, H.
  - apply Forall_forall. intros x _ y z. rewrite !Nat.compare_lt_iff. lia.
Qed.

Lemma elt_cmp_eq a b : elt_compare a b = Eq <-> a = b.
Proof.
  revert b. induction a as [n|s|s|l IH] using elt_rect'; intros [m|t|l'|t]; cbn;
    try (split; discriminate).
  - destruct n as [x|], m as [y|]; cbn; try (split; discriminate); try (split; reflexivity).
    rewrite Z.compare_eq_iff. split; congruence.
  - rewrite str_cmp_eq. split; congruence.
  - rewrite str_cmp_eq. split; congruence.
  - rewrite (dict_eq elt_compare l l' IH). split; congruence.
Qed.
Lemma elt_cmp_opp a b : elt_compare b a = CompOpp (elt_compare a b).
Proof.
  revert b. induction a as [n|s|s|l IH] using elt_rect'; intros [m|t|l'|t]; cbn; try reflexivity.
  - destruct n as [x|], m as [y|]; cbn; try reflexivity. apply Z.compare_antisym.
  - apply str_cmp_opp.
  - apply str_cmp_opp.
  - apply dict_opp, IH.
Qed.
Lemma elt_cmp_trans a b d : elt_compare a b = Lt -> elt_compare b d = Lt -> elt_compare a d = Lt.
Proof.
  revert b d. induction a as [n|s|s|l IH] using elt_rect';
    intros [m|t|l'|t] [k|u|l''|u]; cbn; try congruence.
  - destruct n as [x|], m as [y|], k as [z|]; cbn; try congruence.
    rewrite !Z.compare_lt_iff. lia.
  - apply str_cmp_trans.
  - apply str_cmp_trans.
  - apply dict_trans; [intros x y H; apply elt_cmp_eq, H|exact IH].
Qed.

Lemma key_cmp_eq a b : key_compare a b = Eq <-> a = b.
Proof. apply dict_eq, Forall_forall. intros x _ y. apply elt_cmp_eq. Qed.
Lemma key_cmp_opp a b : key_compare b a = CompOpp (key_compare a b).
Proof. apply dict_opp, Forall_forall. intros x _ y. apply elt_cmp_opp. Qed.
Lemma key_cmp_trans a b d : key_compare a b = Lt -> key_compare b d = Lt -> key_compare a d = Lt.
Proof.
  apply dict_trans; [intros x y H; apply elt_cmp_eq, H|].
  apply Forall_forall. intros x _ y z. apply elt_cmp_trans.
Qed.

(** ** KeyTuple.__lt__ is that order on comparable keys *)
Lemma str_lt_cmp s t : str_lt s t = match dict Nat.compare s t with Lt => true | _ => false end.
Proof.
  revert t; induction s as [|x s IH]; intros [|y t]; cbn [str_lt dict]; try reflexivity.
  destruct (Nat.compare_spec x y) as [->|H|H].
  - rewrite Nat.ltb_irrefl. apply IH.
  - apply Nat.ltb_lt in H. rewrite H. reflexivity.
  - assert (E : (x <? y) = false) by (apply Nat.ltb_ge; lia).
    apply Nat.ltb_lt in H. rewrite E, H. reflexivity.
Qed.
Lemma num_lt_cmp a b : num_lt a b = match num_compare a b with Lt => true | _ => false end.
Proof.
  destruct a as [x|], b as [y|]; cbn; try reflexivity.
Qed.
Lemma elt_eqb_spec a b : elt_eqb a b = true <-> a = b.
Proof.
  revert b. induction a as [n|s|s|l IH] using elt_rect'; intros [m|t|l'|t]; cbn;
    try (split; discriminate).
  - destruct n as [x|], m as [y|]; cbn; try (split; discriminate); try (split; reflexivity).
    rewrite Z.eqb_eq. split; congruence.
  - rewrite eqb_list_nat_spec. split; congruence.
  - rewrite eqb_list_nat_spec. split; congruence.
  - enough (H : (fix go (l l' : list elt) : bool :=
       match l, l' with
       | [], [] => true
       | x :: l1, y :: l2 => elt_eqb x y && go l1 l2
       | _, _ => false
       end) l l' = true <-> l = l') by (rewrite H; split; congruence).
    revert l'. induction l as [|x l IHl]; intros [|y l']; cbn; try (split; [discriminate|discriminate]);
      try (split; reflexivity).
    inversion_clear IH as [|? ? Hx Hl].
    rewrite andb_true_iff, (Hx y), (IHl Hl l'). split; [intros [-> ->]; reflexivity|].
    intros H; injection H; auto.
Qed.

Section Lt.
  Context (str_of : elt -> list nat).
  Notation py_lt := (py_lt str_of).
  Notation kt_lt := (kt_lt str_of).
  Notation pair_order := (pair_order str_of).

  (** outcome of a pair as a comparison *)
  Definition of_cmp (c : comparison) : option bool :=
    match c with Lt => Some true | Gt => Some false | Eq => None end.

  Definition gt_list : list elt -> list elt -> option bool :=
    fix tup_gt (l l' : list elt) : option bool :=
         match l, l' with
         | [], [] => Some false
         | [], _ :: _ => Some false
         | _ :: _, [] => Some true
         | x :: l1, y :: l2 => if elt_eqb x y then tup_gt l1 l2 else py_gt x y
         end.
  Definition comparable_list : list elt -> list elt -> Prop :=
    fix go (l l' : list elt) : Prop :=
       match l, l' with
       | x :: l1, y :: l2 => comparable x y /\ (x = y -> go l1 l2)
       | _, _ => True
       end.

  Lemma py_gt_ok a b : comparable a b -> a <> b ->
    py_gt a b = Some (match elt_compare a b with Gt => true | _ => false end).
  Proof.
    revert b. induction a as [n|s|s|l IH] using elt_rect'; intros [m|t|l'|t]; cbn [comparable];
      try contradiction; intros Hc Hne.
    - cbn. rewrite num_lt_cmp. f_equal.
      destruct n as [x|], m as [y|]; cbn; try reflexivity.
      rewrite (Z.compare_antisym x y). destruct (x ?= y)%Z; reflexivity.
    - cbn. rewrite str_lt_cmp, (str_cmp_opp s t). destruct (dict Nat.compare s t); reflexivity.
    - exfalso. apply Hne. congruence.
    - assert (Hl : l <> l') by congruence. clear Hne.
      change (gt_list l l' = Some (match dict elt_compare l l' with Gt => true | _ => false end)).
      change (comparable_list l l') in Hc.
      revert l' Hc Hl. induction l as [|x l IHl]; intros [|y l'] Hc Hl; cbn; try reflexivity.
      inversion_clear IH as [|? ? Hx Hfl]. destruct Hc as [Hxy Hrest].
      destruct (elt_eqb x y) eqn:E.
      + apply elt_eqb_spec in E. subst y.
        assert (Exx : elt_compare x x = Eq) by (apply elt_cmp_eq; reflexivity). rewrite Exx.
        apply IHl; [exact Hfl|apply Hrest; reflexivity|congruence].
      + assert (Hn : x <> y) by (intros ->; assert (elt_eqb y y = true) by (apply elt_eqb_spec; reflexivity); congruence).
        rewrite (Hx y Hxy Hn). destruct (elt_compare x y) eqn:Ec; try reflexivity.
        apply elt_cmp_eq in Ec. contradiction.
  Qed.

  Lemma kt_lt_py l l' : py_lt (ETup l) (ETup l') = Some (kt_lt l l').
  Proof.
    reflexivity.
  Qed.

  Lemma pair_order_refl_gt x : match x with EObj _ => True | _ => py_gt x x = Some false end.
  Proof.
    induction x as [n|s|s|l IH] using elt_rect'; cbn; auto.
    - destruct n; cbn; [rewrite Z.ltb_irrefl|]; reflexivity.
    - rewrite str_lt_cmp. assert (H : dict Nat.compare s s = Eq) by (apply str_cmp_eq; reflexivity).
      rewrite H. reflexivity.
    - change (gt_list l l = Some false). clear IH. induction l as [|x l IHl]; cbn; [reflexivity|].
      assert (E : elt_eqb x x = true) by (apply elt_eqb_spec; reflexivity). rewrite E. apply IHl.
  Qed.

  Lemma fallback_refl x :
    (if str_lt (str_of x) (str_of x) then Some true
     else if str_lt (str_of x) (str_of x) then Some false else None) = @None bool.
  Proof.
    rewrite str_lt_cmp.
    assert (H : dict Nat.compare (str_of x) (str_of x) = Eq) by (apply str_cmp_eq; reflexivity).
    rewrite H. reflexivity.
  Qed.

  Lemma pair_order_ok a b : comparable a b ->
    pair_order (py_lt a b) a b = of_cmp (elt_compare a b).
  Proof.
    revert b. induction a as [n|s|s|l IH] using elt_rect'; intros [m|t|l'|t]; cbn [comparable];
      try contradiction; intros Hc.
    - cbn. rewrite !num_lt_cmp.
      destruct n as [x|], m as [y|]; cbn; try reflexivity.
      rewrite (Z.compare_antisym x y). destruct (x ?= y)%Z; reflexivity.
    - cbn. rewrite !str_lt_cmp, (str_cmp_opp s t). destruct (dict Nat.compare s t); reflexivity.
    - subst t. cbn.
      assert (H : dict Nat.compare s s = Eq) by (apply str_cmp_eq; reflexivity). rewrite H.
      cbn. apply fallback_refl.
    - rewrite kt_lt_py. change (comparable_list l l') in Hc.
      assert (Hk : kt_lt l l' = match dict elt_compare l l' with Lt => true | _ => false end).
      { revert l' Hc. induction l as [|x l IHl]; intros [|y l'] Hc; cbn; try reflexivity.
        inversion_clear IH as [|? ? Hx Hfl]. destruct Hc as [Hxy Hrest].
        rewrite (Hx y Hxy). destruct (elt_compare x y) eqn:E; cbn; try reflexivity.
        apply elt_cmp_eq in E. apply IHl; [exact Hfl|exact (Hrest E)]. }
      rewrite Hk. change (dict elt_compare l l') with (elt_compare (ETup l) (ETup l')).
      unfold SortModel.pair_order.
      destruct (elt_compare (ETup l) (ETup l')) eqn:E; cbn [of_cmp].
      + apply elt_cmp_eq in E. rewrite <- E. pose proof (pair_order_refl_gt (ETup l)) as Hg.
        cbn beta iota in Hg. rewrite Hg. reflexivity.
      + reflexivity.
      + rewrite py_gt_ok; [rewrite E; reflexivity|exact Hc|].
        intros He. assert (elt_compare (ETup l) (ETup l') = Eq) by (apply elt_cmp_eq; exact He). congruence.
  Qed.

  Lemma kt_lt_ok l l' : comparable_keys l l' ->
    kt_lt l l' = true <-> key_compare l l' = Lt.
  Proof.
    intros Hc. change (comparable_list l l') in Hc.
    revert l' Hc; induction l as [|x l IH]; intros [|y l'] Hc; cbn;
      try (split; discriminate); try (split; reflexivity).
    destruct Hc as [Hxy Hrest]. rewrite (pair_order_ok x y Hxy).
    destruct (elt_compare x y) eqn:E; cbn.
    - apply elt_cmp_eq in E. apply (IH l' (Hrest E)).
    - split; reflexivity.
    - split; discriminate.
  Qed.
End Lt.

(** orders given by keys are consistent *)
Lemma key_order_consistent {A} (lt : A -> A -> bool) (K : A -> list elt) (l : list A) :
  (forall x y, In x l -> In y l -> lt x y = true <-> key_compare (K x) (K y) = Lt) ->
  consistent lt l.
Proof.
  intros H. split.
  - intros a b Ha Hb Hl. apply (H a b Ha Hb) in Hl.
    destruct (lt b a) eqn:E; [|reflexivity].
    apply (H b a Hb Ha) in E. rewrite key_cmp_opp, Hl in E. discriminate.
  - intros a b c Ha Hb Hc H1 H2.
    destruct (lt a c) eqn:E; [|reflexivity]. exfalso.
    apply (H a c Ha Hc) in E.
    assert (N1 : key_compare (K a) (K b) <> Lt).
    { intros Hn. apply (H a b Ha Hb) in Hn. congruence. }
    assert (N2 : key_compare (K b) (K c) <> Lt).
    { intros Hn. apply (H b c Hb Hc) in Hn. congruence. }
    destruct (key_compare (K a) (K b)) eqn:E1; [|contradiction|].
    + apply key_cmp_eq in E1. rewrite E1 in E. contradiction.
    + assert (Hba : key_compare (K b) (K a) = Lt) by (rewrite key_cmp_opp, E1; reflexivity).
      exact (N2 (key_cmp_trans _ _ _ Hba E)).
Qed.
Lemma key_order_tied {A} (lt : A -> A -> bool) (K : A -> list elt) (l : list A) x y :
  (forall x y, In x l -> In y l -> lt x y = true <-> key_compare (K x) (K y) = Lt) ->
  In x l -> In y l -> tied lt x y = true -> K x = K y.
Proof.
  intros H Hx Hy Ht. unfold tied in Ht. apply andb_true_iff in Ht. destruct Ht as [H1 H2].
  apply negb_true_iff in H1. apply negb_true_iff in H2.
  apply key_cmp_eq. destruct (key_compare (K x) (K y)) eqn:E; [reflexivity| |].
  - apply (H x y Hx Hy) in E. congruence.
  - assert (E' : key_compare (K y) (K x) = Lt) by (rewrite key_cmp_opp, E; reflexivity).
    apply (H y x Hy Hx) in E'. congruence.
Qed.
