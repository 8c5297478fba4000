From Verif Require Import Prelude ListFacts SortModel SortSpec SortProofs HilbertModel OrderProofs KeyModel KeySpec.
From Coq Require Import Lia.

Fixpoint pv_ind' (P : pv -> Prop)
  (Hl : forall x, leaf x -> P x)
  (Hc : forall k l, Forall P l -> P (PCont k l)) (x : pv) : P x :=
  match x with
  | PInt z => Hl (PInt z) I
  | PStr s => Hl (PStr s) I
  | PBytes s => Hl (PBytes s) I
  | PNone => Hl PNone I
  | PObj h n => Hl (PObj h n) I
  | PCont k l => Hc k l ((fix go (l : list pv) : Forall P l :=
      match l with
      | [] => Forall_nil P
      | x :: l' => Forall_cons x (pv_ind' P Hl Hc x) (go l')
      end) l)
  end.

Fixpoint kty_ind' (P : kty -> Prop) (Hi : P TyInt) (Hs : P TyStr) (Hb : P TyBytes)
  (Ht : forall ts, Forall P ts -> P (TyTup ts)) (Hf : forall t, P t -> P (TyFroz t)) (t : kty) : P t :=
  match t with
  | TyInt => Hi | TyStr => Hs | TyBytes => Hb
  | TyTup ts => Ht ts ((fix go (l : list kty) : Forall P l :=
      match l with
      | [] => Forall_nil P
      | x :: l' => Forall_cons x (kty_ind' P Hi Hs Hb Ht Hf x) (go l')
      end) ts)
  | TyFroz t => Hf t (kty_ind' P Hi Hs Hb Ht Hf t)
  end.

(** ** a total comparison *)
Definition krank (k : kind) : nat :=
  match k with KTup => 0 | KList => 1 | KSet => 2 | KDict => 3 | KOrd => 4 end.
Definition rank (x : pv) : nat :=
  match x with PInt _ => 0 | PStr _ => 1 | PBytes _ => 2 | PNone => 3 | PObj _ _ => 4 | PCont k _ => 5 + krank k end.
Fixpoint pv_cmp (a b : pv) : comparison :=
  match a, b with
  | PInt x, PInt y => Z.compare x y
  | PStr x, PStr y => dict Nat.compare x y
  | PBytes x, PBytes y => dict Nat.compare x y
  | PObj h x, PObj h' y => dict Nat.compare [Nat.b2n h; x] [Nat.b2n h'; y]
  | PCont k x, PCont k' y => match Nat.compare (krank k) (krank k') with Eq => dict pv_cmp x y | r => r end
  | _, _ => Nat.compare (rank a) (rank b)
  end.

Lemma krank_inj k k' : krank k = krank k' -> k = k'.
Proof. destruct k, k'; cbn; congruence. Qed.
Lemma kcmp_eq k k' : Nat.compare (krank k) (krank k') = Eq <-> k = k'.
Proof. rewrite Nat.compare_eq_iff. split; [apply krank_inj|congruence]. Qed.

Lemma pv_cmp_eq a b : pv_cmp a b = Eq <-> a = b.
Proof.
  revert b. induction a as [a Ha|k l IH] using pv_ind'; intros b.
  - destruct a; try contradiction; destruct b as [z'|s'|s'| |h' n'|k' l']; cbn [pv_cmp];
      try (cbn; split; discriminate).
    + rewrite Z.compare_eq_iff. split; congruence.
    + rewrite str_cmp_eq. split; congruence.
    + rewrite str_cmp_eq. split; congruence.
    + split; reflexivity.
    + rewrite str_cmp_eq. match goal with |- [Nat.b2n ?h; _] = _ <-> _ => destruct h, h' end; cbn; split; congruence.
  - destruct b as [z'|s'|s'| |h' n'|k' l']; cbn [pv_cmp]; try (cbn; split; discriminate).
    destruct (Nat.compare (krank k) (krank k')) eqn:E.
    + apply kcmp_eq in E. subst k'. rewrite (dict_eq pv_cmp l l' IH). split; congruence.
    + split; [discriminate|]. intros H; injection H as -> _. rewrite Nat.compare_refl in E. discriminate.
    + split; [discriminate|]. intros H; injection H as -> _. rewrite Nat.compare_refl in E. discriminate.
Qed.

Lemma pv_cmp_opp a b : pv_cmp b a = CompOpp (pv_cmp a b).
Proof.
  revert b. induction a as [a Ha|k l IH] using pv_ind'; intros b.
  - destruct a; try contradiction; destruct b as [z'|s'|s'| |h' n'|k' l']; cbn [pv_cmp]; try reflexivity.
    + apply Z.compare_antisym.
    + apply str_cmp_opp.
    + apply str_cmp_opp.
    + apply str_cmp_opp.
  - destruct b as [z'|s'|s'| |h' n'|k' l']; cbn [pv_cmp]; try reflexivity.
    rewrite (Nat.compare_antisym (krank k) (krank k')).
    destruct (Nat.compare (krank k) (krank k')); cbn; [apply (dict_opp pv_cmp l l' IH)|reflexivity|reflexivity].
Qed.

Lemma pv_cmp_trans a b d : pv_cmp a b = Lt -> pv_cmp b d = Lt -> pv_cmp a d = Lt.
Proof.
  revert b d. induction a as [a Ha|k l IH] using pv_ind'; intros b d.
  - destruct a; try contradiction; destruct b as [z'|s'|s'| |h' n'|k' l'];
      destruct d as [z2|s2|s2| |h2 n2|k2 l2]; cbn [pv_cmp]; try (cbn; congruence).
    + rewrite !Z.compare_lt_iff. lia.
    + apply str_cmp_trans.
    + apply str_cmp_trans.
    + apply str_cmp_trans.
  - destruct b as [z'|s'|s'| |h' n'|k' l'];
      destruct d as [z2|s2|s2| |h2 n2|k2 l2]; cbn [pv_cmp]; try (cbn; congruence).
    destruct (Nat.compare (krank k) (krank k')) eqn:E1;
      destruct (Nat.compare (krank k') (krank k2)) eqn:E2; try discriminate.
    + apply kcmp_eq in E1, E2. subst k' k2. rewrite Nat.compare_refl.
      apply dict_trans; [|exact IH]. intros x y; apply pv_cmp_eq.
    + apply kcmp_eq in E1. subst k'. intros _ _. rewrite E2. reflexivity.
    + apply kcmp_eq in E2. subst k'. intros _ _. rewrite E1. reflexivity.
    + intros _ _. apply Nat.compare_lt_iff in E1, E2.
      assert (E : Nat.compare (krank k) (krank k2) = Lt) by (apply Nat.compare_lt_iff; lia).
      rewrite E. reflexivity.
Qed.

Definition ltb (a b : pv) : bool := match pv_cmp a b with Lt => true | _ => false end.

Lemma ltb_consistent l : consistent ltb l.
Proof.
  split.
  - intros a b _ _. unfold ltb. rewrite (pv_cmp_opp a b). destruct (pv_cmp a b); cbn; congruence.
  - intros a b c _ _ _. unfold ltb. intros H1 H2.
    destruct (pv_cmp a c) eqn:E; try reflexivity. exfalso.
    destruct (pv_cmp a b) eqn:E1; try discriminate.
    + apply pv_cmp_eq in E1. subst b. rewrite E in H2. discriminate.
    + assert (Ha : pv_cmp b a = Lt) by (rewrite (pv_cmp_opp a b), E1; reflexivity).
      rewrite (pv_cmp_trans b a c Ha E) in H2. discriminate.
Qed.
Lemma ltb_total x y : tied ltb x y = true -> x = y.
Proof.
  unfold tied, ltb. rewrite (pv_cmp_opp x y). destruct (pv_cmp x y) eqn:E; cbn; try discriminate.
  intros _. apply pv_cmp_eq, E.
Qed.

(** ** values that [<] can compare *)
Fixpoint cmpb (a b : pv) {struct a} : Prop :=
  match a, b with
  | PInt _, PInt _ => True
  | PStr _, PStr _ => True
  | PBytes _, PBytes _ => True
  | PCont KTup l, PCont KTup l' =>
    (fix go (l l' : list pv) : Prop :=
       match l, l' with
       | x :: l1, y :: l2 => (x = y /\ go l1 l2) \/ (x <> y /\ cmpb x y)
       | _, _ => True
       end) l l'
  | _, _ => False
  end.

(** converted values: only tuples *)
Fixpoint conv (x : pv) : Prop :=
  match x with
  | PCont k l => k = KTup /\ (fix go (l : list pv) : Prop := match l with [] => True | y :: l' => conv y /\ go l' end) l
  | _ => True
  end.
Lemma conv_cont k l : conv (PCont k l) <-> k = KTup /\ Forall conv l.
Proof.
  cbn. split; intros [-> H]; (split; [reflexivity|]).
  - induction l as [|x l IH]; constructor; [apply H|apply IH, H].
  - induction H as [|x l Hx _ IH]; cbn; auto.
Qed.

Lemma pv_eqb_spec a b : conv a -> pv_eqb a b = true <-> a = b.
Proof.
  revert b. induction a as [a Ha|k l IH] using pv_ind'; intros b Hc.
  - destruct a; try contradiction; destruct b as [z'|s'|s'| |h' n'|k' l']; cbn [pv_eqb];
      try (split; congruence).
    + rewrite Z.eqb_eq. split; congruence.
    + rewrite eqb_list_nat_spec. split; congruence.
    + rewrite eqb_list_nat_spec. split; congruence.
    + rewrite andb_true_iff, Bool.eqb_true_iff, Nat.eqb_eq. split; [intros [-> ->]; reflexivity|].
      intros H; injection H as -> ->; auto.
  - apply conv_cont in Hc. destruct Hc as [-> Hc].
    destruct b as [z'|s'|s'| |h' n'|k' l']; cbn [pv_eqb]; try (split; congruence).
    destruct k'; try (split; congruence).
    transitivity (l = l'); [|split; congruence].
    revert l' IH Hc. induction l as [|x l IHl]; intros [|y l'] IH Hc; try (split; congruence).
    rewrite andb_true_iff, (Forall_inv IH y (Forall_inv Hc)),
      (IHl l' (Forall_inv_tail IH) (Forall_inv_tail Hc)).
    split; [intros [-> ->]; reflexivity|]. intros H; injection H; auto.
Qed.

Lemma pv_lt_ok a b : conv a -> cmpb a b -> pv_lt a b = Ok (ltb a b).
Proof.
  revert b. induction a as [a Ha|k l IH] using pv_ind'; intros b Hc Hab.
  - destruct a; try contradiction; destruct b as [z'|s'|s'| |h' n'|k' l']; try contradiction; cbn [pv_lt]; unfold ltb; cbn [pv_cmp].
    + unfold Z.ltb. destruct (z ?= z')%Z; reflexivity.
    + rewrite str_lt_cmp. reflexivity.
    + rewrite str_lt_cmp. reflexivity.
  - apply conv_cont in Hc. destruct Hc as [-> Hc].
    destruct b as [z'|s'|s'| |h' n'|k' l']; try contradiction. destruct k'; try contradiction.
    unfold ltb. cbn [pv_lt pv_cmp krank Nat.compare]. cbn [cmpb] in Hab.
    revert l' IH Hc Hab. induction l as [|x l IHl]; intros [|y l'] IH Hc Hab; try reflexivity.
    destruct Hab as [[<- Hab]|[Hne Hab]].
    + rewrite (proj2 (pv_eqb_spec x x (Forall_inv Hc)) eq_refl).
      cbn [dict]. rewrite (proj2 (pv_cmp_eq x x) eq_refl).
      apply (IHl l' (Forall_inv_tail IH) (Forall_inv_tail Hc) Hab).
    + destruct (pv_eqb x y) eqn:E; [apply (pv_eqb_spec x y (Forall_inv Hc)) in E; contradiction|].
      rewrite (Forall_inv IH y (Forall_inv Hc) Hab). cbn [dict]. unfold ltb.
      destruct (pv_cmp x y) eqn:E'; [apply pv_cmp_eq in E'; contradiction|reflexivity|reflexivity].
Qed.

Lemma sort_ok l : Forall conv l -> (forall a b, In a l -> In b l -> cmpb a b) ->
  sorted_if_possible l = pysorted ltb l.
Proof.
  intros Hc H. unfold sorted_if_possible.
  rewrite (pysortedM_ok pv_lt ltb l); [reflexivity|].
  intros a b Ha Hb. apply pv_lt_ok; [|apply H; assumption]. rewrite Forall_forall in Hc. apply Hc, Ha.
Qed.

(** ** nested_tuple *)
Lemma insert_allM_In {A} (lt : A -> A -> res bool) l a r : insert_allM lt a l = Ok r ->
  Permutation (a ++ l) r.
Proof.
  revert a. induction l as [|x l IH]; intros a H; cbn in H.
  - injection H as <-. rewrite app_nil_r. reflexivity.
  - unfold binary_insertM in H. destruct (bisectM lt (length a) a x 0 (length a)) as [i|e]; [|discriminate].
    cbn in H. rewrite <- (IH _ H). rewrite <- (firstn_skipn i a) at 1.
    rewrite <- !app_assoc. apply Permutation_app_head. cbn.
    symmetry. apply Permutation_middle.
Qed.
Lemma pysortedM_perm {A} (lt : A -> A -> res bool) l r : pysortedM lt l = Ok r -> Permutation l r.
Proof.
  unfold pysortedM. destruct (count_runM lt l) as [[n d]|e]; [|discriminate]. cbn [bind fst snd].
  intros H. apply insert_allM_In in H. rewrite <- H. rewrite <- (firstn_skipn n l) at 1.
  apply Permutation_app_tail. destruct d; [apply Permutation_rev|reflexivity].
Qed.
Lemma sorted_if_possible_incl l : incl (sorted_if_possible l) l.
Proof.
  unfold sorted_if_possible. destruct (pysortedM pv_lt l) as [r|e] eqn:E; [|intros x []].
  apply pysortedM_perm in E. intros x. apply Permutation_in. symmetry. exact E.
Qed.

Lemma nt_cont k l : exists l', nested_tuple (PCont k l) = PCont KTup l' /\ incl l' (map nested_tuple l).
Proof.
  destruct k; cbn [nested_tuple]; eexists; (split; [reflexivity|]);
    try apply incl_refl; apply sorted_if_possible_incl.
Qed.
Lemma nt_conv x : conv (nested_tuple x).
Proof.
  induction x as [x Hx|k l IH] using pv_ind'.
  - destruct x; try contradiction; exact I.
  - destruct (nt_cont k l) as [l' [-> Hi]]. apply conv_cont. split; [reflexivity|].
    apply Forall_forall. intros y Hy. apply Hi in Hy. apply in_map_iff in Hy. destruct Hy as [z [<- Hz]].
    rewrite Forall_forall in IH. apply IH, Hz.
Qed.
Lemma map_nt_conv l : Forall conv (map nested_tuple l).
Proof. apply Forall_forall. intros y Hy. apply in_map_iff in Hy. destruct Hy as [z [<- _]]. apply nt_conv. Qed.
Lemma nt_leaf x : leaf x -> nested_tuple x = x.
Proof. destruct x; try contradiction; reflexivity. Qed.

Lemma pv_dec (x y : pv) : {x = y} + {x <> y}.
Proof.
  destruct (pv_cmp x y) eqn:E; [left; apply pv_cmp_eq, E|right|right]; intros H; apply pv_cmp_eq in H; congruence.
Qed.

Lemma cmpb_tup_all l l' : (forall a b, In a l -> In b l' -> a <> b -> cmpb a b) -> cmpb (PCont KTup l) (PCont KTup l').
Proof.
  revert l'. induction l as [|x l IH]; intros [|y l'] H; try exact I.
  change ((x = y /\ cmpb (PCont KTup l) (PCont KTup l')) \/ (x <> y /\ cmpb x y)).
  destruct (pv_dec x y) as [E|E]; [left|right]; (split; [exact E|]).
  - apply IH. intros a b Ha Hb. apply H; right; assumption.
  - apply H; [left; reflexivity|left; reflexivity|exact E].
Qed.

Lemma has_tup ts x : has_ty (TyTup ts) x <-> exists l, x = PCont KTup l /\ Forall2 has_ty ts l.
Proof.
  split.
  - destruct x as [| | | | |[] l]; cbn; try contradiction. intros H. exists l. split; [reflexivity|].
    revert l H. induction ts as [|t ts IH]; intros [|x l] H; try contradiction; constructor; [apply H|apply IH, H].
  - intros [l [-> H]]. cbn. induction H; cbn; auto.
Qed.
Lemma has_froz t x : has_ty (TyFroz t) x <-> exists l, x = PCont KSet l /\ Forall (has_ty t) l.
Proof.
  split.
  - destruct x as [| | | | |[] l]; cbn; try contradiction. eauto.
  - intros [l [-> H]]. exact H.
Qed.

(** values of the same sortable type can be compared after conversion *)
Lemma typed_cmpb t : forall x y, has_ty t x -> has_ty t y -> cmpb (nested_tuple x) (nested_tuple y).
Proof.
  induction t as [| | |ts IH|t IH] using kty_ind'; intros x y Hx Hy.
  - destruct x; try contradiction. destruct y; try contradiction. exact I.
  - destruct x; try contradiction. destruct y; try contradiction. exact I.
  - destruct x; try contradiction. destruct y; try contradiction. exact I.
  - apply has_tup in Hx, Hy. destruct Hx as [l [-> Hl]], Hy as [l' [-> Hl']]. cbn [nested_tuple].
    revert l l' Hl Hl'. induction IH as [|t ts Ht _ IHts]; intros l l' Hl Hl'.
    + inversion Hl. inversion Hl'. exact I.
    + inversion Hl as [|? x ? l1 Hx Hl1]. inversion Hl' as [|? y ? l2 Hy Hl2]. subst. cbn [map].
      change ((nested_tuple x = nested_tuple y /\ cmpb (PCont KTup (map nested_tuple l1)) (PCont KTup (map nested_tuple l2)))
              \/ (nested_tuple x <> nested_tuple y /\ cmpb (nested_tuple x) (nested_tuple y))).
      destruct (pv_dec (nested_tuple x) (nested_tuple y)) as [E|E]; [left|right]; (split; [exact E|]).
      * apply IHts; assumption.
      * apply Ht; assumption.
  - apply has_froz in Hx, Hy. destruct Hx as [l [-> Hl]], Hy as [l' [-> Hl']]. cbn [nested_tuple].
    rewrite Forall_forall in Hl, Hl'.
    apply cmpb_tup_all. intros a b Ha Hb _. apply sorted_if_possible_incl in Ha, Hb.
    apply in_map_iff in Ha, Hb. destruct Ha as [a' [<- Ha]], Hb as [b' [<- Hb]].
    apply IH; [apply Hl, Ha|apply Hl', Hb].
Qed.

Lemma typed_sort t l : Forall (has_ty t) l ->
  sorted_if_possible (map nested_tuple l) = pysorted ltb (map nested_tuple l).
Proof.
  intros H. rewrite Forall_forall in H. apply sort_ok; [apply map_nt_conv|].
  intros a b Ha Hb. apply in_map_iff in Ha, Hb. destruct Ha as [a' [<- Ha]], Hb as [b' [<- Hb]].
  apply (typed_cmpb t); apply H; assumption.
Qed.

Lemma map_F2 {A B} (f : A -> B) (R : A -> A -> Prop) l : forall l', map f l = map f l' ->
  (forall x y, In x l -> In y l' -> f x = f y -> R x y) -> Forall2 R l l'.
Proof.
  induction l as [|x l IH]; intros [|y l'] E H; try discriminate; constructor.
  - injection E as E _. apply H; cbn; auto.
  - injection E as _ E. apply IH; [exact E|]. intros a b Ha Hb. apply H; cbn; auto.
Qed.

(** on values of one sortable type the conversion is injective *)
Lemma typed_inj t : forall x y, has_ty t x -> has_ty t y -> nested_tuple x = nested_tuple y -> pyeq x y.
Proof.
  induction t as [| | |ts IH|t IH] using kty_ind'; intros x y Hx Hy E.
  - destruct x; try contradiction. destruct y; try contradiction. cbn in E. injection E as <-. constructor; exact I.
  - destruct x; try contradiction. destruct y; try contradiction. cbn in E. injection E as <-. constructor; exact I.
  - destruct x; try contradiction. destruct y; try contradiction. cbn in E. injection E as <-. constructor; exact I.
  - apply has_tup in Hx, Hy. destruct Hx as [l [-> Hl]], Hy as [l' [-> Hl']]. cbn [nested_tuple] in E.
    injection E as E. apply (eq_cont KTup l l' l'); [|reflexivity|reflexivity].
    revert l l' Hl Hl' E. induction IH as [|t ts Ht _ IHts]; intros l l' Hl Hl' E.
    + inversion Hl. inversion Hl'. constructor.
    + inversion Hl as [|? x ? l1 Hx Hl1]. inversion Hl' as [|? y ? l2 Hy Hl2]. subst.
      cbn in E. injection E as E1 E2. constructor; [apply Ht; assumption|apply IHts; assumption].
  - apply has_froz in Hx, Hy. destruct Hx as [l [-> Hl]], Hy as [l' [-> Hl']]. cbn [nested_tuple] in E.
    rewrite (typed_sort t l Hl), (typed_sort t l' Hl') in E. injection E as E.
    assert (Hp : Permutation (map nested_tuple l') (map nested_tuple l)).
    { rewrite (pysorted_perm ltb (map nested_tuple l)), E. apply pysorted_perm. }
    destruct (Permutation_map_inv _ _ (Permutation_sym Hp)) as [l2 [E2 Hp2]].
    apply (eq_cont KSet l l' l2).
    + rewrite Forall_forall in Hl, Hl'. apply (map_F2 nested_tuple); [exact E2|].
      intros x y Hx Hy. apply IH; [apply Hl, Hx|]. apply Hl'. apply (Permutation_in y (Permutation_sym Hp2)), Hy.
    + symmetry. exact Hp2.
    + contradiction.
Qed.

(** ** whole containers *)
Lemma sortable_cont k l : sortable (PCont k l) <->
  Forall sortable l /\ match k with
       | KSet => exists t, Forall (has_ty t) l
       | KDict => exists t ks, Forall2 is_pair l ks /\ Forall (has_ty t) ks
                               /\ ForallOrdPairs (fun a b => ~ pyeq a b) ks
       | _ => True
       end.
Proof.
  cbn [sortable]. apply and_iff_compat_r. split.
  - induction l as [|x l IH]; intros H; constructor; [apply H|apply IH, H].
  - induction 1 as [|x l Hx _ IH]; cbn; auto.
Qed.

Lemma FOP_In {A} (R : A -> A -> Prop) l : ForallOrdPairs R l -> forall x y, In x l -> In y l ->
  x = y \/ R x y \/ R y x.
Proof.
  intros H x y Hx Hy. destruct (ForallOrdPairs_In H x y Hx Hy) as [E|[E|E]]; auto.
Qed.

Lemma F2_in_l {A B} (R : A -> B -> Prop) l l' : Forall2 R l l' -> forall x, In x l -> exists y, In y l' /\ R x y.
Proof.
  induction 1 as [|x y l l' Hxy _ IH]; intros z; [intros []|]. intros [<-|Hz].
  - exists y. split; [left; reflexivity|exact Hxy].
  - destruct (IH z Hz) as [w [Hw HR]]. exists w. split; [right; exact Hw|exact HR].
Qed.

(** the entries of a sortable dictionary: the keys decide every comparison *)
Lemma cmpb_refl l : cmpb (PCont KTup l) (PCont KTup l).
Proof.
  induction l as [|x l IH]; [exact I|].
  change ((x = x /\ cmpb (PCont KTup l) (PCont KTup l)) \/ (x <> x /\ cmpb x x)). left. split; [reflexivity|exact IH].
Qed.
Lemma keys_differ t l ks : Forall2 is_pair l ks -> Forall (has_ty t) ks ->
  ForallOrdPairs (fun a b => ~ pyeq a b) ks ->
  forall a b, In a l -> In b l -> nested_tuple a <> nested_tuple b ->
  exists k v k' v', a = PCont KTup [k; v] /\ b = PCont KTup [k'; v'] /\ has_ty t k /\ has_ty t k'
        /\ nested_tuple k <> nested_tuple k'.
Proof.
  induction 1 as [|x k l ks [v ->] HF IH]; intros Ht Hd a b Ha Hb Hne; [destruct Ha|].
  inversion Hd as [|? ? Hk Hd']; subst. pose proof (Forall_inv Ht) as Hkt. pose proof (Forall_inv_tail Ht) as Ht'.
  rewrite Forall_forall in Hk. rewrite Forall_forall in Ht'.
  assert (HE : forall b, In b l -> exists k' v', b = PCont KTup [k'; v'] /\ has_ty t k' /\ nested_tuple k <> nested_tuple k').
  { intros c Hc. destruct (F2_in_l _ _ _ HF c Hc) as [k' [Hk' [v' ->]]]. exists k', v'.
    split; [reflexivity|]. split; [apply Ht', Hk'|]. intros E. apply (Hk k' Hk').
    exact (typed_inj t k k' Hkt (Ht' k' Hk') E). }
  destruct Ha as [<-|Ha], Hb as [<-|Hb].
  - contradiction.
  - destruct (HE b Hb) as (k' & v' & -> & H1 & H2). exists k, v, k', v'. auto.
  - destruct (HE a Ha) as (k' & v' & -> & H1 & H2). exists k', v', k, v. repeat (split; [assumption || reflexivity|]).
    intros E; apply H2; symmetry; exact E.
  - apply IH; try assumption. apply Forall_forall; exact Ht'.
Qed.
Lemma dict_cmpb t l ks : Forall2 is_pair l ks -> Forall (has_ty t) ks ->
  ForallOrdPairs (fun a b => ~ pyeq a b) ks ->
  forall e e', In e (map nested_tuple l) -> In e' (map nested_tuple l) -> cmpb e e'.
Proof.
  intros Hp Ht Hd e e' He He'.
  apply in_map_iff in He, He'. destruct He as [a [<- Ha]], He' as [b [<- Hb]].
  destruct (pv_dec (nested_tuple a) (nested_tuple b)) as [E|E].
  - rewrite <- E. destruct (F2_in_l _ _ _ Hp a Ha) as [k [_ [v ->]]]. cbn [nested_tuple]. apply cmpb_refl.
  - destruct (keys_differ t l ks Hp Ht Hd a b Ha Hb E) as (k & v & k' & v' & -> & -> & H1 & H2 & H3).
    cbn [nested_tuple map].
    change ((nested_tuple k = nested_tuple k' /\ cmpb (PCont KTup [nested_tuple v]) (PCont KTup [nested_tuple v']))
            \/ (nested_tuple k <> nested_tuple k' /\ cmpb (nested_tuple k) (nested_tuple k'))).
    right. split; [exact H3|]. exact (typed_cmpb t k k' H1 H2).
Qed.

(** in a sortable container the conversion keeps all entries *)
Lemma nt_sortable k l : sortable (PCont k l) -> exists l', nested_tuple (PCont k l) = PCont KTup l'
  /\ (ordered k -> l' = map nested_tuple l)
  /\ (~ ordered k -> l' = pysorted ltb (map nested_tuple l))
  /\ Permutation (map nested_tuple l) l'.
Proof.
  intros H. apply sortable_cont in H. destruct H as [_ H].
  destruct k; cbn [nested_tuple ordered].
  - eexists. split; [reflexivity|]. split; [reflexivity|]. split; [intros []; exact I|reflexivity].
  - eexists. split; [reflexivity|]. split; [reflexivity|]. split; [intros []; exact I|reflexivity].
  - destruct H as [t H]. rewrite (typed_sort t l H). eexists. split; [reflexivity|]. split; [contradiction|].
    split; [reflexivity|apply pysorted_perm].
  - destruct H as (t & ks & H1 & H2 & H3).
    rewrite sort_ok; [|apply map_nt_conv|exact (dict_cmpb t l ks H1 H2 H3)].
    eexists. split; [reflexivity|]. split; [contradiction|].
    split; [reflexivity|apply pysorted_perm].
  - eexists. split; [reflexivity|]. split; [reflexivity|]. split; [intros []; exact I|reflexivity].
Qed.
Lemma ordered_dec k : {ordered k} + {~ ordered k}.
Proof. destruct k; cbn; auto. Qed.

Theorem nt_injective : forall x y, sortable x -> sortable y -> nested_tuple x = nested_tuple y -> same_data x y.
Proof.
  induction x as [x Hx|k l IH] using pv_ind'; intros y Sx Sy E.
  - rewrite (nt_leaf x Hx) in E. destruct y as [z'|s'|s'| |h' n'|k' l'];
      try (cbn in E; subst x; constructor; exact Hx).
    destruct (nt_cont k' l') as [l2 [E2 _]]. rewrite E2 in E. subst x. contradiction.
  - destruct (nt_sortable k l Sx) as (l1 & E1 & O1 & _ & P1). rewrite E1 in E.
    destruct y as [z'|s'|s'| |h' n'|k' l']; try (cbn in E; discriminate).
    destruct (nt_sortable k' l' Sy) as (l2 & E2 & O2 & _ & P2). rewrite E2 in E. injection E as E. subst l2.
    apply sortable_cont in Sx, Sy. destruct Sx as [Sx _], Sy as [Sy _].
    rewrite Forall_forall in IH, Sx, Sy.
    destruct (ordered_dec k) as [Ok|Nk]; [destruct (ordered_dec k') as [Ok'|Nk']|].
    + apply (sd_cont k k' l l' l'); [|reflexivity|reflexivity].
      apply (map_F2 nested_tuple); [rewrite <- (O1 Ok), (O2 Ok'); reflexivity|].
      intros a b Ha Hb. apply IH; auto.
    + assert (Hp : Permutation (map nested_tuple l) (map nested_tuple l')) by (rewrite P1, P2; reflexivity).
      destruct (Permutation_map_inv _ _ Hp) as [l3 [E3 Hp3]].
      apply (sd_cont k k' l l' l3); [|symmetry; exact Hp3|contradiction].
      apply (map_F2 nested_tuple); [exact E3|]. intros a b Ha Hb. apply IH; auto.
      apply Sy. apply (Permutation_in b (Permutation_sym Hp3)), Hb.
    + assert (Hp : Permutation (map nested_tuple l) (map nested_tuple l')) by (rewrite P1, P2; reflexivity).
      destruct (Permutation_map_inv _ _ Hp) as [l3 [E3 Hp3]].
      apply (sd_cont k k' l l' l3); [|symmetry; exact Hp3|contradiction].
      apply (map_F2 nested_tuple); [exact E3|]. intros a b Ha Hb. apply IH; auto.
      apply Sy. apply (Permutation_in b (Permutation_sym Hp3)), Hb.
Qed.

Theorem nt_order_independent : forall x y, sortable x -> sortable y -> pyeq x y -> nested_tuple x = nested_tuple y.
Proof.
  induction x as [x Hx|k l IH] using pv_ind'; intros y Sx Sy E.
  - inversion E; [reflexivity|]. subst x. contradiction.
  - inversion E as [? HL|? ? l' l2 HF Hp Ho]; [contradiction|]. subst.
    destruct (nt_sortable k l Sx) as (m1 & E1 & O1 & N1 & P1).
    destruct (nt_sortable k l' Sy) as (m2 & E2 & O2 & N2 & P2).
    apply sortable_cont in Sx, Sy. destruct Sx as [Sx _], Sy as [Sy _].
    assert (S2 : Forall sortable l2).
    { apply Forall_forall. intros x Hx. rewrite Forall_forall in Sy. apply Sy, (Permutation_in x Hp), Hx. }
    assert (Em : map nested_tuple l = map nested_tuple l2).
    { clear - IH HF Sx S2. induction HF as [|a b l l2 Hab _ IHl]; [reflexivity|]. cbn. f_equal.
      - apply (Forall_inv IH); [exact (Forall_inv Sx)|exact (Forall_inv S2)|exact Hab].
      - apply IHl; [exact (Forall_inv_tail IH)|exact (Forall_inv_tail Sx)|exact (Forall_inv_tail S2)]. }
    rewrite E1, E2. f_equal. destruct (ordered_dec k) as [Ok|Nk].
    + rewrite (O1 Ok), (O2 Ok), Em, (Ho Ok). reflexivity.
    + rewrite (N1 Nk), (N2 Nk), Em. apply pysorted_permutation.
      * apply ltb_consistent.
      * intros a b _ _. apply ltb_total.
      * apply Permutation_map, Hp.
Qed.

Lemma hashable_cont k l : hashable (PCont k l) <-> k = KTup /\ Forall hashable l.
Proof.
  cbn. split; intros [-> H]; (split; [reflexivity|]).
  - induction l as [|x l IH]; constructor; [apply H|apply IH, H].
  - induction H as [|x l Hx _ IH]; cbn; auto.
Qed.
Lemma hashable_leaves_cont k l : hashable_leaves (PCont k l) <-> Forall hashable_leaves l.
Proof.
  cbn. split; intros H.
  - induction l as [|x l IH]; constructor; [apply H|apply IH, H].
  - induction H as [|x l Hx _ IH]; cbn; auto.
Qed.
Theorem nt_hashable x : sortable x -> hashable (nested_tuple x) <-> hashable_leaves x.
Proof.
  induction x as [x Hx|k l IH] using pv_ind'; intros Sx.
  - destruct x; try contradiction; cbn; tauto.
  - destruct (nt_sortable k l Sx) as (l1 & -> & _ & _ & P1).
    apply sortable_cont in Sx. destruct Sx as [Sx _].
    rewrite hashable_cont, hashable_leaves_cont. rewrite !Forall_forall. rewrite Forall_forall in IH, Sx.
    split.
    + intros [_ H] y Hy. apply (IH y Hy (Sx y Hy)), H. apply (Permutation_in _ P1), in_map, Hy.
    + intros H. split; [reflexivity|]. intros y Hy. apply (Permutation_in _ (Permutation_sym P1)) in Hy.
      apply in_map_iff in Hy. destruct Hy as [z [<- Hz]]. apply (IH z Hz (Sx z Hz)), H, Hz.
Qed.
