(** Generic facts about the helpers of [Prelude]. *)
From Verif Require Import Prelude.

Lemma mapM_ok {A B} (f : A -> res B) (g : A -> B) (l : list A) :
  (forall x, In x l -> f x = Ok (g x)) -> mapM f l = Ok (map g l).
Proof.
  induction l as [|x xs IH]; intros H; cbn [mapM map]; [reflexivity|].
  rewrite (H x (or_introl eq_refl)); cbn [bind].
  rewrite IH; [reflexivity|]. intros y Hy; apply H; right; exact Hy.
Qed.

Lemma mapM_ok_inv {A B} (f : A -> res B) (l : list A) (r : list B) :
  mapM f l = Ok r -> length r = length l /\
  forall i x, nth_error l i = Some x -> exists y, nth_error r i = Some y /\ f x = Ok y.
Proof.
  revert r; induction l as [|x xs IH]; intros r; cbn [mapM].
  - intros H; injection H as <-. split; [reflexivity|]. intros [|i] y Hy; discriminate.
  - destruct (f x) as [y|e] eqn:Hf; cbn [bind]; [|discriminate].
    destruct (mapM f xs) as [ys|e] eqn:Hm; cbn [bind]; [|discriminate].
    intros H; injection H as <-. destruct (IH ys eq_refl) as [Hl Hn].
    split; [cbn; lia|]. intros [|i] z Hz; cbn in *.
    + injection Hz as <-. exists y; split; [reflexivity|exact Hf].
    + apply Hn; exact Hz.
Qed.

Lemma mapM_err {A B} (f : A -> res B) (l : list A) x e :
  In x l -> f x = Err e -> exists e', mapM f l = Err e'.
Proof.
  induction l as [|y ys IH]; intros Hin Hf; [destruct Hin|].
  cbn [mapM]. destruct (f y) as [z|e'] eqn:Hy; cbn [bind]; [|eauto].
  destruct Hin as [->|Hin]; [congruence|].
  destruct (IH Hin Hf) as [e' ->]; cbn [bind]. eauto.
Qed.

Lemma index_of_Some x l i :
  index_of x l = Some i -> nth_error l i = Some x /\ i < length l /\
  forall j, j < i -> nth_error l j <> Some x.
Proof.
  revert i; induction l as [|y ys IH]; intros i; cbn [index_of]; [discriminate|].
  destruct (Nat.eqb_spec x y) as [->|Hne].
  - intros H; injection H as <-. cbn. repeat split; [lia|]. intros j Hj; lia.
  - destruct (index_of x ys) as [k|] eqn:Hk; cbn [option_map]; [|discriminate].
    intros H; injection H as <-. destruct (IH k eq_refl) as (H1 & H2 & H3).
    cbn. repeat split; [exact H1|lia|]. intros [|j] Hj; cbn; [congruence|].
    apply H3; lia.
Qed.

Lemma index_of_In x l : In x l -> exists i, index_of x l = Some i.
Proof.
  induction l as [|y ys IH]; intros H; [destruct H|]. cbn [index_of].
  destruct (Nat.eqb_spec x y) as [->|Hne]; [eauto|].
  destruct H as [->|H]; [congruence|]. destruct (IH H) as [i ->]. cbn; eauto.
Qed.

Lemma index_of_None x l : ~ In x l -> index_of x l = None.
Proof.
  induction l as [|y ys IH]; intros H; [reflexivity|]. cbn [index_of].
  destruct (Nat.eqb_spec x y) as [->|Hne]; [exfalso; apply H; left; reflexivity|].
  rewrite IH; [reflexivity|]. intros Hin; apply H; right; exact Hin.
Qed.

Lemma index_of_NoDup l i x :
  NoDup l -> nth_error l i = Some x -> index_of x l = Some i.
Proof.
  intros Hnd Hn.
  destruct (index_of_In x l (nth_error_In _ _ Hn)) as [j Hj].
  rewrite Hj. f_equal.
  destruct (index_of_Some _ _ _ Hj) as (Hj1 & Hj2 & _).
  apply (proj1 (NoDup_nth_error l) Hnd); [exact Hj2|congruence].
Qed.

Lemma remove_first_In x l : In x l -> exists l', remove_first x l = Some l'.
Proof.
  induction l as [|y ys IH]; intros H; [destruct H|]. cbn [remove_first].
  destruct (Nat.eqb_spec x y) as [->|Hne]; [eauto|].
  destruct H as [->|H]; [congruence|]. destruct (IH H) as [l' ->]. cbn; eauto.
Qed.

Lemma remove_first_Some x l l' :
  remove_first x l = Some l' ->
  exists l1 l2, l = l1 ++ x :: l2 /\ l' = l1 ++ l2 /\ ~ In x l1.
Proof.
  revert l'; induction l as [|y ys IH]; intros l'; cbn [remove_first]; [discriminate|].
  destruct (Nat.eqb_spec x y) as [->|Hne].
  - intros H; injection H as <-. exists [], ys; repeat split; auto.
  - destruct (remove_first x ys) as [zs|] eqn:Hz; cbn [option_map]; [|discriminate].
    intros H; injection H as <-. destruct (IH zs eq_refl) as (l1 & l2 & -> & -> & Hn).
    exists (y :: l1), l2; repeat split; auto. intros [->|Hin]; [congruence|auto].
Qed.

Lemma remove_first_None x l : remove_first x l = None <-> ~ In x l.
Proof.
  split.
  - intros H Hin. destruct (remove_first_In _ _ Hin) as [l' Hl]; congruence.
  - intros H. destruct (remove_first x l) as [l'|] eqn:E; [|reflexivity].
    destruct (remove_first_Some _ _ _ E) as (l1 & l2 & -> & _).
    exfalso; apply H, in_or_app; right; left; reflexivity.
Qed.

Lemma remove_first_perm x l l' : remove_first x l = Some l' -> Permutation l (x :: l').
Proof.
  intros H; destruct (remove_first_Some _ _ _ H) as (l1 & l2 & -> & -> & _).
  symmetry; apply Permutation_middle.
Qed.

Lemma set_nth_Some {A} i v (l : list A) :
  i < length l -> exists l', set_nth i v l = Some l' /\ length l' = length l /\
  forall j, nth_error l' j = if j =? i then Some v else nth_error l j.
Proof.
  revert l; induction i as [|i IH]; intros [|y ys] H; cbn in H; try lia.
  - eexists; split; [reflexivity|]; split; [reflexivity|]. intros [|j]; reflexivity.
  - destruct (IH ys ltac:(lia)) as (l' & Hs & Hl & Hn).
    exists (y :: l'); cbn [set_nth]. rewrite Hs; cbn. split; [reflexivity|].
    split; [lia|]. intros [|j]; cbn; [reflexivity|apply Hn].
Qed.

Lemma sum_app a b : sum (a ++ b) = sum a + sum b.
Proof. induction a as [|x xs IH]; cbn; [reflexivity|]. unfold sum in *; cbn; lia. Qed.

Lemma sum_cons a b : sum (a :: b) = a + sum b.
Proof. reflexivity. Qed.

Lemma sum_perm a b : Permutation a b -> sum a = sum b.
Proof. induction 1; rewrite ?sum_cons in *; lia. Qed.

Lemma length_concat {A} (l : list (list A)) : length (concat l) = sum (map (@length A) l).
Proof. induction l as [|x xs IH]; cbn; [reflexivity|]. rewrite app_length, IH; reflexivity. Qed.

(** sort_by *)
Section SortFacts.
  Context {A : Type} (key : A -> Z).

  Lemma insert_by_perm x l : Permutation (x :: l) (insert_by key x l).
  Proof.
    induction l as [|y ys IH]; cbn; [reflexivity|].
    destruct (key x <=? key y)%Z; [reflexivity|].
    rewrite perm_swap. apply perm_skip, IH.
  Qed.

  Lemma sort_by_perm l : Permutation l (sort_by key l).
  Proof.
    induction l as [|x xs IH]; cbn; [constructor|].
    rewrite <- insert_by_perm. apply perm_skip, IH.
  Qed.

  Definition key_le (a b : A) : Prop := (key a <= key b)%Z.

  Lemma insert_by_sorted x l : StronglySorted key_le l -> StronglySorted key_le (insert_by key x l).
  Proof.
    induction 1 as [|y ys Hs IH Hf]; cbn; [repeat constructor|].
    destruct (Z.leb_spec (key x) (key y)) as [Hle|Hgt].
    - constructor; [constructor; assumption|]. constructor; [exact Hle|].
      eapply Forall_impl; [|exact Hf]. intros z Hz; unfold key_le in *; lia.
    - constructor; [exact IH|].
      apply (Permutation_Forall (insert_by_perm x ys)). constructor; [unfold key_le; lia|exact Hf].
  Qed.

  Lemma sort_by_sorted l : StronglySorted key_le (sort_by key l).
  Proof. induction l as [|x xs IH]; cbn; [constructor|]. apply insert_by_sorted, IH. Qed.

  Lemma sort_by_length l : length (sort_by key l) = length l.
  Proof. symmetry; apply Permutation_length, sort_by_perm. Qed.
End SortFacts.

Lemma sorted_perm_unique (a b : list Z) :
  StronglySorted Z.le a -> StronglySorted Z.le b -> Permutation a b -> a = b.
Proof.
  revert b; induction a as [|x xs IH]; intros b Ha Hb Hp.
  - apply Permutation_nil in Hp; subst; reflexivity.
  - destruct b as [|y ys]; [symmetry in Hp; apply Permutation_nil in Hp; discriminate|].
    inversion Ha as [|? ? Ha1 Ha2]; inversion Hb as [|? ? Hb1 Hb2]; subst.
    assert (x = y) as ->.
    { apply Z.le_antisymm.
      - assert (In y (x :: xs)) as [->|H].
        { eapply Permutation_in; [symmetry; exact Hp|left; reflexivity]. }
        + lia.
        + rewrite Forall_forall in Ha2; auto.
      - assert (In x (y :: ys)) as [->|H].
        { eapply Permutation_in; [exact Hp|left; reflexivity]. }
        + lia.
        + rewrite Forall_forall in Hb2; auto. }
    f_equal. apply IH; auto. eapply Permutation_cons_inv; exact Hp.
Qed.

Lemma eqb_listZ_spec a b : eqb_listZ a b = true <-> a = b.
Proof.
  revert b; induction a as [|x xs IH]; intros [|y ys]; cbn; split; intros H; try congruence; auto.
  - apply andb_prop in H as [H1 H2]. apply Z.eqb_eq in H1; apply IH in H2; congruence.
  - injection H as -> ->. rewrite Z.eqb_refl; cbn; apply IH; reflexivity.
Qed.

Lemma eqb_list_nat_spec a b : eqb_list_nat a b = true <-> a = b.
Proof.
  revert b; induction a as [|x xs IH]; intros [|y ys]; cbn; split; intros H; try congruence; auto.
  - apply andb_prop in H as [H1 H2]. apply Nat.eqb_eq in H1; apply IH in H2; congruence.
  - injection H as -> ->. rewrite Nat.eqb_refl; cbn; apply IH; reflexivity.
Qed.

Lemma seq_sortedZ n m : StronglySorted Z.le (map Z.of_nat (seq m n)).
Proof.
  revert m; induction n as [|n IH]; intros m; cbn; [constructor|].
  constructor; [apply IH|]. rewrite Forall_forall. intros z Hz.
  apply in_map_iff in Hz as (k & <- & Hk). apply in_seq in Hk. lia.
Qed.

Lemma sort_eq_range_iff (l : list Z) n :
  eqb_listZ (sortZ l) (map Z.of_nat (seq 0 n)) = true
  <-> Permutation l (map Z.of_nat (seq 0 n)).
Proof.
  rewrite eqb_listZ_spec. split.
  - intros <-. apply sort_by_perm.
  - intros Hp. apply sorted_perm_unique.
    + apply (sort_by_sorted (fun z : Z => z) l).
    + apply seq_sortedZ.
    + rewrite <- Hp. symmetry; apply (sort_by_perm (fun z : Z => z)).
Qed.

Lemma Permutation_map_of_nat a b :
  Permutation (map Z.of_nat a) (map Z.of_nat b) -> Permutation a b.
Proof.
  intros H. apply (Permutation_map Z.to_nat) in H.
  rewrite !map_map in H.
  rewrite (map_ext _ id) in H by (intros; apply Nat2Z.id).
  rewrite (map_ext (fun x => Z.to_nat (Z.of_nat x)) id) in H by (intros; apply Nat2Z.id).
  rewrite !map_id in H. exact H.
Qed.

(** max / min *)
Lemma fold_max_ge xs x : x <= fold_left Nat.max xs x /\ forall y, In y xs -> y <= fold_left Nat.max xs x.
Proof.
  revert x; induction xs as [|z zs IH]; intros x; cbn; [split; [lia|tauto]|].
  destruct (IH (Nat.max x z)) as [H1 H2]. split; [lia|].
  intros y [->|Hy]; [lia|auto].
Qed.
Lemma fold_max_in xs x : fold_left Nat.max xs x = x \/ In (fold_left Nat.max xs x) xs.
Proof.
  revert x; induction xs as [|z zs IH]; intros x; cbn; [tauto|].
  destruct (IH (Nat.max x z)) as [H|H]; [|tauto]. rewrite H.
  destruct (Nat.max_spec x z) as [[_ ->]|[_ ->]]; auto.
Qed.
Lemma fold_min_le xs x : fold_left Nat.min xs x <= x /\ forall y, In y xs -> fold_left Nat.min xs x <= y.
Proof.
  revert x; induction xs as [|z zs IH]; intros x; cbn; [split; [lia|tauto]|].
  destruct (IH (Nat.min x z)) as [H1 H2]. split; [lia|].
  intros y [->|Hy]; [lia|auto].
Qed.
Lemma fold_min_in xs x : fold_left Nat.min xs x = x \/ In (fold_left Nat.min xs x) xs.
Proof.
  revert x; induction xs as [|z zs IH]; intros x; cbn; [tauto|].
  destruct (IH (Nat.min x z)) as [H|H]; [|tauto]. rewrite H.
  destruct (Nat.min_spec x z) as [[_ ->]|[_ ->]]; auto.
Qed.

Lemma list_max1_spec l m : list_max1 l = Some m <-> (In m l /\ forall y, In y l -> y <= m).
Proof.
  destruct l as [|x xs]; cbn; split.
  - discriminate.
  - intros [[] _].
  - intros H; injection H as <-. destruct (fold_max_ge xs x) as [H1 H2].
    split; [destruct (fold_max_in xs x) as [->|H]; auto|]. intros y [<-|Hy]; auto.
  - intros [Hin Hub]. f_equal. destruct (fold_max_ge xs x) as [H1 H2].
    apply Nat.le_antisymm.
    + apply Hub. destruct (fold_max_in xs x) as [->|H]; auto.
    + destruct Hin as [<-|Hin]; auto.
Qed.
Lemma list_min1_spec l m : list_min1 l = Some m <-> (In m l /\ forall y, In y l -> m <= y).
Proof.
  destruct l as [|x xs]; cbn; split.
  - discriminate.
  - intros [[] _].
  - intros H; injection H as <-. destruct (fold_min_le xs x) as [H1 H2].
    split; [destruct (fold_min_in xs x) as [->|H]; auto|]. intros y [<-|Hy]; auto.
  - intros [Hin Hub]. f_equal. destruct (fold_min_le xs x) as [H1 H2].
    apply Nat.le_antisymm.
    + destruct Hin as [<-|Hin]; auto.
    + apply Hub. destruct (fold_min_in xs x) as [->|H]; auto.
Qed.
Lemma list_max1_Some l : l <> [] -> exists m, list_max1 l = Some m.
Proof. destruct l; [congruence|cbn; eauto]. Qed.
Lemma list_min1_Some l : l <> [] -> exists m, list_min1 l = Some m.
Proof. destruct l; [congruence|cbn; eauto]. Qed.

Lemma nth_error_nth_lt {A} (l : list A) i d : i < length l -> nth_error l i = Some (nth i l d).
Proof. intros H; apply nth_error_nth'; exact H. Qed.

Lemma list_eq_nth {A} (a b : list A) (d : A) :
  length a = length b -> (forall i, i < length a -> nth i a d = nth i b d) -> a = b.
Proof. intros Hl H; apply (nth_ext a b d d Hl H). Qed.

Lemma firstn_seq k s n : firstn k (seq s n) = seq s (Nat.min k n).
Proof.
  revert s n; induction k as [|k IH]; intros s [|n]; cbn; try reflexivity.
  rewrite IH; reflexivity.
Qed.

Lemma nth_map_lt {A B} (f : A -> B) (l : list A) j (d : B) (d' : A) :
  j < length l -> nth j (map f l) d = f (nth j l d').
Proof.
  intros Hj. rewrite (nth_indep (map f l) d (f d')) by (rewrite map_length; exact Hj).
  apply map_nth.
Qed.

Lemma NoDup_app_remove_l {A} (l l' : list A) : NoDup (l ++ l') -> NoDup l'.
Proof. induction l as [|x xs IH]; cbn; intros H; [exact H|]. inversion H; auto. Qed.
Lemma NoDup_app_remove_r {A} (l l' : list A) : NoDup (l ++ l') -> NoDup l.
Proof.
  induction l as [|x xs IH]; cbn; intros H; [constructor|]. inversion H as [|? ? H1 H2]; subst.
  constructor; [|auto]. intros Hin; apply H1, in_or_app; left; exact Hin.
Qed.
Lemma NoDup_app_disj {A} (l l' : list A) x : NoDup (l ++ l') -> In x l -> ~ In x l'.
Proof.
  induction l as [|y ys IH]; cbn; intros H Hx; [destruct Hx|].
  inversion H as [|? ? H1 H2]; subst. destruct Hx as [->|Hx]; [|auto].
  intros Hin; apply H1, in_or_app; right; exact Hin.
Qed.
Lemma NoDup_app_intro {A} (l l' : list A) :
  NoDup l -> NoDup l' -> (forall x, In x l -> ~ In x l') -> NoDup (l ++ l').
Proof.
  induction l as [|y ys IH]; cbn; intros H1 H2 H3; [exact H2|].
  inversion H1 as [|? ? H4 H5]; subst. constructor; [|apply IH; auto].
  intros Hin; apply in_app_or in Hin as [Hin|Hin]; [auto|]. eapply H3; eauto.
Qed.

Lemma nth_firstn_lt {A} (l : list A) i m d : i < m -> nth i (firstn m l) d = nth i l d.
Proof.
  revert l m; induction i as [|i IH]; intros [|x xs] [|m] H; cbn; try reflexivity; try lia.
  apply IH; lia.
Qed.

Lemma nth_skipn_add {A} (l : list A) i m d : nth i (skipn m l) d = nth (m + i) l d.
Proof.
  revert l; induction m as [|m IH]; intros [|x xs]; cbn; try reflexivity.
  - destruct i; reflexivity.
  - apply IH.
Qed.

Lemma filter_id_in {A} (f : A -> bool) l : (forall x, In x l -> f x = true) -> filter f l = l.
Proof.
  induction l as [|x l IH]; intros H; [reflexivity|]. cbn.
  rewrite (H x) by (left; reflexivity). f_equal. apply IH. intros y Hy; apply H; right; exact Hy.
Qed.

Lemma filter_filter_and {A} (f g : A -> bool) l :
  filter f (filter g l) = filter (fun x => g x && f x) l.
Proof.
  induction l as [|x l IH]; [reflexivity|]. cbn. destruct (g x); cbn; [destruct (f x)|]; rewrite IH; reflexivity.
Qed.
