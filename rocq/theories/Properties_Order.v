(** C22 (operand ordering), C23 (Hilbert space products), C46 (KeyTuple). *)
From Coq Require Import Lia.
From Verif Require Import Prelude ListFacts BinSpec SortModel SortSpec SortProofs HilbertModel HilbertSpec
  OrderProofs HilbertProofs.

(** ** C46: KeyTuple comparison *)

(** on keys whose elements can be compared, [<] is the dictionary order *)
Theorem C46_keytuple_dictionary str_of l l' :
  comparable_keys l l' -> kt_lt str_of l l' = true <-> key_compare l l' = Lt.
Proof. apply kt_lt_ok. Qed.

(** and hence a strict total order on any set of mutually comparable keys *)
Theorem C46_keytuple_strict_order str_of (K : list elt -> Prop) :
  (forall a b, K a -> K b -> comparable_keys a b) ->
  (forall a, K a -> kt_lt str_of a a = false)
  /\ (forall a b, K a -> K b -> a <> b -> kt_lt str_of a b = negb (kt_lt str_of b a))
  /\ (forall a b c, K a -> K b -> K c ->
        kt_lt str_of a b = true -> kt_lt str_of b c = true -> kt_lt str_of a c = true).
Proof.
  intros HK. split; [|split].
  - intros a Ha. destruct (kt_lt str_of a a) eqn:E; [|reflexivity].
    apply (kt_lt_ok str_of a a (HK a a Ha Ha)) in E.
    assert (E' : key_compare a a = Eq) by (apply key_cmp_eq; reflexivity). congruence.
  - intros a b Ha Hb Hne.
    pose proof (kt_lt_ok str_of a b (HK a b Ha Hb)) as H1.
    pose proof (kt_lt_ok str_of b a (HK b a Hb Ha)) as H2. rewrite key_cmp_opp in H2.
    destruct (key_compare a b) eqn:E; cbn in H2.
    + apply key_cmp_eq in E. contradiction.
    + destruct (kt_lt str_of b a); [destruct H2 as [H2 _]; discriminate (H2 eq_refl)|]. apply H1; reflexivity.
    + destruct H2 as [_ H2]. rewrite (H2 eq_refl). destruct (kt_lt str_of a b); [|reflexivity].
      destruct H1 as [H1 _]. discriminate (H1 eq_refl).
  - intros a b c Ha Hb Hc H1 H2.
    apply (kt_lt_ok str_of) in H1; [|apply HK; assumption].
    apply (kt_lt_ok str_of) in H2; [|apply HK; assumption].
    apply (kt_lt_ok str_of); [apply HK; assumption|]. exact (key_cmp_trans _ _ _ H1 H2).
Qed.

(** The string fallback breaks this: KeyTuple((9,)) < KeyTuple((10,)) <
    KeyTuple(("5",)) < KeyTuple((9,)), where str(9) = "9", str(10) = "10". *)
Definition ex_str (e : elt) : list nat :=
  match e with
  | ENum (NFin z) => str_of_nat (Z.to_nat z)
  | EStr s => s
  | EObj s => s
  | _ => []
  end.
Theorem C46_string_fallback_refuted :
  let a := [ENum (NFin 9)] in let b := [ENum (NFin 10)] in let c := [EStr [53]] in
  kt_lt ex_str a b = true /\ kt_lt ex_str b c = true /\ kt_lt ex_str c a = true.
Proof. repeat split. Qed.

Example C46_hyps :
  let K l := exists s t n, l = [EStr s; ETup [EStr t; ENum n]] in
  (forall a b, K a -> K b -> comparable_keys a b)
  /\ K [EStr [1]; ETup [EStr [2]; ENum (NFin 3)]] /\ K [EStr [1]; ETup [EStr []; ENum NInf]]
  /\ kt_lt ex_str [EStr [1]; ETup [EStr []; ENum NInf]] [EStr [1]; ETup [EStr [2]; ENum (NFin 3)]] = true.
Proof.
  cbv zeta. split; [|split; [|split]].
  - intros a b (s & t & n & ->) (s' & t' & n' & ->). cbn. tauto.
  - exists [1], [2], (NFin 3). reflexivity.
  - exists [1], [], NInf. reflexivity.
  - reflexivity.
Qed.

(** ** C22: ordering of operands *)

(** [sorted] with a consistent comparison returns the operands in order, ties in
    their original order ... *)
Theorem C22_sorted_stable {A} (lt : A -> A -> bool) l :
  consistent lt l -> stable_sort lt l (pysorted lt l).
Proof. apply pysorted_stable. Qed.
(** ... and this determines the result, whatever the sorting method *)
Theorem C22_any_stable_sort {A} (lt : A -> A -> bool) l r :
  consistent lt l -> stable_sort lt l r -> r = pysorted lt l.
Proof. intros HC Hr. exact (stable_sort_unique lt l r _ HC Hr (pysorted_stable lt l HC)). Qed.
(** with any comparison, no operand is lost or duplicated *)
Theorem C22_sorted_permutation {A} (lt : A -> A -> bool) l : Permutation l (pysorted lt l).
Proof. apply pysorted_perm. Qed.

Section Operands.
  Context (str_of : elt -> list nat) {A : Type} (space : A -> hs) (op_key : A -> list elt).

  (** the spaces of two operands have no common factor *)
  Definition spaces_disjoint (x y : A) : Prop :=
    forall s, In s (factors (space x)) -> ~ In s (factors (space y)).

  (** operands of a product on canonical spaces that are pairwise equal or
      disjoint; the keys of scalars can be compared *)
  Definition equal_or_disjoint (ops : list A) : Prop :=
    (forall x, In x ops -> canonical (space x) /\ space x <> Full)
    /\ (forall x y, In x ops -> In y ops -> space x = space y \/ spaces_disjoint x y)
    /\ (forall x y, In x ops -> In y ops -> space x = Trivial -> space y = Trivial ->
          comparable_keys (op_key x) (op_key y)).

  (** [x] goes before [y]: different spaces, by the key of the space; two
      scalars, by their own key *)
  Definition goes_before (x y : A) : bool :=
    match key_compare (space_key (space x)) (space_key (space y)) with
    | Lt => true
    | Gt => false
    | Eq => match space x with
            | Trivial => match key_compare (op_key x) (op_key y) with Lt => true | _ => false end
            | _ => false
            end
    end.

  Lemma disjunct_ltM_ok ops x y : equal_or_disjoint ops -> In x ops -> In y ops ->
    disjunct_ltM str_of space op_key x y = Ok (goes_before x y).
  Proof.
    intros (Hc & Hd & Hk) Hx Hy. unfold disjunct_ltM, goes_before.
    destruct (Hc x Hx) as [Cx Fx]. destruct (Hc y Hy) as [Cy Fy].
    destruct (is_trivial (space x) && is_trivial (space y)) eqn:T.
    - apply andb_true_iff in T. destruct T as [T1 T2].
      assert (Ex : space x = Trivial) by (destruct (space x); (reflexivity || discriminate)).
      assert (Ey : space y = Trivial) by (destruct (space y); (reflexivity || discriminate)).
      rewrite Ex, Ey. replace (key_compare (space_key Trivial) (space_key Trivial)) with Eq by reflexivity.
      f_equal. pose proof (kt_lt_ok str_of _ _ (Hk x y Hx Hy Ex Ey)) as H.
      destruct (kt_lt str_of (op_key x) (op_key y)), (key_compare (op_key x) (op_key y)); try reflexivity;
        destruct H as [H1 H2]; (discriminate (H1 eq_refl) || discriminate (H2 eq_refl)).
    - destruct (isdisjoint_ok (space x) (space y) Cx Cy Fx Fy) as [d [Ed Hdd]].
      rewrite Ed. cbn [bind].
      destruct (hs_eqb (space x) (space y)) eqn:E.
      + apply hs_eqb_spec in E.
        assert (Ek : key_compare (space_key (space x)) (space_key (space y)) = Eq)
          by (rewrite E; apply key_cmp_eq; reflexivity).
        rewrite Ek. destruct (space x) as [| |s|l] eqn:Ex; try congruence.
        * rewrite <- E in T. discriminate.
        * destruct d; [|reflexivity]. exfalso. apply (proj1 Hdd eq_refl s); rewrite <- ?E; left; reflexivity.
        * destruct d; [|reflexivity]. exfalso. destruct l as [|s l]; [cbn in Cx; lia|].
          apply (proj1 Hdd eq_refl s); rewrite <- ?E; left; reflexivity.
      + assert (Hne : space x <> space y) by (intros H; apply hs_eqb_spec in H; congruence).
        destruct (Hd x y Hx Hy) as [H|H]; [contradiction|].
        assert (d = true) by (apply Hdd; exact H). subst d.
        f_equal. pose proof (space_lt_ok str_of (space x) (space y) Cx Cy) as Hs.
        destruct (key_compare (space_key (space x)) (space_key (space y))) eqn:Ec.
        * apply key_cmp_eq in Ec. apply space_key_inj in Ec; [contradiction|exact Cx|exact Cy].
        * apply Hs; reflexivity.
        * destruct (space_lt str_of (space x) (space y)); [|reflexivity].
          destruct Hs as [Hs _]. discriminate (Hs eq_refl).
  Qed.

  Definition full_key (x : A) : list elt :=
    [ETup (space_key (space x));
     match space x with Trivial => ETup (op_key x) | _ => ETup [] end].
  Lemma goes_before_key x y :
    (space_key (space x) = space_key (space y) -> space x = space y) ->
    goes_before x y = true <-> key_compare (full_key x) (full_key y) = Lt.
  Proof.
    intros Hi. unfold goes_before, full_key, key_compare at 3. cbn [dict elt_compare].
    change (dict elt_compare (space_key (space x)) (space_key (space y)))
      with (key_compare (space_key (space x)) (space_key (space y))).
    destruct (key_compare (space_key (space x)) (space_key (space y))) eqn:E.
    - apply key_cmp_eq in E. apply Hi in E. rewrite <- E.
      destruct (space x); cbn [elt_compare]; try (split; discriminate).
      change (dict elt_compare (op_key x) (op_key y)) with (key_compare (op_key x) (op_key y)).
      destruct (key_compare (op_key x) (op_key y)); split; congruence.
    - split; reflexivity.
    - split; discriminate.
  Qed.
  Lemma goes_before_consistent ops : equal_or_disjoint ops -> consistent goes_before ops.
  Proof.
    intros (Hc & _). apply (key_order_consistent _ full_key). intros x y Hx Hy. apply goes_before_key.
    apply space_key_inj; apply Hc; assumption.
  Qed.

  (** Products: the ordering succeeds, the result is a stable sort by space, and
      it denotes the same product for every interpretation in which operands on
      disjoint spaces commute. *)
  Theorem C22_product_preserved ops :
    equal_or_disjoint ops ->
    exists r, orderby_times str_of space op_key ops = Ok r
      /\ stable_sort goes_before ops r
      /\ forall (M : monoid) (den : A -> M),
           (forall x y, In x ops -> In y ops -> spaces_disjoint x y ->
              mul M (den x) (den y) = mul M (den y) (den x)) ->
           product M den r = product M den ops.
  Proof.
    intros H. exists (pysorted goes_before ops).
    pose proof (goes_before_consistent ops H) as HC.
    split; [|split].
    - apply pysortedM_ok. intros x y Hx Hy. apply (disjunct_ltM_ok ops); assumption.
    - apply pysorted_stable, HC.
    - intros M den Hcomm. apply pysorted_product; [exact HC|].
      intros x y Hx Hy Hl. apply Hcomm; [exact Hx|exact Hy|].
      destruct H as (Hc & Hd & _). destruct (Hd x y Hx Hy) as [E|E]; [|exact E].
      unfold goes_before in Hl.
      assert (Ek : key_compare (space_key (space x)) (space_key (space y)) = Eq)
        by (rewrite E; apply key_cmp_eq; reflexivity).
      rewrite Ek in Hl. destruct (space x) eqn:Ex; try discriminate.
      intros s Hs. rewrite Ex in Hs. contradiction.
  Qed.

  (** Operand lists that differ by exchanging neighbours on different spaces are
      ordered identically: the result is a normal form for commutation. *)
  Inductive exchange : list A -> list A -> Prop :=
  | exch u x y v : space x <> space y -> exchange (u ++ x :: y :: v) (u ++ y :: x :: v)
  | exch_refl l : exchange l l
  | exch_trans l1 l2 l3 : exchange l1 l2 -> exchange l2 l3 -> exchange l1 l3.

  Lemma exchange_perm l l' : exchange l l' -> Permutation l l'.
  Proof.
    induction 1; [|reflexivity|etransitivity; eassumption].
    apply Permutation_app_head, perm_swap.
  Qed.
  Lemma equal_or_disjoint_perm l l' : Permutation l l' -> equal_or_disjoint l -> equal_or_disjoint l'.
  Proof.
    intros Hp (H1 & H2 & H3).
    assert (Hi : forall x, In x l' -> In x l) by (intros x; apply Permutation_in; symmetry; exact Hp).
    split; [|split]; auto.
  Qed.
  Theorem C22_normal_form ops ops' :
    equal_or_disjoint ops -> exchange ops ops' ->
    orderby_times str_of space op_key ops = orderby_times str_of space op_key ops'.
  Proof.
    intros H He. induction He as [u x y v Hne|l|l1 l2 l3 He1 IH1 He2 IH2]; [|reflexivity|].
    2:{ rewrite (IH1 H). apply IH2. exact (equal_or_disjoint_perm _ _ (exchange_perm _ _ He1) H). }
    assert (Hp : Permutation (u ++ x :: y :: v) (u ++ y :: x :: v)) by apply Permutation_app_head, perm_swap.
    pose proof (equal_or_disjoint_perm _ _ Hp H) as H'.
    unfold orderby_times.
    rewrite (pysortedM_ok _ goes_before) by (intros a b Ha Hb; apply (disjunct_ltM_ok _ a b H); assumption).
    rewrite (pysortedM_ok _ goes_before) by (intros a b Ha Hb; apply (disjunct_ltM_ok _ a b H'); assumption).
    f_equal.
    pose proof (goes_before_consistent _ H) as HC. pose proof (goes_before_consistent _ H') as HC'.
    symmetry. apply C22_any_stable_sort; [exact HC|].
    destruct (pysorted_stable goes_before _ HC') as (P & S & F).
    split; [rewrite Hp; exact P|]. split; [exact S|].
    intros z Hz. rewrite (F z (Permutation_in z Hp Hz)). rewrite !filter_app. cbn.
    destruct (tied goes_before z x) eqn:Tx, (tied goes_before z y) eqn:Ty; try reflexivity.
    exfalso. apply Hne. destruct H as (Hc & _).
    assert (Hx : In x (u ++ x :: y :: v)) by (apply in_or_app; right; left; reflexivity).
    assert (Hy : In y (u ++ x :: y :: v)) by (apply in_or_app; right; right; left; reflexivity).
    assert (Hk : forall a b, In a (u ++ x :: y :: v) -> In b (u ++ x :: y :: v) ->
               goes_before a b = true <-> key_compare (full_key a) (full_key b) = Lt).
    { intros a b Ha Hb. apply goes_before_key. apply space_key_inj; apply Hc; assumption. }
    assert (E : full_key x = full_key y).
    { transitivity (full_key z); [symmetry|];
        apply (key_order_tied goes_before full_key (u ++ x :: y :: v)); assumption. }
    injection E as E _. apply space_key_inj in E; [exact E|apply Hc, Hx|apply Hc, Hy].
  Qed.

  (** A product of two operands is ordered correctly on any spaces: they are
      exchanged only if their spaces are disjoint. *)
  Theorem C22_two_operands x y :
    (forall z, z = x \/ z = y -> canonical (space z) /\ space z <> Full) ->
    exists r, orderby_times str_of space op_key [x; y] = Ok r
      /\ (r = [x; y] \/ (r = [y; x] /\ spaces_disjoint y x)).
  Proof.
    intros Hc. destruct (Hc x (or_introl eq_refl)) as [Cx Fx]. destruct (Hc y (or_intror eq_refl)) as [Cy Fy].
    destruct (isdisjoint_ok (space y) (space x) Cy Cx Fy Fx) as [d [Ed Hd]].
    unfold orderby_times, pysortedM, count_runM. unfold disjunct_ltM at 1.
    destruct (is_trivial (space y) && is_trivial (space x)) eqn:T.
    - cbn. exists (if kt_lt str_of (op_key y) (op_key x) then [y; x] else [x; y]).
      split; [destruct (kt_lt str_of (op_key y) (op_key x)); reflexivity|].
      destruct (kt_lt str_of (op_key y) (op_key x)); [right|left; reflexivity].
      split; [reflexivity|]. intros s Hs. apply andb_true_iff in T. destruct T as [T _].
      destruct (space y); try discriminate. contradiction.
    - rewrite Ed. cbn [bind]. destruct d; cbn [bind fst snd firstn skipn insert_allM].
      + destruct (space_lt str_of (space y) (space x)); cbn.
        * exists [y; x]. split; [reflexivity|]. right. split; [reflexivity|]. exact (proj1 Hd eq_refl).
        * exists [x; y]. split; [reflexivity|left; reflexivity].
      + exists [x; y]. split; [reflexivity|left; reflexivity].
  Qed.

  (** Sums: every permutation of the operands is ordered identically, provided
      that different operands have different, comparable keys. *)
  Theorem C22_sum_canonical ops ops' :
    (forall x, In x ops -> canonical (space x)) ->
    (forall x y, In x ops -> In y ops -> space x = space y ->
       comparable_keys (op_key x) (op_key y) /\ (op_key x = op_key y -> x = y)) ->
    Permutation ops ops' ->
    orderby_plus str_of space op_key ops = orderby_plus str_of space op_key ops'.
  Proof.
    intros Hc Hk Hp. set (K := fun x => [ETup (space_key (space x)); ETup (op_key x)]).
    assert (HK : forall x y, In x ops -> In y ops ->
              full_lt str_of space op_key x y = true <-> key_compare (K x) (K y) = Lt).
    { intros x y Hx Hy. unfold full_lt, K, key_compare. cbn [dict elt_compare].
      change (dict elt_compare (space_key (space x)) (space_key (space y)))
        with (key_compare (space_key (space x)) (space_key (space y))).
      change (dict elt_compare (op_key x) (op_key y)) with (key_compare (op_key x) (op_key y)).
      destruct (hs_eqb (space x) (space y)) eqn:E.
      - apply hs_eqb_spec in E.
        assert (Ek : key_compare (space_key (space x)) (space_key (space y)) = Eq)
          by (rewrite E; apply key_cmp_eq; reflexivity).
        rewrite Ek. rewrite (kt_lt_ok str_of _ _ (proj1 (Hk x y Hx Hy E))).
        destruct (key_compare (op_key x) (op_key y)); split; congruence.
      - rewrite (space_lt_ok str_of _ _ (Hc x Hx) (Hc y Hy)).
        destruct (key_compare (space_key (space x)) (space_key (space y))) eqn:Ec; try (split; congruence).
        apply key_cmp_eq in Ec. apply space_key_inj in Ec; [|apply Hc, Hx|apply Hc, Hy].
        assert (hs_eqb (space x) (space y) = true) by (apply hs_eqb_spec; exact Ec). congruence. }
    apply pysorted_permutation; [exact (key_order_consistent _ K ops HK)| |exact Hp].
    intros x y Hx Hy Ht. pose proof (key_order_tied _ K ops x y HK Hx Hy Ht) as E.
    injection E as E1 E2. apply space_key_inj in E1; [|apply Hc, Hx|apply Hc, Hy].
    apply (Hk x y Hx Hy E1), E2.
  Qed.
End Operands.

(** a concrete case: operators on the spaces 2, 0, 1, 0 and two scalars *)
Definition ex_space (n : nat) : hs := Local (mk_local None (Lit [48 + n]) None []).
Definition ex_ops : list (hs * nat) :=
  [(ex_space 2, 0); (ex_space 0, 1); (ex_space 1, 2); (ex_space 0, 3); (Trivial, 5); (Trivial, 4)].
Definition ex_key (x : hs * nat) : list elt := [ENum (NFin (Z.of_nat (snd x)))].
Example C22_hyps :
  equal_or_disjoint fst ex_key ex_ops
  /\ orderby_times ex_str fst ex_key ex_ops
     = Ok [(Trivial, 4); (Trivial, 5); (ex_space 0, 1); (ex_space 0, 3); (ex_space 1, 2); (ex_space 2, 0)].
Proof.
  split; [|vm_compute; reflexivity]. split; [|split].
  - intros x Hx. cbn in Hx. decompose [or] Hx; subst; try contradiction; (split; [|discriminate]);
      cbn; try exact I; eexists; reflexivity.
  - intros x y Hx Hy. cbn in Hx, Hy. decompose [or] Hx; decompose [or] Hy; subst; try contradiction;
      try (left; reflexivity); right; intros s Hs Ht; cbn in Hs, Ht; try contradiction;
      destruct Hs as [<-|[]]; destruct Ht as [Ht|[]]; discriminate Ht.
  - intros x y _ _ _ _. cbn. tauto.
Qed.

(** ** Where C22 fails *)

(** With overlapping spaces the order "disjoint and smaller" is not consistent,
    and [sorted] moves an operator past one that it does not commute with:
    [A2 * A0 * C12 * B1] becomes [A0 * B1 * A2 * C12]. *)
Definition ov_space (n : nat) : hs :=
  match n with
  | 12 => Prod [mk_local None (Lit [49]) None []; mk_local None (Lit [50]) None []]
  | _ => ex_space n
  end.
Definition ov_ops : list nat := [2; 0; 12; 1].
(** the monoid {1, b, c} with [x * y = x] for [x <> 1] *)
Definition lz : monoid.
Proof.
  refine (Build_monoid nat (fun x y => if x =? 0 then y else x) 0 _ _ _).
  - intros [|a] [|b] [|c]; reflexivity.
  - reflexivity.
  - intros [|a]; reflexivity.
Defined.
Definition ov_den (n : nat) : lz := match n with 1 => 1 | 12 => 2 | _ => 0 end.
Theorem C22_overlapping_refuted :
  (forall x y, In x ov_ops -> In y ov_ops -> spaces_disjoint ov_space x y ->
     mul lz (ov_den x) (ov_den y) = mul lz (ov_den y) (ov_den x))
  /\ (forall x, In x ov_ops -> canonical (ov_space x) /\ ov_space x <> Full)
  /\ exists r, orderby_times ex_str ov_space (fun n => [ENum (NFin (Z.of_nat n))]) ov_ops = Ok r
       /\ r = [0; 1; 2; 12] /\ product lz ov_den r <> product lz ov_den ov_ops.
Proof.
  split; [|split].
  - intros x y Hx Hy Hd. cbn in Hx, Hy. decompose [or] Hx; decompose [or] Hy; subst; try contradiction; try reflexivity.
    + exfalso. apply (Hd (mk_local None (Lit [49]) None [])); cbn; auto.
    + exfalso. apply (Hd (mk_local None (Lit [49]) None [])); cbn; auto.
  - intros x Hx. cbn in Hx. decompose [or] Hx; subst; try contradiction; (split; [|discriminate]);
      cbn; try (eexists; reflexivity).
    split; [lia|]. split.
    + intros s [<-|[<-|[]]]; eexists; reflexivity.
    + apply SSorted_cons; [apply SSorted_cons; [constructor|constructor]|].
      constructor; [reflexivity|constructor].
  - exists [0; 1; 2; 12]. split; [vm_compute; reflexivity|]. split; [reflexivity|]. discriminate.
Qed.

(** An operand on a space with a symbolic label (here operand 7, which may stand
    for space 1) is overtaken too. *)
Definition sy_space (n : nat) : hs :=
  match n with 7 => Local (mk_local None (Sym 0) None []) | _ => ex_space n end.
Theorem C22_symbolic_label_refuted :
  (forall n, isdisjoint (sy_space 7) (ex_space n) = Ok false)
  /\ exists r, orderby_times ex_str sy_space (fun n => [ENum (NFin (Z.of_nat n))]) [2; 0; 7; 1] = Ok r
       /\ r = [0; 1; 2; 7].
Proof. split; [reflexivity|]. eexists. split; [vm_compute; reflexivity|reflexivity]. Qed.

(** An operator on FullSpace cannot be ordered after another operator. *)
Theorem C22_full_space_refuted str_of {A} (space : A -> hs) op_key x y :
  space x <> Full -> space y = Full ->
  orderby_times str_of space op_key [x; y] = Err AlgebraError.
Proof.
  intros Hx Hy. unfold orderby_times, pysortedM, count_runM. unfold disjunct_ltM at 1. rewrite Hy.
  cbn [is_trivial andb]. unfold isdisjoint. destruct (space x); try congruence; reflexivity.
Qed.

(** ** C23: products of Hilbert spaces behave like sets of local factors *)
Section Spaces.
  Context (str_of : elt -> list nat) (iter : list hs -> list hs).
  Notation create := (prod_create str_of iter).
  (** the set iteration order is some permutation *)
  Definition iterates : Prop := forall l, Permutation l (iter l).

  Theorem C23_create_is_union args :
    iterates -> (forall a, In a args -> arg_ok a) ->
    exists h, create args = Ok h
      /\ is_product_of (fun s => exists a, In a args /\ arg_factor a s) h.
  Proof. intros Hi Ha. apply create_ok; assumption. Qed.
  Theorem C23_create_full args : In (HS Full) args -> create args = Ok Full.
  Proof. apply create_full. Qed.
  (** a canonical space is determined by its factors *)
  Theorem C23_extensional P h h' : is_product_of P h -> is_product_of P h' -> h = h'.
  Proof. apply product_unique. Qed.

  Theorem C23_remove a b :
    iterates -> canonical a -> canonical b -> a <> Full -> b <> Full ->
    (forall s, a = Local s -> b = a \/ ~ In s (factors b)) ->
    exists h, remove str_of iter a b = Ok h
      /\ is_product_of (fun s => In s (factors a) /\ ~ In s (factors b)) h.
  Proof. intros Hi. apply remove_ok, Hi. Qed.
  Theorem C23_intersect a b :
    iterates -> canonical a -> canonical b -> a <> Full -> b <> Full ->
    exists h, intersect str_of iter a b = Ok h
      /\ is_product_of (fun s => In s (factors a) /\ In s (factors b)) h.
  Proof. intros Hi. apply intersect_ok, Hi. Qed.
End Spaces.

(** equal sets of operands give equal products, in any set iteration order:
    commutative, idempotent *)
Theorem C23_create_set_semantics str_of str_of' iter iter' args args' :
  iterates iter -> iterates iter' ->
  (forall a, In a args -> arg_ok a) -> (forall a, In a args' -> arg_ok a) ->
  (forall s, (exists a, In a args /\ arg_factor a s) <-> (exists a, In a args' /\ arg_factor a s)) ->
  prod_create str_of iter args = prod_create str_of' iter' args'.
Proof.
  intros Hi Hi' Ha Ha' He.
  destruct (create_ok str_of iter Hi args Ha) as [h [E P]].
  destruct (create_ok str_of' iter' Hi' args' Ha') as [h' [E' P']].
  rewrite E, E'. f_equal. eapply product_unique; [exact P|]. eapply product_ext; [|exact P'].
  intros s. symmetry. apply He.
Qed.
(** associative *)
Theorem C23_create_associative str_of iter args args' h :
  iterates iter -> (forall a, In a args -> arg_ok a) -> (forall a, In a args' -> arg_ok a) ->
  prod_create str_of iter args = Ok h ->
  prod_create str_of iter (args ++ args') = prod_create str_of iter (HS h :: args').
Proof.
  intros Hi Ha Ha' E. destruct (create_ok str_of iter Hi args Ha) as [h' [E' [C [F P]]]].
  rewrite E in E'. injection E' as <-.
  apply C23_create_set_semantics; try assumption.
  - intros a Hin. apply in_app_or in Hin. destruct Hin; auto.
  - intros a [<-|Hin]; [split; assumption|auto].
  - intros s. split.
    + intros [a [Hin Hf]]. apply in_app_or in Hin. destruct Hin as [Hin|Hin].
      * exists (HS h). split; [left; reflexivity|]. apply P. exists a. auto.
      * exists a. split; [right; exact Hin|exact Hf].
    + intros [a [[<-|Hin] Hf]].
      * apply P in Hf. destruct Hf as [a [Hin Hf]]. exists a. split; [apply in_or_app; left; exact Hin|exact Hf].
      * exists a. split; [apply in_or_app; right; exact Hin|exact Hf].
Qed.

(** strict subfactors, and the partial order of tensor factors *)
Theorem C23_strict_subfactor a b :
  canonical a -> canonical b -> a <> Full -> b <> Full ->
  is_strict_subfactor_of a b = true <->
  (forall s, In s (factors a) -> In s (factors b)) /\ exists s, In s (factors b) /\ ~ In s (factors a).
Proof. apply strict_ok. Qed.
Theorem C23_full_is_top a : a <> Full ->
  is_strict_subfactor_of a Full = true /\ is_strict_subfactor_of Full a = false.
Proof. intros H. destruct a; try congruence; split; reflexivity. Qed.

Lemma factor_of_ok a b : canonical a -> canonical b -> a <> Full -> b <> Full ->
  is_tensor_factor_of a b = true <-> forall s, In s (factors a) -> In s (factors b).
Proof.
  intros Ha Hb Fa Fb. unfold is_tensor_factor_of. rewrite orb_true_iff, hs_eqb_spec.
  rewrite (strict_ok a b Ha Hb Fa Fb). split.
  - intros [->|[H _]]; [auto|exact H].
  - intros H. destruct (forallb (fun s => mem s (factors a)) (factors b)) eqn:E.
    + left. apply canonical_ext; try assumption. rewrite forallb_mem in E. intros s; split; auto.
    + right. split; [exact H|].
      assert (E' : ~ (forall s, In s (factors b) -> In s (factors a))) by (rewrite <- forallb_mem; congruence).
      clear - E. induction (factors b) as [|x l IH]; cbn in E; [discriminate|].
      apply andb_false_iff in E. destruct E as [E|E].
      * exists x. split; [left; reflexivity|apply mem_false, E].
      * destruct (IH E) as [s [H1 H2]]. exists s. split; [right; exact H1|exact H2].
Qed.
Theorem C23_tensor_factor_order :
  (forall a, is_tensor_factor_of a a = true)
  /\ (forall a b, canonical a -> canonical b ->
        is_tensor_factor_of a b = true -> is_tensor_factor_of b a = true -> a = b)
  /\ (forall a b c, canonical a -> canonical b -> canonical c ->
        is_tensor_factor_of a b = true -> is_tensor_factor_of b c = true -> is_tensor_factor_of a c = true)
  /\ (forall a, is_tensor_factor_of Trivial a = true /\ is_tensor_factor_of a Full = true).
Proof.
  assert (Hfl : forall a, is_tensor_factor_of Full a = true -> a = Full).
  { intros a. destruct a; cbn; congruence. }
  assert (Hdec : forall a : hs, a = Full \/ a <> Full) by (intros []; auto; right; discriminate).
  assert (Htop : forall a, is_tensor_factor_of a Full = true) by (intros []; reflexivity).
  split; [|split; [|split]].
  - intros a. unfold is_tensor_factor_of. apply orb_true_iff. left. apply hs_eqb_spec. reflexivity.
  - intros a b Ha Hb H1 H2.
    destruct (Hdec a) as [->|Fa]; [symmetry; apply Hfl, H1|].
    destruct (Hdec b) as [->|Fb]; [apply Hfl, H2|].
    rewrite factor_of_ok in H1 by assumption. rewrite factor_of_ok in H2 by assumption.
    apply canonical_ext; try assumption. intros s; split; auto.
  - intros a b c Ha Hb Hc H1 H2.
    destruct (Hdec c) as [->|Fc]; [apply Htop|].
    destruct (Hdec b) as [->|Fb]; [apply Hfl in H2; contradiction|].
    destruct (Hdec a) as [->|Fa]; [apply Hfl in H1; contradiction|].
    rewrite factor_of_ok in H1 by assumption. rewrite factor_of_ok in H2 by assumption.
    rewrite factor_of_ok by assumption. auto.
  - intros a. split; [destruct a; reflexivity|apply Htop].
Qed.

Theorem C23_isdisjoint a b :
  canonical a -> canonical b -> a <> Full -> b <> Full ->
  exists d, isdisjoint a b = Ok d
    /\ (d = true <-> forall s, In s (factors a) -> ~ In s (factors b)).
Proof. apply isdisjoint_ok. Qed.

(** a space with a symbolic label (its value is not known yet) is never disjoint from another *)
Theorem C23_isdisjoint_symbolic a b s :
  a <> Full -> b <> Full -> In s (factors a) \/ In s (factors b) -> is_sym s = true -> isdisjoint a b = Ok false.
Proof.
  intros Fa Fb H Hs. assert (local_factors a = Ok (factors a)) as Ea by (destruct a; try reflexivity; congruence).
  assert (local_factors b = Ok (factors b)) as Eb by (destruct b; try reflexivity; congruence).
  assert (forall l, In s l -> existsb is_sym l = true) as G by (intros l Hl; apply existsb_exists; exists s; now split).
  unfold isdisjoint. destruct b; try congruence; rewrite Ea; cbn [bind]; (destruct (existsb is_sym (factors a)) eqn:E; [reflexivity|]); rewrite Eb; cbn [bind];
    (destruct H as [H|H]; [rewrite (G _ H) in E; discriminate|rewrite (G _ H); reflexivity]).
Qed.
(** removing FullSpace leaves nothing of a product or of the trivial space; it cannot be taken from itself *)
Theorem C23_remove_full str_of iter : (forall l, remove str_of iter (Prod l) Full = Ok Trivial)
  /\ remove str_of iter Trivial Full = Ok Trivial /\ forall b, remove str_of iter Full b = Err AlgebraError.
Proof. repeat split. Qed.
(** but a local space is left unchanged *)
Theorem C23_remove_full_local_refuted str_of iter s : remove str_of iter (Local s) Full = Ok (Local s).
Proof. reflexivity. Qed.

(** removing a product that contains it leaves a local space unchanged *)
Theorem C23_remove_local_refuted :
  let s := mk_local None (Lit [48]) None [] in let t := mk_local None (Lit [49]) None [] in
  canonical (Local s) /\ canonical (Prod [s; t])
  /\ forall str_of iter, remove str_of iter (Local s) (Prod [s; t]) = Ok (Local s).
Proof.
  cbv zeta. split; [eexists; reflexivity|]. split; [|reflexivity].
  split; [cbn; lia|]. split.
  - intros s [<-|[<-|[]]]; eexists; reflexivity.
  - apply SSorted_cons; [apply SSorted_cons; [constructor|constructor]|]. constructor; [reflexivity|constructor].
Qed.
(** intersection and disjointness with FullSpace are not symmetric: they raise
    when FullSpace is on the wrong side *)
Theorem C23_full_asymmetric_refuted s str_of iter :
  intersect str_of iter Full (Local s) = Ok (Local s)
  /\ intersect str_of iter (Local s) Full = Err AlgebraError
  /\ isdisjoint (Local s) Full = Ok false /\ isdisjoint Full (Local s) = Err AlgebraError.
Proof. repeat split. Qed.

Example C23_symbolic_hyps : let s := mk_local None (Sym 0) None [] in Local s <> Full /\ In s (factors (Local s)) /\ is_sym s = true
  /\ isdisjoint (ex_space 1) (Local s) = Ok false.
Proof. repeat split; [discriminate|now left]. Qed.
Example C23_hyps :
  let sp n := HS (ex_space n) in
  iterates (@rev hs) /\ (forall a, In a [sp 2; Lbl [48]; HS Trivial; sp 2] -> arg_ok a)
  /\ prod_create ex_str (@rev hs) [sp 2; Lbl [48]; HS Trivial; sp 2]
     = Ok (Prod [mk_local None (Lit [48]) None []; mk_local None (Lit [50]) None []]).
Proof.
  cbv zeta. split; [intros l; apply Permutation_rev|]. split; [|vm_compute; reflexivity].
  intros a Ha. cbn in Ha. decompose [or] Ha; subst; try contradiction; cbn; try reflexivity;
    (split; [|discriminate]); try exact I; eexists; reflexivity.
Qed.

Print Assumptions C46_keytuple_dictionary.
Print Assumptions C46_keytuple_strict_order.
Print Assumptions C46_string_fallback_refuted.
Print Assumptions C22_sorted_stable.
Print Assumptions C22_any_stable_sort.
Print Assumptions C22_sorted_permutation.
Print Assumptions C22_product_preserved.
Print Assumptions C22_normal_form.
Print Assumptions C22_two_operands.
Print Assumptions C22_sum_canonical.
Print Assumptions C22_overlapping_refuted.
Print Assumptions C22_symbolic_label_refuted.
Print Assumptions C22_full_space_refuted.
Print Assumptions C23_create_is_union.
Print Assumptions C23_create_set_semantics.
Print Assumptions C23_create_associative.
Print Assumptions C23_remove.
Print Assumptions C23_intersect.
Print Assumptions C23_strict_subfactor.
Print Assumptions C23_tensor_factor_order.
Print Assumptions C23_isdisjoint. Print Assumptions C23_isdisjoint_symbolic. Print Assumptions C23_remove_full. Print Assumptions C23_remove_full_local_refuted.
Print Assumptions C23_remove_local_refuted.
Print Assumptions C23_full_asymmetric_refuted.
