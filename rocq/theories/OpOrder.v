(** When sorting the factors of a product is harmless. *)
From Coq Require Import Sorting Permutation.
From Verif Require Import Prelude ListFacts SortModel SortSpec SortProofs BinModel OpModel OpSpec OpProofs1 OpFuel.

(** sorting commutes with forgetting labels *)
Section Map.
  Context {A B : Type} (f : A -> B) (lt : B -> B -> bool).
  Local Notation lt' := (fun x y => lt (f x) (f y)).
  Lemma run_length_map d l : forall x, run_length lt d (f x) (map f l) = run_length lt' d x l.
  Proof. induction l as [|y l IH]; intros x; [reflexivity|]. cbn [map run_length]. destruct (Bool.eqb _ _); [now rewrite IH|reflexivity]. Qed.
  Lemma count_run_map l : count_run lt (map f l) = count_run lt' l.
  Proof. destruct l as [|x [|y l]]; [reflexivity|reflexivity|]. cbn [map count_run]. now rewrite run_length_map. Qed.
  Lemma bisect_map a p : forall n lo hi, bisect lt n (map f a) (f p) lo hi = bisect lt' n a p lo hi.
  Proof.
    induction n as [|n IH]; intros lo hi; [reflexivity|]. cbn [bisect]. destruct (lo <? hi); [|reflexivity]. rewrite nth_error_map.
    destruct (nth_error a _) as [x|]; [|reflexivity]. cbn [option_map]. rewrite !IH. reflexivity.
  Qed.
  Lemma binary_insert_map a p : binary_insert lt (map f a) (f p) = map f (binary_insert lt' a p).
  Proof. unfold binary_insert. now rewrite map_length, bisect_map, map_app, firstn_map, map_cons, skipn_map. Qed.
  Lemma fold_insert_map l : forall a, fold_left (binary_insert lt) (map f l) (map f a) = map f (fold_left (binary_insert lt') l a).
  Proof. induction l as [|x l IH]; intros a; [reflexivity|]. cbn [map fold_left]. rewrite binary_insert_map. apply IH. Qed.
  Lemma pysorted_map l : pysorted lt (map f l) = map f (pysorted lt' l).
  Proof.
    unfold pysorted. rewrite count_run_map. destruct (count_run lt' l) as [n d]. rewrite skipn_map, firstn_map, <- map_rev.
    destruct d; apply fold_insert_map.
  Qed.
End Map.

Section Order.
  Context {S : scalars} (olt : op S -> op S -> bool) (slt : list nat -> list nat -> bool).
  Local Notation op := (op S).
  Local Notation lt := (odisj_lt olt slt).
  Local Notation ilt := (fun p q : nat * op => lt (snd p) (snd q)).

  Definition indexed (l : list op) : list (nat * op) := combine (seq 0 (length l)) l.
  (** no operator stands left of one that was originally before it and shares a
      local space with it *)
  Fixpoint careful (r : list (nat * op)) : bool :=
    match r with
    | [] => true
    | (i, x) :: r' => forallb (fun jy : nat * op => let '(j, y) := jy in (i <? j) || sp_disjoint (space x) (space y)) r' && careful r'
    end.
  (** [sorted(ops, key=DisjunctCommutativeHSOrder)], undefined where it moves an
      operator past one that shares a local space with it *)
  Definition careful_order (l : list op) : res (list op) :=
    let r := pysorted ilt (indexed l) in
    if careful r then Ok (map snd r) else Err Unmodelled.

  Lemma indexed_snd l : map snd (indexed l) = l.
  Proof.
    unfold indexed. generalize 0. induction l as [|x l IH]; intros n; [reflexivity|]. cbn [length seq combine map]. now rewrite IH.
  Qed.
  Lemma indexed_sorted l : StronglySorted (fun p q : nat * op => fst p < fst q) (indexed l).
  Proof.
    unfold indexed. generalize 0. induction l as [|x l IH]; intros n; [constructor|]. cbn [length seq combine]. constructor; [apply IH|].
    apply Forall_forall. intros [j y] Hy. apply in_combine_l in Hy. apply in_seq in Hy. cbn [fst]. lia.
  Qed.
  Lemma careful_real l : le (careful_order l) (real_order olt slt l).
  Proof.
    unfold careful_order, real_order. destruct (careful _); [|left; now right]. right. f_equal.
    rewrite <- (pysorted_map snd lt), indexed_snd. reflexivity.
  Qed.
  Lemma moves_cons (x : op) l l' : moves l l' -> moves (x :: l) (x :: l').
  Proof.
    induction 1 as [pre u v post H|l|l1 l2 l3 _ IH1 _ IH2].
    - apply (mv_swap (x :: pre)). exact H.
    - apply mv_refl.
    - eapply mv_trans; eassumption.
  Qed.
  Lemma moves_front (x : op) pre post : (forall y, In y pre -> apart (space y) (space x)) -> moves (pre ++ x :: post) (x :: pre ++ post).
  Proof.
    induction pre as [|y pre IH]; intros H; [apply mv_refl|]. cbn [app]. apply mv_trans with (y :: x :: pre ++ post).
    - apply moves_cons, IH. intros z Hz. apply H. now right.
    - apply (mv_swap []). apply H. now left.
  Qed.
  Lemma sorted_app_inv {X} (R : X -> X -> Prop) u x v : StronglySorted R (u ++ x :: v) ->
    StronglySorted R (u ++ v) /\ (forall y, In y u -> R y x) /\ (forall y, In y v -> R x y).
  Proof.
    induction u as [|z u IH]; cbn [app]; intros H.
    - inversion H as [|? ? H1 H2]; subst. split; [exact H1|]. split; [easy|]. now rewrite Forall_forall in H2.
    - inversion H as [|? ? H1 H2]; subst. destruct (IH H1) as [G1 [G2 G3]]. rewrite Forall_app in H2. destruct H2 as [H2 H3]. split; [|split].
      + constructor; [exact G1|]. apply Forall_app. split; [exact H2|exact (Forall_inv_tail H3)].
      + intros y [<- |Hy]; [exact (Forall_inv H3)|now apply G2].
      + exact G3.
  Qed.
  Lemma careful_moves r : forall s, StronglySorted (fun p q : nat * op => fst p < fst q) s -> Permutation s r -> careful r = true ->
    moves (map snd s) (map snd r).
  Proof.
    induction r as [|[i x] r IH]; intros s Hs Hp Hc.
    - apply Permutation_sym, Permutation_nil in Hp. subst s. apply mv_refl.
    - assert (In (i, x) s) as Hin by (apply (Permutation_in _ (Permutation_sym Hp)); now left).
      apply in_split in Hin. destruct Hin as [s1 [s2 ->]]. apply Permutation_sym in Hp. pose proof (Permutation_cons_app_inv _ _ Hp) as Hp'.
      destruct (sorted_app_inv _ _ _ _ Hs) as [G1 [G2 G3]]. cbn [careful] in Hc. apply andb_prop in Hc. destruct Hc as [Hc1 Hc2].
      rewrite map_app. cbn [map snd]. apply mv_trans with (x :: map snd s1 ++ map snd s2).
      + apply moves_front. intros y Hy. apply in_map_iff in Hy. destruct Hy as [[j y'] [<- Hy]]. cbn [snd].
        rewrite forallb_forall in Hc1. specialize (Hc1 (j, y')). cbn beta iota in Hc1.
        assert (In (j, y') r) as Hr by (apply (Permutation_in _ (Permutation_sym Hp')), in_or_app; now left).
        specialize (Hc1 Hr). pose proof (G2 _ Hy) as Hlt. cbn [fst] in Hlt. destruct (Nat.ltb_spec i j) as [?|_]; [lia|]. cbn [orb] in Hc1.
        apply sp_disjoint_apart in Hc1. intros z Hz Hz'. exact (Hc1 z Hz' Hz).
      + apply moves_cons. rewrite <- map_app. apply IH; [exact G1|now apply Permutation_sym|exact Hc2].
  Qed.
  Theorem careful_order_ok : order_ok careful_order.
  Proof.
    intros l l' H. unfold careful_order in H. destruct (careful _) eqn:E; [|discriminate]. injection H as <-.
    rewrite <- (indexed_snd l) at 1. apply careful_moves; [apply indexed_sorted|apply pysorted_perm|exact E].
  Qed.

  (** consistent orders are harmless *)
  Lemma disj_lt_disjoint x y : lt x y = true -> sp_disjoint (space x) (space y) = true.
  Proof.
    unfold odisj_lt. destruct (space x) as [|a h] eqn:Ex; [reflexivity|]. destruct (sp_disjoint (a :: h) (space y)); [reflexivity|discriminate].
  Qed.
  Theorem consistent_careful l : consistent lt l -> careful_order l = real_order olt slt l.
  Proof.
    intros HC. destruct (careful_real l) as [H|H]; [|exact H]. exfalso. unfold careful_order in H.
    destruct (careful (pysorted ilt (indexed l))) eqn:E; [destruct H; discriminate|]. clear H.
    assert (consistent ilt (indexed l)) as HC'.
    { assert (forall p, In p (indexed l) -> In (snd p) l) as Hi by (intros p Hp; rewrite <- (indexed_snd l); now apply in_map).
      destruct HC as [H1 H2]. split.
      - intros a b Ha Hb. apply H1; now apply Hi.
      - intros a b c Ha Hb Hc. apply H2; now apply Hi. }
    destruct (pysorted_stable ilt (indexed l) HC') as [Hp [Ho Hst]].
    pose proof (indexed_sorted l) as Hs.
    assert (forall r1 r2, pysorted ilt (indexed l) = r1 ++ r2 -> careful r2 = true) as G.
    { intros r1 r2. revert r1. induction r2 as [|[i x] r2 IH]; intros r1 Hr; [reflexivity|]. cbn [careful]. apply andb_true_intro. split.
      2:{ apply (IH (r1 ++ [(i, x)])). rewrite <- app_assoc. exact Hr. }
      apply forallb_forall. intros [j y] Hy. destruct (lt x y) eqn:Exy; [rewrite (disj_lt_disjoint _ _ Exy); apply orb_true_r|].
      apply orb_true_intro. left. apply Nat.ltb_lt. rewrite Hr in Ho, Hst, Hp.
      assert (lt y x = false) as Eyx.
      { destruct (sorted_app_inv _ _ _ _ Ho) as [_ [_ G]]. exact (G _ Hy). }
      assert (In (i, x) (indexed l)) as Hx by (apply (Permutation_in _ (Permutation_sym Hp)), in_or_app; right; now left).
      assert (lt x x = false) as Exx by (destruct HC' as [H1 _]; destruct (lt x x) eqn:E1; [|reflexivity]; pose proof (H1 _ _ Hx Hx E1) as E2; cbn [snd] in E2; congruence).
      specialize (Hst _ Hx). rewrite filter_app in Hst. cbn [filter] in Hst. unfold tied at 2 in Hst. cbn [snd] in Hst. rewrite Exx in Hst. cbn [negb andb] in Hst.
      assert (StronglySorted (fun p q : nat * op => fst p < fst q) (filter (tied ilt (i, x)) (indexed l))) as Hf.
      { clear - Hs. induction Hs as [|p s Hs IHs Hall]; [constructor|]. cbn [filter]. destruct (tied ilt (i, x) p); [|exact IHs]. constructor; [exact IHs|].
        apply Forall_forall. intros q Hq. apply filter_In in Hq. rewrite Forall_forall in Hall. now apply Hall. }
      rewrite <- Hst in Hf. destruct (sorted_app_inv _ _ _ _ Hf) as [_ [_ G]]. apply (G (j, y)).
      apply filter_In. split; [exact Hy|]. unfold tied. cbn [snd]. now rewrite Exy, Eyx. }
    specialize (G [] _ eq_refl). congruence.
  Qed.

  (** two factors are always sorted harmlessly *)
  Theorem two_careful x y : careful_order [x; y] = real_order olt slt [x; y].
  Proof.
    unfold careful_order, real_order, pysorted, indexed. cbn. destruct (lt y x) eqn:E; cbn; rewrite ?E; cbn; [|reflexivity].
    apply disj_lt_disjoint in E. rewrite E. reflexivity.
  Qed.

  (** factors whose spaces are pairwise equal or disjoint are sorted harmlessly,
      provided the two given orders are strict weak orders *)
  Theorem local_consistent l :
    (forall x y, In x l -> In y l -> space x = space y \/ sp_disjoint (space x) (space y) = true) ->
    consistent olt (filter (fun x => match space x with [] => true | _ => false end) l) ->
    (forall h h', h <> h' -> slt h h' = true \/ slt h' h = true) ->
    (forall h h', slt h h' = true -> slt h' h = false) ->
    (forall h1 h2 h3, slt h1 h2 = true -> slt h2 h3 = true -> slt h1 h3 = true) ->
    consistent lt l.
  Proof.
    intros Hsp [Ho1 Ho2] Htot Hasym Htr.
    assert (forall h, slt h h = false) as Hirr by (intros h; destruct (slt h h) eqn:E; [now rewrite (Hasym _ _ E) in E|reflexivity]).
    (* the comparison in one formula *)
    assert (forall x y, In x l -> In y l -> lt x y = match space x, space y with [], [] => olt x y | _, _ => slt (space x) (space y) end) as F.
    { intros x y Hx Hy. unfold odisj_lt. destruct (Hsp x y Hx Hy) as [E|E].
      - rewrite E. destruct (space y) as [|a h] eqn:Ey; [reflexivity|]. destruct (sp_disjoint (a :: h) (a :: h)); [reflexivity|]. symmetry. apply Hirr.
      - rewrite E. reflexivity. }
    assert (forall x, In x l -> space x = [] -> In x (filter (fun x => match space x with [] => true | _ => false end) l)) as Hf
      by (intros x Hx E; apply filter_In; split; [exact Hx|now rewrite E]).
    split.
    - intros x y Hx Hy. rewrite (F x y Hx Hy), (F y x Hy Hx). destruct (space x) as [|a h] eqn:Ex, (space y) as [|b h'] eqn:Ey; try apply Hasym.
      apply Ho1; now apply Hf.
    - intros x y z Hx Hy Hz. rewrite (F x y Hx Hy), (F y z Hy Hz), (F x z Hx Hz).
      assert (forall h1 h2 h3, slt h1 h2 = false -> slt h2 h3 = false -> slt h1 h3 = false) as Hneg.
      { intros h1 h2 h3 H1 H2. destruct (list_eq_dec Nat.eq_dec h1 h2) as [-> |N1]; [exact H2|]. destruct (list_eq_dec Nat.eq_dec h2 h3) as [-> |N2]; [exact H1|].
        destruct (Htot _ _ N1) as [G1|G1]; [congruence|]. destruct (Htot _ _ N2) as [G2|G2]; [congruence|]. apply Hasym. exact (Htr _ _ _ G2 G1). }
      destruct (space x) as [|a h] eqn:Ex, (space y) as [|b h'] eqn:Ey, (space z) as [|c h2] eqn:Ez; try apply Hneg.
      + apply Ho2; now apply Hf.
      + intros _ H. exact H.
      + intros H1 H2. exfalso. destruct (Htot [] (b :: h')) as [G|G]; [discriminate|congruence|congruence].
      + intros H _. exact H.
  Qed.
End Order.
