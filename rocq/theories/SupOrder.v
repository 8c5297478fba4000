(** When sorting the factors of a product of super-operators is harmless; recursion
    depth and checks never change an answer. *)
From Coq Require Import Sorting Permutation.
From Verif Require Import Prelude ListFacts SortModel SortSpec SortProofs BinModel OpModel OpSpec OpProofs1 OpFuel OpOrder SupModel SupSpec.

Section Order.
  Context {S : scalars} (solt : sop S -> sop S -> bool) (slt : list nat -> list nat -> bool).
  Local Notation sop := (sop S).
  Local Notation lt := (super_lt solt slt).
  Local Notation ilt := (fun p q : nat * sop => lt (snd p) (snd q)).

  Definition swaps (x y : sop) : bool := sp_disjoint (sspace x) (sspace y) || left_right x y.
  Definition sindexed (l : list sop) : list (nat * sop) := combine (seq 0 (length l)) l.
  (** no super-operator stands left of one that was originally before it and need not
      commute with it *)
  Fixpoint scareful (r : list (nat * sop)) : bool :=
    match r with
    | [] => true
    | (i, x) :: r' => forallb (fun jy : nat * sop => let '(j, y) := jy in (i <? j) || swaps x y) r' && scareful r'
    end.
  (** [sorted(ops, key=SuperCommutativeHSOrder)], undefined where it moves a super-operator
      past one that need not commute with it *)
  Definition careful_sorder (l : list sop) : res (list sop) :=
    let r := pysorted ilt (sindexed l) in
    if scareful r then Ok (map snd r) else Err Unmodelled.

  Lemma swaps_may x y : swaps x y = true -> may_swap y x.
  Proof.
    unfold swaps, may_swap. intros H. apply orb_true_iff in H. destruct H as [H|H].
    - left. apply apart_sym. now apply sp_disjoint_apart.
    - right. destruct x, y; try discriminate H; reflexivity.
  Qed.
  Lemma sindexed_snd l : map snd (sindexed l) = l.
  Proof.
    unfold sindexed. generalize 0. induction l as [|x l IH]; intros n; [reflexivity|]. cbn [length seq combine map]. now rewrite IH.
  Qed.
  Lemma sindexed_sorted l : StronglySorted (fun p q : nat * sop => fst p < fst q) (sindexed l).
  Proof.
    unfold sindexed. generalize 0. induction l as [|x l IH]; intros n; [constructor|]. cbn [length seq combine]. constructor; [apply IH|].
    apply Forall_forall. intros [j y] Hy. apply in_combine_l in Hy. apply in_seq in Hy. cbn [fst]. lia.
  Qed.
  Lemma scareful_real l : le (careful_sorder l) (real_sorder solt slt l).
  Proof.
    unfold careful_sorder, real_sorder. destruct (scareful _); [|left; now right]. right. f_equal.
    rewrite <- (pysorted_map snd lt), sindexed_snd. reflexivity.
  Qed.
  Lemma smoves_cons (x : sop) l l' : smoves l l' -> smoves (x :: l) (x :: l').
  Proof.
    induction 1 as [pre u v post H|l|l1 l2 l3 _ IH1 _ IH2].
    - apply (smv_swap (x :: pre)). exact H.
    - apply smv_refl.
    - eapply smv_trans; eassumption.
  Qed.
  Lemma smoves_front (x : sop) pre post : (forall y, In y pre -> may_swap y x) -> smoves (pre ++ x :: post) (x :: pre ++ post).
  Proof.
    induction pre as [|y pre IH]; intros H; [apply smv_refl|]. cbn [app]. apply smv_trans with (y :: x :: pre ++ post).
    - apply smoves_cons, IH. intros z Hz. apply H. now right.
    - apply (smv_swap []). apply H. now left.
  Qed.
  Lemma scareful_moves r : forall s, StronglySorted (fun p q : nat * sop => fst p < fst q) s -> Permutation s r -> scareful r = true ->
    smoves (map snd s) (map snd r).
  Proof.
    induction r as [|[i x] r IH]; intros s Hs Hp Hc.
    - apply Permutation_sym, Permutation_nil in Hp. subst s. apply smv_refl.
    - assert (In (i, x) s) as Hin by (apply (Permutation_in _ (Permutation_sym Hp)); now left).
      apply in_split in Hin. destruct Hin as [s1 [s2 ->]]. apply Permutation_sym in Hp. pose proof (Permutation_cons_app_inv _ _ Hp) as Hp'.
      destruct (sorted_app_inv _ _ _ _ Hs) as [G1 [G2 G3]]. cbn [scareful] in Hc. apply andb_prop in Hc. destruct Hc as [Hc1 Hc2].
      rewrite map_app. cbn [map snd]. apply smv_trans with (x :: map snd s1 ++ map snd s2).
      + apply smoves_front. intros y Hy. apply in_map_iff in Hy. destruct Hy as [[j y'] [<- Hy]]. cbn [snd].
        rewrite forallb_forall in Hc1. specialize (Hc1 (j, y')). cbn beta iota in Hc1.
        assert (In (j, y') r) as Hr by (apply (Permutation_in _ (Permutation_sym Hp')), in_or_app; now left).
        specialize (Hc1 Hr). pose proof (G2 _ Hy) as Hlt. cbn [fst] in Hlt. destruct (Nat.ltb_spec i j) as [?|_]; [lia|]. cbn [orb] in Hc1.
        now apply swaps_may.
      + apply smoves_cons. rewrite <- map_app. apply IH; [exact G1|now apply Permutation_sym|exact Hc2].
  Qed.
  Theorem careful_sorder_ok : sorder_ok careful_sorder.
  Proof.
    intros l l' H. unfold careful_sorder in H. destruct (scareful _) eqn:E; [|discriminate]. injection H as <-.
    rewrite <- (sindexed_snd l) at 1. apply scareful_moves; [apply sindexed_sorted|apply pysorted_perm|exact E].
  Qed.
  Lemma super_lt_swaps x y : lt x y = true -> swaps x y = true.
  Proof.
    unfold super_lt, swaps. destruct x, y; try discriminate; try reflexivity; cbn [left_right sspace]; rewrite ?orb_false_r, ?orb_true_r; try reflexivity;
      repeat match goal with |- context [match ?h with [] => _ | _ :: _ => _ end] => destruct h as [|? ?] eqn:?; cbn [fold_right] end;
      try reflexivity; try (intros ->; reflexivity);
      match goal with |- (if ?b then _ else _) = true -> _ => destruct b; [reflexivity|discriminate] end.
  Qed.

  (** consistent orders are harmless *)
  Theorem sconsistent_careful l : consistent lt l -> careful_sorder l = real_sorder solt slt l.
  Proof.
    intros HC. destruct (scareful_real l) as [H|H]; [|exact H]. exfalso. unfold careful_sorder in H.
    destruct (scareful (pysorted ilt (sindexed l))) eqn:E; [destruct H; discriminate|]. clear H.
    assert (consistent ilt (sindexed l)) as HC'.
    { assert (forall p, In p (sindexed l) -> In (snd p) l) as Hi by (intros p Hp; rewrite <- (sindexed_snd l); now apply in_map).
      destruct HC as [H1 H2]. split.
      - intros a b Ha Hb. apply H1; now apply Hi.
      - intros a b c Ha Hb Hc. apply H2; now apply Hi. }
    destruct (pysorted_stable ilt (sindexed l) HC') as [Hp [Ho Hst]].
    pose proof (sindexed_sorted l) as Hs.
    assert (forall r1 r2, pysorted ilt (sindexed l) = r1 ++ r2 -> scareful r2 = true) as G.
    { intros r1 r2. revert r1. induction r2 as [|[i x] r2 IH]; intros r1 Hr; [reflexivity|]. cbn [scareful]. apply andb_true_intro. split.
      2:{ apply (IH (r1 ++ [(i, x)])). rewrite <- app_assoc. exact Hr. }
      apply forallb_forall. intros [j y] Hy. destruct (lt x y) eqn:Exy; [rewrite (super_lt_swaps _ _ Exy); apply orb_true_r|].
      apply orb_true_intro. left. apply Nat.ltb_lt. rewrite Hr in Ho, Hst, Hp.
      assert (lt y x = false) as Eyx.
      { destruct (sorted_app_inv _ _ _ _ Ho) as [_ [_ G]]. exact (G _ Hy). }
      assert (In (i, x) (sindexed l)) as Hx by (apply (Permutation_in _ (Permutation_sym Hp)), in_or_app; right; now left).
      assert (lt x x = false) as Exx by (destruct HC' as [H1 _]; destruct (lt x x) eqn:E1; [|reflexivity]; pose proof (H1 _ _ Hx Hx E1) as E2; cbn [snd] in E2; congruence).
      specialize (Hst _ Hx). rewrite filter_app in Hst. cbn [filter] in Hst. unfold tied at 2 in Hst. cbn [snd] in Hst. rewrite Exx in Hst. cbn [negb andb] in Hst.
      assert (StronglySorted (fun p q : nat * sop => fst p < fst q) (filter (tied ilt (i, x)) (sindexed l))) as Hf.
      { clear - Hs. induction Hs as [|p s Hs IHs Hall]; [constructor|]. cbn [filter]. destruct (tied ilt (i, x) p); [|exact IHs]. constructor; [exact IHs|].
        apply Forall_forall. intros q Hq. apply filter_In in Hq. rewrite Forall_forall in Hall. now apply Hall. }
      rewrite <- Hst in Hf. destruct (sorted_app_inv _ _ _ _ Hf) as [_ [_ G]]. apply (G (j, y)).
      apply filter_In. split; [exact Hy|]. unfold tied. cbn [snd]. now rewrite Exy, Eyx. }
    specialize (G [] _ eq_refl). congruence.
  Qed.
  (** two factors are always sorted harmlessly *)
  Theorem stwo_careful x y : careful_sorder [x; y] = real_sorder solt slt [x; y].
  Proof.
    unfold careful_sorder, real_sorder, pysorted, sindexed. cbn -[super_lt]. destruct (lt y x) eqn:E; cbn -[super_lt]; rewrite ?E; cbn -[super_lt]; [|reflexivity].
    apply super_lt_swaps in E. rewrite E. reflexivity.
  Qed.
  (** multiplications from the left and from the right by operators whose spaces are
      pairwise equal or disjoint are sorted harmlessly *)
  Definition is_mult (x : sop) : bool := match x with SPre _ | SPost _ => true | _ => false end.
  Theorem mult_consistent l :
    (forall x, In x l -> is_mult x = true /\ sspace x <> []) ->
    (forall x y, In x l -> In y l -> sspace x = sspace y \/ sp_disjoint (sspace x) (sspace y) = true) ->
    (forall h h', h <> h' -> slt h h' = true \/ slt h' h = true) ->
    (forall h h', slt h h' = true -> slt h' h = false) ->
    (forall h1 h2 h3, slt h1 h2 = true -> slt h2 h3 = true -> slt h1 h3 = true) ->
    consistent lt l.
  Proof.
    intros Hm Hsp Htot Hasym Htr.
    assert (forall h, slt h h = false) as Hirr by (intros h; destruct (slt h h) eqn:E; [now rewrite (Hasym _ _ E) in E|reflexivity]).
    assert (forall x y, In x l -> In y l -> lt x y = match x, y with SPre _, SPost _ => true | SPost _, SPre _ => false | _, _ => slt (sspace x) (sspace y) end) as F.
    { intros x y Hx Hy. destruct (Hm x Hx) as [Mx Nx]. destruct (Hm y Hy) as [My Ny]. pose proof (Hsp x y Hx Hy) as Hxy.
      destruct x as [| | |a|a| | | |]; try discriminate Mx; destruct y as [| | |b|b| | | |]; try discriminate My; cbn [super_lt sspace] in *; try reflexivity;
        (destruct (space a) as [|u h]; [now elim Nx|]); destruct Hxy as [E|E]; rewrite E; try reflexivity;
        (destruct (sp_disjoint (space b) (space b)); [reflexivity|symmetry; apply Hirr]). }
    assert (forall h1 h2 h3, slt h1 h2 = false -> slt h2 h3 = false -> slt h1 h3 = false) as Hneg.
    { intros h1 h2 h3 H1 H2. destruct (list_eq_dec Nat.eq_dec h1 h2) as [-> |N1]; [exact H2|]. destruct (list_eq_dec Nat.eq_dec h2 h3) as [-> |N2]; [exact H1|].
      destruct (Htot _ _ N1) as [G1|G1]; [congruence|]. destruct (Htot _ _ N2) as [G2|G2]; [congruence|]. apply Hasym. exact (Htr _ _ _ G2 G1). }
    split.
    - intros x y Hx Hy. rewrite (F x y Hx Hy), (F y x Hy Hx). destruct (Hm x Hx) as [Mx _]. destruct (Hm y Hy) as [My _].
      destruct x; try discriminate Mx; destruct y; try discriminate My; try apply Hasym; [reflexivity|discriminate].
    - intros x y z Hx Hy Hz. rewrite (F x y Hx Hy), (F y z Hy Hz), (F x z Hx Hz). destruct (Hm x Hx) as [Mx _]. destruct (Hm y Hy) as [My _]. destruct (Hm z Hz) as [Mz _].
      destruct x; try discriminate Mx; destruct y; try discriminate My; destruct z; try discriminate Mz; try apply Hneg; try discriminate; reflexivity.
  Qed.
End Order.

(** ** More recursion depth, and checks, never change an answer *)
Section Mono.
  Context {S : scalars} (solt : sop S -> sop S -> bool) (slt : list nat -> list nat -> bool).
  Context (K K' : ocreators S) (HK : leK K K').
  Context (sord sord' : list (sop S) -> res (list (sop S))) (Hord : forall l, le (sord l) (sord' l)).
  Local Notation op := (op S).
  Local Notation sop := (sop S).
  Lemma stimes_mono : forall n n' l, n <= n' -> le (super_times K sord n l) (super_times K' sord' n' l).
  Proof.
    induction n as [|n IH]; intros n' l Hn; [apply le_fuel|]. destruct n' as [|n']; [lia|]. assert (n <= n') as Hn' by lia. cbn [super_times].
    unfold stimes_step. destruct (existsb is_szero l); [apply le_refl|]. apply le_bind; [apply Hord|]. intros [|x l']; [apply le_refl|].
    destruct (filter _ _) as [|y [|z l2]]; [apply le_refl|apply le_refl|]. apply le_bind; [|intros; apply le_refl].
    apply match_replace_mono; try reflexivity; [|exact Hn'].
    repeat (apply Forall2_cons; [|]); [| | | |apply Forall2_nil]; intros a b.
    - destruct a; try apply leo_refl. apply leo_lift. apply le_bind; [now apply IH|]. intros; apply le_refl.
    - destruct b; try apply leo_refl. apply leo_lift. apply le_bind; [now apply IH|]. intros; apply le_refl.
    - destruct a; try apply leo_refl. destruct b; try apply leo_refl. apply leo_lift. apply le_bind; [apply (m_times K K' HK)|]. intros; apply le_refl.
    - destruct a; try apply leo_refl. destruct b; try apply leo_refl. apply leo_lift. apply le_bind; [apply (m_times K K' HK)|]. intros; apply le_refl.
  Qed.
  Lemma sapply_mono app unapp : forall n n' s b, n <= n' -> le (super_apply K sord app unapp n s b) (super_apply K' sord' app unapp n' s b).
  Proof.
    induction n as [|n IH]; intros n' s b Hn; [apply le_fuel|]. destruct n' as [|n']; [lia|]. assert (n <= n') as Hn' by lia. cbn [super_apply].
    assert (forall r r', le r r' ->
      le match b with
         | OScal u b' => do p <- super_apply K sord app unapp n s b'; k_scal K u p
         | _ => match unapp b with Some (sB, c) => do st <- super_times K sord n [s; sB]; super_apply K sord app unapp n st c | None => r end
         end
         match b with
         | OScal u b' => do p <- super_apply K' sord' app unapp n' s b'; k_scal K' u p
         | _ => match unapp b with Some (sB, c) => do st <- super_times K' sord' n' [s; sB]; super_apply K' sord' app unapp n' st c | None => r' end
         end) as G.
    { intros r r' Hr. destruct b; try (destruct (unapp _) as [[sB c0]|]; [apply le_bind; [now apply stimes_mono|intros; now apply IH]|exact Hr]).
      apply le_bind; [now apply IH|]. intros. apply (m_scal K K' HK). }
    destruct s as [| |nm h|a|a|u t|l|l|t]; try apply le_refl.
    - apply G, le_refl.
    - apply G, (m_times K K' HK).
    - apply G, (m_times K K' HK).
    - apply le_bind; [now apply IH|]. intros. apply (m_scal K K' HK).
    - apply le_bind; [apply le_mapM; intros; now apply IH|]. intros. apply (m_plus K K' HK).
    - apply G. destruct (last_prepost l) as [[i la]|]; [|apply le_refl]. apply le_bind; [now apply stimes_mono|]. intros. apply le_bind; [now apply IH|]. intros. now apply IH.
    - apply G, le_refl.
  Qed.
  Lemma sadj_mono n n' : n <= n' -> forall s, le (sadj K sord n s) (sadj K' sord' n' s).
  Proof.
    intros Hn. fix IH 1. intros [| |nm h|a|a|c t|l|l|t]; cbn [sadj]; try apply le_refl.
    - apply le_bind; [|intros; apply le_refl]. induction l as [|x l IHl]; [apply le_refl|]. apply le_bind; [apply IH|]. intros. apply le_bind; [exact IHl|]. intros; apply le_refl.
    - apply le_bind.
      + induction l as [|x l IHl]; [apply le_refl|]. apply le_bind; [exact IHl|]. intros. apply le_bind; [apply IH|]. intros; apply le_refl.
      + intros l'. destruct (existsb _ l'); [apply le_refl|]. apply le_bind; [apply le_refl|]. intros ops. apply le_bind; [now apply stimes_mono|]. intros; apply le_refl.
  Qed.
  Lemma sexpand_mono : forall n n' s, n <= n' -> le (sexpand solt slt K sord n s) (sexpand solt slt K' sord' n' s).
  Proof.
    induction n as [|n IH]; intros n' s Hn; [apply le_fuel|]. destruct n' as [|n']; [lia|]. assert (n <= n') as Hn' by lia. cbn [sexpand].
    assert (forall ret, le match ret with SPlus _ => sexpand solt slt K sord n ret | _ => Ok ret end match ret with SPlus _ => sexpand solt slt K' sord' n' ret | _ => Ok ret end) as Hfin.
    { intros ret. destruct ret; try apply le_refl. now apply IH. }
    destruct s as [| |nm h|a|a|c t|l|l|t]; try apply le_refl.
    - apply le_bind; [now apply expand_mono|]. intros; apply le_refl.
    - apply le_bind; [now apply expand_mono|]. intros; apply le_refl.
    - apply le_bind; [now apply IH|]. intros t'. apply le_bind; [apply le_refl|]. intros; apply Hfin.
    - apply le_bind; [apply le_mapM; intros; now apply IH|]. intros; apply le_refl.
    - apply le_bind; [apply le_mapM; intros; now apply IH|]. intros. apply le_bind.
      + apply le_mapM. intros [|x0 c0]; [apply le_refl|]. apply le_foldM. intros; now apply stimes_mono.
      + intros. apply le_bind; [apply le_refl|]. intros; apply Hfin.
    - apply le_bind; [now apply IH|]. intros t'. destruct t'; try apply le_refl; (apply le_bind; [now apply sadj_mono|intros; apply le_refl]).
  Qed.
  Lemma lindblad_mono n n' c : n <= n' -> le (lindblad solt slt K sord n c) (lindblad solt slt K' sord' n' c).
  Proof.
    intros Hn. destruct c as [c|c]; [|apply le_refl]. cbn [lindblad]. apply le_bind; [now apply oadj_mono|]. intros. apply le_bind; [now apply stimes_mono|]. intros.
    apply le_bind; [now apply oadj_mono|]. intros. apply le_bind; [apply (m_times K K' HK)|]. intros; apply le_refl.
  Qed.
  Lemma liouvillian_mono n n' h ls : n <= n' -> le (liouvillian solt slt K sord n h ls) (liouvillian solt slt K' sord' n' h ls).
  Proof. intros Hn. unfold liouvillian. apply le_bind; [|intros; apply le_refl]. apply le_mapM. intros. now apply lindblad_mono. Qed.
End Mono.
