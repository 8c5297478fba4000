From Verif Require Import Prelude ListFacts SortModel SortSpec SortProofs HilbertModel HilbertSpec OrderProofs.
From Coq Require Import Lia.

Lemma list_eqb_spec {A} (eq : A -> A -> bool) (H : forall x y, eq x y = true <-> x = y) l l' :
  list_eqb eq l l' = true <-> l = l'.
Proof.
  revert l'; induction l as [|x l IH]; intros [|y l']; cbn;
    try (split; discriminate); try (split; reflexivity).
  rewrite andb_true_iff, H, IH. split; [intros [-> ->]; reflexivity|]. intros E; injection E; auto.
Qed.
Lemma option_eqb_spec {A} (eq : A -> A -> bool) (H : forall x y, eq x y = true <-> x = y) a b :
  option_eqb eq a b = true <-> a = b.
Proof.
  destruct a, b; cbn; try (split; discriminate); try (split; reflexivity).
  rewrite H. split; congruence.
Qed.
Lemma hlabel_eqb_spec a b : hlabel_eqb a b = true <-> a = b.
Proof.
  destruct a, b; cbn; try (split; discriminate).
  - unfold str_eqb. rewrite eqb_list_nat_spec. split; congruence.
  - rewrite Nat.eqb_eq. split; congruence.
Qed.
Lemma local_eqb_spec a b : local_eqb a b = true <-> a = b.
Proof.
  destruct a as [o l b1 i], b as [o' l' b1' i']. unfold local_eqb. cbn [l_order l_label l_basis l_ids].
  rewrite !andb_true_iff, (option_eqb_spec Z.eqb Z.eqb_eq), hlabel_eqb_spec.
  rewrite (option_eqb_spec (list_eqb str_eqb) (list_eqb_spec str_eqb eqb_list_nat_spec)).
  rewrite list_eqb_spec.
  - split; [intros [[[-> ->] ->] ->]; reflexivity|]. intros E; injection E; auto.
  - intros [x y] [z w]. cbn. unfold str_eqb. rewrite andb_true_iff, !eqb_list_nat_spec.
    split; [intros [-> ->]; reflexivity|]. intros E; injection E; auto.
Qed.
Lemma mem_spec s l : mem s l = true <-> In s l.
Proof.
  unfold mem. rewrite existsb_exists. split.
  - intros [x [Hx E]]. apply local_eqb_spec in E. subst; exact Hx.
  - intros H. exists s. split; [exact H|]. apply local_eqb_spec; reflexivity.
Qed.
Lemma mem_false s l : mem s l = false <-> ~ In s l.
Proof. rewrite <- mem_spec. destruct (mem s l); split; congruence. Qed.
Lemma hs_eqb_spec a b : hs_eqb a b = true <-> a = b.
Proof.
  destruct a, b; cbn; try (split; discriminate); try (split; reflexivity).
  - rewrite local_eqb_spec. split; congruence.
  - rewrite (list_eqb_spec local_eqb local_eqb_spec). split; congruence.
Qed.

(** ** keys *)
Lemma digits_range f n c : In c (digits f n) -> 48 <= c < 58.
Proof.
  revert n; induction f as [|f IH]; intros n; cbn [digits]; [intros []|].
  destruct (n <? 10) eqn:E.
  - apply Nat.ltb_lt in E. intros [<-|[]]. lia.
  - intros H. apply in_app_or in H. destruct H as [H|[<-|[]]]; [exact (IH _ H)|].
    pose proof (Nat.mod_upper_bound n 10 ltac:(lia)). lia.
Qed.
Lemma str_of_nat_not_None n : str_of_nat n <> str_None.
Proof.
  intros H. assert (Hi : In 78 (str_of_nat n)) by (rewrite H; left; reflexivity).
  apply digits_range in Hi. lia.
Qed.

Local Opaque str_of_nat.

Lemma comparable_strs (l l' : list (list nat)) : comparable (ETup (map EStr l)) (ETup (map EStr l')).
Proof.
  change (comparable_list (map EStr l) (map EStr l')).
  revert l'; induction l as [|x l IH]; intros [|y l']; cbn; try exact I.
  split; [exact I|]. intros _; apply IH.
Qed.
Lemma comparable_ids (l l' : list (list nat * list nat)) :
  comparable (ETup (map (fun p => ETup [EStr (fst p); EStr (snd p)]) l))
             (ETup (map (fun p => ETup [EStr (fst p); EStr (snd p)]) l')).
Proof.
  match goal with |- comparable (ETup ?a) (ETup ?b) => change (comparable_list a b) end.
  revert l'; induction l as [|x l IH]; intros [|y l']; cbn; try exact I.
  split; [|intros _; apply IH]. split; [exact I|]. intros _. split; [exact I|]. intros _; exact I.
Qed.

Lemma local_comparable_app a b r r' : literal a -> literal b ->
  (local_key a = local_key b -> comparable_list r r') ->
  comparable_list (local_key a ++ r) (local_key b ++ r').
Proof.
  intros [t Ha] [t' Hb] Hr. unfold local_key in *. rewrite Ha, Hb in *.
  cbn [app comparable_list].
  split; [exact I|]. intros E1. split; [exact I|]. intros E2. split; [exact I|]. intros E3.
  split.
  - destruct (l_basis a) as [ba|], (l_basis b) as [bb|].
    + apply comparable_strs.
    + injection E3 as E3. exfalso. exact (str_of_nat_not_None _ E3).
    + injection E3 as E3. exfalso. exact (str_of_nat_not_None _ (eq_sym E3)).
    + reflexivity.
  - intros E4. split; [apply comparable_ids|]. intros E5. apply Hr.
    rewrite E1, E2, E3, E4, E5. reflexivity.
Qed.
Lemma local_comparable a b : literal a -> literal b -> comparable_keys (local_key a) (local_key b).
Proof.
  intros Ha Hb. change (comparable_list (local_key a) (local_key b)).
  rewrite <- (app_nil_r (local_key a)), <- (app_nil_r (local_key b)).
  apply local_comparable_app; [exact Ha|exact Hb|]. intros _; exact I.
Qed.

Lemma map_inj {A B} (f : A -> B) (H : forall x y, f x = f y -> x = y) l l' :
  map f l = map f l' -> l = l'.
Proof.
  revert l'; induction l as [|x l IH]; intros [|y l'] E; cbn in E; try discriminate; [reflexivity|].
  injection E as E1 E2. f_equal; [apply H, E1|apply IH, E2].
Qed.

Lemma local_key_inj a b : literal a -> literal b -> local_key a = local_key b -> a = b.
Proof.
  destruct a as [o l ba i], b as [o' l' bb i']. intros [t Ha] [t' Hb]. unfold local_key.
  cbn [l_order l_label l_basis l_ids] in *. subst l l'.
  intros E. injection E as E1 E2 E3 E4 E5. subst t'.
  assert (o = o') by (destruct o, o'; congruence). subst o'.
  assert (i = i').
  { apply (map_inj (fun p => ETup [EStr (fst p); EStr (snd p)])); [|exact E5].
    intros [x y] [z w] H. cbn in H. congruence. }
  subst i'.
  assert (ba = bb).
  { destruct ba, bb; try discriminate; try reflexivity. injection E4 as E4. f_equal.
    apply (map_inj EStr); [|exact E4]. intros x y H; congruence. }
  subst bb. reflexivity.
Qed.

Lemma locals_comparable l l' : (forall s, In s l -> literal s) -> (forall s, In s l' -> literal s) ->
  comparable_list (flat_map local_key l) (flat_map local_key l').
Proof.
  revert l'; induction l as [|x l IH]; intros [|y l'] H H'; try exact I.
  cbn [flat_map]. apply local_comparable_app.
    - apply H; left; reflexivity.
    - apply H'; left; reflexivity.
    - intros _. apply IH; intros s Hs; [apply H|apply H']; right; exact Hs.
Qed.
Lemma locals_key_inj l l' : (forall s, In s l -> literal s) -> (forall s, In s l' -> literal s) ->
  flat_map local_key l = flat_map local_key l' -> l = l'.
Proof.
  revert l'; induction l as [|x l IH]; intros [|y l'] H H' E; try reflexivity; try discriminate.
  cbn [flat_map] in E.
  assert (Ek : local_key x = local_key y /\ flat_map local_key l = flat_map local_key l').
  { revert E. generalize (flat_map local_key l) (flat_map local_key l'). unfold local_key.
    intros u v E. cbn in E. injection E as E1 E2 E3 E4 E5 E6.
    rewrite E1, E2, E3, E4, E5. split; [reflexivity|exact E6]. }
  destruct Ek as [E1 E2]. f_equal.
  - apply local_key_inj; [apply H; left; reflexivity|apply H'; left; reflexivity|exact E1].
  - apply IH; [intros s Hs; apply H; right; exact Hs|intros s Hs; apply H'; right; exact Hs|exact E2].
Qed.

Definition lits (h : hs) : Prop := forall s, In s (factors h) -> literal s.
Lemma canonical_lits h : canonical h -> lits h.
Proof.
  destruct h; cbn; intros H s' Hs; try contradiction.
  - destruct Hs as [<-|[]]; exact H.
  - apply H, Hs.
Qed.

Definition is_pf (h : hs) : bool := match h with Trivial | Full => true | _ => false end.
Lemma space_key_factors h : is_pf h = false -> space_key h = flat_map local_key (factors h).
Proof. destruct h; try discriminate; intros _; reflexivity. Qed.
Lemma space_key_pf h : is_pf h = true -> exists z, space_key h = [ENum (NFin z); EStr [95]].
Proof. destruct h; try discriminate; intros _; eexists; reflexivity. Qed.

Lemma space_comparable a b : canonical a -> canonical b -> comparable_keys (space_key a) (space_key b).
Proof.
  intros Ha Hb. change (comparable_list (space_key a) (space_key b)).
  apply canonical_lits in Ha. apply canonical_lits in Hb.
  destruct (is_pf a) eqn:Ea, (is_pf b) eqn:Eb.
  - destruct (space_key_pf a Ea) as [z ->], (space_key_pf b Eb) as [z' ->]. cbn. tauto.
  - destruct (space_key_pf a Ea) as [z ->]. rewrite (space_key_factors b Eb).
    destruct (factors b) as [|s l] eqn:E; [exact I|].
    destruct (Hb s) as [t Ht]; [rewrite E; left; reflexivity|].
    cbn [flat_map]. unfold local_key at 1. rewrite Ht. cbn. tauto.
  - destruct (space_key_pf b Eb) as [z ->]. rewrite (space_key_factors a Ea).
    destruct (factors a) as [|s l] eqn:E; [exact I|].
    destruct (Ha s) as [t Ht]; [rewrite E; left; reflexivity|].
    cbn [flat_map]. unfold local_key at 1. rewrite Ht. cbn. tauto.
  - rewrite (space_key_factors a Ea), (space_key_factors b Eb). apply locals_comparable; assumption.
Qed.

Lemma flat_map_length5 l : length (flat_map local_key l) = 5 * length l.
Proof. induction l as [|x l IH]; [reflexivity|]. cbn [flat_map]. rewrite app_length, IH. cbn. lia. Qed.

Lemma space_key_inj a b : canonical a -> canonical b -> space_key a = space_key b -> a = b.
Proof.
  intros Ha Hb E.
  pose proof (canonical_lits a Ha) as La. pose proof (canonical_lits b Hb) as Lb.
  destruct (is_pf a) eqn:Ea, (is_pf b) eqn:Eb.
  - destruct a, b; try discriminate; reflexivity.
  - exfalso. destruct (space_key_pf a Ea) as [z Hz].
    assert (El : length (space_key a) = length (space_key b)) by (rewrite E; reflexivity).
    rewrite Hz, (space_key_factors b Eb), flat_map_length5 in El. cbn in El. lia.
  - exfalso. destruct (space_key_pf b Eb) as [z Hz].
    assert (El : length (space_key a) = length (space_key b)) by (rewrite E; reflexivity).
    rewrite Hz, (space_key_factors a Ea), flat_map_length5 in El. cbn [length] in El. lia.
  - rewrite (space_key_factors a Ea), (space_key_factors b Eb) in E.
    apply (locals_key_inj _ _ La Lb) in E.
    destruct a as [| |s|l], b as [| |s'|l']; try discriminate; cbn in E, Ha, Hb.
    + congruence.
    + subst l'. cbn in Hb. lia.
    + subst l. cbn in Ha. lia.
    + congruence.
Qed.

Section Str.
  Context (str_of : elt -> list nat).

  Lemma space_lt_ok a b : canonical a -> canonical b ->
    space_lt str_of a b = true <-> key_compare (space_key a) (space_key b) = Lt.
  Proof. intros Ha Hb. apply kt_lt_ok, space_comparable; assumption. Qed.

  Lemma spaces_consistent l : (forall h, In h l -> canonical h) -> consistent (space_lt str_of) l.
  Proof.
    intros H. apply (key_order_consistent _ space_key).
    intros x y Hx Hy. apply space_lt_ok; apply H; assumption.
  Qed.
  Lemma spaces_tied l x y : (forall h, In h l -> canonical h) -> In x l -> In y l ->
    tied (space_lt str_of) x y = true -> x = y.
  Proof.
    intros H Hx Hy Ht. apply space_key_inj; [apply H, Hx|apply H, Hy|].
    apply (key_order_tied (space_lt str_of) space_key l x y); try assumption.
    intros u v Hu Hv. apply space_lt_ok; apply H; assumption.
  Qed.
End Str.

(** ** sets *)
Lemma dedup_In l h : In h (dedup l) <-> In h l.
Proof.
  induction l as [|x l IH]; cbn; [tauto|].
  rewrite filter_In, IH. split; [tauto|].
  intros [->|H]; [left; reflexivity|].
  destruct (hs_eqb x h) eqn:E; [left; apply hs_eqb_spec, E|right; tauto].
Qed.
Lemma NoDup_filter' {A} (f : A -> bool) l : NoDup l -> NoDup (filter f l).
Proof.
  induction 1 as [|x l Hn Hd IH]; cbn; [constructor|].
  destruct (f x); [constructor; [rewrite filter_In; tauto|exact IH]|exact IH].
Qed.
Lemma dedup_NoDup l : NoDup (dedup l).
Proof.
  induction l as [|x l IH]; cbn; [constructor|]. constructor.
  - rewrite filter_In. intros [_ H]. assert (E : hs_eqb x x = true) by (apply hs_eqb_spec; reflexivity).
    rewrite E in H. discriminate.
  - apply NoDup_filter', IH.
Qed.
Lemma dedup_id l : NoDup l -> dedup l = l.
Proof.
  induction 1 as [|x l Hn Hd IH]; cbn; [reflexivity|]. rewrite IH. f_equal.
  apply filter_id_in. intros y Hy. apply negb_true_iff. destruct (hs_eqb x y) eqn:E; [|reflexivity].
  apply hs_eqb_spec in E. subst y. contradiction.
Qed.

(** canonical spaces with the same factors are equal *)
Definition key_sorted (l : list local) : Prop :=
  StronglySorted (fun s t => key_compare (local_key s) (local_key t) = Lt) l.
Lemma key_sorted_ext l l' : key_sorted l -> key_sorted l' ->
  (forall s, In s l <-> In s l') -> l = l'.
Proof.
  intros H. revert l'. induction H as [|x l Hs IH Hf]; intros l' Hs' He.
  - destruct l' as [|y l']; [reflexivity|]. exfalso. apply (He y). left; reflexivity.
  - rewrite Forall_forall in Hf.
    destruct Hs' as [|y l' Hs' Hf'].
    + exfalso. apply (He x). left; reflexivity.
    + rewrite Forall_forall in Hf'.
      assert (x = y).
      { assert (Hx : In x (y :: l')) by (apply He; left; reflexivity).
        assert (Hy : In y (x :: l)) by (apply He; left; reflexivity).
        destruct Hx as [->|Hx]; [reflexivity|]. destruct Hy as [->|Hy]; [reflexivity|].
        pose proof (Hf y Hy) as H1. pose proof (Hf' x Hx) as H2.
        rewrite key_cmp_opp, H1 in H2. discriminate. }
      subst y. f_equal. apply IH; [exact Hs'|]. intros s. split; intros Hin.
      * assert (H : In s (x :: l')) by (apply He; right; exact Hin).
        destruct H as [->|H]; [|exact H]. pose proof (Hf s Hin) as H1.
        assert (H2 : key_compare (local_key s) (local_key s) = Eq) by (apply key_cmp_eq; reflexivity).
        congruence.
      * assert (H : In s (x :: l)) by (apply He; right; exact Hin).
        destruct H as [->|H]; [|exact H]. pose proof (Hf' s Hin) as H1.
        assert (H2 : key_compare (local_key s) (local_key s) = Eq) by (apply key_cmp_eq; reflexivity).
        congruence.
Qed.
Lemma canonical_sorted h : canonical h -> key_sorted (factors h).
Proof. destruct h; cbn; intros H; [constructor|constructor|repeat constructor|apply H]. Qed.
Lemma canonical_ext a b : canonical a -> canonical b -> a <> Full -> b <> Full ->
  (forall s, In s (factors a) <-> In s (factors b)) -> a = b.
Proof.
  intros Ha Hb Fa Fb He.
  pose proof (key_sorted_ext _ _ (canonical_sorted a Ha) (canonical_sorted b Hb) He) as E.
  destruct a as [| |s|l], b as [| |s'|l']; cbn in E, Ha, Hb; try congruence; try contradiction.
  - subst l'; cbn in Hb; lia.
  - subst l'; cbn in Hb; lia.
  - subst l; cbn in Ha; lia.
  - subst l; cbn in Ha; lia.
Qed.

Section Create.
  Context (str_of : elt -> list nat) (iter : list hs -> list hs).
  Context (Hiter : forall l, Permutation l (iter l)).
  Notation idem := (idem str_of iter).
  Notation prod_create := (prod_create str_of iter).

  (** operands after conversion: TrivialSpace or LocalSpaces *)
  Definition simple (h : hs) : Prop :=
    match h with Trivial => True | Local s => literal s | _ => False end.
  Lemma simple_canonical h : simple h -> canonical h.
  Proof. destruct h; cbn; tauto. Qed.

  Lemma idem_In ops h : In h (idem ops) <-> In h ops.
  Proof.
    unfold HilbertModel.idem. rewrite pysorted_In. transitivity (In h (dedup ops)); [|apply dedup_In]. split.
    - apply Permutation_in. symmetry. apply Hiter.
    - apply Permutation_in, Hiter.
  Qed.
  Lemma idem_NoDup ops : NoDup (idem ops).
  Proof.
    unfold HilbertModel.idem. eapply Permutation_NoDup; [apply pysorted_perm|].
    eapply Permutation_NoDup; [apply Hiter|]. apply dedup_NoDup.
  Qed.
  Lemma idem_sorted ops : (forall h, In h ops -> simple h) ->
    StronglySorted (fun a b => key_compare (space_key a) (space_key b) = Lt) (idem ops).
  Proof.
    intros Hs.
    assert (Hc : forall h, In h (idem ops) -> canonical h).
    { intros h Hh. apply simple_canonical, Hs, idem_In, Hh. }
    assert (Ho : in_order (space_lt str_of) (idem ops)).
    { unfold HilbertModel.idem. apply pysorted_stable, spaces_consistent.
      intros h Hh. apply Hc. unfold HilbertModel.idem. apply pysorted_In, Hh. }
    pose proof (idem_NoDup ops) as Hn. revert Hc Ho Hn. generalize (idem ops). clear Hs ops.
    intros l; induction l as [|x l IH]; intros Hc Ho Hn; [constructor|].
    inversion_clear Ho as [|? ? Hs Hf]. inversion_clear Hn as [|? ? Hx Hn'].
    constructor.
    - apply IH; [intros h Hh; apply Hc; right; exact Hh|exact Hs|exact Hn'].
    - rewrite Forall_forall in Hf |- *. intros y Hy. pose proof (Hf y Hy) as Hyx.
      assert (Cx : canonical x) by (apply Hc; left; reflexivity).
      assert (Cy : canonical y) by (apply Hc; right; exact Hy).
      destruct (key_compare (space_key x) (space_key y)) eqn:E; [|reflexivity|].
      + exfalso. apply key_cmp_eq in E. apply space_key_inj in E; [|exact Cx|exact Cy]. subst y. contradiction.
      + exfalso. assert (E' : key_compare (space_key y) (space_key x) = Lt) by (rewrite key_cmp_opp, E; reflexivity).
        apply (space_lt_ok str_of y x Cy Cx) in E'. congruence.
  Qed.

  Lemma sorted_filter {A} (R : A -> A -> Prop) (f : A -> bool) l :
    StronglySorted R l -> StronglySorted R (filter f l).
  Proof.
    induction 1 as [|x l Hs IH Hf]; cbn; [constructor|].
    destruct (f x); [|exact IH]. constructor; [exact IH|].
    rewrite Forall_forall in Hf |- *. intros y Hy. apply filter_In in Hy. apply Hf, Hy.
  Qed.

  Lemma filter_neutral_ok ops : (forall h, In h ops -> simple h) -> NoDup ops ->
    StronglySorted (fun a b => key_compare (space_key a) (space_key b) = Lt) ops ->
    exists h, filter_neutral ops = Ok h /\ is_product_of (fun s => In (Local s) ops) h.
  Proof.
    intros Hs Hn Hsort. unfold filter_neutral.
    destruct ops as [|o ops].
    { exists Trivial. split; [reflexivity|]. split; [exact I|]. split; [discriminate|]. intros s; cbn; tauto. }
    set (fl := filter (fun x => negb (hs_eqb Trivial x)) (o :: ops)).
    assert (Hfl : forall h, In h fl <-> In h (o :: ops) /\ h <> Trivial).
    { intros h. unfold fl. rewrite filter_In, negb_true_iff. split; intros [H1 H2]; (split; [exact H1|]).
      - intros ->. assert (E : hs_eqb Trivial Trivial = true) by reflexivity. congruence.
      - destruct (hs_eqb Trivial h) eqn:E; [|reflexivity]. apply hs_eqb_spec in E. congruence. }
    assert (Hloc : exists ls, fl = map Local ls).
    { assert (H : forall h, In h fl -> exists s, h = Local s).
      { intros h Hh. apply Hfl in Hh. destruct Hh as [H1 H2]. specialize (Hs h H1).
        destruct h; cbn in Hs; try contradiction; try congruence. eexists; reflexivity. }
      revert H. generalize fl. clear. intros l; induction l as [|x l IH]; intros H.
      - exists []; reflexivity.
      - destruct (H x (or_introl eq_refl)) as [s ->].
        destruct IH as [ls ->]; [intros h Hh; apply H; right; exact Hh|]. exists (s :: ls); reflexivity. }
    destruct Hloc as [ls Els].
    assert (Hin : forall s, In s ls <-> In (Local s) (o :: ops)).
    { intros s. transitivity (In (Local s) fl).
      - rewrite Els, in_map_iff. split; [intros H; exists s; auto|].
        intros [x [E Hx]]. injection E as ->. exact Hx.
      - rewrite Hfl. split; [tauto|]. intros H; split; [exact H|discriminate]. }
    assert (Hlit : forall s, In s ls -> literal s).
    { intros s Hin'. apply Hin in Hin'. exact (Hs _ Hin'). }
    assert (Hfs : StronglySorted (fun a b => key_compare (space_key a) (space_key b) = Lt) fl)
      by (apply sorted_filter, Hsort).
    assert (Hfn : NoDup fl) by (apply NoDup_filter', Hn).
    assert (Hks : key_sorted ls).
    { rewrite Els in Hfs. clear - Hfs. induction ls as [|x ls IH]; [constructor|].
      cbn in Hfs. inversion_clear Hfs as [|? ? H1 H2]. constructor; [apply IH, H1|].
      rewrite Forall_forall in H2 |- *. intros y Hy. apply (H2 (Local y)). apply in_map, Hy. }
    destruct ls as [|s1 [|s2 ls]]; cbn [map] in Els; rewrite Els.
    - exists o. split; [reflexivity|].
      assert (Ho : o = Trivial).
      { destruct (hs_eqb Trivial o) eqn:E; [symmetry; apply hs_eqb_spec, E|]. exfalso.
        assert (Hi : In o fl).
        { apply Hfl. split; [left; reflexivity|]. intros ->. discriminate. }
        rewrite Els in Hi. contradiction. }
      subst o. split; [exact I|]. split; [discriminate|]. intros s. cbn [factors]. rewrite <- Hin. tauto.
    - exists (Local s1). split; [reflexivity|]. split; [apply Hlit; left; reflexivity|].
      split; [discriminate|]. intros s. rewrite <- Hin. cbn. tauto.
    - exists (Prod (s1 :: s2 :: ls)). split.
      + unfold prod_init. rewrite Els in Hfn. rewrite (dedup_id _ Hfn), Nat.eqb_refl.
        assert (Hm : forall l, mapM unlocal (map Local l) = Ok l).
        { intros l; induction l as [|x l IH]; [reflexivity|]. cbn. rewrite IH. reflexivity. }
        change (Local s1 :: Local s2 :: map Local ls) with (map Local (s1 :: s2 :: ls)).
        rewrite Hm. reflexivity.
      + split; [split; [cbn; lia|split; [exact Hlit|exact Hks]]|].
        split; [discriminate|]. intros s. rewrite <- Hin. cbn. tauto.
  Qed.

  Lemma convert_ok args : (forall a, In a args -> arg_ok a) ->
    exists ops, mapM convert_arg (flat_map assoc_arg args) = Ok ops
      /\ (forall h, In h ops -> simple h)
      /\ forall s, In (Local s) ops <-> exists a, In a args /\ arg_factor a s.
  Proof.
    intros Hok.
    set (conv := fun a => match a with HS h => h | Lbl s => Local (mk_local None (Lit s) None []) end).
    exists (map conv (flat_map assoc_arg args)).
    assert (Hmem : forall b, In b (flat_map assoc_arg args) ->
              convert_arg b = Ok (conv b) /\ simple (conv b)).
    { intros b Hb. apply in_flat_map in Hb. destruct Hb as [a [Ha Hb]]. specialize (Hok a Ha).
      destruct a as [h|t].
      - destruct Hok as [Hc Hf]. destruct h as [| |s|l]; cbn in Hb.
        + destruct Hb as [<-|[]]. split; [reflexivity|exact I].
        + congruence.
        + destruct Hb as [<-|[]]. split; [reflexivity|exact Hc].
        + apply in_map_iff in Hb. destruct Hb as [s [<- Hs]]. split; [reflexivity|]. apply Hc, Hs.
      - destruct Hb as [<-|[]]. cbn in Hok |- *. unfold local_of_label. rewrite Hok.
        split; [reflexivity|]. exists t; reflexivity. }
    split; [|split].
    - clear - Hmem. induction (flat_map assoc_arg args) as [|b l IH]; [reflexivity|].
      cbn. rewrite (proj1 (Hmem b (or_introl eq_refl))). cbn. rewrite IH; [reflexivity|].
      intros c Hc; apply Hmem; right; exact Hc.
    - intros h Hh. apply in_map_iff in Hh. destruct Hh as [b [<- Hb]]. apply Hmem, Hb.
    - intros s. rewrite in_map_iff. split.
      + intros [b [Eb Hb]]. apply in_flat_map in Hb. destruct Hb as [a [Ha Hb]].
        exists a. split; [exact Ha|]. destruct a as [h|t].
        * destruct h as [| |x|l]; cbn in Hb.
          -- destruct Hb as [<-|[]]. discriminate.
          -- destruct Hb as [<-|[]]. discriminate.
          -- destruct Hb as [<-|[]]. cbn in Eb. injection Eb as <-. left; reflexivity.
          -- apply in_map_iff in Hb. destruct Hb as [x [<- Hx]]. cbn in Eb. injection Eb as <-. exact Hx.
        * destruct Hb as [<-|[]]. cbn in Eb |- *. congruence.
      + intros [a [Ha Hs]]. destruct a as [h|t].
        * exists (HS (Local s)). split; [reflexivity|]. apply in_flat_map. exists (HS h). split; [exact Ha|].
          destruct h as [| |x|l]; cbn in Hs |- *; try contradiction.
          -- destruct Hs as [->|[]]. left; reflexivity.
          -- apply (in_map (fun s => HS (Local s))), Hs.
        * exists (Lbl t). split; [cbn; cbn in Hs; congruence|]. apply in_flat_map. exists (Lbl t).
          split; [exact Ha|left; reflexivity].
  Qed.

  Theorem create_ok args : (forall a, In a args -> arg_ok a) ->
    exists h, prod_create args = Ok h
      /\ is_product_of (fun s => exists a, In a args /\ arg_factor a s) h.
  Proof.
    intros Hok. unfold HilbertModel.prod_create.
    assert (Hnf : existsb is_full_arg args = false).
    { destruct (existsb is_full_arg args) eqn:E; [|reflexivity]. apply existsb_exists in E.
      destruct E as [a [Ha E]]. specialize (Hok a Ha). destruct a as [[| | |]|]; try discriminate.
      destruct Hok as [_ H]. congruence. }
    rewrite Hnf. destruct args as [|a0 args].
    { exists Trivial. split; [reflexivity|]. split; [exact I|]. split; [discriminate|].
      intros s. cbn. split; [tauto|]. intros [a [[] _]]. }
    destruct (convert_ok _ Hok) as [ops [E [Hs Hin]]]. rewrite E. cbn [bind].
    assert (Hs' : forall h, In h (idem ops) -> simple h) by (intros h Hh; apply Hs, idem_In, Hh).
    destruct (filter_neutral_ok (idem ops) Hs' (idem_NoDup ops) (idem_sorted ops Hs)) as [h [Eh [H1 [H2 H3]]]].
    exists h. split; [exact Eh|]. split; [exact H1|]. split; [exact H2|].
    intros s. rewrite (H3 s), idem_In. apply Hin.
  Qed.

  Lemma create_full args : In (HS Full) args -> prod_create args = Ok Full.
  Proof.
    intros H. unfold HilbertModel.prod_create.
    assert (E : existsb is_full_arg args = true) by (apply existsb_exists; exists (HS Full); auto).
    rewrite E. reflexivity.
  Qed.

  Lemma product_unique P h h' : is_product_of P h -> is_product_of P h' -> h = h'.
  Proof.
    intros [C1 [F1 H1]] [C2 [F2 H2]]. apply canonical_ext; try assumption.
    intros s. rewrite H1, H2. reflexivity.
  Qed.
  Lemma product_ext P Q h : (forall s, P s <-> Q s) -> is_product_of P h -> is_product_of Q h.
  Proof. intros H [C [F G]]. split; [exact C|]. split; [exact F|]. intros s. rewrite G. apply H. Qed.

  Lemma create_sorted_ok l : (forall s, In s l -> literal s) ->
    exists h, create_sorted str_of iter l = Ok h /\ is_product_of (fun s => In s l) h.
  Proof.
    intros Hl. unfold create_sorted.
    set (args := map HS _).
    assert (Ha : forall a, In a args <-> exists s, In s l /\ a = HS (Local s)).
    { intros a. unfold args. rewrite in_map_iff. split.
      - intros [h [<- Hh]]. apply pysorted_In in Hh.
        apply (Permutation_in h (Permutation_sym (Hiter _))) in Hh.
        apply in_map_iff in Hh. destruct Hh as [s [<- Hs]]. exists s. auto.
      - intros [s [Hs ->]]. exists (Local s). split; [reflexivity|]. apply pysorted_In.
        apply (Permutation_in _ (Hiter _)), in_map, Hs. }
    destruct (create_ok args) as [h [E Hp]].
    { intros a Hin. apply Ha in Hin. destruct Hin as [s [Hs ->]]. split; [apply Hl, Hs|discriminate]. }
    exists h. split; [exact E|]. eapply product_ext; [|exact Hp].
    intros s. split.
    - intros [a [Hin Hf]]. apply Ha in Hin. destruct Hin as [x [Hx ->]]. destruct Hf as [->|[]]. exact Hx.
    - intros Hs. exists (HS (Local s)). split; [apply Ha; exists s; auto|left; reflexivity].
  Qed.

  Theorem remove_ok a b : canonical a -> canonical b -> a <> Full -> b <> Full ->
    (forall s, a = Local s -> b = a \/ ~ In s (factors b)) ->
    exists h, remove str_of iter a b = Ok h
      /\ is_product_of (fun s => In s (factors a) /\ ~ In s (factors b)) h.
  Proof.
    intros Ha Hb Fa Fb Hl. destruct a as [| |s|l]; try congruence.
    - exists Trivial. split; [reflexivity|]. split; [exact I|]. split; [discriminate|]. intros s; cbn; tauto.
    - cbn. destruct (hs_eqb b (Local s)) eqn:E.
      + apply hs_eqb_spec in E. subst b. exists Trivial. split; [reflexivity|].
        split; [exact I|]. split; [discriminate|]. intros x; cbn; tauto.
      + exists (Local s). split; [reflexivity|]. split; [exact Ha|]. split; [discriminate|].
        intros x. cbn. destruct (Hl s eq_refl) as [->|H].
        { assert (hs_eqb (Local s) (Local s) = true) by (apply hs_eqb_spec; reflexivity). congruence. }
        split; [|tauto]. intros [<-|[]]. split; [left; reflexivity|exact H].
    - assert (Hd : forall o, (forall s, In s (set_diff l o) <-> In s l /\ ~ In s o)).
      { intros o s. unfold set_diff. rewrite filter_In, negb_true_iff, mem_false. tauto. }
      assert (Hlit : forall o s, In s (set_diff l o) -> literal s).
      { intros o s Hs. apply Hd in Hs. apply Ha, Hs. }
      destruct b as [| |s|o]; try congruence; cbn [remove].
      + exists (Prod l). split; [reflexivity|]. split; [exact Ha|]. split; [discriminate|].
        intros s; cbn; tauto.
      + destruct (create_sorted_ok (set_diff l [s]) (Hlit [s])) as [h [E Hp]]. exists h. split; [exact E|].
        eapply product_ext; [|exact Hp]. intros x. apply Hd.
      + destruct (create_sorted_ok (set_diff l o) (Hlit o)) as [h [E Hp]]. exists h. split; [exact E|].
        eapply product_ext; [|exact Hp]. intros x. apply Hd.
  Qed.

  Theorem intersect_ok a b : canonical a -> canonical b -> a <> Full -> b <> Full ->
    exists h, intersect str_of iter a b = Ok h
      /\ is_product_of (fun s => In s (factors a) /\ In s (factors b)) h.
  Proof.
    intros Ha Hb Fa Fb. destruct a as [| |s|l]; try congruence.
    - exists Trivial. split; [reflexivity|]. split; [exact I|]. split; [discriminate|]. intros s; cbn; tauto.
    - assert (E : local_factors b = Ok (factors b)) by (destruct b; try reflexivity; congruence).
      cbn [intersect]. rewrite E. cbn [bind]. destruct (mem s (factors b)) eqn:M.
      + apply mem_spec in M. exists (Local s). split; [reflexivity|]. split; [exact Ha|]. split; [discriminate|].
        intros x. cbn. split; [|tauto]. intros [<-|[]]. auto.
      + apply mem_false in M. exists Trivial. split; [reflexivity|]. split; [exact I|]. split; [discriminate|].
        intros x. cbn. split; [tauto|]. intros [[<-|[]] H]. contradiction.
    - assert (Hd : forall o, (forall s, In s (set_inter l o) <-> In s l /\ In s o)).
      { intros o s. unfold set_inter. rewrite filter_In, mem_spec. tauto. }
      assert (Hlit : forall o s, In s (set_inter l o) -> literal s).
      { intros o s Hs. apply Hd in Hs. apply Ha, Hs. }
      destruct b as [| |s|o]; try congruence; cbn [intersect].
      + exists Trivial. split; [reflexivity|]. split; [exact I|]. split; [discriminate|]. intros s; cbn; tauto.
      + destruct (create_sorted_ok (set_inter l [s]) (Hlit [s])) as [h [E Hp]]. exists h. split; [exact E|].
        eapply product_ext; [|exact Hp]. intros x. apply Hd.
      + destruct (create_sorted_ok (set_inter l o) (Hlit o)) as [h [E Hp]]. exists h. split; [exact E|].
        eapply product_ext; [|exact Hp]. intros x. apply Hd.
  Qed.
End Create.

(** ** subfactors and disjointness *)
Lemma forallb_mem l o : forallb (fun s => mem s o) l = true <-> forall s, In s l -> In s o.
Proof.
  rewrite forallb_forall. split; intros H s Hs; [apply mem_spec|apply mem_spec]; apply H, Hs.
Qed.
Lemma strict_ok a b : canonical a -> canonical b -> a <> Full -> b <> Full ->
  is_strict_subfactor_of a b = true <->
  (forall s, In s (factors a) -> In s (factors b)) /\ exists s, In s (factors b) /\ ~ In s (factors a).
Proof.
  intros Ha Hb Fa Fb.
  assert (Hnn : forall (l o : list local), negb (forallb (fun s => mem s l) o) = true <-> exists s, In s o /\ ~ In s l).
  { intros l o. rewrite negb_true_iff. split.
    - induction o as [|x o IH]; cbn; [discriminate|]. intros H. apply andb_false_iff in H.
      destruct H as [H|H]; [exists x; split; [left; reflexivity|apply mem_false, H]|].
      destruct (IH H) as [s [H1 H2]]. exists s. auto.
    - intros [s [H1 H2]]. destruct (forallb (fun s => mem s l) o) eqn:E; [|reflexivity].
      rewrite forallb_mem in E. exfalso. apply H2, E, H1. }
  destruct a as [| |s|l], b as [| |s'|o]; try congruence; cbn [is_strict_subfactor_of factors].
  - split; [discriminate|]. intros [_ [s [[] _]]].
  - split; [|reflexivity]. intros _. split; [intros s []|]. exists s'. split; [left; reflexivity|intros []].
  - split; [|reflexivity]. intros _. split; [intros s []|]. destruct o as [|x o]; [cbn in Hb; lia|].
    exists x. split; [left; reflexivity|intros []].
  - split; [discriminate|]. intros [_ [x [[] _]]].
  - split; [discriminate|]. intros [H [x [Hx Hn]]]. destruct Hx as [<-|[]].
    exfalso. apply Hn. destruct (H s (or_introl eq_refl)) as [<-|[]]. left; reflexivity.
  - rewrite mem_spec. split.
    + intros H. split; [intros x [<-|[]]; exact H|].
      destruct Hb as [Hlen [_ Hs]]. destruct o as [|x [|y o]]; [cbn in Hlen; lia|cbn in Hlen; lia|].
      inversion_clear Hs as [|? ? _ Hf]. rewrite Forall_forall in Hf.
      assert (Hxy : x <> y).
      { intros ->. pose proof (Hf y (or_introl eq_refl)) as E.
        assert (key_compare (local_key y) (local_key y) = Eq) by (apply key_cmp_eq; reflexivity). congruence. }
      destruct (local_eqb s x) eqn:E.
      * apply local_eqb_spec in E. subst x. exists y. split; [right; left; reflexivity|].
        intros [H1|[]]. congruence.
      * exists x. split; [left; reflexivity|]. intros [H1|[]]. subst x.
        assert (local_eqb s s = true) by (apply local_eqb_spec; reflexivity). congruence.
    + intros [H _]. apply H. left; reflexivity.
  - split; [discriminate|]. intros [_ [x [[] _]]].
  - split; [discriminate|]. intros [H _]. exfalso.
    destruct Ha as [Hlen [_ Hs]]. destruct l as [|x [|y l]]; [cbn in Hlen; lia|cbn in Hlen; lia|].
    inversion_clear Hs as [|? ? _ Hf]. rewrite Forall_forall in Hf.
    pose proof (Hf y (or_introl eq_refl)) as E.
    destruct (H x (or_introl eq_refl)) as [<-|[]]. destruct (H y (or_intror (or_introl eq_refl))) as [<-|[]].
    assert (key_compare (local_key s') (local_key s') = Eq) by (apply key_cmp_eq; reflexivity). congruence.
  - rewrite andb_true_iff, forallb_mem, Hnn. tauto.
Qed.

Lemma existsb_sym_false l : (forall s, In s l -> literal s) -> existsb is_sym l = false.
Proof.
  intros H. destruct (existsb is_sym l) eqn:E; [|reflexivity]. apply existsb_exists in E.
  destruct E as [s [Hs E]]. destruct (H s Hs) as [t Ht]. unfold is_sym in E. rewrite Ht in E. discriminate.
Qed.
Lemma isdisjoint_ok a b : canonical a -> canonical b -> a <> Full -> b <> Full ->
  exists d, isdisjoint a b = Ok d
    /\ (d = true <-> forall s, In s (factors a) -> ~ In s (factors b)).
Proof.
  intros Ha Hb Fa Fb.
  assert (Ea : local_factors a = Ok (factors a)) by (destruct a; try reflexivity; congruence).
  assert (Eb : local_factors b = Ok (factors b)) by (destruct b; try reflexivity; congruence).
  pose proof (existsb_sym_false _ (canonical_lits a Ha)) as Sa.
  pose proof (existsb_sym_false _ (canonical_lits b Hb)) as Sb.
  exists (negb (existsb (fun s => mem s (factors b)) (factors a))). split.
  - unfold isdisjoint. destruct b; try congruence; rewrite Ea; cbn [bind]; rewrite Sa, Eb; cbn [bind];
      rewrite Sb; reflexivity.
  - rewrite negb_true_iff. split.
    + intros H s Hs Hb'. assert (E : existsb (fun s => mem s (factors b)) (factors a) = true).
      { apply existsb_exists. exists s. split; [exact Hs|]. apply mem_spec, Hb'. }
      congruence.
    + intros H. destruct (existsb (fun s => mem s (factors b)) (factors a)) eqn:E; [|reflexivity]. apply existsb_exists in E.
      destruct E as [s [Hs E]]. apply mem_spec in E. exfalso. exact (H s Hs E).
Qed.
