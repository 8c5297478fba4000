From Verif Require Import Prelude ListFacts SortModel HilbertModel HilbertProofs BasisModel BasisSpec.

Local Opaque str_of_nat.

Lemma str_eqb_spec a b : str_eqb a b = true <-> a = b.
Proof. apply eqb_list_nat_spec. Qed.
Lemma str_eqb_refl a : str_eqb a a = true.
Proof. now apply str_eqb_spec. Qed.
Lemma str_eqb_neq a b : a <> b -> str_eqb a b = false.
Proof. intros H. destruct (str_eqb a b) eqn:E; [|reflexivity]. apply str_eqb_spec in E. contradiction. Qed.

Lemma str_index_Some x l i :
  str_index x l = Some i <-> nth_error l i = Some x /\ (forall j, j < i -> nth_error l j <> Some x).
Proof.
  revert i. induction l as [|y l IH]; intros i; cbn [str_index].
  - split; [discriminate|]. intros [H _]. destruct i; discriminate.
  - destruct (str_eqb x y) eqn:E.
    + apply str_eqb_spec in E. subst y. split.
      * intros [= <-]. split; [reflexivity|]. intros j Hj. lia.
      * intros [H1 H2]. destruct i; [reflexivity|]. exfalso. apply (H2 0); [lia|reflexivity].
    + assert (x <> y) by (intros ->; rewrite str_eqb_refl in E; discriminate).
      split.
      * destruct (str_index x l) as [k|] eqn:F; [|discriminate]. intros [= <-].
        destruct (proj1 (IH k) eq_refl) as [F1 F2]. split; [exact F1|].
        intros [|j] Hj; cbn; [congruence|]. apply F2. lia.
      * intros [H1 H2]. destruct i; cbn in H1; [congruence|].
        assert (F : str_index x l = Some i).
        { apply IH. split; [exact H1|]. intros j Hj. apply (H2 (S j)). lia. }
        now rewrite F.
Qed.
Lemma str_index_None x l : str_index x l = None <-> ~ In x l.
Proof.
  induction l as [|y l IH]; cbn [str_index In]; [tauto|].
  destruct (str_eqb x y) eqn:E.
  - apply str_eqb_spec in E. subst. split; [discriminate|]. intros H. exfalso. apply H. now left.
  - assert (y <> x) by (intros ->; rewrite str_eqb_refl in E; discriminate).
    destruct (str_index x l); cbn; split; try discriminate; try tauto.
    intros H1. exfalso. assert (~ In x l) by tauto. apply IH in H0. discriminate.
Qed.
Lemma str_index_NoDup l i x : NoDup l -> nth_error l i = Some x -> str_index x l = Some i.
Proof.
  intros Hn Hi. apply str_index_Some. split; [exact Hi|]. intros j Hj E.
  assert (j = i); [|lia].
  apply (NoDup_nth_error l); [exact Hn| |congruence].
  apply nth_error_Some. congruence.
Qed.

(** ** cartesian products *)
Section Cart.
  Context {A : Type}.
  Implicit Types (l : list A) (ls : list (list A)).
  Lemma cartesian_length ls : length (cartesian ls) = product_of (map (@length A) ls).
  Proof.
    induction ls as [|l ls IH]; [reflexivity|]. cbn [cartesian map product_of fold_right].
    fold (product_of (map (@length A) ls)).
    induction l as [|x l IHl]; [reflexivity|]. cbn [flat_map length Nat.mul].
    rewrite app_length, map_length, IH, IHl. reflexivity.
  Qed.
  Lemma nth_error_flat_map {B} (f : A -> list B) m l i j x :
    (forall y, In y l -> length (f y) = m) -> j < m -> nth_error l i = Some x ->
    nth_error (flat_map f l) (i * m + j) = nth_error (f x) j.
  Proof.
    revert i. induction l as [|y l IH]; intros i Hm Hj Hi; [destruct i; discriminate|].
    cbn [flat_map]. destruct i.
    - injection Hi as ->. rewrite nth_error_app1; [reflexivity|]. rewrite Hm; [lia|now left].
    - rewrite nth_error_app2; rewrite Hm by (now left); [|cbn [Nat.mul]; lia].
      replace (S i * m + j - m) with (i * m + j) by (cbn [Nat.mul]; lia).
      apply IH; [|exact Hj|exact Hi]. intros z Hz. apply Hm. now right.
  Qed.
End Cart.

Lemma rank_acc ds is acc : length ds = length is ->
  fold_left (fun a di => a * fst di + snd di) (combine ds is) acc = acc * product_of ds + rank ds is.
Proof.
  revert is acc. induction ds as [|d ds IH]; intros [|i is] acc H; try discriminate; cbn.
  - unfold rank. cbn. lia.
  - unfold rank. cbn. injection H as H. rewrite !IH by exact H.
    fold (product_of ds). fold (rank ds is). lia.
Qed.
Lemma rank_cons d ds i is : length ds = length is ->
  rank (d :: ds) (i :: is) = i * product_of ds + rank ds is.
Proof. intros H. unfold rank at 1. cbn. rewrite rank_acc by exact H. reflexivity. Qed.
Lemma Forall2_length' {A B} (R : A -> B -> Prop) l l' : Forall2 R l l' -> length l = length l'.
Proof. induction 1; cbn; congruence. Qed.
Lemma rank_lt ds is : Forall2 lt is ds -> rank ds is < product_of ds.
Proof.
  induction 1 as [|i d is ds H1 H2 IH]; [cbn; lia|].
  rewrite rank_cons by (symmetry; exact (Forall2_length' _ _ _ H2)). cbn [product_of fold_right].
  fold (product_of ds). nia.
Qed.
Lemma rank_inj ds is js : Forall2 lt is ds -> Forall2 lt js ds -> rank ds is = rank ds js -> is = js.
Proof.
  intros H. revert js. induction H as [|i d is ds H1 H2 IH]; intros js Hj E; inversion Hj as [|x y js' ds' Hjd Hjs]; subst; [reflexivity|].
  rewrite !rank_cons in E by (symmetry; eapply Forall2_length'; eassumption).
  pose proof (rank_lt _ _ H2). pose proof (rank_lt _ _ Hjs).
  assert (x = i) by nia. subst x. f_equal. apply IH; [assumption|]. lia.
Qed.
Lemma rank_onto ds p : p < product_of ds -> exists is, Forall2 lt is ds /\ rank ds is = p.
Proof.
  revert p. induction ds as [|d ds IH]; intros p H.
  - exists []. split; [constructor|]. cbn in *. lia.
  - cbn [product_of fold_right] in H. fold (product_of ds) in H.
    assert (Hq : product_of ds <> 0) by nia.
    destruct (IH (p mod product_of ds)) as [is [H1 H2]]; [now apply Nat.mod_upper_bound|].
    exists (p / product_of ds :: is). split.
    + constructor; [|exact H1]. apply Nat.div_lt_upper_bound; [exact Hq|]. lia.
    + rewrite rank_cons by (symmetry; exact (Forall2_length' _ _ _ H1)). rewrite H2.
      pose proof (Nat.div_mod p _ Hq). lia.
Qed.

Lemma index_tuple_lt bs is : index_tuple bs is <-> Forall2 lt is (map (@length str) bs).
Proof.
  split.
  - induction 1; cbn; constructor; assumption.
  - revert is. induction bs as [|b bs IH]; intros is H; inversion H; subst; constructor; auto.
    apply IH. assumption.
Qed.
Lemma nth_cartesian bs is : index_tuple bs is ->
  nth_error (cartesian bs) (rank (map (@length str) bs) is) = Some (picked bs is).
Proof.
  induction 1 as [|i b is bs H1 H2 IH]; [reflexivity|].
  cbn [cartesian map]. rewrite rank_cons.
  2:{ rewrite map_length. symmetry. exact (Forall2_length' _ _ _ H2). }
  assert (Hi : nth_error b i = Some (nth i b [])) by (now apply nth_error_nth_lt).
  rewrite (nth_error_flat_map _ (product_of (map (@length str) bs)) b i _ (nth i b [])); [|..].
  - rewrite nth_error_map, IH. reflexivity.
  - intros y _. rewrite map_length. apply cartesian_length.
  - apply rank_lt. now apply index_tuple_lt.
  - exact Hi.
Qed.
(** every basis tuple is picked by an index tuple *)
Lemma cartesian_at bs p w : nth_error (cartesian bs) p = Some w ->
  exists is, index_tuple bs is /\ rank (map (@length str) bs) is = p /\ w = picked bs is.
Proof.
  intros H. assert (Hp : p < product_of (map (@length str) bs)).
  { rewrite <- cartesian_length. apply nth_error_Some. congruence. }
  destruct (rank_onto _ _ Hp) as [is [H1 H2]]. exists is. apply index_tuple_lt in H1.
  split; [exact H1|]. split; [exact H2|]. rewrite <- H2, nth_cartesian in H by exact H1. congruence.
Qed.

Lemma have_bases_labels l bs : have_bases l bs -> mapM local_labels l = Ok bs.
Proof.
  induction 1 as [|s b l bs H1 H2 IH]; [reflexivity|]. cbn [mapM]. unfold local_labels at 1.
  rewrite H1. cbn. now rewrite IH.
Qed.
Lemma labels_have_bases l bs : mapM local_labels l = Ok bs -> have_bases l bs.
Proof.
  revert bs. induction l as [|s l IH]; intros bs; cbn [mapM].
  - intros [= <-]. constructor.
  - unfold local_labels at 1. destruct (l_basis s) as [b|] eqn:E; [|discriminate]. cbn.
    destruct (mapM local_labels l) as [r|] eqn:F; [|discriminate]. cbn. intros [= <-].
    constructor; [exact E|]. now apply IH.
Qed.

Lemma prod_fold ds a : fold_left Nat.mul ds a = a * product_of ds.
Proof.
  revert a. induction ds as [|d ds IH]; intros a; cbn; [lia|]. rewrite IH. fold (product_of ds). lia.
Qed.
Lemma dims_ok l bs : have_bases l bs -> mapM local_dim l = Ok (map (@length str) bs).
Proof.
  induction 1 as [|s b l bs H1 H2 IH]; [reflexivity|]. cbn [mapM]. unfold local_dim at 1, local_labels.
  rewrite H1. cbn. now rewrite IH.
Qed.

(** ** kets *)
Lemma unpack_lab s b x : l_basis s = Some b ->
  unpack s (Lab x) = match str_index x b with Some i => Ok (x, Z.of_nat i) | None => Err ValueError end.
Proof. intros H. unfold unpack, local_labels. rewrite H. cbn. destruct (str_index x b); reflexivity. Qed.
Lemma unpack_idx s b i : l_basis s = Some b ->
  unpack s (Idx i) =
    if (i <? 0)%Z || (Z.of_nat (length b) <=? i)%Z then Err ValueError
    else Ok (nth (Z.to_nat i) b [], i).
Proof.
  intros H. unfold unpack. rewrite H. destruct (i <? 0)%Z eqn:E; cbn; [reflexivity|].
  destruct (Z.of_nat (length b) <=? i)%Z eqn:F; cbn; [reflexivity|].
  apply Z.ltb_ge in E. apply Z.leb_gt in F.
  rewrite (nth_error_nth_lt b (Z.to_nat i) []) by lia. reflexivity.
Qed.
Lemma unpack_same s b i x : l_basis s = Some b -> NoDup b -> nth_error b i = Some x ->
  unpack s (Lab x) = Ok (x, Z.of_nat i) /\ unpack s (Idx (Z.of_nat i)) = Ok (x, Z.of_nat i).
Proof.
  intros Hb Hn Hi. split.
  - rewrite (unpack_lab s b) by exact Hb. now rewrite (str_index_NoDup b i x Hn Hi).
  - rewrite (unpack_idx s b) by exact Hb. assert (i < length b) by (apply nth_error_Some; congruence).
    replace (Z.of_nat i <? 0)%Z with false by (symmetry; apply Z.ltb_ge; lia).
    replace (Z.of_nat (length b) <=? Z.of_nat i)%Z with false by (symmetry; apply Z.leb_gt; lia).
    cbn. rewrite Nat2Z.id. do 2 f_equal. symmetry. apply nth_error_nth with (d := []) in Hi. now symmetry.
Qed.

Lemma kets_of_cons s l x w :
  kets_of (s :: l) (x :: w) = do k <- basis_ket s (Lab x); do ks <- kets_of l w; Ok (k :: ks).
Proof. reflexivity. Qed.
Lemma picked_cons b bs i is : picked (b :: bs) (i :: is) = nth i b [] :: picked bs is.
Proof. reflexivity. Qed.
(** the product states picked by [is] *)
Definition state_at (l : list local) (bs : list (list str)) (is : list nat) : list ket :=
  map (fun p => mk_ket (fst (fst p)) (nth (snd p) (snd (fst p)) []) (Z.of_nat (snd p)))
      (combine (combine l bs) is).
Lemma kets_of_ok l bs is : have_bases l bs -> Forall (@NoDup str) bs -> index_tuple bs is ->
  kets_of l (picked bs is) = Ok (state_at l bs is).
Proof.
  intros H. revert is. induction H as [|s b l bs H1 H2 IH]; intros is Hn Hi; inversion Hi as [|x y is' bs' Hlt Hi']; subst; [reflexivity|].
  inversion Hn as [|z zs Hn1 Hn2]; subst.
  rewrite picked_cons, kets_of_cons. unfold basis_ket.
  rewrite (proj1 (unpack_same s b x (nth x b []) H1 Hn1 (nth_error_nth_lt b x [] Hlt))). cbn [bind fst snd].
  specialize (IH is' Hn2 Hi'). rewrite IH. reflexivity.
Qed.
(** without the hypothesis that labels are distinct the states still exist and
    carry the labels *)
Lemma kets_of_labels l bs is : have_bases l bs -> index_tuple bs is ->
  exists ks, kets_of l (picked bs is) = Ok ks
    /\ map k_space ks = l /\ map k_label ks = picked bs is.
Proof.
  intros H. revert is. induction H as [|s b l bs H1 H2 IH]; intros is Hi; inversion Hi as [|x y is' bs' Hlt Hi']; subst.
  - exists []. repeat split.
  - destruct (IH _ Hi') as [ks [E1 [E2 E3]]].
    rewrite picked_cons, kets_of_cons. unfold basis_ket.
    rewrite (unpack_lab s b) by exact H1.
    destruct (str_index (nth x b []) b) as [k|] eqn:F.
    2:{ apply str_index_None in F. exfalso. apply F. apply nth_In. exact Hlt. }
    cbn [bind fst snd]. rewrite E1. cbn [bind].
    eexists. split; [reflexivity|]. cbn [map k_space k_label]. rewrite E2, E3. split; reflexivity.
Qed.

Lemma prod_states_ok l bs : have_bases l bs -> Forall (@NoDup str) bs ->
  exists sts, prod_basis_states l = Ok sts
    /\ length sts = product_of (map (@length str) bs)
    /\ forall is, index_tuple bs is ->
         nth_error sts (rank (map (@length str) bs) is) = Some (state_at l bs is).
Proof.
  intros Hb Hn. unfold prod_basis_states. rewrite (have_bases_labels _ _ Hb). cbn [bind].
  assert (H : exists sts, mapM (kets_of l) (cartesian bs) = Ok sts).
  { assert (Hall : forall w, In w (cartesian bs) -> exists r, kets_of l w = Ok r).
    { intros w Hw. apply In_nth_error in Hw. destruct Hw as [p Hp]. apply cartesian_at in Hp.
      destruct Hp as [is [Hi [_ ->]]]. eexists. now apply kets_of_ok. }
    induction (cartesian bs) as [|w ws IH]; [eexists; reflexivity|].
    destruct (Hall w) as [r Hr]; [now left|]. destruct IH as [sts Hs].
    { intros v Hv. apply Hall. now right. }
    cbn [mapM]. rewrite Hr, Hs. eexists. reflexivity. }
  destruct H as [sts Hs]. exists sts. split; [exact Hs|].
  destruct (mapM_ok_inv _ _ _ Hs) as [Hl Hnth].
  split; [now rewrite Hl, cartesian_length|].
  intros is Hi. pose proof (nth_cartesian bs is Hi) as Hc.
  assert (Hlt : rank (map (@length str) bs) is < length sts).
  { rewrite Hl, cartesian_length. apply rank_lt. now apply index_tuple_lt. }
  pose proof (kets_of_ok l bs is Hb Hn Hi) as Hk.
  clear - Hs Hc Hk. revert sts Hs Hc. generalize (rank (map (@length str) bs) is).
  generalize (cartesian bs). intros ws. induction ws as [|w ws IH]; intros n sts Hs Hc; [destruct n; discriminate|].
  cbn [mapM] in Hs. destruct (kets_of l w) as [r|] eqn:E; [|discriminate]. cbn [bind] in Hs.
  destruct (mapM (kets_of l) ws) as [rs|] eqn:F; [|discriminate]. injection Hs as <-.
  destruct n; cbn in Hc |- *; [|now apply IH].
  injection Hc as ->. congruence.
Qed.

(** ** join and split *)
Lemma split_comma_free w : comma_free w -> split w = [w].
Proof.
  induction w as [|c w IH]; intros H; [reflexivity|]. cbn [split].
  destruct (c =? comma) eqn:E.
  - apply Nat.eqb_eq in E. subst. exfalso. apply H. now left.
  - rewrite IH; [reflexivity|]. intros F. apply H. now right.
Qed.
Lemma split_app w r : comma_free w -> split (w ++ comma :: r) = w :: split r.
Proof.
  induction w as [|c w IH]; intros H.
  - reflexivity.
  - cbn [app split]. destruct (c =? comma) eqn:E.
    + apply Nat.eqb_eq in E. subst. exfalso. apply H. now left.
    + rewrite IH; [reflexivity|]. intros F. apply H. now right.
Qed.
Lemma split_join ws : ws <> [] -> Forall comma_free ws -> split (join ws) = ws.
Proof.
  induction ws as [|w ws IH]; intros Hne H; [congruence|]. inversion H as [|x y H1 H2]; subst.
  cbn [join]. destruct ws as [|v vs]; [now apply split_comma_free|].
  rewrite split_app by exact H1. f_equal. apply IH; [discriminate|exact H2].
Qed.
Lemma picked_length bs is : length bs = length is -> length (picked bs is) = length bs.
Proof. intros H. unfold picked. rewrite map_length, combine_length. lia. Qed.
Lemma picked_comma_free bs is : Forall (Forall comma_free) bs -> index_tuple bs is ->
  Forall comma_free (picked bs is).
Proof.
  intros H Hi. revert H. induction Hi as [|i b is bs H1 H2 IH]; intros H; [constructor|].
  inversion H as [|x y Hb Hbs]; subst. rewrite picked_cons. constructor; [|now apply IH].
  rewrite Forall_forall in Hb. apply Hb. now apply nth_In.
Qed.
Lemma picked_inj bs is js : Forall (@NoDup str) bs -> index_tuple bs is -> index_tuple bs js ->
  picked bs is = picked bs js -> is = js.
Proof.
  intros Hn Hi. revert js Hn. induction Hi as [|i b is bs H1 H2 IH]; intros js Hn Hj E;
    inversion Hj as [|j b' js' bs' Hj1 Hj2]; subst; [reflexivity|].
  inversion Hn as [|x y Hb Hbs]; subst. rewrite !picked_cons in E. injection E as E1 E2.
  f_equal; [|now apply IH].
  apply (NoDup_nth b []); assumption.
Qed.
Lemma join_inj ws vs : length ws = length vs -> Forall comma_free ws -> Forall comma_free vs ->
  join ws = join vs -> ws = vs.
Proof.
  intros Hl H1 H2 E. destruct ws as [|w ws]; [destruct vs; [reflexivity|discriminate]|].
  destruct vs as [|v vs]; [discriminate|].
  rewrite <- (split_join (w :: ws)) by (try discriminate; exact H1).
  rewrite <- (split_join (v :: vs)) by (try discriminate; exact H2). now rewrite E.
Qed.

(** ** decimal digits *)
Local Transparent str_of_nat.
Definition val_digits (l : list nat) : nat := fold_left (fun a c => 10 * a + (c - 48)) l 0.
Lemma val_digits_snoc l c : val_digits (l ++ [c]) = 10 * val_digits l + (c - 48).
Proof. unfold val_digits. now rewrite fold_left_app. Qed.
Lemma val_digits_ok f n : n < f -> val_digits (digits f n) = n.
Proof.
  revert n. induction f as [|f IH]; intros n H; [lia|]. cbn [digits].
  destruct (n <? 10) eqn:E.
  - apply Nat.ltb_lt in E. unfold val_digits. cbn [fold_left]. lia.
  - apply Nat.ltb_ge in E. rewrite val_digits_snoc, IH.
    + pose proof (Nat.div_mod n 10). lia.
    + assert (n / 10 < n) by (apply Nat.div_lt; lia). lia.
Qed.
Lemma str_of_nat_inj a b : str_of_nat a = str_of_nat b -> a = b.
Proof.
  intros H. rewrite <- (val_digits_ok (S a) a) by lia. rewrite <- (val_digits_ok (S b) b) by lia.
  unfold str_of_nat in H. now rewrite H.
Qed.
Lemma str_of_nat_digit n c : In c (str_of_nat n) -> 48 <= c < 58.
Proof. apply digits_range. Qed.
Local Opaque str_of_nat.
Lemma str_of_nat_comma_free n : comma_free (str_of_nat n).
Proof. intros H. apply str_of_nat_digit in H. unfold comma in H. lia. Qed.
Lemma str_of_nat_sign n c : c < 48 -> ~ In c (str_of_nat n).
Proof. intros Hc H. apply str_of_nat_digit in H. lia. Qed.
Lemma str_of_Z_inj a b : str_of_Z a = str_of_Z b -> a = b.
Proof.
  unfold str_of_Z. destruct (a <? 0)%Z eqn:E; destruct (b <? 0)%Z eqn:F; intros H;
    rewrite ?Z.ltb_lt, ?Z.ltb_ge in *.
  - injection H as H. apply str_of_nat_inj in H. lia.
  - exfalso. apply (str_of_nat_sign (Z.to_nat b) 45); [lia|]. rewrite <- H. now left.
  - exfalso. apply (str_of_nat_sign (Z.to_nat a) 45); [lia|]. rewrite H. now left.
  - apply str_of_nat_inj in H. lia.
Qed.
Lemma str_of_Z_plus a : ~ In 43 (str_of_Z a).
Proof.
  unfold str_of_Z. destruct (a <? 0)%Z; [intros [H|H]; [discriminate|]|intros H];
    revert H; apply str_of_nat_sign; lia.
Qed.
Lemma str_of_Z_slash a : ~ In 47 (str_of_Z a).
Proof.
  unfold str_of_Z. destruct (a <? 0)%Z; [intros [H|H]; [discriminate|]|intros H];
    revert H; apply str_of_nat_sign; lia.
Qed.
Lemma signed_inj (a b : Z) :
  (if (0 <? a)%Z then 43 :: str_of_Z a else str_of_Z a) = (if (0 <? b)%Z then 43 :: str_of_Z b else str_of_Z b) ->
  a = b.
Proof.
  destruct (0 <? a)%Z, (0 <? b)%Z; intros H.
  - injection H as H. now apply str_of_Z_inj.
  - exfalso. apply (str_of_Z_plus b). rewrite <- H. now left.
  - exfalso. apply (str_of_Z_plus a). rewrite H. now left.
  - now apply str_of_Z_inj.
Qed.
Lemma signed_slash (a : Z) : ~ In 47 (if (0 <? a)%Z then 43 :: str_of_Z a else str_of_Z a).
Proof. destruct (0 <? a)%Z; [intros [H|H]; [discriminate|]|]; now apply (str_of_Z_slash a). Qed.
Lemma render_half_inj a b : render_half a = render_half b -> a = b.
Proof.
  unfold render_half. destruct (Z.even a) eqn:E; destruct (Z.even b) eqn:F; cbv zeta; intros H.
  - apply signed_inj in H. apply Z.even_spec in E, F. destruct E as [x ->], F as [y ->].
    rewrite !(Z.mul_comm 2), !Z.div_mul in H by lia. lia.
  - exfalso. apply (signed_slash (a / 2)). rewrite H. apply in_or_app. right. now left.
  - exfalso. apply (signed_slash (b / 2)). rewrite <- H. apply in_or_app. right. now left.
  - apply app_inv_tail in H. now apply signed_inj.
Qed.
Lemma str_of_Z_comma_free a : comma_free (str_of_Z a).
Proof.
  unfold comma_free, str_of_Z. destruct (a <? 0)%Z; [intros [H|H]; [discriminate|]|intros H];
    revert H; apply str_of_nat_sign; unfold comma; lia.
Qed.
Lemma render_half_comma_free a : comma_free (render_half a).
Proof.
  assert (H : forall z, comma_free (if (0 <? z)%Z then 43 :: str_of_Z z else str_of_Z z)).
  { intros z. destruct (0 <? z)%Z; [|apply str_of_Z_comma_free].
    intros [E|E]; [discriminate|]. now apply (str_of_Z_comma_free z). }
  unfold render_half. destruct (Z.even a); cbv zeta; [apply H|].
  intros E. apply in_app_or in E. destruct E as [E|E]; [now apply (H a)|].
  cbn in E. destruct E as [E|[E|[]]]; discriminate.
Qed.
Lemma spin_basis_ok s2 b : spin_basis s2 = Ok b ->
  length b = Z.to_nat (s2 + 1) /\ NoDup b /\ Forall comma_free b
  /\ forall k, k < length b -> nth k b [] = render_half (2 * Z.of_nat k - s2).
Proof.
  unfold spin_basis. destruct (s2 + 1 <=? 1)%Z eqn:E; [discriminate|]. apply Z.leb_gt in E. intros [= <-].
  rewrite map_length, seq_length. split; [reflexivity|]. split; [|split].
  - apply FinFun.Injective_map_NoDup; [|apply seq_NoDup]. intros x y H. pose proof (render_half_inj (- s2 + 2 * Z.of_nat x) (- s2 + 2 * Z.of_nat y) H). lia.
  - apply Forall_forall. intros w Hw. apply in_map_iff in Hw. destruct Hw as [k [<- _]].
    apply render_half_comma_free.
  - intros k Hk. rewrite (nth_map_lt _ _ _ _ 0) by (now rewrite seq_length).
    rewrite seq_nth by exact Hk. rewrite Nat.add_0_l.
    replace (2 * Z.of_nat k - s2)%Z with (- s2 + 2 * Z.of_nat k)%Z by lia. reflexivity.
Qed.

(** ** next *)
Lemma next_idx s b i n : l_basis s = Some b ->
  next_label s (Idx i) n =
    if (0 <=? i + n)%Z && (i + n <? Z.of_nat (length b))%Z then Ok (Idx (i + n)) else Err IndexError.
Proof.
  intros H. unfold next_label. rewrite H. cbv zeta.
  destruct (Z.ltb_spec (i + n) 0), (Z.leb_spec 0 (i + n)); try lia; cbn [andb]; [reflexivity|].
  destruct (Z.ltb_spec (i + n) (Z.of_nat (length b))), (Z.leb_spec (Z.of_nat (length b)) (i + n)); try lia;
    reflexivity.
Qed.
Lemma next_lab s b i x n : l_basis s = Some b -> NoDup b -> nth_error b i = Some x ->
  next_label s (Lab x) n =
    if (0 <=? Z.of_nat i + n)%Z && (Z.of_nat i + n <? Z.of_nat (length b))%Z
    then Ok (Lab (nth (Z.to_nat (Z.of_nat i + n)) b [])) else Err IndexError.
Proof.
  intros H Hn Hi. unfold next_label, local_labels. rewrite H. cbn [of_option bind].
  rewrite (str_index_NoDup b i x Hn Hi). cbn [of_option bind]. cbv zeta.
  destruct (Z.ltb_spec (Z.of_nat i + n) 0), (Z.leb_spec 0 (Z.of_nat i + n)); try lia; cbn [andb orb]; [reflexivity|].
  destruct (Z.ltb_spec (Z.of_nat i + n) (Z.of_nat (length b))), (Z.leb_spec (Z.of_nat (length b)) (Z.of_nat i + n));
    try lia; [|reflexivity].
  rewrite (nth_error_nth_lt b _ []) by lia. reflexivity.
Qed.

(** ** ranges *)
Lemma In_range a b s v : (s <> 0)%Z ->
  In v (range_list a b s) <->
  (exists k : Z, (0 <= k)%Z /\ v = (a + k * s)%Z) /\ (if (0 <? s)%Z then v < b else b < v)%Z.
Proof.
  intros Hs. unfold range_list. rewrite in_map_iff. split.
  - intros [k [<- Hk]]. apply in_seq in Hk. split; [exists (Z.of_nat k); split; [lia|reflexivity]|].
    unfold range_len in Hk. destruct (0 <? s)%Z eqn:E.
    + apply Z.ltb_lt in E. destruct (a <? b)%Z eqn:F; [|lia]. apply Z.ltb_lt in F.
      assert (0 <= (b - 1 - a) / s)%Z by (apply Z.div_pos; lia).
      assert (Hk' : (Z.of_nat k <= (b - 1 - a) / s)%Z) by lia.
      pose proof (Z.mul_div_le (b - 1 - a) s ltac:(lia)). nia.
    + apply Z.ltb_ge in E. destruct (b <? a)%Z eqn:F; [|lia]. apply Z.ltb_lt in F.
      assert (0 <= (a - 1 - b) / (- s))%Z by (apply Z.div_pos; lia).
      assert (Hk' : (Z.of_nat k <= (a - 1 - b) / (- s))%Z) by lia.
      pose proof (Z.mul_div_le (a - 1 - b) (- s) ltac:(lia)). nia.
  - intros [[k [Hk ->]] Hb]. exists (Z.to_nat k). rewrite Z2Nat.id by exact Hk. split; [reflexivity|].
    apply in_seq. cbn. split; [lia|]. unfold range_len. destruct (0 <? s)%Z eqn:E.
    + apply Z.ltb_lt in E. replace (a <? b)%Z with true by (symmetry; apply Z.ltb_lt; nia).
      assert (k <= (b - 1 - a) / s)%Z by (apply Z.div_le_lower_bound; lia). lia.
    + apply Z.ltb_ge in E. replace (b <? a)%Z with true by (symmetry; apply Z.ltb_lt; nia).
      assert (k <= (a - 1 - b) / (- s))%Z by (apply Z.div_le_lower_bound; lia). lia.
Qed.
Lemma range_contains_spec a b s v : (s <> 0)%Z ->
  range_contains a b s v = true <-> In v (range_list a b s).
Proof.
  intros Hs. rewrite In_range by exact Hs. unfold range_contains.
  rewrite andb_true_iff, Z.eqb_eq. split.
  - intros [H1 H2]. destruct (0 <? s)%Z eqn:E; rewrite andb_true_iff in H1;
      rewrite ?Z.leb_le, ?Z.ltb_lt in H1; (split; [|lia]).
    + apply Z.ltb_lt in E. apply Z.mod_divide in H2; [|exact Hs]. destruct H2 as [k Hk].
      exists k. split; [nia|lia].
    + apply Z.ltb_ge in E. apply Z.mod_divide in H2; [|exact Hs]. destruct H2 as [k Hk].
      exists k. split; [nia|lia].
  - intros [[k [Hk ->]] Hb]. split.
    + destruct (0 <? s)%Z eqn:E; rewrite andb_true_iff; rewrite ?Z.leb_le, ?Z.ltb_lt in *;
        try (apply Z.ltb_ge in E); split; nia.
    + replace (a + k * s - a)%Z with (k * s)%Z by lia. now apply Z.mod_mul.
Qed.
Lemma range_NoDup a b s : (s <> 0)%Z -> NoDup (range_list a b s).
Proof.
  intros Hs. unfold range_list. apply FinFun.Injective_map_NoDup; [|apply seq_NoDup].
  intros x y H. nia.
Qed.
Lemma range_length a b s : length (range_list a b s) = range_len a b s.
Proof. unfold range_list. now rewrite map_length, seq_length. Qed.
Lemma existsb_Zeqb v l : existsb (Z.eqb v) l = true <-> In v l.
Proof.
  rewrite existsb_exists. split.
  - intros [x [H E]]. apply Z.eqb_eq in E. now subst.
  - intros H. exists v. split; [exact H|apply Z.eqb_refl].
Qed.
