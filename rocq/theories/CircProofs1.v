From Verif Require Import Prelude ListFacts PermModel PermSpec PermProofs1 PermProofs2 PermProofs4 PermProofs5 CircModel CircSpec.

Section WithX.
Context {X : Type}.
Local Notation circ := (circ X).
Local Notation CSym := (@CSym X).
Local Notation CSlh := (@CSlh X).
Local Notation CPerm := (@CPerm X).
Local Notation CId := (@CId X).
Local Notation CZero := (@CZero X).
Local Notation CSeries := (@CSeries X).
Local Notation CConcat := (@CConcat X).
Local Notation CFeedback := (@CFeedback X).
Local Notation CSInv := (@CSInv X).
Local Notation circuit_identity := (@circuit_identity X).
Local Notation cperm_create := (@cperm_create X).
Local Notation extract_channel := (@extract_channel X).
Local Notation map_channels := (@map_channels X).
Local Notation mc1 := (@mc1 X).
Local Notation routing := (@routing X).
Local Notation is_identity := (@is_identity X).
Local Notation series_with_permutation := (@series_with_permutation X).
Local Notation series_perm := (@series_perm X).
Local Notation cperm_series_inverse := (@cperm_series_inverse X).
Local Notation cperm_feedback := (@cperm_feedback X).
Local Notation factor_rhs := (@factor_rhs X).
Local Notation factor_lhs := (@factor_lhs X).
Local Notation all_cid := (@all_cid X).
Local Notation cdim := (@cdim X).

(** *** CPermutation.create *)
Lemma eqb_list_nat_eq a b : eqb_list_nat a b = true <-> a = b.
Proof.
  revert b; induction a as [|x a IH]; intros [|y b]; cbn; split; intros H; try discriminate; try reflexivity.
  - apply andb_true_iff in H as [H1 H2]. apply Nat.eqb_eq in H1. apply IH in H2. congruence.
  - injection H as -> ->. rewrite Nat.eqb_refl. apply IH; reflexivity.
Qed.

Lemma all_cid_repeat n : all_cid (repeat CId n) = true.
Proof. induction n; cbn; auto. Qed.

Lemma all_cid_inv ops : all_cid ops = true -> ops = repeat CId (length ops).
Proof.
  induction ops as [|o ops IH]; cbn; intros H; [reflexivity|].
  destruct o; try discriminate. f_equal. apply IH; exact H.
Qed.

Lemma routing_identity n : routing (circuit_identity n) = Some (seq 0 n).
Proof.
  destruct n as [|[|n]]; [reflexivity|reflexivity|].
  cbn [circuit_identity routing]. rewrite all_cid_repeat, repeat_length. reflexivity.
Qed.

Lemma is_identity_identity n : is_identity (circuit_identity n) = true.
Proof.
  destruct n as [|[|n]]; [reflexivity|reflexivity|].
  cbn [circuit_identity is_identity]. rewrite all_cid_repeat, repeat_length. reflexivity.
Qed.

Lemma cdim_repeat_cid n : sum (map cdim (repeat CId n)) = n.
Proof. induction n as [|n IH]; [reflexivity|]. cbn [repeat map]. rewrite sum_cons, IH. reflexivity. Qed.

Lemma cdim_identity n : cdim (circuit_identity n) = n.
Proof.
  destruct n as [|[|n]]; [reflexivity|reflexivity|].
  unfold circuit_identity. cbn [cdim]. apply cdim_repeat_cid.
Qed.

Lemma is_identity_inv c : is_identity c = true -> c = circuit_identity (cdim c).
Proof.
  destruct c; cbn [is_identity cdim]; intros H; try discriminate; [reflexivity|reflexivity|].
  apply andb_true_iff in H as [H1 H2]. apply all_cid_inv in H1. apply Nat.leb_le in H2.
  rewrite H1. rewrite cdim_repeat_cid. destruct (length operands) as [|[|n]]; try lia. reflexivity.
Qed.

(** canonical circuit for a permutation *)
Definition pc (p : list nat) : circ :=
  if eqb_list_nat p (seq 0 (length p)) then circuit_identity (length p) else CPerm p.

Lemma cperm_create_ok p : is_perm p -> cperm_create p = Ok (pc p).
Proof.
  intros H. unfold cperm_create, pc. rewrite (proj2 (checkp_spec p) H). cbn.
  destruct (eqb_list_nat p _); reflexivity.
Qed.

Lemma cperm_create_bad p : ~ is_perm p -> cperm_create p = Err BadPermutationError.
Proof.
  intros H. unfold cperm_create. destruct (checkp p) eqn:E; [|reflexivity].
  apply checkp_spec in E. contradiction.
Qed.

Lemma routing_pc p : routing (pc p) = Some p.
Proof.
  unfold pc. destruct (eqb_list_nat p (seq 0 (length p))) eqn:E; [|reflexivity].
  apply eqb_list_nat_eq in E. rewrite routing_identity. congruence.
Qed.

Lemma cdim_pc p : cdim (pc p) = length p.
Proof. unfold pc. destruct (eqb_list_nat p _); [apply cdim_identity|reflexivity]. Qed.

Lemma pc_cases p : (p = seq 0 (length p) /\ pc p = circuit_identity (length p)) \/
                   (p <> seq 0 (length p) /\ pc p = CPerm p).
Proof.
  unfold pc. destruct (eqb_list_nat p (seq 0 (length p))) eqn:E.
  - left. apply eqb_list_nat_eq in E. auto.
  - right. split; [|reflexivity]. intros H. apply eqb_list_nat_eq in H. congruence.
Qed.

Lemma is_identity_pc p : is_identity (pc p) = true <-> p = seq 0 (length p).
Proof.
  destruct (pc_cases p) as [[H ->]|[H ->]]; [rewrite is_identity_identity; tauto|].
  cbn. split; intros; [discriminate|contradiction].
Qed.

Lemma is_identity_circ_id c : is_identity c = true -> exists n, c = circuit_identity n /\ cdim c = n.
Proof. intros H. exists (cdim c). split; [apply is_identity_inv; exact H|reflexivity]. Qed.

(** Both [pc q] and the bare [CPerm q] occur as operands. *)
Definition is_pc (c : circ) (q : list nat) : Prop := c = pc q \/ c = CPerm q.

Lemma series_with_perm_ok p q : is_perm p -> is_perm q -> length p = length q ->
  series_with_permutation p q = Ok (pc (comp p q)).
Proof.
  intros Hp Hq Hl. unfold series_with_permutation.
  rewrite (mapM_ok _ (fun j => nth j p 0)).
  - cbn [bind]. apply cperm_create_ok. apply comp_perm; assumption.
  - intros x Hx. apply (is_perm_In q) in Hx; [|exact Hq].
    rewrite (nth_error_nth' p 0) by lia. reflexivity.
Qed.

Lemma series_perm_ok a b p q : is_pc a p -> is_pc b q -> is_perm p -> is_perm q -> length p = length q ->
  exists c, series_perm a b = Ok c /\ is_pc c (comp p q) /\ cdim c = length p /\
    (a = pc p -> b = pc q -> c = pc (comp p q)).
Proof.
  intros Ha Hb Hp Hq Hl. unfold series_perm.
  assert (cdim a = length p) as Hca by (destruct Ha as [->| ->]; [apply cdim_pc|reflexivity]).
  assert (cdim b = length q) as Hcb by (destruct Hb as [->| ->]; [apply cdim_pc|reflexivity]).
  rewrite Hca, Hcb, Hl, Nat.eqb_refl. cbn [negb].
  destruct (is_identity a) eqn:Ea.
  - exists b. assert (p = seq 0 (length p)) as Hid.
    { destruct Ha as [->| ->]; [apply is_identity_pc; exact Ea|discriminate]. }
    assert (comp p q = q) as ->.
    { rewrite Hid, Hl. apply comp_id_l; exact Hq. }
    repeat split; auto.
  - destruct (is_identity b) eqn:Eb.
    + exists a. assert (q = seq 0 (length q)) as Hid.
      { destruct Hb as [->| ->]; [apply is_identity_pc; exact Eb|discriminate]. }
      assert (comp p q = p) as ->.
      { rewrite Hid, <- Hl. apply comp_id_r. }
      repeat split; auto. congruence.
    + assert (a = CPerm p) as ->.
      { destruct Ha as [->|H]; [|exact H]. destruct (pc_cases p) as [[H1 H2]|[H1 H2]]; [|exact H2].
        rewrite H2, is_identity_identity in Ea. discriminate. }
      assert (b = CPerm q) as ->.
      { destruct Hb as [->|H]; [|exact H]. destruct (pc_cases q) as [[H1 H2]|[H1 H2]]; [|exact H2].
        rewrite H2, is_identity_identity in Eb. discriminate. }
      exists (pc (comp p q)). rewrite series_with_perm_ok by assumption.
      repeat split; auto; [left; reflexivity|]. rewrite cdim_pc, comp_length. congruence.
Qed.

(** *** map_channels *)
Definition memZ (v : Z) (l : list Z) : bool := existsb (Z.eqb v) l.
Lemma memZ_spec v l : memZ v l = true <-> In v l.
Proof.
  unfold memZ. rewrite existsb_exists. split.
  - intros (x & Hx & He). apply Z.eqb_eq in He. congruence.
  - intros H. exists v. split; [exact H|apply Z.eqb_refl].
Qed.

Lemma remove_first_filter x l : NoDup l -> In x l ->
  remove_first x l = Some (filter (fun y => negb (y =? x)) l).
Proof.
  induction l as [|y l IH]; intros Hnd Hin; [destruct Hin|]. inversion Hnd as [|? ? Hy Hnd']; subst.
  cbn [remove_first filter]. destruct (Nat.eqb_spec x y) as [->|Hne].
  - rewrite Nat.eqb_refl. cbn [negb]. f_equal. symmetry. apply filter_id_in.
    intros z Hz. destruct (Nat.eqb_spec z y) as [->|]; [contradiction|reflexivity].
  - destruct (Nat.eqb_spec y x) as [->|_]; [congruence|]. cbn [negb].
    destruct Hin as [->|Hin]; [congruence|]. rewrite IH by assumption. reflexivity.
Qed.

Lemma remove_first_none x l : ~ In x l -> remove_first x l = None.
Proof.
  induction l as [|y l IH]; intros H; [reflexivity|]. cbn.
  destruct (Nat.eqb_spec x y) as [->|]; [exfalso; apply H; left; reflexivity|].
  rewrite IH; [reflexivity|]. intros Hin; apply H; right; exact Hin.
Qed.

Lemma mc_values_spec n vs : forall free, NoDup free -> (forall x, In x free -> x < n) ->
  match mc_values n vs free with
  | Ok f => (NoDup vs /\ forall v, In v vs -> exists x, In x free /\ v = Z.of_nat x) /\
            f = filter (fun x => negb (memZ (Z.of_nat x) vs)) free
  | Err ValueError => ~ (NoDup vs /\ forall v, In v vs -> exists x, In x free /\ v = Z.of_nat x)
  | Err _ => False
  end.
Proof.
  induction vs as [|v vs IH]; intros free Hnd Hb; cbn [mc_values].
  - split; [split; [constructor|intros v []]|]. symmetry. apply filter_id_in. reflexivity.
  - destruct (Z.leb_spec (Z.of_nat n) v) as [Hge|Hlt].
    { intros [_ H]. destruct (H v (or_introl eq_refl)) as (x & Hx & ->). apply Hb in Hx. lia. }
    unfold remove_Z. destruct (Z.ltb_spec v 0) as [Hneg|Hpos].
    { cbn [bind]. intros [_ H]. destruct (H v (or_introl eq_refl)) as (x & _ & ->). lia. }
    destruct (in_dec Nat.eq_dec (Z.to_nat v) free) as [Hin|Hnin].
    2:{ rewrite remove_first_none by exact Hnin. cbn [of_option bind]. intros [_ H].
        destruct (H v (or_introl eq_refl)) as (x & Hx & ->). rewrite Nat2Z.id in Hnin. contradiction. }
    rewrite remove_first_filter by assumption. cbn [of_option bind].
    set (free' := filter (fun y => negb (y =? Z.to_nat v)) free).
    assert (forall x, In x free' <-> In x free /\ Z.of_nat x <> v) as Hf'.
    { intros x. unfold free'. rewrite filter_In. destruct (Nat.eqb_spec x (Z.to_nat v)) as [->|Hne]; cbn.
      - split; [intros [_ H]; discriminate|intros [_ H]; lia].
      - split; intros [H1 H2]; split; auto; lia. }
    specialize (IH free'). 
    destruct (mc_values n vs free') as [f|e].
    + destruct IH as [[Hnd2 Hall] ->]; [apply NoDup_filter; exact Hnd|intros x Hx; apply Hb, Hf', Hx|].
      split.
      * split.
        -- constructor; [|exact Hnd2]. intros Hv. destruct (Hall v Hv) as (x & Hx & He). apply Hf' in Hx. lia.
        -- intros w [<-|Hw]; [exists (Z.to_nat v); split; [exact Hin|lia]|].
           destruct (Hall w Hw) as (x & Hx & He). exists x. split; [apply Hf', Hx|exact He].
      * unfold free'. rewrite filter_filter_and. apply filter_ext. intros x. cbn [memZ existsb].
        destruct (Nat.eqb_spec x (Z.to_nat v)) as [->|Hne].
        -- rewrite Z2Nat.id by exact Hpos. rewrite Z.eqb_refl. reflexivity.
        -- destruct (Z.eqb_spec (Z.of_nat x) v) as [He|_]; [exfalso; lia|]. cbn. reflexivity.
    + destruct e; try (apply IH; [apply NoDup_filter; exact Hnd|intros x Hx; apply Hb, Hf', Hx]).
      specialize (IH ltac:(apply NoDup_filter; exact Hnd) ltac:(intros x Hx; apply Hb, Hf', Hx)).
      intros [H1 H2]. apply IH. inversion H1 as [|? ? Hv Hnd2]; subst. split; [exact Hnd2|].
      intros w Hw. destruct (H2 w (or_intror Hw)) as (x & Hx & ->). exists x. split; [|reflexivity].
      apply Hf'. split; [exact Hx|]. intros He. apply Hv. rewrite <- He. exact Hw.
Qed.

Lemma mc_keys_spec n ks :
  match mc_keys n ks with
  | Ok _ => forall k, In k ks -> (k < Z.of_nat n)%Z
  | Err ValueError => exists k, In k ks /\ (Z.of_nat n <= k)%Z
  | Err _ => False
  end.
Proof.
  induction ks as [|k ks IH]; cbn [mc_keys]; [intros k []|].
  destruct (Z.leb_spec (Z.of_nat n) k) as [H|H].
  - exists k; split; [left; reflexivity|exact H].
  - destruct (mc_keys n ks) as [u|e].
    + intros j [<-|Hj]; [exact H|apply IH, Hj].
    + destruct e; auto. destruct IH as (j & Hj & Hn). exists j; split; [right; exact Hj|exact Hn].
Qed.

Lemma dict_get_Some k m v : NoDup (map fst m) -> (dict_get k m = Some v <-> In (k, v) m).
Proof.
  induction m as [|[k' v'] m IH]; cbn [dict_get map fst]; intros Hnd; [split; [discriminate|intros []]|].
  inversion Hnd as [|? ? Hk Hnd']; subst.
  destruct (Z.eqb_spec k k') as [->|Hne].
  - split; [intros H; injection H as ->; left; reflexivity|].
    intros [H|H]; [congruence|]. exfalso. apply Hk. apply (in_map fst) in H. exact H.
  - rewrite IH by exact Hnd'. split; [intros H; right; exact H|].
    intros [H|H]; [congruence|exact H].
Qed.

Lemma dict_get_None k m : dict_get k m = None <-> ~ In k (map fst m).
Proof.
  induction m as [|[k' v'] m IH]; cbn [dict_get map fst]; [split; [intros _ []|reflexivity]|].
  destruct (Z.eqb_spec k k') as [->|Hne].
  - split; [discriminate|intros H; exfalso; apply H; left; reflexivity].
  - rewrite IH. split; intros H; [intros [He|Hin]; [congruence|auto]|intros Hin; apply H; right; exact Hin].
Qed.

Definition unmapped (m : list (Z * Z)) (k : nat) : bool :=
  match dict_get (Z.of_nat k) m with None => true | Some _ => false end.

Lemma mc_build_spec m ks : forall free,
  match mc_build m ks free with
  | Ok p => length (filter (unmapped m) ks) <= length free /\ length p = length ks /\
      (forall i v, i < length ks -> dict_get (Z.of_nat (nth i ks 0)) m = Some v -> nth i p 0 = Z.to_nat v) /\
      (forall i, i < length ks -> unmapped m (nth i ks 0) = true -> In (nth i p 0) free) /\
      (StronglySorted lt free -> forall i j, i < j -> j < length ks ->
         unmapped m (nth i ks 0) = true -> unmapped m (nth j ks 0) = true -> nth i p 0 < nth j p 0)
  | Err IndexError => length free < length (filter (unmapped m) ks)
  | Err _ => False
  end.
Proof.
  induction ks as [|k ks IH]; intros free; cbn [mc_build].
  - cbn. repeat split; intros; lia.
  - cbn [filter]. destruct (dict_get (Z.of_nat k) m) as [v|] eqn:Eg.
    + assert (unmapped m k = false) as Huk by (unfold unmapped; rewrite Eg; reflexivity). rewrite Huk.
      specialize (IH free). destruct (mc_build m ks free) as [p|e]; cbn [bind]; [|exact IH].
      destruct IH as (H1 & H2 & H3 & H4 & H5). split; [exact H1|]. split; [cbn; lia|]. split; [|split].
      * intros [|i] w Hi Hw; cbn [nth] in *; [congruence|]. apply H3; [cbn in Hi; lia|exact Hw].
      * intros [|i] Hi Hu; cbn [nth] in *; [unfold unmapped in Hu; rewrite Eg in Hu; discriminate|].
        apply H4; [cbn in Hi; lia|exact Hu].
      * intros Hs [|i] [|j] Hij Hj Hu1 Hu2; try lia; cbn [nth] in *.
        -- unfold unmapped in Hu1; rewrite Eg in Hu1; discriminate.
        -- apply H5; auto; [lia|cbn in Hj; lia].
    + assert (unmapped m k = true) as Huk by (unfold unmapped; rewrite Eg; reflexivity). rewrite Huk.
      destruct free as [|f free]; [cbn; lia|].
      specialize (IH free). destruct (mc_build m ks free) as [p|e]; cbn [bind].
      2:{ destruct e; auto. cbn. lia. }
      destruct IH as (H1 & H2 & H3 & H4 & H5). split; [cbn; lia|]. split; [cbn; lia|]. split; [|split].
      * intros [|i] w Hi Hw; cbn [nth] in *; [congruence|]. apply H3; [cbn in Hi; lia|exact Hw].
      * intros [|i] Hi Hu; cbn [nth] in *; [left; reflexivity|].
        right. apply H4; [cbn in Hi; lia|exact Hu].
      * intros Hs i j Hij Hj Hu1 Hu2. inversion Hs as [|? ? Hs' Hf]; subst. rewrite Forall_forall in Hf.
        destruct j as [|j]; [lia|]. destruct i as [|i]; cbn [nth] in *.
        -- apply Hf. apply H4; [cbn in Hj; lia|exact Hu2].
        -- apply H5; auto; [lia|cbn in Hj; lia].
Qed.

Lemma filter_compl_length {A} (f : A -> bool) l :
  length (filter f l) + length (filter (fun x => negb (f x)) l) = length l.
Proof. induction l as [|x l IH]; [reflexivity|]. cbn. destruct (f x); cbn; lia. Qed.

Lemma memZ_seq_length n vs : NoDup vs -> (forall v, In v vs -> exists x, In x (seq 0 n) /\ v = Z.of_nat x) ->
  length (filter (fun x => memZ (Z.of_nat x) vs) (seq 0 n)) = length vs.
Proof.
  intros Hnd Hall. rewrite <- (map_length Z.of_nat). apply Permutation_length, NoDup_Permutation.
  - apply NoDup_map_inj_in; [intros; lia|apply NoDup_filter, seq_NoDup].
  - exact Hnd.
  - intros z. rewrite in_map_iff. split.
    + intros (x & <- & Hx). apply filter_In in Hx as [_ Hx]. apply memZ_spec in Hx. exact Hx.
    + intros Hz. destruct (Hall z Hz) as (x & Hx & ->). exists x. split; [reflexivity|].
      apply filter_In. split; [exact Hx|]. apply memZ_spec; exact Hz.
Qed.

Lemma unmapped_count m n : NoDup (map fst m) -> (forall k, In k (map fst m) -> (k < Z.of_nat n)%Z) ->
  length (filter (unmapped m) (seq 0 n)) + length (filter (fun k => (0 <=? k)%Z) (map fst m)) = n.
Proof.
  intros Hnd Hb. 
  assert (length (filter (fun x => memZ (Z.of_nat x) (filter (fun k => (0 <=? k)%Z) (map fst m))) (seq 0 n))
          = length (filter (fun k => (0 <=? k)%Z) (map fst m))) as H.
  { apply memZ_seq_length; [apply NoDup_filter; exact Hnd|].
    intros v Hv. apply filter_In in Hv as [Hv1 Hv2]. apply Z.leb_le in Hv2. specialize (Hb v Hv1).
    exists (Z.to_nat v). split; [apply in_seq; lia|lia]. }
  rewrite <- H. rewrite <- (seq_length n 0) at 3.
  rewrite <- (filter_compl_length (unmapped m) (seq 0 n)). f_equal. f_equal. apply filter_ext_in.
  intros x Hx. apply in_seq in Hx. unfold unmapped. destruct (dict_get (Z.of_nat x) m) as [v|] eqn:E; cbn [negb].
  - apply memZ_spec, filter_In. split; [|apply Z.leb_le; lia].
    apply dict_get_Some in E; [|exact Hnd]. apply (in_map fst) in E. exact E.
  - apply dict_get_None in E. apply not_true_is_false. intros Ht. apply memZ_spec, filter_In in Ht as [Ht _].
    contradiction.
Qed.

(** Complete classification of map_channels. *)
Lemma map_channels_spec m n : NoDup (map fst m) ->
  match map_channels m n with
  | Ok c => valid_mapping m n /\ exists p, c = pc p /\ routes_as m n p
  | Err ValueError => ~ valid_mapping m n
  | Err IndexError => ~ valid_mapping m n /\ exists k, In k (map fst m) /\ (k < 0)%Z
  | Err _ => False
  end.
Proof.
  intros Hnd. unfold map_channels.
  assert (NoDup (map snd m) <-> forall k k' v, In (k, v) m -> In (k', v) m -> k = k') as Hvals.
  { clear n. induction m as [|[k v] m IH]; [split; [intros _ k k' v []|constructor]|].
    cbn [map fst snd] in *. inversion Hnd as [|? ? Hk Hnd']; subst. split.
    - intros H. inversion H as [|? ? Hv Hnd2]; subst. intros a b w [H1|H1] [H2|H2].
      + congruence.
      + exfalso. injection H1 as -> ->. apply Hv. apply (in_map snd) in H2. exact H2.
      + exfalso. injection H2 as -> ->. apply Hv. apply (in_map snd) in H1. exact H1.
      + eapply IH; eassumption.
    - intros H. constructor; [|apply IH; [exact Hnd'|intros; eapply H; right; eassumption]].
      intros Hin. apply in_map_iff in Hin as ([k' v'] & He & Hin). cbn in He. subst v'.
      assert (k = k') as <- by (eapply H; [left; reflexivity|right; exact Hin]).
      apply Hk. apply (in_map fst) in Hin. exact Hin. }
  pose proof (mc_values_spec n (map snd m) (seq 0 n) (seq_NoDup n 0)) as Hv.
  specialize (Hv ltac:(intros x Hx; apply in_seq in Hx; lia)).
  assert (forall v, (exists x, In x (seq 0 n) /\ v = Z.of_nat x) <-> (0 <= v < Z.of_nat n)%Z) as Hrange.
  { intros v. split; [intros (x & Hx & ->); apply in_seq in Hx; lia|].
    intros H. exists (Z.to_nat v). split; [apply in_seq; lia|lia]. }
  destruct (mc_values n (map snd m) (seq 0 n)) as [free|e]; cbn [bind].
  2:{ destruct e; try contradiction. intros [H1 H2]. apply Hv. split; [apply Hvals; exact H2|].
      intros v Hin. apply Hrange. apply in_map_iff in Hin as ([k w] & <- & Hin). apply H1 in Hin. tauto. }
  destruct Hv as [[Hv1 Hv2] ->].
  pose proof (mc_keys_spec n (map fst m)) as Hk.
  destruct (mc_keys n (map fst m)) as [u|e]; cbn [bind].
  2:{ destruct e; try contradiction. destruct Hk as (k & Hk & Hge). intros [H1 _].
      apply in_map_iff in Hk as ([k' v'] & <- & Hin). apply H1 in Hin. cbn in Hge. lia. }
  set (free := filter (fun x => negb (memZ (Z.of_nat x) (map snd m))) (seq 0 n)).
  assert (length free = n - length m) as Hfl.
  { pose proof (filter_compl_length (fun x => memZ (Z.of_nat x) (map snd m)) (seq 0 n)) as H.
    rewrite memZ_seq_length in H by assumption. fold free in H. rewrite map_length, seq_length in H. lia. }
  assert (length m <= n) as Hml.
  { pose proof (filter_compl_length (fun x => memZ (Z.of_nat x) (map snd m)) (seq 0 n)) as H.
    rewrite memZ_seq_length in H by assumption. rewrite map_length, seq_length in H. lia. }
  pose proof (unmapped_count m n Hnd Hk) as Hcnt.
  pose proof (mc_build_spec m (seq 0 n) free) as Hb.
  pose proof (filter_compl_length (fun k => (0 <=? k)%Z) (map fst m)) as Hcompl. rewrite map_length in Hcompl.
  destruct (mc_build m (seq 0 n) free) as [p|e]; cbn [bind].
  2:{ destruct e; try contradiction.
      assert (exists k, In k (map fst m) /\ (k < 0)%Z) as Hneg.
      { destruct (filter (fun x => negb (0 <=? x)%Z) (map fst m)) as [|k l] eqn:Ef; [cbn in Hcompl; lia|].
        assert (In k (k :: l)) as Hin by (left; reflexivity). rewrite <- Ef in Hin.
        apply filter_In in Hin as [H1 H2]. exists k. split; [exact H1|].
        destruct (Z.leb_spec 0 k); [discriminate|lia]. }
      split; [|exact Hneg]. intros [H1 _]. destruct Hneg as (k & Hin & Hlt).
      apply in_map_iff in Hin as ([k' v'] & <- & Hin). apply H1 in Hin. cbn in Hlt. lia. }
  destruct Hb as (B1 & B2 & B3 & B4 & B5). rewrite seq_length in B2.
  assert (forall k, In k (map fst m) -> (0 <= k)%Z) as Hpos.
  { intros k Hin. destruct (Z.leb_spec 0 k) as [H|H]; [exact H|]. exfalso.
    assert (In k (filter (fun x => negb (0 <=? x)%Z) (map fst m))) as Hin2.
    { apply filter_In. split; [exact Hin|]. destruct (Z.leb_spec 0 k); [lia|reflexivity]. }
    destruct (filter (fun x => negb (0 <=? x)%Z) (map fst m)); [destruct Hin2|]. cbn in Hcompl. lia. }
  assert (valid_mapping m n) as Hvalid.
  { split; [|apply Hvals; exact Hv1]. intros k v Hin. split.
    - split; [apply Hpos|apply Hk]; apply (in_map fst) in Hin; exact Hin.
    - apply Hrange, Hv2. apply (in_map snd) in Hin; exact Hin. }
  assert (forall k v, In (Z.of_nat k, v) m -> k < n -> Z.of_nat (nth k p 0) = v) as Hmap.
  { intros k v Hin Hkn. assert (dict_get (Z.of_nat k) m = Some v) as Hg by (apply dict_get_Some; assumption).
    rewrite (B3 k v); [|rewrite seq_length; exact Hkn|rewrite seq_nth by exact Hkn; exact Hg].
    apply Hvalid in Hin. lia. }
  assert (forall k, k < n -> unmapped m k = true -> In (nth k p 0) free) as Hun.
  { intros k Hkn Hu. apply B4; [rewrite seq_length; exact Hkn|rewrite seq_nth by exact Hkn; exact Hu]. }
  assert (StronglySorted lt free) as Hsorted.
  { unfold free. assert (StronglySorted lt (seq 0 n)) as Hs by apply seq_sorted_lt.
    clear -Hs. induction Hs as [|x l Hs IH Hf]; [constructor|]. cbn. destruct (negb _); [|exact IH].
    constructor; [exact IH|]. rewrite Forall_forall in *. intros y Hy. apply filter_In in Hy as [Hy _]. apply Hf, Hy. }
  assert (forall a b, a < b -> b < n -> unmapped m a = true -> unmapped m b = true -> nth a p 0 < nth b p 0) as Hord.
  { intros a b Hab Hbn Ha Hb. apply (B5 Hsorted a b Hab); [rewrite seq_length; exact Hbn| |];
      rewrite seq_nth by lia; assumption. }
  assert (forall k, k < n -> nth k p 0 < n) as Hplt.
  { intros k Hkn. destruct (unmapped m k) eqn:Eu.
    - specialize (Hun k Hkn Eu). apply filter_In in Hun as [H _]. apply in_seq in H. lia.
    - unfold unmapped in Eu. destruct (dict_get (Z.of_nat k) m) as [v|] eqn:Eg; [|discriminate].
      apply dict_get_Some in Eg; [|exact Hnd]. pose proof (Hmap k v Eg Hkn).
      apply Hvalid in Eg. lia. }
  assert (forall a b, a < n -> b < n -> unmapped m a = false -> nth a p 0 = nth b p 0 -> a = b) as Hmi.
  { intros a b Ha Hb Hu He. unfold unmapped in Hu. destruct (dict_get (Z.of_nat a) m) as [v|] eqn:Eg; [|discriminate].
    apply dict_get_Some in Eg; [|exact Hnd]. pose proof (Hmap a v Eg Ha) as Hva.
    destruct (unmapped m b) eqn:Eb.
    - exfalso. specialize (Hun b Hb Eb). apply filter_In in Hun as [_ Hun].
      rewrite <- He, Hva in Hun. apply negb_true_iff in Hun. apply not_true_iff_false in Hun. apply Hun.
      apply memZ_spec. apply (in_map snd) in Eg. exact Eg.
    - unfold unmapped in Eb. destruct (dict_get (Z.of_nat b) m) as [w|] eqn:Egb; [|discriminate].
      apply dict_get_Some in Egb; [|exact Hnd]. pose proof (Hmap b w Egb Hb) as Hvb.
      assert (v = w) as <- by congruence. assert (Z.of_nat a = Z.of_nat b); [|lia].
      eapply (proj2 Hvalid); eassumption. }
  assert (forall a b, a < n -> b < n -> nth a p 0 = nth b p 0 -> a = b) as Hinj.
  { intros a b Ha Hb He. destruct (unmapped m a) eqn:Ea; [|eapply Hmi; eassumption].
    destruct (unmapped m b) eqn:Eb; [|symmetry; eapply Hmi; [exact Hb|exact Ha|exact Eb|congruence]].
    destruct (Nat.lt_trichotomy a b) as [H|[H|H]]; [|exact H|].
    - pose proof (Hord a b H Hb Ea Eb). lia.
    - pose proof (Hord b a H Ha Eb Ea). lia. }
  assert (is_perm p) as Hp.
  { apply is_perm_intro.
    - apply (NoDup_nth p 0). rewrite B2. intros a b Ha Hb. apply Hinj; assumption.
    - intros x Hx. apply In_nth with (d := 0) in Hx as (i & Hi & <-). rewrite B2 in *. apply Hplt; exact Hi. }
  rewrite cperm_create_ok by exact Hp. split; [exact Hvalid|]. exists p. split; [reflexivity|].
  split; [apply is_perm_bij; exact Hp|]. split; [exact B2|]. split; [exact Hmap|].
  intros a b Hab Hbn Ha Hb. apply Hord; try assumption; unfold unmapped.
  - apply dict_get_None in Ha. rewrite Ha; reflexivity.
  - apply dict_get_None in Hb. rewrite Hb; reflexivity.
Qed.

(** Uniqueness of the routing. *)
Lemma routes_as_unique m n p q : valid_mapping m n -> NoDup (map fst m) ->
  routes_as m n p -> routes_as m n q -> p = q.
Proof.
  intros [Hv1 Hv2] Hnd (P1 & P2 & P3 & P4) (Q1 & Q2 & Q3 & Q4).
  assert (forall p, bijection p -> length p = n ->
     (forall k v, In (Z.of_nat k, v) m -> k < n -> Z.of_nat (nth k p 0) = v) ->
     forall y, In y (map (fun k => nth k p 0) (filter (unmapped m) (seq 0 n)))
       <-> y < n /\ ~ In (Z.of_nat y) (map snd m)) as Hmem.
  { intros r (R1 & R2 & R3) R4 R5 y. rewrite in_map_iff. split.
    - intros (k & <- & Hk). apply filter_In in Hk as [Hk Hu]. apply in_seq in Hk.
      split; [rewrite <- R4; apply R1; lia|]. intros Hin. apply in_map_iff in Hin as ([k' v'] & He & Hin).
      cbn in He. destruct (Hv1 _ _ Hin) as [Hk' _].
      assert (Z.of_nat (nth (Z.to_nat k') r 0) = v') as Hr.
      { apply R5; [rewrite Z2Nat.id by lia; exact Hin|lia]. }
      assert (k = Z.to_nat k') as -> by (apply R2; lia).
      unfold unmapped in Hu. rewrite Z2Nat.id in Hu by lia.
      apply (dict_get_Some k' m v' Hnd) in Hin. rewrite Hin in Hu. discriminate.
    - intros [Hy Hnin]. destruct (R3 y) as (k & Hk & Hky); [lia|]. exists k. split; [exact Hky|].
      apply filter_In. split; [apply in_seq; lia|]. unfold unmapped.
      destruct (dict_get (Z.of_nat k) m) as [v|] eqn:Eg; [|reflexivity].
      apply dict_get_Some in Eg; [|exact Hnd]. pose proof (R5 k v Eg ltac:(lia)) as H. rewrite Hky in H.
      exfalso. apply Hnin. rewrite H. apply (in_map snd) in Eg. exact Eg. }
  assert (forall p, (forall a b, a < b -> b < n ->
     ~ In (Z.of_nat a) (map fst m) -> ~ In (Z.of_nat b) (map fst m) -> nth a p 0 < nth b p 0) ->
     StronglySorted lt (map (fun k => nth k p 0) (filter (unmapped m) (seq 0 n)))) as Hsort.
  { intros r R. 
    assert (StronglySorted lt (filter (unmapped m) (seq 0 n))) as Hs.
    { assert (StronglySorted lt (seq 0 n)) as Hs by apply seq_sorted_lt.
      clear -Hs. induction Hs as [|x l Hs IH Hf]; [constructor|]. cbn. destruct (unmapped m x); [|exact IH].
      constructor; [exact IH|]. rewrite Forall_forall in *. intros y Hy. apply filter_In in Hy as [Hy _]. apply Hf, Hy. }
    assert (forall k, In k (filter (unmapped m) (seq 0 n)) -> k < n /\ ~ In (Z.of_nat k) (map fst m)) as Hk.
    { intros k Hk. apply filter_In in Hk as [H1 H2]. apply in_seq in H1. split; [lia|].
      apply dict_get_None. unfold unmapped in H2. destruct (dict_get (Z.of_nat k) m); [discriminate|reflexivity]. }
    revert Hs Hk. generalize (filter (unmapped m) (seq 0 n)) as L. intros L Hs Hk.
    induction Hs as [|x l Hs IH Hf]; [constructor|]. cbn [map]. constructor.
    - apply IH. intros k Hkk; apply Hk; right; exact Hkk.
    - rewrite Forall_forall in *. intros y Hy. apply in_map_iff in Hy as (z & <- & Hz).
      apply R; [apply Hf, Hz|apply Hk; right; exact Hz|apply Hk; left; reflexivity|apply Hk; right; exact Hz]. }
  assert (map (fun k => nth k p 0) (filter (unmapped m) (seq 0 n))
        = map (fun k => nth k q 0) (filter (unmapped m) (seq 0 n))) as Heq.
  { apply sorted_lt_ext; [apply Hsort; exact P4|apply Hsort; exact Q4|].
    intros y. rewrite (Hmem p P1 P2 P3), (Hmem q Q1 Q2 Q3). reflexivity. }
  apply list_eq_nth with (d := 0); [congruence|]. intros k Hk. rewrite P2 in Hk.
  destruct (unmapped m k) eqn:Eu.
  - assert (In k (filter (unmapped m) (seq 0 n))) as Hin by (apply filter_In; split; [apply in_seq; lia|exact Eu]).
    exact (ext_in_map Heq k Hin).
  - unfold unmapped in Eu. destruct (dict_get (Z.of_nat k) m) as [v|] eqn:Eg; [|discriminate].
    apply dict_get_Some in Eg; [|exact Hnd]. pose proof (P3 k v Eg Hk). pose proof (Q3 k v Eg Hk). lia.
Qed.

End WithX.
