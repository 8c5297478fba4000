(** connect(): the two channel maps, and references to ports. *)
From Coq Require Import Sorting.Sorted.
From Verif Require Import Prelude ListFacts PermModel PermSpec PermProofs1 PermProofs4 CircModel CircSpec CircProofs1 CircProofs2 CSimpModel ConnectModel ConnectSpec ConnectProofs1.

(** ** dicts *)
Lemma dict_set_new k v d : ~ In k (map fst d) -> dict_set k v d = d ++ [(k, v)].
Proof.
  induction d as [|[k' v'] d IH]; intros H; [reflexivity|]. cbn [dict_set app map fst In] in *.
  destruct (Z.eqb_spec k k') as [->|]; [destruct H; now left|]. f_equal. apply IH. tauto.
Qed.
Lemma dict_of_NoDup l : NoDup (map fst l) -> dict_of l = l.
Proof.
  intros H. unfold dict_of. assert (forall l d, NoDup (map fst (d ++ l)) -> fold_left (fun d kv => dict_set (fst kv) (snd kv) d) l d = d ++ l) as G.
  { clear. induction l as [|[k v] l IH]; intros d H; cbn [fold_left fst snd]; [now rewrite app_nil_r|].
    rewrite dict_set_new.
    - rewrite IH; rewrite <- app_assoc; [reflexivity|exact H].
    - rewrite map_app in H. cbn [map fst] in H. apply NoDup_remove_2 in H. intros C. apply H. apply in_or_app. now left. }
  now rewrite G.
Qed.
Lemma dict_keys_In l : forall d k, In k (map fst (fold_left (fun d kv => dict_set (fst kv) (snd kv) d) l d)) <-> In k (map fst d) \/ In k (map fst l).
Proof.
  assert (forall k v d x, In x (map fst (dict_set k v d)) <-> x = k \/ In x (map fst d)) as G.
  { intros k v d x. induction d as [|[k' v'] d IH]; cbn [dict_set map fst In]; [intuition|]. destruct (Z.eqb_spec k k') as [->|]; cbn [map fst In]; [intuition|]. rewrite IH. intuition. }
  induction l as [|[k v] l IH]; intros d x; cbn [fold_left map fst snd In]; [tauto|]. rewrite IH, G. intuition.
Qed.
Lemma dict_NoDup l : NoDup (map fst (dict_of l)).
Proof.
  unfold dict_of. assert (forall k v d, NoDup (map fst d) -> NoDup (map fst (dict_set k v d))) as G.
  { intros k v d. assert (forall x, In x (map fst (dict_set k v d)) -> x = k \/ In x (map fst d)) as HI.
    { intros x. induction d as [|[k' v'] d IH]; cbn [dict_set map fst In]; [intuition|]. destruct (Z.eqb_spec k k') as [->|]; cbn [map fst In]; [intuition|]. intuition. }
    induction d as [|[k' v'] d IH]; intros H; cbn [dict_set map fst] in *; [constructor; [intros []|constructor]|].
    apply NoDup_cons_iff in H. destruct H as [H1 H2]. destruct (Z.eqb_spec k k') as [->|Hne]; cbn [map fst]; [now constructor|].
    constructor; [|apply IH; [|exact H2]].
    - clear IH. intros C. assert (forall x, In x (map fst (dict_set k v d)) -> x = k \/ In x (map fst d)) as HI'.
      { clear. intros x. induction d as [|[k' v'] d IH]; cbn [dict_set map fst In]; [intuition|]. destruct (Z.eqb_spec k k') as [->|]; cbn [map fst In]; [intuition|]. intuition. }
      destruct (HI' _ C) as [->|]; contradiction.
    - clear. intros x. induction d as [|[k'' v''] d IH]; cbn [dict_set map fst In]; [intuition|]. destruct (Z.eqb_spec k k'') as [->|]; cbn [map fst In]; [intuition|]. intuition. }
  generalize (@NoDup_nil Z). change (@nil Z) with (map fst (@nil (Z * Z))) at 1. generalize (@nil (Z * Z)).
  induction l as [|[k v] l IH]; intros d H; cbn [fold_left fst snd]; [exact H|]. apply IH, G, H.
Qed.

Lemma zrange_length a m : length (zrange a m) = m.
Proof. unfold zrange. now rewrite map_length, seq_length. Qed.
Lemma zrange_nth a m k d : k < m -> nth k (zrange a m) d = (a + Z.of_nat k)%Z.
Proof. intros H. unfold zrange. rewrite (nth_map_lt _ (seq 0 m) k d 0) by (now rewrite seq_length). now rewrite seq_nth. Qed.
Lemma zrange_NoDup a m : NoDup (zrange a m).
Proof.
  apply (NoDup_nth _ 0%Z). rewrite zrange_length. intros i j Hi Hj. rewrite !zrange_nth by assumption. lia.
Qed.
Lemma map_fst_combine {A B} (l : list A) (m : list B) : length l = length m -> map fst (combine l m) = l.
Proof. revert m. induction l as [|x l IH]; intros [|y m] H; try discriminate; [reflexivity|]. cbn [combine map fst]. f_equal. apply IH. now injection H. Qed.
Lemma map_snd_combine {A B} (l : list A) (m : list B) : length l = length m -> map snd (combine l m) = m.
Proof. revert m. induction l as [|x l IH]; intros [|y m] H; try discriminate; [reflexivity|]. cbn [combine map snd]. f_equal. apply IH. now injection H. Qed.
Lemma in_combine_nth {A B} (l : list A) (m : list B) a b da db : length l = length m -> In (a, b) (combine l m) -> exists j, j < length l /\ nth j l da = a /\ nth j m db = b.
Proof.
  intros Hl H. apply In_nth with (d := (da, db)) in H. destruct H as (j & Hj & E). rewrite combine_length in Hj. exists j. split; [lia|].
  rewrite combine_nth in E by exact Hl. injection E as E1 E2. now split.
Qed.

(** ** increasing lists *)
Lemma seq_sorted n s : StronglySorted lt (seq s n).
Proof.
  revert s. induction n as [|n IH]; intros s; cbn [seq]; constructor; [apply IH|]. apply Forall_forall. intros x Hx. apply in_seq in Hx. lia.
Qed.
Lemma filter_sorted f l : StronglySorted lt l -> StronglySorted lt (filter f l).
Proof.
  induction 1 as [|x l H IH HF]; cbn [filter]; [constructor|]. destruct (f x); [|exact IH]. constructor; [exact IH|].
  apply Forall_forall. intros y Hy. apply filter_In in Hy. rewrite Forall_forall in HF. now apply HF.
Qed.
Lemma sorted_nth l a b : StronglySorted lt l -> a < b -> b < length l -> nth a l 0 < nth b l 0.
Proof.
  intros H. revert a b. induction H as [|x l H IH HF]; intros a b Hab Hb; cbn [length] in Hb; [lia|].
  destruct b as [|b]; [lia|]. destruct a as [|a]; cbn [nth].
  - rewrite Forall_forall in HF. apply HF, nth_In. lia.
  - apply IH; lia.
Qed.
Lemma rest_sorted n used : StronglySorted lt (rest_of (seq 0 n) used).
Proof. apply filter_sorted, seq_sorted. Qed.

Lemma rest_seq_length n used : NoDup used -> (forall x, In x used -> x < n) -> length (rest_of (seq 0 n) used) = n - length used.
Proof.
  intros H1 H2. pose proof (same_length _ _ (target_names (seq 0 n) used (seq_NoDup n 0) H1 ltac:(intros x Hx; apply in_seq; specialize (H2 x Hx); lia))) as E.
  unfold target in E. rewrite app_length, rev_length, seq_length in E. lia.
Qed.
Lemma rest_rev l used : rest_of l (rev used) = rest_of l used.
Proof.
  apply filter_ext. intros x. f_equal. apply eq_iff_eq_true. rewrite !existsb_exists. split; intros (y & H & E); exists y; split; try exact E; now apply in_rev in H || now apply in_rev.
Qed.
Lemma idx_seq x n : x < n -> idx x (seq 0 n) = x.
Proof. intros H. assert (nth x (seq 0 n) 0 = x) as E by (now rewrite seq_nth). rewrite <- E at 1. apply idx_at; [apply seq_NoDup|now rewrite seq_length]. Qed.
Lemma idx_in_snd x a b : ~ In x a -> In x b -> idx x (a ++ b) = length a + idx x b.
Proof.
  intros Ha Hb. induction a as [|y a IH]; [reflexivity|]. unfold idx in *. cbn [app index_of length]. destruct (Nat.eqb_spec x y) as [->|]; [destruct Ha; now left|].
  assert (~ In x a) as Ha' by (intros G; apply Ha; now right). specialize (IH Ha').
  destruct (index_of_In x (a ++ b)) as [k E]; [apply in_or_app; now right|]. rewrite E in *. cbn [option_map]. now rewrite IH.
Qed.

Section Maps.
  Context {X : Type}.
  Lemma mc_unique m n (c : circ X) q : NoDup (map fst m) -> map_channels m n = Ok c -> routes_as m n q -> c = pc q.
  Proof.
    intros Hn H Hq. pose proof (@map_channels_spec X m n Hn) as G. rewrite H in G. destruct G as [Hv (p & -> & Hp)].
    now rewrite (routes_as_unique m n p q Hv Hn Hp Hq).
  Qed.
  Lemma omapping_ok n omap (c : circ X) : NoDup omap -> (forall x, In x omap -> x < n) ->
    map_channels (dict_of (combine (map Z.of_nat omap) (zrange (Z.of_nat n - Z.of_nat (length omap)) (length omap)))) n = Ok c ->
    c = pc (perm_to (seq 0 n) (target (seq 0 n) (rev omap))).
  Proof.
    intros Hn Hlt H. set (m := length omap) in *. set (ks := zrange (Z.of_nat n - Z.of_nat m) m) in *.
    assert (length (map Z.of_nat omap) = length ks) as Hlen by (unfold ks; rewrite map_length, zrange_length; reflexivity).
    assert (NoDup (map fst (combine (map Z.of_nat omap) ks))) as Hnd.
    { rewrite map_fst_combine by exact Hlen. apply FinFun.Injective_map_NoDup; [|exact Hn]. intros a b. apply Nat2Z.inj. }
    rewrite dict_of_NoDup in H by exact Hnd. refine (mc_unique _ _ _ _ Hnd H _). clear H c.
    assert (same_names (seq 0 n) (target (seq 0 n) (rev omap))) as Hs.
    { apply target_names; [apply seq_NoDup|now apply NoDup_rev|]. intros x Hx. apply in_rev in Hx. apply in_seq. specialize (Hlt x Hx). lia. }
    pose proof (rest_seq_length n omap Hn Hlt) as Hrl. fold m in Hrl.
    assert (m <= n) as Hm.
    { unfold m. rewrite <- (seq_length n 0). apply NoDup_incl_length; [exact Hn|]. intros x Hx. apply in_seq. specialize (Hlt x Hx). lia. }
    unfold target. rewrite rest_rev, rev_involutive. unfold target in Hs. rewrite rest_rev, rev_involutive in Hs.
    split; [apply is_perm_bij, perm_to_perm, Hs|]. split; [now rewrite perm_to_length, seq_length|]. split.
    - intros k v Hin Hk. rewrite perm_to_nth by (now rewrite seq_length). rewrite seq_nth by exact Hk. cbn [Nat.add].
      destruct (in_combine_nth _ _ _ _ 0%Z 0%Z Hlen Hin) as (j & Hj & E1 & E2). rewrite map_length in Hj. fold m in Hj.
      rewrite (nth_map_lt _ omap j 0%Z 0) in E1 by exact Hj. apply Nat2Z.inj in E1. unfold ks in E2. rewrite zrange_nth in E2 by exact Hj.
      assert (In k omap) as Hko by (rewrite <- E1; now apply nth_In).
      rewrite idx_in_snd; [|rewrite in_rest; tauto|exact Hko]. rewrite Hrl, <- E1, idx_at by assumption. lia.
    - intros a b Hab Hb Ha' Hb'. rewrite map_fst_combine in Ha', Hb' by exact Hlen.
      assert (~ In a omap) as Na by (intros G; apply Ha'; now apply in_map). assert (~ In b omap) as Nb by (intros G; apply Hb'; now apply in_map).
      rewrite !perm_to_nth by (rewrite seq_length; lia). rewrite !seq_nth by lia. cbn [Nat.add].
      assert (In a (rest_of (seq 0 n) omap)) as Ia by (apply in_rest; split; [apply in_seq; lia|exact Na]).
      assert (In b (rest_of (seq 0 n) omap)) as Ib by (apply in_rest; split; [apply in_seq; lia|exact Nb]).
      rewrite !idx_app_l by assumption. set (R := rest_of (seq 0 n) omap) in *.
      pose proof (idx_lt a R Ia) as La. pose proof (idx_lt b R Ib) as Lb.
      destruct (Nat.lt_trichotomy (idx a R) (idx b R)) as [G|[G|G]]; [exact G| |].
      + assert (a = b); [|lia]. rewrite <- (idx_nth a R 0 Ia), <- (idx_nth b R 0 Ib). now rewrite G.
      + pose proof (sorted_nth R _ _ (rest_sorted n omap) G La) as C. rewrite !idx_nth in C by assumption. lia.
  Qed.
  Lemma imapping_ok n imap (c : circ X) : NoDup imap -> (forall x, In x imap -> x < n) ->
    map_channels (dict_of (combine (zrange (Z.of_nat n - Z.of_nat (length imap)) (length imap)) (map Z.of_nat imap))) n = Ok c ->
    c = pc (perm_to (target (seq 0 n) (rev imap)) (seq 0 n)).
  Proof.
    intros Hn Hlt H. set (m := length imap) in *. set (ks := zrange (Z.of_nat n - Z.of_nat m) m) in *.
    assert (length ks = length (map Z.of_nat imap)) as Hlen by (unfold ks; rewrite map_length, zrange_length; reflexivity).
    assert (NoDup (map fst (combine ks (map Z.of_nat imap)))) as Hnd.
    { rewrite map_fst_combine by exact Hlen. apply zrange_NoDup. }
    rewrite dict_of_NoDup in H by exact Hnd. refine (mc_unique _ _ _ _ Hnd H _). clear H c.
    assert (same_names (seq 0 n) (target (seq 0 n) (rev imap))) as Hs.
    { apply target_names; [apply seq_NoDup|now apply NoDup_rev|]. intros x Hx. apply in_rev in Hx. apply in_seq. specialize (Hlt x Hx). lia. }
    pose proof (rest_seq_length n imap Hn Hlt) as Hrl. fold m in Hrl.
    assert (m <= n) as Hm.
    { unfold m. rewrite <- (seq_length n 0). apply NoDup_incl_length; [exact Hn|]. intros x Hx. apply in_seq. specialize (Hlt x Hx). lia. }
    unfold target. rewrite rest_rev, rev_involutive. unfold target in Hs. rewrite rest_rev, rev_involutive in Hs.
    set (R := rest_of (seq 0 n) imap) in *.
    assert (length (R ++ imap) = n) as HT by (rewrite app_length, Hrl; fold m; lia).
    assert (forall k, k < n -> nth k (perm_to (R ++ imap) (seq 0 n)) 0 = nth k (R ++ imap) 0) as Hnth.
    { intros k Hk. rewrite perm_to_nth by lia. apply idx_seq. assert (In (nth k (R ++ imap) 0) (seq 0 n)) as G by (apply Hs, nth_In; lia). apply in_seq in G. lia. }
    split; [apply is_perm_bij, perm_to_perm, same_sym, Hs|]. split; [rewrite perm_to_length; exact HT|]. split.
    - intros k v Hin Hk. rewrite Hnth by exact Hk. destruct (in_combine_nth _ _ _ _ 0%Z 0%Z Hlen Hin) as (j & Hj & E1 & E2).
      assert (j < m) as Hj' by (unfold ks in Hj; now rewrite zrange_length in Hj).
      unfold ks in E1. rewrite zrange_nth in E1 by exact Hj'. rewrite (nth_map_lt _ imap j 0%Z 0) in E2 by exact Hj'.
      rewrite app_nth2 by lia. rewrite Hrl. replace (k - (n - m)) with j by lia. exact E2.
    - intros a b Hab Hb Ha' Hb'. rewrite map_fst_combine in Ha', Hb' by exact Hlen.
      assert (forall x, x < n -> ~ In (Z.of_nat x) ks -> x < n - m) as G.
      { intros x Hx Hnx. destruct (Nat.lt_ge_cases x (n - m)) as [|Hge]; [assumption|]. destruct Hnx. unfold ks.
        assert (x - (n - m) < m) as Hxm by lia. pose proof (zrange_nth (Z.of_nat n - Z.of_nat m) m (x - (n - m)) 0%Z Hxm) as E.
        replace (Z.of_nat n - Z.of_nat m + Z.of_nat (x - (n - m)))%Z with (Z.of_nat x) in E by lia. rewrite <- E. apply nth_In. now rewrite zrange_length. }
      rewrite !Hnth by lia. pose proof (G a ltac:(lia) Ha'). pose proof (G b Hb Hb'). rewrite !app_nth1 by lia. apply sorted_nth; [apply rest_sorted|exact Hab|lia].
  Qed.
  (** a repeated input port is rejected *)
  Lemma imapping_dup n ks (imap : list nat) : length ks = length imap -> NoDup ks -> ~ NoDup imap -> @map_channels X (dict_of (combine ks (map Z.of_nat imap))) n = Err ValueError.
  Proof.
    intros Hl Hk Hn. rewrite dict_of_NoDup by (rewrite map_fst_combine; [exact Hk|now rewrite map_length]).
    unfold map_channels. rewrite map_snd_combine by (now rewrite map_length).
    assert (forall l free, NoDup free -> (NoDup l -> exists x, In x l /\ ~ In x free) -> mc_values n (map Z.of_nat l) free = Err ValueError) as G.
    { clear. induction l as [|x l IH]; intros free Hf H; [destruct (H ltac:(constructor)) as (x & [] & _)|].
      cbn [map mc_values]. destruct (_ <=? _)%Z; [reflexivity|]. unfold remove_Z. destruct (Z.ltb_spec (Z.of_nat x) 0); [lia|]. rewrite Nat2Z.id.
      destruct (remove_first x free) as [f'|] eqn:E; cbn [of_option bind]; [|reflexivity].
      destruct (remove_first_split x free f' Hf E) as (a & b & -> & -> & _ & Hx). apply IH; [now apply NoDup_remove_1 in Hf|].
      intros Hl. destruct (in_dec Nat.eq_dec x l) as [Hin|Hin]; [now exists x|].
      destruct H as (y & Hy & Hny); [now constructor|]. exists y. destruct Hy as [<-|Hy]; [destruct Hny; apply in_elt|]. split; [exact Hy|].
      intros C. apply Hny. apply in_app_or in C. apply in_or_app. cbn [In]. tauto. }
    rewrite G; [reflexivity|apply seq_NoDup|intros C; contradiction].
  Qed.
End Maps.

(** ** references *)
Section Refs.
  Context {X : Type} (lit : lits X) (portsin portsout : circ X -> option (list nat)).
  Local Notation circ := (circ X).
  Implicit Types (l components : list circ).
  Lemma find_index_spec c l : match find_index lit c l with
    | Some k => exists d, nth_error l k = Some d /\ ceqb lit d c = true /\ forall j d', j < k -> nth_error l j = Some d' -> ceqb lit d' c = false
    | None => forall d, In d l -> ceqb lit d c = false end.
  Proof.
    induction l as [|x l IH]; cbn [find_index]; [intros d []|]. destruct (ceqb lit x c) eqn:E.
    - exists x. repeat split; [exact E|]. intros j d' Hj. lia.
    - destruct (find_index lit c l) as [k|]; cbn [option_map].
      + destruct IH as (d & H1 & H2 & H3). exists d. split; [exact H1|]. split; [exact H2|]. intros [|j] d' Hj Hd'; cbn [nth_error] in Hd'; [now injection Hd' as <-|]. apply (H3 j); [lia|exact Hd'].
      + intros d [<-|Hd]; [exact E|now apply IH].
  Qed.
  Lemma count_one c l k : find_index lit c l = Some k -> count lit c l <= 1 -> forall j d, nth_error l j = Some d -> ceqb lit d c = true -> j = k.
  Proof.
    revert k. induction l as [|x l IH]; intros k Hf Hc j d Hj Hd; cbn [find_index] in Hf; [discriminate|]. unfold count in Hc. cbn [filter] in Hc.
    destruct (ceqb lit x c) eqn:E.
    - injection Hf as <-. destruct j as [|j]; [reflexivity|]. cbn [length] in Hc. cbn [nth_error] in Hj. apply nth_error_In in Hj.
      assert (In d (filter (fun d0 => ceqb lit d0 c) l)) as G by (apply filter_In; now split). destruct (filter _ l); [destruct G|cbn [length] in Hc; lia].
    - destruct (find_index lit c l) as [k'|] eqn:Ek; [|discriminate]. cbn [option_map] in Hf. injection Hf as <-.
      destruct j as [|j]; cbn [nth_error] in Hj; [injection Hj as <-; congruence|]. f_equal. eapply IH; [reflexivity|exact Hc|exact Hj|exact Hd].
  Qed.
  Lemma count_many c l i j d d' : nth_error l i = Some d -> ceqb lit d c = true -> nth_error l j = Some d' -> ceqb lit d' c = true -> i < j -> 1 < count lit c l.
  Proof.
    revert i j. induction l as [|x l IH]; intros i j Hi Hd Hj Hd' Hij; [destruct i; discriminate|]. unfold count. cbn [filter].
    destruct j as [|j]; [lia|]. cbn [nth_error] in Hj. destruct i as [|i]; cbn [nth_error] in Hi.
    - injection Hi as <-. rewrite Hd. cbn [length]. apply nth_error_In in Hj. assert (In d' (filter (fun d0 => ceqb lit d0 c) l)) as G by (apply filter_In; now split).
      destruct (filter _ l); [destruct G|cbn [length]; lia].
    - specialize (IH i j Hi Hd Hj Hd' ltac:(lia)). unfold count in IH. destruct (ceqb lit x c); cbn [length]; lia.
  Qed.
  Lemma component_index_spec components r : match component_index lit components r with
    | Ok k => names_component lit components r k /\ k < length components
    | Err e => e = ValueError /\ forall k, ~ names_component lit components r k end.
  Proof.
    destruct r as [z|c]; cbn [component_index].
    - destruct (Z.ltb_spec z 0); cbn [orb].
      + split; [reflexivity|]. intros k Hk. inversion Hk; subst; lia.
      + destruct (Z.leb_spec (Z.of_nat (length components)) z).
        * split; [reflexivity|]. intros k Hk. inversion Hk; subst; lia.
        * split; [|lia]. rewrite <- (Z2Nat.id z) at 1 by lia. constructor. lia.
    - destruct (Nat.ltb_spec 1 (count lit c components)) as [Hc|Hc].
      + split; [reflexivity|]. intros k Hk. inversion Hk as [|? d ? H1 H2 H3]; subst.
        assert (length (filter (fun d => ceqb lit d c) components) <= 1); [|unfold count in Hc; lia]. clear Hc Hk.
        revert k H1 H3. induction components as [|x l IH]; intros k H1 H3; [cbn; lia|]. cbn [filter]. destruct (ceqb lit x c) eqn:E.
        * cbn [length]. assert (forall d', In d' l -> ceqb lit d' c = false) as Hno.
          { intros d' Hd'. destruct (ceqb lit d' c) eqn:E'; [|reflexivity]. apply In_nth_error in Hd'. destruct Hd' as [j Hj].
            pose proof (H3 0 x eq_refl E). pose proof (H3 (S j) d' Hj E'). lia. }
          assert (filter (fun d0 => ceqb lit d0 c) l = []) as ->; [|cbn; lia]. clear - Hno. induction l as [|y l IH]; [reflexivity|]. cbn [filter]. rewrite (Hno y) by (now left). apply IH. intros; apply Hno; now right.
        * destruct k as [|k]; cbn [nth_error] in H1; [injection H1 as <-; congruence|]. apply (IH k H1). intros j d' Hj Hd'. pose proof (H3 (S j) d' Hj Hd'). lia.
      + pose proof (find_index_spec c components) as Hf. destruct (find_index lit c components) as [k|] eqn:Ek; cbn [of_option].
        * destruct Hf as (d & H1 & H2 & _). split; [|apply nth_error_Some; congruence]. econstructor; [exact H1|exact H2|]. exact (count_one c components k Ek Hc).
        * split; [reflexivity|]. intros k Hk. inversion Hk as [|? d ? H1 H2 H3]; subst. apply nth_error_In in H1. rewrite (Hf d H1) in H2. discriminate.
  Qed.
  Lemma index_of_first s (l : list nat) k : index_of s l = Some k -> nth_error l k = Some s /\ forall j, j < k -> nth_error l j <> Some s.
  Proof.
    revert k. induction l as [|x l IH]; intros k H; cbn [index_of] in H; [discriminate|]. destruct (Nat.eqb_spec s x) as [->|Hx].
    - injection H as <-. split; [reflexivity|]. intros j Hj. lia.
    - destruct (index_of s l) as [k'|]; [|discriminate]. injection H as <-. destruct (IH k' eq_refl) as [H1 H2]. split; [exact H1|].
      intros [|j] Hj; cbn [nth_error]; [congruence|]. apply H2. lia.
  Qed.
  Lemma port_index_spec labels n p : match port_index labels n p with
    | Ok k => names_port labels n p k
    | Err e => e = ValueError /\ forall k, ~ names_port labels n p k end.
  Proof.
    destruct p as [z|s]; cbn [port_index].
    - destruct (Z.ltb_spec z 0); cbn [orb].
      + split; [reflexivity|]. intros k Hk. inversion Hk; subst; lia.
      + destruct (Z.leb_spec (Z.of_nat n) z).
        * split; [reflexivity|]. intros k Hk. inversion Hk; subst; lia.
        * rewrite <- (Z2Nat.id z) at 1 by lia. constructor. lia.
    - destruct labels as [l|].
      + destruct (index_of s l) as [k|] eqn:E; cbn [of_option].
        * destruct (index_of_first s l k E) as [H1 H2]. now apply port_by_name with l.
        * split; [reflexivity|]. intros k Hk. inversion Hk as [|? ? ? El Hn Hf]; subst. injection El as <-. apply nth_error_In in Hn.
          destruct (index_of_In s l Hn) as [j Hj]. congruence.
      + split; [reflexivity|]. intros k Hk. inversion Hk; subst; discriminate.
  Qed.
  Lemma cumsum_from_nth (l : list nat) : forall s k, k < length l -> nth_error (cumsum_from s l) k = Some (s + sum (firstn (S k) l)).
  Proof.
    induction l as [|x l IH]; intros s k Hk; cbn [length] in Hk; [lia|]. cbn [cumsum_from]. destruct k as [|k]; cbn [nth_error firstn].
    - change (Some (s + x) = Some (s + (x + 0))). f_equal. lia.
    - rewrite IH by lia. change (Some (s + x + sum (firstn (S k) l)) = Some (s + (x + sum (firstn (S k) l)))). f_equal. lia.
  Qed.
  Lemma offsets_nth components k : k < length components ->
    nth_error (cumsum (0 :: removelast (map cdim components))) k = Some (sum (map cdim (firstn k components))).
  Proof.
    intros Hk. cbn [cumsum]. destruct k as [|k]; [reflexivity|]. cbn [nth_error].
    destruct components as [|x components _] using rev_ind; [cbn in Hk; lia|]. rewrite map_app. cbn [map]. rewrite removelast_last.
    rewrite app_length in Hk. cbn [length] in Hk. rewrite cumsum_from_nth by (rewrite map_length; lia). f_equal. cbn [Nat.add].
    rewrite firstn_map. f_equal. f_equal. rewrite firstn_app. replace (S k - length components) with 0 by lia. cbn [firstn]. now rewrite app_nil_r.
  Qed.
  Lemma resolve_spec components cn :
    match resolve lit portsin portsout components (cumsum (0 :: removelast (map cdim components))) cn with
    | Ok oi => refers lit portsin portsout components cn oi
    | Err e => e = ValueError /\ forall oi, ~ refers lit portsin portsout components cn oi end.
  Proof.
    destruct cn as [[c1 op] [c2 ip]]. cbn [resolve].
    pose proof (component_index_spec components c1) as S1. destruct (component_index lit components c1) as [k1|e]; cbn [bind].
    2: { destruct S1 as [-> S1]. split; [reflexivity|]. intros oi (k & k2 & d1 & d2 & p & q & H & _). exact (S1 k H). }
    pose proof (component_index_spec components c2) as S2. destruct (component_index lit components c2) as [k2|e]; cbn [bind].
    2: { destruct S2 as [-> S2]. split; [reflexivity|]. intros oi (k & k' & d1 & d2 & p & q & _ & _ & _ & H & _). exact (S2 k' H). }
    destruct S1 as [S1 L1]. destruct S2 as [S2 L2].
    destruct (nth_error components k1) as [d1|] eqn:E1; [|apply nth_error_None in E1; lia]. cbn [of_option bind].
    destruct (nth_error components k2) as [d2|] eqn:E2; [|apply nth_error_None in E2; lia]. cbn [of_option bind].
    assert (forall c k k', names_component lit components c k -> names_component lit components c k' -> k = k') as Huniq.
    { intros c k k' Hk Hk'. inversion Hk; subst; inversion Hk'; subst; [lia|]. match goal with H : forall j d', _ -> _ -> j = k' |- _ => eapply H; eassumption end. }
    pose proof (port_index_spec (portsout d1) (cdim d1) op) as P1. destruct (port_index (portsout d1) (cdim d1) op) as [p|e]; cbn [bind].
    2: { destruct P1 as [-> P1]. split; [reflexivity|]. intros oi (k & k' & d & d' & p & q & H1 & H2 & H3 & _). rewrite (Huniq _ _ _ H1 S1), E1 in H2. injection H2 as <-. exact (P1 p H3). }
    pose proof (port_index_spec (portsin d2) (cdim d2) ip) as P2. destruct (port_index (portsin d2) (cdim d2) ip) as [q|e]; cbn [bind].
    2: { destruct P2 as [-> P2]. split; [reflexivity|]. intros oi (k & k' & d & d' & p' & q & _ & _ & _ & H1 & H2 & H3 & _). rewrite (Huniq _ _ _ H1 S2), E2 in H2. injection H2 as <-. exact (P2 q H3). }
    rewrite !offsets_nth by assumption. cbn [of_option bind].
    exists k1, k2, d1, d2, p, q. split; [exact S1|]. split; [exact E1|]. split; [exact P1|]. split; [exact S2|]. split; [exact E2|]. split; [exact P2|]. reflexivity.
  Qed.
End Refs.
