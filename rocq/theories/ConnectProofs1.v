(** connect(): permutations of named ports, and closing the loops one by one, in any model of circuits. *)
From Verif Require Import Prelude ListFacts PermModel PermSpec PermProofs1 PermProofs4 CircModel CircSpec CircProofs1 CircProofs2 CSimpModel CSimpSpec CSimpProofs1 CSimpProofs2 CSimpProofs3 CSimpProofs4 CSimpProofs5 ConnectModel ConnectSpec.

Definition idx (x : nat) (l : list nat) : nat := match index_of x l with Some k => k | None => 0 end.
(** the permutation that takes the position of a name in [L1] to its position in [L2] *)
Definition perm_to (L1 L2 : list nat) : list nat := map (fun x => idx x L2) L1.

Lemma idx_lt x l : In x l -> idx x l < length l.
Proof. intros H. unfold idx. destruct (index_of_In x l H) as [k E]. rewrite E. now destruct (index_of_Some _ _ _ E) as (_ & H1 & _). Qed.
Lemma idx_nth x l d : In x l -> nth (idx x l) l d = x.
Proof. intros H. unfold idx. destruct (index_of_In x l H) as [k E]. rewrite E. destruct (index_of_Some _ _ _ E) as (H1 & _ & _). now apply nth_error_nth. Qed.
Lemma idx_at l k d : NoDup l -> k < length l -> idx (nth k l d) l = k.
Proof. intros H Hk. unfold idx. now rewrite (index_of_NoDup l k (nth k l d) H (nth_error_nth' l d Hk)). Qed.
Lemma perm_to_length L1 L2 : length (perm_to L1 L2) = length L1.
Proof. apply map_length. Qed.
Lemma perm_to_nth L1 L2 k : k < length L1 -> nth k (perm_to L1 L2) 0 = idx (nth k L1 0) L2.
Proof. intros H. unfold perm_to. now rewrite (nth_map_lt _ L1 k 0 0). Qed.
Lemma conc_snoc p q : concatenate_permutations p q = p ++ map (Nat.add (length p)) q.
Proof.
  unfold concatenate_permutations, permutation_from_block_permutations. cbn [from_blocks_from]. rewrite app_nil_r. f_equal.
  - rewrite <- (map_id p) at 2. apply map_ext. intros; lia.
  - apply map_ext. intros; lia.
Qed.
Definition same_names (L1 L2 : list nat) : Prop := NoDup L1 /\ NoDup L2 /\ (forall x, In x L1 <-> In x L2).
Lemma same_length L1 L2 : same_names L1 L2 -> length L1 = length L2.
Proof.
  intros (H1 & H2 & H). apply Nat.le_antisymm; apply NoDup_incl_length; try assumption; intros x; apply H.
Qed.
Lemma perm_to_perm L1 L2 : same_names L1 L2 -> is_perm (perm_to L1 L2).
Proof.
  intros Hs. pose proof (same_length _ _ Hs) as Hl. destruct Hs as (H1 & H2 & H).
  apply (perm_by_nth _ (length L1) (perm_to_length _ _)).
  - intros a Ha. rewrite perm_to_nth by exact Ha. rewrite Hl. apply idx_lt, H, nth_In, Ha.
  - intros a b Ha Hb. rewrite !perm_to_nth by assumption. intros E.
    assert (nth a L1 0 = nth b L1 0) as E'.
    { rewrite <- (idx_nth (nth a L1 0) L2 0) by (apply H, nth_In, Ha). rewrite E. apply idx_nth. apply H, nth_In, Hb. }
    apply (proj1 (NoDup_nth L1 0) H1); assumption.
Qed.
Lemma perm_to_self L : NoDup L -> perm_to L L = seq 0 (length L).
Proof.
  intros H. apply list_eq_nth with (d := 0); [rewrite perm_to_length, seq_length; reflexivity|].
  intros k Hk. rewrite perm_to_length in Hk. rewrite perm_to_nth, seq_nth by exact Hk. now apply idx_at.
Qed.
(** removing a name *)
Lemma remove_first_split x l l' : NoDup l -> remove_first x l = Some l' -> exists a b, l = a ++ x :: b /\ l' = a ++ b /\ index_of x l = Some (length a) /\ ~ In x (a ++ b).
Proof.
  revert l'. induction l as [|y l IH]; intros l' Hn H; [discriminate|]. cbn [remove_first] in H. cbn [index_of]. inversion Hn as [|? ? Hy Hn']; subst.
  destruct (Nat.eqb_spec x y) as [<-|Hxy].
  - injection H as <-. now exists [], l.
  - destruct (remove_first x l) as [l1|] eqn:E; [|discriminate]. cbn [option_map] in H. injection H as <-.
    destruct (IH l1 Hn' eq_refl) as (a & b & -> & -> & Ei & Hi). exists (y :: a), b. rewrite Ei. repeat split. cbn. intros [->|?]; auto.
Qed.
Lemma idx_app_l x a b : In x a -> idx x (a ++ b) = idx x a.
Proof.
  intros H. unfold idx. induction a as [|y a IH]; [destruct H|]. cbn [app index_of]. destruct (Nat.eqb_spec x y); [reflexivity|].
  destruct H as [->|H]; [contradiction|]. specialize (IH H). destruct (index_of_In x a H) as [k E]. rewrite E in *. cbn [option_map].
  destruct (index_of_In x (a ++ b)) as [k' E']; [apply in_or_app; now left|]. rewrite E' in *. cbn [option_map]. now rewrite IH.
Qed.
Lemma idx_last x a : ~ In x a -> idx x (a ++ [x]) = length a.
Proof.
  intros H. unfold idx. induction a as [|y a IH]; cbn [app index_of]; [now rewrite Nat.eqb_refl|].
  destruct (Nat.eqb_spec x y) as [->|Hxy]; [destruct H; now left|].
  assert (~ In x a) as H' by (intros G; apply H; now right). specialize (IH H').
  destruct (index_of_In x (a ++ [x])) as [k E]; [apply in_or_app; right; now left|]. rewrite E in *. cbn [option_map length]. now rewrite IH.
Qed.
Lemma idx_cut x o a b : x <> o -> In x (a ++ b) -> NoDup (a ++ o :: b) -> idx x (a ++ o :: b) = keep (length a) (idx x (a ++ b)).
Proof.
  intros Hx Hi Hn. unfold keep. destruct (in_dec Nat.eq_dec x a) as [Ha|Ha].
  - rewrite !idx_app_l by exact Ha. pose proof (idx_lt x a Ha). destruct (Nat.ltb_spec (idx x a) (length a)); lia.
  - assert (forall c, idx x (a ++ c) = if in_dec Nat.eq_dec x c then length a + idx x c else idx x (a ++ c)) as G.
    { intros c. destruct (in_dec Nat.eq_dec x c) as [Hc|]; [|reflexivity]. clear - Ha Hc. induction a as [|y a IH]; [reflexivity|].
      unfold idx in *. cbn [app index_of length]. destruct (Nat.eqb_spec x y) as [->|]; [destruct Ha; now left|].
      assert (~ In x a) as Ha' by (intros G; apply Ha; now right). specialize (IH Ha').
      destruct (index_of_In x (a ++ c)) as [k E]; [apply in_or_app; now right|]. rewrite E in *. cbn [option_map]. now rewrite IH. }
    apply in_app_or in Hi. destruct Hi as [Hi|Hi]; [contradiction|].
    rewrite (G b), (G (o :: b)). destruct (in_dec Nat.eq_dec x b) as [_|]; [|contradiction]. destruct (in_dec Nat.eq_dec x (o :: b)) as [_|Hno]; [|destruct Hno; now right].
    destruct (Nat.ltb_spec (length a + idx x b) (length a)); [lia|]. unfold idx at 1. cbn [index_of]. destruct (Nat.eqb_spec x o); [contradiction|].
    destruct (index_of_In x b Hi) as [k E]. unfold idx. rewrite E. cbn [option_map]. lia.
Qed.
Lemma nth_cut a o (b : list nat) k : k < length (a ++ o :: b) -> k <> length a -> nth k (a ++ o :: b) 0 = nth (drop (length a) k) (a ++ b) 0.
Proof.
  intros Hk Hne. unfold drop. destruct (Nat.ltb_spec k (length a)).
  - now rewrite !app_nth1 by lia.
  - rewrite app_nth2 by lia. rewrite app_nth2 by lia. replace (k - length a) with (S (k - 1 - length a)) by lia. reflexivity.
Qed.
Lemma cut_names a o b T : same_names (a ++ o :: b) (T ++ [o]) -> same_names (a ++ b) T.
Proof.
  intros (H1 & H2 & H). split; [now apply NoDup_remove_1 in H1|]. split; [now apply NoDup_app_remove_r in H2|].
  intros x. specialize (H x). rewrite in_app_iff in *. cbn [In] in H. rewrite in_app_iff in H. cbn [In] in H. apply NoDup_remove_2 in H1. rewrite in_app_iff in H1.
  assert (~ In o T) as Ho. { rewrite <- (app_nil_r T). intros G. apply (NoDup_remove_2 T [] o H2). exact G. }
  destruct (Nat.eq_dec x o) as [->|]; [tauto|]. assert (o <> x) as Hox by congruence. tauto.
Qed.
Lemma perm_to_out a o b T : same_names (a ++ o :: b) (T ++ [o]) ->
  perm_to (a ++ o :: b) (T ++ [o]) = comp (concatenate_permutations (perm_to (a ++ b) T) [0]) (m_out (length a) (S (length (a ++ b)))).
Proof.
  intros Hs. pose proof (cut_names _ _ _ _ Hs) as Hc. pose proof (same_length _ _ Hc) as Hl. destruct Hs as (H1 & H2 & H). set (n := length (a ++ b)) in *.
  assert (length (a ++ o :: b) = S n) as Hn by (unfold n; rewrite !app_length; cbn [length]; lia).
  assert (length a <= n) as Ha by (unfold n; rewrite app_length; lia).
  apply list_eq_nth with (d := 0); [now rewrite perm_to_length, comp_length, m_out_length|].
  intros k Hk. rewrite perm_to_length, Hn in Hk. rewrite perm_to_nth by lia. unfold comp. rewrite (nth_map_lt _ _ k 0 0) by (rewrite m_out_length; exact Hk).
  rewrite m_out_nth by exact Hk. rewrite conc_snoc, ?perm_to_length. fold n.
  destruct (Nat.eqb_spec k (length a)) as [->|Hne].
  - rewrite nth_middle. rewrite app_nth2; rewrite perm_to_length; fold n; [|lia]. replace (S n - 1 - n) with 0 by lia. cbn [map nth].
    rewrite idx_last; [lia|]. rewrite <- (app_nil_r T). exact (NoDup_remove_2 T [] o H2).
  - rewrite nth_cut by (try exact Hne; lia). assert (drop (length a) k < n) as Hd by (unfold drop; destruct (Nat.ltb_spec k (length a)); lia).
    rewrite (app_nth1 (perm_to (a ++ b) T)) by (rewrite perm_to_length; exact Hd). rewrite perm_to_nth by exact Hd. apply idx_app_l. apply Hc, nth_In, Hd.
Qed.
Lemma perm_to_in a o b T : same_names (T ++ [o]) (a ++ o :: b) ->
  perm_to (T ++ [o]) (a ++ o :: b) = comp (m_in (length a) (S (length (a ++ b)))) (concatenate_permutations (perm_to T (a ++ b)) [0]).
Proof.
  intros Hs. assert (same_names (a ++ o :: b) (T ++ [o])) as Hs' by (destruct Hs as (H1 & H2 & H); split; [exact H2|]; split; [exact H1|]; intros x; symmetry; apply H).
  pose proof (cut_names _ _ _ _ Hs') as Hc. pose proof (same_length _ _ Hc) as Hl. destruct Hs as (H1 & H2 & H). set (n := length (a ++ b)) in *.
  assert (length (a ++ o :: b) = S n) as Hn by (unfold n; rewrite !app_length; cbn [length]; lia).
  assert (length a <= n) as Ha by (unfold n; rewrite app_length; lia).
  assert (~ In o T) as Ho. { rewrite <- (app_nil_r T). exact (NoDup_remove_2 T [] o H1). }
  assert (idx o (a ++ o :: b) = length a) as Eo.
  { rewrite <- (nth_middle a b o 0) at 1. apply idx_at; [exact H2|lia]. }
  rewrite conc_snoc, perm_to_length. unfold perm_to at 1, comp. rewrite !map_app. f_equal.
  - unfold perm_to. rewrite map_map. apply map_ext_in. intros x Hx. assert (In x (a ++ b)) as Hx' by (now apply Hc).
    rewrite idx_cut; [|intros ->; contradiction|exact Hx'|exact H2].
    pose proof (idx_lt x _ Hx') as Hlt. fold n in Hlt. rewrite m_in_nth by lia. destruct (Nat.eqb_spec (idx x (a ++ b)) (S n - 1)); [lia|]. reflexivity.
  - cbn [map]. rewrite Eo. rewrite m_in_nth by lia. destruct (Nat.eqb_spec (length T + 0) (S n - 1)) as [_|He]; [reflexivity|lia].
Qed.

(** ** closing the loops *)
Section Close.
  Context (M : cmodel) {X : Type} (lit : lits X) (sym : nat -> nat -> dom M) (lden : X -> dom M).
  Local Notation ok := (mok M). Local Notation ser := (mser M). Local Notation cat := (mcat M). Local Notation prm := (mprm M).
  Local Notation mean := (mean M sym lden). Local Notation loop := (loop M).
  Context (HL : forall n a b b', ok n a -> ok (S n) b -> mfb M n b b' -> mfb M n (ser (S n) (cat n 1 a (prm [0])) b) (ser n a b')).
  Context (HR : forall n a b b', ok n a -> ok (S n) b -> mfb M n b b' -> mfb M n (ser (S n) b (cat n 1 a (prm [0]))) (ser n b' a)).
  Context (K : creators X) (HK : sound M sym lden K).

  (** closing the loops of named ports *)
  Inductive wires : dom M -> list nat -> list nat -> list (nat * nat) -> dom M -> Prop :=
  | wires_nil a outs ins : wires a outs ins [] a
  | wires_cons a o1 o o2 i1 i i2 rest b t n : length (o1 ++ o2) = n -> length (i1 ++ i2) = n ->
      loop n a (length o1) (length i1) b -> wires b (o1 ++ o2) (i1 ++ i2) rest t ->
      wires a (o1 ++ o :: o2) (i1 ++ i :: i2) ((o, i) :: rest) t.

  Definition placed n (a : dom M) (P Q : list nat) : dom M := ser n (ser n (prm P) a) (prm Q).
  Lemma ok_prm1 n p : is_perm p -> length p = n -> ok n (prm p).
  Proof. intros H <-. now apply ok_prm. Qed.
  Lemma close_one n a b o1 o o2 i1 i i2 To Ti c r :
    ok (S n) a -> length (o1 ++ o2) = n -> length (i1 ++ i2) = n -> loop n a (length o1) (length i1) b ->
    same_names (o1 ++ o :: o2) (To ++ [o]) -> same_names (Ti ++ [i]) (i1 ++ i :: i2) ->
    mean c (S n) (placed (S n) a (perm_to (o1 ++ o :: o2) (To ++ [o])) (perm_to (Ti ++ [i]) (i1 ++ i :: i2))) ->
    k_mfb K c (cdim c - 1) (cdim c - 1) = Ok r ->
    mean r n (placed n b (perm_to (o1 ++ o2) To) (perm_to Ti (i1 ++ i2))).
  Proof.
    intros Ha Ho Hi Hl So Si Hm Hr.
    rewrite (mean_cdim _ _ _ _ _ _ Hm) in Hr. replace (S n - 1) with n in Hr by lia.
    refine (s_mfb _ _ _ _ HK _ n _ n n _ r Hm (le_n n) (le_n n) _ Hr). clear Hr Hm c r.
    rewrite (perm_to_out _ _ _ _ So), (perm_to_in _ _ _ _ Si). rewrite Ho, Hi.
    pose proof (cut_names _ _ _ _ So) as So'.
    assert (same_names Ti (i1 ++ i2)) as Si'.
    { destruct Si as (S1 & S2 & S3). destruct (cut_names i1 i i2 Ti) as (S4 & S5 & S6); [split; [exact S2|]; split; [exact S1|]; intros x; symmetry; apply S3|].
      split; [exact S5|]. split; [exact S4|]. intros x. symmetry. apply S6. }
    assert (length (perm_to (o1 ++ o2) To) = n) as LA by (now rewrite perm_to_length).
    assert (length (perm_to Ti (i1 ++ i2)) = n) as LB by (rewrite perm_to_length, (same_length _ _ Si'); exact Hi).
    pose proof (perm_to_perm _ _ So') as PA. pose proof (perm_to_perm _ _ Si') as PB.
    set (A := perm_to (o1 ++ o2) To) in *. set (B := perm_to Ti (i1 ++ i2)) in *. set (p := length o1) in *. set (q := length i1) in *.
    assert (p <= n) as Hp by (unfold p; rewrite <- Ho, app_length; lia). assert (q <= n) as Hq by (unfold q; rewrite <- Hi, app_length; lia).
    assert (is_perm [0]) as P0 by exact (is_perm_seq 1).
    assert (length (concatenate_permutations A [0]) = S n) as LA1 by (rewrite conc_snoc, app_length, map_length; cbn [length]; lia).
    assert (length (concatenate_permutations B [0]) = S n) as LB1 by (rewrite conc_snoc, app_length, map_length; cbn [length]; lia).
    assert (is_perm (concatenate_permutations A [0])) as PA1 by (apply CSimpProofs1.conc_perm; assumption).
    assert (is_perm (concatenate_permutations B [0])) as PB1 by (apply CSimpProofs1.conc_perm; assumption).
    assert (is_perm (m_out p (S n))) as Pm by (apply m_out_perm; lia). assert (is_perm (m_in q (S n))) as Pq by (apply m_in_perm; lia).
    assert (ok (S n) (prm (m_out p (S n)))) as Om by (apply ok_prm1; [exact Pm|apply m_out_length]).
    assert (ok (S n) (prm (m_in q (S n)))) as Oq by (apply ok_prm1; [exact Pq|apply m_in_length]).
    assert (ok n (prm A)) as OA by (now apply ok_prm1). assert (ok n (prm B)) as OB by (now apply ok_prm1).
    unfold CSimpSpec.loop. unfold placed at 1. rewrite (ports_last M n) by (apply ok_ser; [apply ok_ser; [|exact Ha]|]; apply ok_prm1; first [apply comp_perm; try assumption; rewrite ?LA1, ?LB1, ?m_out_length, ?m_in_length; reflexivity|rewrite comp_length, ?m_out_length; first [reflexivity|exact LB1]]).
    unfold placed.
    assert (prm (comp (concatenate_permutations A [0]) (m_out p (S n))) = ser (S n) (cat n 1 (prm A) (prm [0])) (prm (m_out p (S n)))) as ->.
    { rewrite <- LA1 at 2. rewrite <- (prm_ser M) by (try assumption; rewrite LA1, m_out_length; reflexivity). rewrite LA1. f_equal.
      rewrite <- (cat_prm M A [0] PA P0), LA. reflexivity. }
    assert (prm (comp (m_in q (S n)) (concatenate_permutations B [0])) = ser (S n) (prm (m_in q (S n))) (cat n 1 (prm B) (prm [0]))) as ->.
    { transitivity (ser (length (m_in q (S n))) (prm (m_in q (S n))) (prm (concatenate_permutations B [0]))).
      - symmetry. apply prm_ser; [assumption|assumption|]. now rewrite m_in_length, LB1.
      - rewrite m_in_length. f_equal. rewrite <- (cat_prm M B [0] PB P0), LB. reflexivity. }
    assert (ok (S n) (cat n 1 (prm A) (prm [0]))) as OA1.
    { replace (S n) with (n + 1) by lia. apply ok_cat; [exact OA|]. now apply ok_prm1. }
    assert (ok (S n) (cat n 1 (prm B) (prm [0]))) as OB1.
    { replace (S n) with (n + 1) by lia. apply ok_cat; [exact OB|]. now apply ok_prm1. }
    pose proof (ok_ports M n a p q Ha Hp Hq) as Oports.
    assert (ok (S n) (ser (S n) (prm (m_out p (S n))) a)) as Oma by (now apply ok_ser).
    match goal with |- mfb M n ?w _ => assert (w = ser (S n) (cat n 1 (prm A) (prm [0])) (ser (S n) (mports M n a p q) (cat n 1 (prm B) (prm [0])))) as -> end.
    { unfold mports. rewrite (ser_assoc M (S n) (cat n 1 (prm A) (prm [0])) _ a) by assumption.
      rewrite (ser_assoc M (S n) (cat n 1 (prm A) (prm [0])) _ _) by (try assumption; now apply ok_ser). f_equal.
      symmetry. apply ser_assoc; assumption. }
    rewrite (ser_assoc M n) by (first [assumption|exact (ok_fb M _ _ _ Oports Hl)]).
    apply HL; [exact OA|now apply ok_ser|]. now apply HR.
  Qed.

  (** the targets: the other names in order, then the names of the wires *)
  Definition rest_of (l used : list nat) : list nat := filter (fun k => negb (existsb (Nat.eqb k) used)) l.
  Lemma in_rest x l used : In x (rest_of l used) <-> In x l /\ ~ In x used.
  Proof.
    unfold rest_of. rewrite filter_In, negb_true_iff. split; intros [H1 H2]; (split; [exact H1|]).
    - intros H. assert (existsb (Nat.eqb x) used = true) as E; [|congruence]. apply existsb_exists. exists x. split; [exact H|apply Nat.eqb_refl].
    - destruct (existsb (Nat.eqb x) used) eqn:E; [|reflexivity]. apply existsb_exists in E. destruct E as (y & Hy & E). apply Nat.eqb_eq in E. now subst y.
  Qed.
  Lemma rest_nil l : rest_of l [] = l.
  Proof. unfold rest_of. induction l as [|x l IH]; [reflexivity|]. cbn [filter existsb negb]. f_equal. exact IH. Qed.
  Lemma rest_cut a o b used : ~ In o (a ++ b) -> rest_of (a ++ o :: b) (o :: used) = rest_of (a ++ b) used.
  Proof.
    intros H. assert (forall l, ~ In o l -> rest_of l (o :: used) = rest_of l used) as G.
    { intros l Hl. apply filter_ext_in. intros x Hx. cbn [existsb]. destruct (Nat.eqb_spec x o) as [->|]; [contradiction|reflexivity]. }
    rewrite in_app_iff in H. unfold rest_of at 1 2. rewrite !filter_app. change (filter _ (o :: b)) with (rest_of (o :: b) (o :: used)).
    change (filter _ a) with (rest_of a (o :: used)) at 1. change (rest_of a (o :: used) ++ rest_of (o :: b) (o :: used) = rest_of a used ++ rest_of b used).
    rewrite G by tauto. f_equal. rewrite <- (G b) by tauto. unfold rest_of. cbn [filter existsb]. now rewrite Nat.eqb_refl.
  Qed.
  Definition target (l used : list nat) : list nat := rest_of l used ++ rev used.
  Lemma target_names l used : NoDup l -> NoDup used -> incl used l -> same_names l (target l used).
  Proof.
    intros H1 H2 H3. split; [exact H1|]. split.
    - apply NoDup_app_intro; [now apply NoDup_filter|now apply NoDup_rev|]. intros x Hx Hy. apply in_rest in Hx. apply in_rev in Hy. tauto.
    - intros x. unfold target. rewrite in_app_iff, in_rest, <- in_rev. destruct (in_dec Nat.eq_dec x used) as [Hu|Hu]; [|tauto]. specialize (H3 x Hu). tauto.
  Qed.
  Lemma target_cut a o b used : ~ In o (a ++ b) -> target (a ++ o :: b) (o :: used) = target (a ++ b) used ++ [o].
  Proof. intros H. unfold target. cbn [rev]. rewrite rest_cut by exact H. apply app_assoc. Qed.
  Lemma same_sym L1 L2 : same_names L1 L2 -> same_names L2 L1.
  Proof. intros (H1 & H2 & H). split; [exact H2|]. split; [exact H1|]. intros x. symmetry. apply H. Qed.

  Lemma close_all a outs ins cl t : wires a outs ins cl t -> forall n c r, NoDup outs -> NoDup ins -> length outs = n -> length ins = n -> ok n a ->
    NoDup (map fst cl) -> NoDup (map snd cl) -> incl (map fst cl) outs -> incl (map snd cl) ins ->
    mean c n (placed n a (perm_to outs (target outs (map fst cl))) (perm_to (target ins (map snd cl)) ins)) ->
    close_loops K (length cl) c = Ok r -> mean r (n - length cl) t.
  Proof.
    induction 1 as [a outs ins|a o1 o o2 i1 i i2 rest b t n Ho Hi Hl Hw IH]; intros k c r No Ni Lo Li Ha Nf Ns If Is Hm Hr.
    - cbn [length close_loops] in *. injection Hr as <-. unfold target in Hm. cbn [map rev] in Hm. rewrite !rest_nil, !app_nil_r in Hm.
      rewrite !perm_to_self, Lo, Li in Hm by assumption. unfold placed in Hm. rewrite (ser_id_l M) in Hm by exact Ha. rewrite (ser_id_r M) in Hm by exact Ha.
      now rewrite Nat.sub_0_r.
    - assert (k = S n) as -> by (rewrite <- Lo, app_length; rewrite app_length in Ho; cbn [length]; lia).
      cbn [map fst snd] in *. pose proof (NoDup_remove_2 _ _ _ No) as Go. pose proof (NoDup_remove_2 _ _ _ Ni) as Gi.
      assert (incl (map fst rest) (o1 ++ o2)) as If'.
      { intros x Hx. pose proof (If x (or_intror Hx)) as G. apply in_elt_inv in G. destruct G as [<-|G]; [|exact G]. inversion Nf; contradiction. }
      assert (incl (map snd rest) (i1 ++ i2)) as Is'.
      { intros x Hx. pose proof (Is x (or_intror Hx)) as G. apply in_elt_inv in G. destruct G as [<-|G]; [|exact G]. inversion Ns; contradiction. }
      apply NoDup_cons_iff in Nf. apply NoDup_cons_iff in Ns. destruct Nf as [_ Nf]. destruct Ns as [_ Ns].
      rewrite !target_cut in Hm by assumption. cbn [length close_loops] in Hr. step Hr c' Ec.
      pose proof (NoDup_remove_1 _ _ _ No) as No'. pose proof (NoDup_remove_1 _ _ _ Ni) as Ni'.
      assert (same_names (o1 ++ o :: o2) (target (o1 ++ o2) (map fst rest) ++ [o])) as So.
      { rewrite <- target_cut by exact Go. apply target_names; [exact No| |].
        - constructor; [intros G; apply Go, If', G|exact Nf].
        - intros x [<-|Hx]; [apply in_elt|]. apply If. now right. }
      assert (same_names (target (i1 ++ i2) (map snd rest) ++ [i]) (i1 ++ i :: i2)) as Si.
      { apply same_sym. rewrite <- target_cut by exact Gi. apply target_names; [exact Ni| |].
        - constructor; [intros G; apply Gi, Is', G|exact Ns].
        - intros x [<-|Hx]; [apply in_elt|]. apply Is. now right. }
      assert (length o1 <= n) as Hp by (rewrite <- Ho, app_length; lia). assert (length i1 <= n) as Hq by (rewrite <- Hi, app_length; lia).
      pose proof (close_one n a b o1 o o2 i1 i i2 _ _ c c' Ha Ho Hi Hl So Si Hm Ec) as Hm'.
      exact (IH n c' r No' Ni' Ho Hi (ok_fb M _ _ _ (ok_ports M n a _ _ Ha Hp Hq) Hl) Nf Ns If' Is' Hm' Hr).
  Qed.
End Close.
