(** Single-channel maps, CPermutation feedback and factorisation (C06, C07). *)
From Verif Require Import Prelude ListFacts PermModel PermSpec PermProofs1 PermProofs2 PermProofs3 PermProofs4 PermProofs5 CircModel CircSpec CircProofs1.

Section WithX.
Context {X : Type}.
Local Notation circ := (circ X).
Local Notation CSym := (@CSym X).
Local Notation CSlh := (@CSlh X).
Local Notation CPerm := (@CPerm X).
Local Notation CId := (@CId X).
Local Notation CZero := (@CZero X).
Local Notation CSeries := (@CSeries X).
Local Notation CConcat := (@CConcat X).
Local Notation CFeedback := (@CFeedback X).
Local Notation CSInv := (@CSInv X).
Local Notation circuit_identity := (@circuit_identity X).
Local Notation cperm_create := (@cperm_create X).
Local Notation extract_channel := (@extract_channel X).
Local Notation map_channels := (@map_channels X).
Local Notation mc1 := (@mc1 X).
Local Notation routing := (@routing X).
Local Notation is_identity := (@is_identity X).
Local Notation series_with_permutation := (@series_with_permutation X).
Local Notation series_perm := (@series_perm X).
Local Notation cperm_series_inverse := (@cperm_series_inverse X).
Local Notation cperm_feedback := (@cperm_feedback X).
Local Notation factor_rhs := (@factor_rhs X).
Local Notation factor_lhs := (@factor_lhs X).
Local Notation all_cid := (@all_cid X).
Local Notation cdim := (@cdim X).
Local Notation pc := (@pc X).
Local Notation is_pc := (@is_pc X).

Definition m_out (k n : nat) : list nat :=
  map (fun a => if a =? k then n - 1 else drop k a) (seq 0 n).
Definition m_in (i n : nat) : list nat :=
  map (fun a => if a =? n - 1 then i else keep i a) (seq 0 n).

Lemma map_seq_nth f n a : a < n -> nth a (map f (seq 0 n)) 0 = f a.
Proof.
  intros Ha. rewrite (nth_map_lt f (seq 0 n) a 0 0) by (rewrite seq_length; exact Ha).
  rewrite seq_nth by exact Ha. reflexivity.
Qed.

Lemma index_of_perm_nth (q : list nat) x y : is_perm q -> x < length q -> nth x q 0 = y -> index_of y q = Some x.
Proof.
  intros Hq Hx He. apply is_perm_NoDup in Hq.
  assert (In y q) as Hin by (rewrite <- He; apply nth_In; exact Hx).
  destruct (index_of_In y q Hin) as [i Hi]. rewrite Hi. f_equal.
  destruct (index_of_Some _ _ _ Hi) as (E1 & E2 & _).
  apply (proj1 (NoDup_nth q 0) Hq); [exact E2|exact Hx|].
  rewrite He. apply nth_error_nth with (d := 0) in E1. exact E1.
Qed.

Lemma m_out_length k n : length (m_out k n) = n.
Proof. unfold m_out; rewrite map_length, seq_length; reflexivity. Qed.
Lemma m_in_length k n : length (m_in k n) = n.
Proof. unfold m_in; rewrite map_length, seq_length; reflexivity. Qed.
Lemma m_out_nth k n a : a < n -> nth a (m_out k n) 0 = if a =? k then n - 1 else drop k a.
Proof. apply map_seq_nth. Qed.
Lemma m_in_nth k n a : a < n -> nth a (m_in k n) 0 = if a =? n - 1 then k else keep k a.
Proof. apply (map_seq_nth (fun a => if a =? n - 1 then k else keep k a)). Qed.

Ltac ports := unfold keep, drop in *;
  repeat (match goal with
          | |- context[?a =? ?b] => destruct (Nat.eqb_spec a b)
          | |- context[?a <? ?b] => destruct (Nat.ltb_spec a b)
          | H : context[?a =? ?b] |- _ => destruct (Nat.eqb_spec a b)
          | H : context[?a <? ?b] |- _ => destruct (Nat.ltb_spec a b)
          end; try lia).

Lemma perm_by_nth p n : length p = n -> (forall a, a < n -> nth a p 0 < n) ->
  (forall a b, a < n -> b < n -> nth a p 0 = nth b p 0 -> a = b) -> is_perm p.
Proof.
  intros Hl H1 H2. apply is_perm_intro.
  - apply (NoDup_nth p 0). rewrite Hl. intros a b Ha Hb; apply H2; assumption.
  - intros x Hx. apply In_nth with (d := 0) in Hx as (i & Hi & <-). rewrite Hl in *. apply H1; exact Hi.
Qed.

Lemma m_out_perm k n : k < n -> is_perm (m_out k n).
Proof.
  intros Hk. apply (perm_by_nth _ n (m_out_length k n)).
  - intros a Ha. rewrite m_out_nth by exact Ha. ports.
  - intros a b Ha Hb. rewrite !m_out_nth by assumption. intros He. ports.
Qed.
Lemma m_in_perm k n : k < n -> is_perm (m_in k n).
Proof.
  intros Hk. apply (perm_by_nth _ n (m_in_length k n)).
  - intros a Ha. rewrite m_in_nth by exact Ha. ports.
  - intros a b Ha Hb. rewrite !m_in_nth by assumption. intros He. ports.
Qed.

Lemma mc1_valid k v n : k < n -> v < n -> valid_mapping [(Z.of_nat k, Z.of_nat v)] n.
Proof.
  intros Hk Hv. split.
  - intros a b [H|[]]. injection H as <- <-. lia.
  - intros a b c [H1|[]] [H2|[]]. congruence.
Qed.

Lemma mc1_ok k v n q : k < n -> v < n -> routes_as [(Z.of_nat k, Z.of_nat v)] n q ->
  mc1 k v n = Ok (pc q).
Proof.
  intros Hk Hv Hq. unfold mc1.
  assert (NoDup (map fst [(Z.of_nat k, Z.of_nat v)])) as Hnd by (repeat constructor; intros []).
  pose proof (@map_channels_spec X [(Z.of_nat k, Z.of_nat v)] n Hnd) as H.
  pose proof (mc1_valid k v n Hk Hv) as Hval.
  destruct (map_channels [(Z.of_nat k, Z.of_nat v)] n) as [c|e].
  - destruct H as [_ (p & -> & Hp)]. do 2 f_equal. exact (routes_as_unique _ n p q Hval Hnd Hp Hq).
  - destruct e; try contradiction. destruct H; contradiction.
Qed.

Lemma mc1_out k n : k < n -> mc1 k (n - 1) n = Ok (pc (m_out k n)).
Proof.
  intros Hk. apply mc1_ok; [exact Hk|lia|]. split; [apply is_perm_bij, m_out_perm; exact Hk|].
  split; [apply m_out_length|]. split.
  - intros a v [H|[]] Ha. injection H as H1 H2. rewrite m_out_nth by exact Ha. ports.
  - intros a b Hab Hb Hna Hnb. rewrite !m_out_nth by lia. cbn in Hna, Hnb. ports.
Qed.

Lemma mc1_in i n : i < n -> mc1 (n - 1) i n = Ok (pc (m_in i n)).
Proof.
  intros Hi. apply mc1_ok; [lia|exact Hi|]. split; [apply is_perm_bij, m_in_perm; exact Hi|].
  split; [apply m_in_length|]. split.
  - intros a v [H|[]] Ha. injection H as H1 H2. rewrite m_in_nth by exact Ha. ports.
  - intros a b Hab Hb Hna Hnb. rewrite !m_in_nth by lia. cbn in Hna, Hnb. ports.
Qed.

Lemma mc1_bad k v n : (n <= k \/ n <= v) -> mc1 k v n = Err ValueError.
Proof.
  intros H. unfold mc1.
  assert (NoDup (map fst [(Z.of_nat k, Z.of_nat v)])) as Hnd by (repeat constructor; intros []).
  pose proof (@map_channels_spec X [(Z.of_nat k, Z.of_nat v)] n Hnd) as Hs.
  destruct (map_channels [(Z.of_nat k, Z.of_nat v)] n) as [c|e].
  - destruct Hs as [[Hv _] _]. specialize (Hv _ _ (or_introl eq_refl)). lia.
  - destruct e; try contradiction; [reflexivity|].
    destruct Hs as [_ (z & [Hz|[]] & Hneg)]. cbn in Hz. lia.
Qed.

Lemma extract_channel_ok k n : k < n -> extract_channel k n = mc1 k (n - 1) n.
Proof.
  intros Hk. rewrite mc1_out by exact Hk. unfold extract_channel.
  assert (seq 0 k ++ [n - 1] ++ seq k (n - 1 - k) = m_out k n) as ->.
  { apply list_eq_nth with (d := 0).
    - rewrite !app_length, !seq_length, m_out_length. cbn. lia.
    - rewrite !app_length, !seq_length. cbn. intros a Ha. rewrite m_out_nth by lia.
      destruct (Nat.lt_ge_cases a k) as [Hlt|Hge].
      + rewrite app_nth1 by (rewrite seq_length; exact Hlt). rewrite seq_nth by exact Hlt. ports.
      + rewrite app_nth2 by (rewrite seq_length; exact Hge). rewrite seq_length.
        destruct (a - k) as [|d] eqn:Ed; cbn [nth].
        * ports.
        * rewrite seq_nth by lia. ports. }
  apply cperm_create_ok, m_out_perm; exact Hk.
Qed.

(** The middle permutation m_{o->n-1} << p << m_{n-1->i} *)
Definition mid (p : list nat) (o i : nat) : list nat :=
  comp (comp (m_out o (length p)) p) (m_in i (length p)).

Lemma mid_length p o i : length (mid p o i) = length p.
Proof. unfold mid. rewrite comp_length. apply m_in_length. Qed.

Lemma mid_nth p o i a : is_perm p -> i < length p -> a < length p ->
  nth a (mid p o i) 0 =
  let y := nth (if a =? length p - 1 then i else keep i a) p 0 in
  if y =? o then length p - 1 else drop o y.
Proof.
  intros Hp Hi Ha. unfold mid. rewrite comp_nth by (rewrite m_in_length; exact Ha).
  rewrite m_in_nth by exact Ha.
  assert ((if a =? length p - 1 then i else keep i a) < length p) as Hb by ports.
  rewrite comp_nth by exact Hb. rewrite m_out_nth; [reflexivity|].
  apply is_perm_nth_lt; assumption.
Qed.

Lemma mid_perm p o i : is_perm p -> o < length p -> i < length p -> is_perm (mid p o i).
Proof.
  intros Hp Ho Hi. unfold mid. apply comp_perm; [rewrite comp_length, m_in_length; reflexivity| |apply m_in_perm; exact Hi].
  apply comp_perm; [apply m_out_length|apply m_out_perm; exact Ho|exact Hp].
Qed.

Lemma mid_circ p o i : is_perm p -> o < length p -> i < length p ->
  exists c, (do a <- series_perm (pc (m_out o (length p))) (CPerm p); series_perm a (pc (m_in i (length p)))) = Ok c /\
    is_pc c (mid p o i) /\ cdim c = length p.
Proof.
  intros Hp Ho Hi.
  destruct (series_perm_ok (pc (m_out o (length p))) (CPerm p) (m_out o (length p)) p) as (a & Ha1 & Ha2 & _);
    [left; reflexivity|right; reflexivity|apply m_out_perm; exact Ho|exact Hp|apply m_out_length|].
  rewrite Ha1. cbn [bind].
  destruct (series_perm_ok a (pc (m_in i (length p))) (comp (m_out o (length p)) p) (m_in i (length p)))
    as (c & Hc1 & Hc2 & Hc3 & _); auto.
  - left; reflexivity.
  - apply comp_perm; [apply m_out_length|apply m_out_perm; exact Ho|exact Hp].
  - apply m_in_perm; exact Hi.
  - rewrite comp_length, m_in_length; reflexivity.
  - exists c. repeat split; auto. rewrite Hc3, comp_length. reflexivity.
Qed.

Lemma is_pc_cases c q : is_pc c q -> is_perm q ->
  (c = CPerm q) \/ (q = seq 0 (length q) /\ c = circuit_identity (length q)).
Proof.
  intros [->| ->] _; [|left; reflexivity].
  destruct (@pc_cases X q) as [[H1 H2]|[H1 H2]]; [right; auto|left; exact H2].
Qed.

Lemma circuit_identity_not_perm n q : circuit_identity n <> CPerm q.
Proof. destruct n as [|[|n]]; discriminate. Qed.

(** *** feedback *)
Definition fb_route (p : list nat) (o i a : nat) : nat :=
  let y := nth (keep i a) p 0 in
  drop o (if y =? o then nth i p 0 else y).

Definition fb_perm (p : list nat) (o i : nat) : list nat :=
  map (fb_route p o i) (seq 0 (length p - 1)).

Lemma fb_perm_perm p o i : is_perm p -> o < length p -> i < length p -> is_perm (fb_perm p o i).
Proof.
  intros Hp Ho Hi. pose proof (proj1 (is_perm_bij p) Hp) as (B1 & B2 & B3).
  assert (forall a, a < length p - 1 -> keep i a < length p /\ keep i a <> i) as Hk by (intros a Ha; ports).
  assert (forall a, a < length p - 1 ->
    let y := nth (keep i a) p 0 in (if y =? o then nth i p 0 else y) <> o /\
                                   (if y =? o then nth i p 0 else y) < length p) as Hz.
  { intros a Ha. cbn zeta. destruct (Hk a Ha) as [H1 H2].
    destruct (Nat.eqb_spec (nth (keep i a) p 0) o) as [He|Hne]; [|split; [exact Hne|apply B1; exact H1]].
    split; [|apply B1; exact Hi]. intros Hio. apply H2. apply B2; auto. congruence. }
  unfold fb_perm. apply (perm_by_nth _ (length p - 1)); [rewrite map_length, seq_length; reflexivity| |].
  - intros a Ha. rewrite map_seq_nth by exact Ha. unfold fb_route.
    destruct (Hz a Ha) as [H1 H2]. cbn zeta in *. revert H1 H2.
    generalize (if nth (keep i a) p 0 =? o then nth i p 0 else nth (keep i a) p 0). intros z H1 H2. ports.
  - intros a b Ha Hb. rewrite !map_seq_nth by assumption. unfold fb_route. intros He.
    destruct (Hz a Ha) as [H1 H2]. destruct (Hz b Hb) as [H3 H4]. cbn zeta in *.
    assert ((if nth (keep i a) p 0 =? o then nth i p 0 else nth (keep i a) p 0)
          = (if nth (keep i b) p 0 =? o then nth i p 0 else nth (keep i b) p 0)) as Hee.
    { revert H1 H2 H3 H4 He.
      generalize (if nth (keep i a) p 0 =? o then nth i p 0 else nth (keep i a) p 0) as u.
      generalize (if nth (keep i b) p 0 =? o then nth i p 0 else nth (keep i b) p 0) as v.
      intros v u H1 H2 H3 H4 He. ports. }
    destruct (Hk a Ha) as [K1 K2], (Hk b Hb) as [K3 K4].
    assert (keep i a = keep i b) as Hkk.
    { destruct (Nat.eqb_spec (nth (keep i a) p 0) o) as [Ea|Ea], (Nat.eqb_spec (nth (keep i b) p 0) o) as [Eb|Eb].
      - apply B2; auto. congruence.
      - exfalso. apply K4. symmetry. apply B2; auto.
      - exfalso. apply K2. apply B2; auto.
      - apply B2; auto. }
    clear -Hkk. ports.
Qed.

Lemma set_nth_nth {A} i (v : A) l l' d : set_nth i v l = Some l' ->
  length l' = length l /\ forall j, nth j l' d = if j =? i then v else nth j l d.
Proof.
  revert l l'; induction i as [|i IH]; intros [|x l] l' H; try discriminate; cbn in H.
  - injection H as <-. split; [reflexivity|]. intros [|j]; reflexivity.
  - destruct (set_nth i v l) as [m|] eqn:E; [|discriminate]. injection H as <-.
    destruct (IH l m E) as [H1 H2]. split; [cbn; congruence|]. intros [|j]; cbn; [reflexivity|apply H2].
Qed.

Lemma nth_removelast {A} (l : list A) j d : j < length l - 1 -> nth j (removelast l) d = nth j l d.
Proof.
  revert j; induction l as [|x l IH]; intros j Hj; [cbn in Hj; lia|].
  destruct l as [|y l]; [cbn in Hj; lia|].
  change (removelast (x :: y :: l)) with (x :: removelast (y :: l)).
  destruct j as [|j]; [reflexivity|]. cbn [nth]. apply IH. cbn in *; lia.
Qed.

Lemma removelast_length {A} (l : list A) : length (removelast l) = length l - 1.
Proof.
  induction l as [|x l IH]; [reflexivity|]. destruct l as [|y l]; [reflexivity|].
  change (removelast (x :: y :: l)) with (x :: removelast (y :: l)). cbn [length] in *. lia.
Qed.

Lemma cperm_feedback_ok p o i : is_perm p -> o < length p -> i < length p ->
  cperm_feedback p o i = Ok (pc (fb_perm p o i)).
Proof.
  intros Hp Ho Hi. pose proof (proj1 (is_perm_bij p) Hp) as (B1 & B2 & B3).
  unfold cperm_feedback. rewrite mc1_out, mc1_in by assumption. cbn [bind].
  destruct (mid_circ p o i Hp Ho Hi) as (c & Hc1 & Hc2 & Hc3).
  destruct (series_perm (pc (m_out o (length p))) (CPerm p)) as [a|e]; cbn [bind] in *; [|discriminate].
  rewrite Hc1. cbn [bind].
  set (n := length p) in *. set (q := mid p o i) in *.
  assert (length q = n) as Hql by apply mid_length.
  assert (is_perm q) as Hq by (apply mid_perm; assumption).
  assert (length (fb_perm p o i) = n - 1) as Hfl by (unfold fb_perm; rewrite map_length, seq_length; reflexivity).
  destruct (is_pc_cases c q Hc2 Hq) as [->|[Hid ->]].
  - pose proof (proj1 (is_perm_bij q) Hq) as (Q1 & Q2 & Q3).
    destruct (inv_of_nth q (n - 1) Hq ltac:(lia)) as [Hx1 Hx2].
    set (x := nth (n - 1) (inv_of q) 0) in *.
    assert (index_of (n - 1) q = Some x) as Hix.
    { apply index_of_perm_nth; assumption. }
    rewrite Hix. cbn [of_option bind].
    rewrite (nth_error_nth' q 0) by lia. cbn [of_option bind].
    destruct (set_nth x (nth (n - 1) q 0) q) as [np|] eqn:Es.
    2:{ exfalso. destruct (set_nth_Some x (nth (n - 1) q 0) q) as (np & Hnp & _); [exact Hx1|]. congruence. }
    cbn [of_option bind]. destruct (set_nth_nth _ _ _ _ 0 Es) as [Hnl Hnn].
    assert (removelast np = fb_perm p o i) as ->.
    { apply list_eq_nth with (d := 0); rewrite removelast_length; [lia|].
      intros a' Ha'. rewrite nth_removelast by exact Ha'. rewrite Hnn.
      unfold fb_perm. rewrite map_seq_nth by lia. unfold fb_route.
      assert (forall b, b < n -> nth b q 0 = let y := nth (if b =? n - 1 then i else keep i b) p 0 in
                if y =? o then n - 1 else drop o y) as Hqn.
      { intros b Hb. apply mid_nth; assumption. }
      assert (nth a' q 0 = if nth (keep i a') p 0 =? o then n - 1 else drop o (nth (keep i a') p 0)) as Hqa.
      { rewrite Hqn by lia. cbn zeta. destruct (Nat.eqb_spec a' (n - 1)); [lia|reflexivity]. }
      assert (nth (n - 1) q 0 = if nth i p 0 =? o then n - 1 else drop o (nth i p 0)) as Hql1.
      { rewrite Hqn by lia. cbn zeta. rewrite Nat.eqb_refl. reflexivity. }
      assert (keep i a' < n /\ keep i a' <> i) as [K1 K2] by ports.
      destruct (Nat.eqb_spec a' x) as [He|Hne].
      - rewrite <- He in Hx2. rewrite Hqa in Hx2. rewrite Hql1.
        pose proof (B1 (keep i a') K1) as Hb1. pose proof (B1 i Hi) as Hb2. fold n in Hb1, Hb2.
        destruct (Nat.eqb_spec (nth (keep i a') p 0) o) as [E1|E1].
        + destruct (Nat.eqb_spec (nth i p 0) o) as [E2|E2]; [|reflexivity].
          exfalso. apply K2. apply B2; [exact K1|exact Hi|congruence].
        + exfalso. clear -Hx2 E1 Hb1 Ho. ports.
      - rewrite Hqa. destruct (Nat.eqb_spec (nth (keep i a') p 0) o) as [E1|E1]; [|reflexivity].
        exfalso. apply Hne. apply Q2; [lia|exact Hx1|]. congruence. }
    apply cperm_create_ok, fb_perm_perm; assumption.
  - rewrite Hql. assert (circuit_identity (n - 1) = pc (fb_perm p o i)) as Hpcid.
    { assert (fb_perm p o i = seq 0 (n - 1)) as Hseq.
      { apply list_eq_nth with (d := 0); [rewrite seq_length; exact Hfl|]. intros a' Ha'. rewrite Hfl in Ha'.
        unfold fb_perm. rewrite map_seq_nth by exact Ha'. rewrite seq_nth by exact Ha'. cbn [Nat.add]. unfold fb_route.
        assert (nth a' q 0 = a') as Hqa by (rewrite Hid, seq_nth by lia; reflexivity).
        unfold q in Hqa. rewrite mid_nth in Hqa by (try assumption; fold n; lia). cbn zeta in Hqa.
        assert (keep i a' < n) as K1 by ports.
        pose proof (B1 (keep i a') K1) as Hb1. fold n in Hqa, Hb1.
        destruct (Nat.eqb_spec a' (n - 1)) as [|_]; [lia|].
        destruct (Nat.eqb_spec (nth (keep i a') p 0) o) as [E1|E1]; [lia|]. exact Hqa. }
      unfold pc. rewrite Hseq, seq_length, (proj2 (eqb_list_nat_eq _ _) eq_refl). reflexivity. }
    destruct (circuit_identity n) eqn:Ecn; try (rewrite Hpcid; reflexivity).
    destruct (circuit_identity_not_perm n permutation Ecn).
Qed.

(** *** _factor_rhs / _factor_lhs *)
Definition red (p : list nat) (o i : nat) : list nat := removelast (mid p o i).

Lemma mid_last p o i : is_perm p -> i < length p -> nth i p 0 = o -> nth (length p - 1) (mid p o i) 0 = length p - 1.
Proof.
  intros Hp Hi He. rewrite mid_nth by (try assumption; lia). cbn zeta. rewrite Nat.eqb_refl, He, Nat.eqb_refl. reflexivity.
Qed.

Lemma red_perm q : is_perm q -> 0 < length q -> nth (length q - 1) q 0 = length q - 1 -> is_perm (removelast q).
Proof.
  intros Hq Hl He. pose proof (proj1 (is_perm_bij q) Hq) as (Q1 & Q2 & Q3).
  apply (perm_by_nth _ (length q - 1)); [apply removelast_length| |].
  - intros a Ha. rewrite nth_removelast by exact Ha. pose proof (Q1 a ltac:(lia)).
    assert (nth a q 0 <> length q - 1); [|lia]. intros Hc. assert (a = length q - 1); [|lia].
    apply Q2; [lia|lia|congruence].
  - intros a b Ha Hb. rewrite !nth_removelast by assumption. apply Q2; lia.
Qed.

Lemma split_last q : 0 < length q -> nth (length q - 1) q 0 = length q - 1 -> 
  concatenate_permutations (removelast q) [0] = q.
Proof.
  intros Hl He. apply list_eq_nth with (d := 0);
    destruct (concatenate_side (removelast q) [0]) as (S1 & S2 & S3); rewrite S1, removelast_length; cbn [length]; [lia|].
  intros a Ha. destruct (Nat.eq_dec a (length q - 1)) as [->|Hne].
  - specialize (S3 0 ltac:(cbn; lia)). rewrite removelast_length, Nat.add_0_r in S3. rewrite S3. cbn. lia.
  - rewrite S2 by (rewrite removelast_length; lia). apply nth_removelast. lia.
Qed.

Lemma factor_ok p o i c : is_perm p -> i < length p -> nth i p 0 = o -> is_pc c (mid p o i) ->
  (match c with
   | CircModel.CPerm q =>
     do l <- of_option IndexError (nth_error q (length p - 1));
     if l =? length p - 1 then do red_self <- cperm_create (removelast q); Ok (o, red_self)
     else Err AssertionError
   | _ => Ok (o, circuit_identity (length p - 1))
   end) = Ok (o, pc (red p o i)).
Proof.
  intros Hp Hi Ho Hc. assert (o < length p) as Hol by (rewrite <- Ho; apply is_perm_nth_lt; assumption).
  pose proof (mid_perm p o i Hp Hol Hi) as Hq. pose proof (mid_last p o i Hp Hi Ho) as Hlast.
  pose proof (mid_length p o i) as Hml.
  unfold red. set (q := mid p o i) in *.
  destruct (is_pc_cases c q Hc Hq) as [->|[Hid ->]].
  - rewrite (nth_error_nth' q 0) by lia. cbn [of_option bind]. rewrite Hlast, Nat.eqb_refl.
    rewrite cperm_create_ok; [reflexivity|]. apply red_perm; [exact Hq|lia|rewrite Hml; exact Hlast].
  - assert (circuit_identity (length p - 1) = pc (removelast q)) as Hr.
    { assert (removelast q = seq 0 (length p - 1)) as Hs.
      { apply list_eq_nth with (d := 0); rewrite removelast_length, ?seq_length; [lia|].
        intros a Ha. rewrite nth_removelast by exact Ha. rewrite Hid. rewrite !seq_nth by lia. reflexivity. }
      unfold pc. rewrite Hs, seq_length, (proj2 (eqb_list_nat_eq _ _) eq_refl). reflexivity. }
    rewrite Hr. destruct (circuit_identity (length q)) eqn:Ecn; try reflexivity.
    destruct (circuit_identity_not_perm _ _ Ecn).
Qed.

Lemma factor_rhs_ok p i : is_perm p -> i < length p ->
  factor_rhs p i = Ok (nth i p 0, pc (red p (nth i p 0) i)).
Proof.
  intros Hp Hi. assert (nth i p 0 < length p) as Ho by (apply is_perm_nth_lt; assumption).
  unfold factor_rhs. rewrite (proj2 (Nat.ltb_lt i (length p)) Hi). cbn [negb].
  rewrite (nth_error_nth' p 0) by exact Hi. cbn [of_option bind].
  rewrite mc1_out, mc1_in by assumption. cbn [bind].
  destruct (mid_circ p (nth i p 0) i Hp Ho Hi) as (c & Hc1 & Hc2 & Hc3).
  destruct (series_perm (pc (m_out (nth i p 0) (length p))) (CPerm p)) as [a|e]; cbn [bind] in *; [|discriminate].
  rewrite Hc1. cbn [bind]. apply factor_ok; auto.
Qed.

Lemma factor_lhs_ok p o : is_perm p -> o < length p ->
  factor_lhs p o = Ok (nth o (inv_of p) 0, pc (red p o (nth o (inv_of p) 0))).
Proof.
  intros Hp Ho. destruct (inv_of_nth p o Hp Ho) as [Hi He]. set (i := nth o (inv_of p) 0) in *.
  unfold factor_lhs. rewrite (proj2 (Nat.ltb_lt o (length p)) Ho). cbn [negb].
  assert (index_of o p = Some i) as ->.
  { apply index_of_perm_nth; assumption. }
  cbn [of_option bind]. rewrite mc1_out, mc1_in by assumption. cbn [bind].
  destruct (mid_circ p o i Hp Ho Hi) as (c & Hc1 & Hc2 & Hc3).
  destruct (series_perm (pc (m_out o (length p))) (CPerm p)) as [a|e]; cbn [bind] in *; [|discriminate].
  rewrite Hc1. cbn [bind].
  pose proof (factor_ok p o i c Hp Hi He Hc2) as Hf.
  destruct c; try (injection Hf as Hf; rewrite Hf; reflexivity).
  destruct (nth_error permutation (length p - 1)) as [l|]; cbn [of_option bind] in *; [|discriminate].
  destruct (l =? length p - 1); [|discriminate].
  destruct (cperm_create (removelast permutation)) as [r|]; cbn [bind] in *; [|discriminate].
  injection Hf as ->. reflexivity.
Qed.

Lemma m_out_in_inverse k n : k < n -> comp (m_in k n) (m_out k n) = seq 0 n /\ comp (m_out k n) (m_in k n) = seq 0 n.
Proof.
  intros Hk. split; apply list_eq_nth with (d := 0);
    rewrite ?comp_length, ?m_in_length, ?m_out_length, ?seq_length; try reflexivity; intros a Ha.
  - rewrite comp_nth by (rewrite m_out_length; exact Ha). rewrite m_out_nth, seq_nth by exact Ha.
    rewrite m_in_nth by ports. ports.
  - rewrite comp_nth by (rewrite m_in_length; exact Ha). rewrite m_in_nth, seq_nth by exact Ha.
    rewrite m_out_nth by ports. ports.
Qed.

(** Equation (I) of _factor_rhs and of _factor_lhs *)
Lemma factor_rhs_eq p i : is_perm p -> i < length p ->
  comp p (m_in i (length p))
  = comp (m_in (nth i p 0) (length p)) (concatenate_permutations (red p (nth i p 0) i) [0]).
Proof.
  intros Hp Hi. set (n := length p). set (o := nth i p 0).
  assert (o < n) as Ho by (apply is_perm_nth_lt; assumption).
  unfold red. rewrite split_last; [|rewrite mid_length; lia|rewrite mid_length; apply mid_last; auto].
  unfold mid. fold n. rewrite (comp_assoc _ (comp (m_out o n) p) (m_in i n));
    rewrite ?comp_length, ?m_in_length, ?m_out_length; auto;
    [|apply comp_perm; [apply m_out_length|apply m_out_perm; exact Ho|exact Hp]|apply m_in_perm; exact Hi].
  rewrite (comp_assoc (m_in o n) (m_out o n) p); rewrite ?m_in_length, ?m_out_length; auto; [|apply m_out_perm; exact Ho].
  rewrite (proj1 (m_out_in_inverse o n Ho)). unfold n. rewrite comp_id_l by exact Hp. reflexivity.
Qed.

Lemma factor_lhs_eq p o : is_perm p -> o < length p ->
  let i := nth o (inv_of p) 0 in
  comp (m_out o (length p)) p
  = comp (concatenate_permutations (red p o i) [0]) (m_out i (length p)).
Proof.
  intros Hp Ho i. destruct (inv_of_nth p o Hp Ho) as [Hi He]. fold i in Hi, He. set (n := length p) in *.
  unfold red. rewrite split_last; [|rewrite mid_length; lia|rewrite mid_length; apply mid_last; auto].
  unfold mid. fold n.
  assert (is_perm (comp (m_out o n) p)) as Hcp
    by (apply comp_perm; [apply m_out_length|apply m_out_perm; exact Ho|exact Hp]).
  rewrite <- (comp_assoc _ (m_in i n) (m_out i n));
    rewrite ?comp_length, ?m_in_length, ?m_out_length; auto; [|apply m_in_perm; exact Hi|apply m_out_perm; exact Hi].
  rewrite (proj1 (m_out_in_inverse i n Hi)).
  pose proof (comp_id_r (comp (m_out o n) p)) as E. rewrite comp_length in E. fold n in E. symmetry; exact E.
Qed.

(** *** index_in_block *)
Lemma iib_loop_ok struct n ch : positive struct -> sum struct = n -> ch < n -> forall fuel i,
  0 < i -> i <= length struct -> length struct - i < fuel -> sum (firstn (i - 1) struct) <= ch ->
  exists j, iib_loop fuel struct n ch i = Ok j /\ 0 < j <= length struct /\
    sum (firstn (j - 1) struct) <= ch < sum (firstn j struct).
Proof.
  intros Hpos Hsum Hch. induction fuel as [|fuel IH]; intros i Hi Hil Hf Hlo; [lia|].
  cbn [iib_loop].
  assert (length struct <= sum struct) as Hls.
  { clear -Hpos. induction struct as [|x s IH]; [cbn; lia|]. rewrite sum_cons. cbn [length].
    pose proof (Hpos x (or_introl eq_refl)). specialize (IH (fun y Hy => Hpos y (or_intror Hy))). lia. }
  destruct (Nat.leb_spec (sum (firstn i struct)) ch) as [Hle|Hgt]; cbn [andb].
  - assert (i < length struct) as Hlt.
    { destruct (Nat.eq_dec i (length struct)) as [->|]; [rewrite firstn_all in Hle; lia|lia]. }
    destruct (Nat.ltb_spec i n) as [_|H]; [|lia].
    apply IH; [lia|lia|lia|]. replace (S i - 1) with i by lia. exact Hle.
  - exists i. split; [reflexivity|]. split; [lia|]. lia.
Qed.

Lemma index_in_block_ok struct n ch : positive struct -> sum struct = n -> ch < n ->
  exists idx b, index_in_block struct n ch = Ok (idx, b) /\ b < length struct /\ idx < nth b struct 0 /\
    block_start struct b + idx = ch.
Proof.
  intros Hpos Hsum Hch. unfold index_in_block.
  destruct (Nat.leb_spec n ch) as [H|_]; [lia|].
  destruct (Nat.eqb_spec (length struct) 1) as [H1|H1].
  - exists ch, 0. destruct struct as [|x [|y s]]; try discriminate. cbn in *. repeat split; lia.
  - assert (0 < length struct) as Hl by (destruct struct; [cbn in Hsum; lia|cbn; lia]).
    assert (length struct <= sum struct) as Hls.
    { clear -Hpos. induction struct as [|x s IH]; [cbn; lia|]. rewrite sum_cons. cbn [length].
      pose proof (Hpos x (or_introl eq_refl)). specialize (IH (fun y Hy => Hpos y (or_intror Hy))). lia. }
    destruct (iib_loop_ok struct n ch Hpos Hsum Hch (S n) 1) as (j & Hj & Hjb & Hjs); [lia|lia|lia|cbn; lia|].
    rewrite Hj. cbn [bind]. exists (ch - sum (firstn (j - 1) struct)), (j - 1).
    split; [reflexivity|]. split; [lia|]. unfold block_start.
    replace j with (S (j - 1)) in Hjs at 2 by lia.
    pose proof (block_start_S struct (j - 1) ltac:(lia)) as Hs. unfold block_start in Hs. lia.
Qed.

(** *** common block structure *)
Definition psum (l : list nat) (x : nat) : Prop := exists k, x = sum (firstn k l).

Lemma psum_0 l : psum l 0.
Proof. exists 0; reflexivity. Qed.

Lemma firstn_sum_mono l a b : a <= b -> sum (firstn a l) <= sum (firstn b l).
Proof.
  intros H. rewrite <- (firstn_skipn a (firstn b l)). rewrite firstn_firstn, Nat.min_l by exact H.
  rewrite sum_app. lia.
Qed.

Lemma sum_firstn_skipn l i k : sum (firstn (i + k) l) = sum (firstn i l) + sum (firstn k (skipn i l)).
Proof.
  rewrite <- sum_app. f_equal. revert l k; induction i as [|i IH]; intros l k; [reflexivity|].
  destruct l as [|x l]; [cbn; rewrite firstn_nil; reflexivity|]. cbn. f_equal. apply IH.
Qed.

Lemma gcb_loop_ok l r : positive l -> positive r -> sum l = sum r -> 0 < sum l -> forall fuel i j,
  0 < i -> 0 < j -> i <= length l -> j <= length r -> (length l - i) + (length r - j) < fuel ->
  (forall x, psum l x -> psum r x -> 0 < x -> sum (firstn i l) <= x /\ sum (firstn j r) <= x) ->
  exists s i' j', gcb_loop fuel l r i j = Ok (s, i', j') /\ s = sum (firstn i' l) /\ s = sum (firstn j' r) /\
    0 < i' <= length l /\ 0 < j' <= length r /\ 0 < s /\ (forall x, psum l x -> psum r x -> 0 < x -> s <= x).
Proof.
  intros Hl Hr Hs Hpos.
  assert (forall m k, positive m -> k < length m -> sum (firstn k m) < sum (firstn (S k) m)) as Hstep.
  { intros m k Hm Hk. pose proof (block_start_S m k Hk) as H. unfold block_start in H. rewrite H.
    pose proof (Hm (nth k m 0) (nth_In m 0 Hk)). lia. }
  induction fuel as [|fuel IH]; intros i j Hi Hj Hil Hjr Hf Hmin; [lia|].
  cbn [gcb_loop].
  destruct (Nat.ltb_spec (sum (firstn i l)) (sum (firstn j r))) as [Hlt|Hge].
  - assert (i < length l) as Hil'.
    { destruct (Nat.eq_dec i (length l)) as [->|]; [|lia]. rewrite firstn_all in Hlt.
      pose proof (firstn_sum_mono r j (length r) Hjr). rewrite firstn_all in H. lia. }
    apply IH; try lia. intros x Hxl Hxr Hx. destruct (Hmin x Hxl Hxr Hx) as [M1 M2]. split; [|exact M2].
    destruct Hxl as [m ->]. destruct (Nat.le_gt_cases (S i) m) as [Hm|Hm]; [apply firstn_sum_mono; exact Hm|].
    pose proof (firstn_sum_mono l m i ltac:(lia)). lia.
  - destruct (Nat.ltb_spec (sum (firstn j r)) (sum (firstn i l))) as [Hlt|Hge'].
    + assert (j < length r) as Hjr'.
      { destruct (Nat.eq_dec j (length r)) as [->|]; [|lia]. rewrite firstn_all in Hlt.
        pose proof (firstn_sum_mono l i (length l) Hil). rewrite firstn_all in H. lia. }
      apply IH; try lia. intros x Hxl Hxr Hx. destruct (Hmin x Hxl Hxr Hx) as [M1 M2]. split; [exact M1|].
      destruct Hxr as [m ->]. destruct (Nat.le_gt_cases (S j) m) as [Hm|Hm]; [apply firstn_sum_mono; exact Hm|].
      pose proof (firstn_sum_mono r m j ltac:(lia)). lia.
    + exists (sum (firstn i l)), i, j. split; [reflexivity|]. split; [reflexivity|]. split; [lia|].
      split; [lia|]. split; [lia|]. split.
      * pose proof (Hstep l (i - 1) Hl ltac:(lia)). replace (S (i - 1)) with i in H by lia. lia.
      * intros x Hxl Hxr Hx. apply (Hmin x Hxl Hxr Hx).
Qed.

Lemma positive_skipn l i : positive l -> positive (skipn i l).
Proof.
  intros H x Hx. apply H. rewrite <- (firstn_skipn i l). apply in_or_app; right; exact Hx.
Qed.

Lemma gcb_ok fuel : forall l r, positive l -> positive r -> sum l = sum r -> length l + length r < fuel ->
  exists c, gcb fuel l r = Ok c /\ positive c /\ sum c = sum l /\ forall x, psum c x <-> psum l x /\ psum r x.
Proof.
  induction fuel as [|fuel IH]; intros l r Hl Hr Hs Hf; [lia|].
  cbn [gcb]. rewrite Hs, Nat.eqb_refl. cbn [negb].
  assert (forall m, positive m -> m <> [] -> 0 < sum m) as Hsp.
  { intros [|x m] Hm Hne; [congruence|]. rewrite sum_cons. pose proof (Hm x (or_introl eq_refl)). lia. }
  destruct (list_eq_dec Nat.eq_dec l []) as [->|Hlne].
  - destruct r as [|y r]; [|specialize (Hsp (y :: r) Hr ltac:(discriminate)); rewrite <- Hs in Hsp; cbn in Hsp; lia].
    exists []. split; [reflexivity|]. split; [intros x []|]. split; [reflexivity|].
    intros x; split; [intros H; split; exact H|intros [H _]; exact H].
  - assert (r <> []) as Hrne.
    { intros ->. specialize (Hsp l Hl Hlne). cbn in Hs. lia. }
    assert (match l, r with [], [] => Ok [] | _, _ =>
       do (lsum, i, j) <- gcb_loop (S (length l + length r)) l r 1 1;
       do rest <- gcb fuel (skipn i l) (skipn j r); Ok (lsum :: rest) end =
       (do (lsum, i, j) <- gcb_loop (S (length l + length r)) l r 1 1;
       do rest <- gcb fuel (skipn i l) (skipn j r); Ok (lsum :: rest))) as ->.
    { destruct l, r; try congruence; reflexivity. }
    assert (0 < length l) by (destruct l; [congruence|cbn; lia]).
    assert (0 < length r) by (destruct r; [congruence|cbn; lia]).
    destruct (gcb_loop_ok l r Hl Hr Hs (Hsp l Hl Hlne) (S (length l + length r)) 1 1)
      as (s & i & j & Hg & Hsl & Hsr & Hi & Hj & Hspos & Hmin); try lia.
    { intros x [a ->] [b Hb] Hx. split.
      - destruct (Nat.le_gt_cases 1 a) as [Ha|Ha]; [apply firstn_sum_mono; exact Ha|].
        assert (a = 0) as -> by lia. cbn in Hx; lia.
      - rewrite Hb. destruct (Nat.le_gt_cases 1 b) as [Ha|Ha]; [apply firstn_sum_mono; exact Ha|].
        assert (b = 0) as -> by lia. cbn in Hb; lia. }
    rewrite Hg. cbn [bind].
    assert (sum (skipn i l) = sum (skipn j r)) as Hsk.
    { rewrite <- (firstn_skipn i l), sum_app in Hs. rewrite <- (firstn_skipn j r), sum_app in Hs. lia. }
    destruct (IH (skipn i l) (skipn j r) (positive_skipn l i Hl) (positive_skipn r j Hr) Hsk)
      as (c & Hc1 & Hc2 & Hc3 & Hc4).
    { rewrite !skipn_length. lia. }
    rewrite Hc1. cbn [bind]. exists (s :: c). split; [reflexivity|]. split; [intros x [<-|Hx]; [exact Hspos|apply Hc2, Hx]|].
    split; [rewrite sum_cons, Hc3, Hsl, <- sum_app, firstn_skipn; exact Hs|].
    intros x. split.
    + intros [k ->]. destruct k as [|k]; [split; apply psum_0|]. cbn [firstn]. rewrite sum_cons.
      destruct (proj1 (Hc4 (sum (firstn k c)))) as [[a Ha] [b Hb]]; [exists k; reflexivity|].
      split; [exists (i + a)|exists (j + b)]; rewrite sum_firstn_skipn; lia.
    + intros [Hx1 Hx2]. destruct (Nat.eq_dec x 0) as [->|Hx]; [apply psum_0|].
      pose proof (Hmin x Hx1 Hx2 ltac:(lia)) as Hsx. destruct Hx1 as [a Ha], Hx2 as [b Hb].
      assert (forall m q t, x = sum (firstn q m) -> s = sum (firstn t m) -> psum (skipn t m) (x - s)) as Hsub.
      { intros m q t Hq Ht. destruct (Nat.le_gt_cases t q) as [Hle|Hgt].
        - exists (q - t). pose proof (sum_firstn_skipn m t (q - t)) as E. replace (t + (q - t)) with q in E by lia. lia.
        - pose proof (firstn_sum_mono m q t ltac:(lia)). replace (x - s) with 0 by lia. apply psum_0. }
      destruct (proj2 (Hc4 (x - s))) as [k Hk]; [split; [eapply Hsub; eassumption|eapply Hsub; eassumption]|].
      exists (S k). cbn [firstn]. rewrite sum_cons. lia.
Qed.

Lemma refines_psum f c : positive f -> (refines f c <-> sum f = sum c /\ forall x, psum c x -> psum f x).
Proof.
  intros Hf. split.
  - intros (gs & <- & <-). clear Hf. split.
    + induction gs as [|g gs IH]; [reflexivity|]. cbn. rewrite sum_app. f_equal. exact IH.
    + intros x [k ->]. revert k. induction gs as [|g gs IH]; intros k; [rewrite firstn_nil; exists 0; reflexivity|].
      destruct k as [|k]; [apply psum_0|]. cbn [map firstn]. rewrite sum_cons.
      destruct (IH k) as [a Ha]. exists (length g + a). cbn [concat].
      rewrite firstn_app_2, sum_app. lia.
  - revert f Hf. induction c as [|x c IH]; intros f Hf [Hs Hx].
    + exists []. split; [|reflexivity]. destruct f as [|y f]; [reflexivity|].
      rewrite sum_cons in Hs. pose proof (Hf y (or_introl eq_refl)). cbn in Hs. lia.
    + destruct (Hx x) as [i Hi]; [exists 1; cbn; lia|].
      destruct (IH (skipn i f)) as (gs & G1 & G2).
      * apply positive_skipn; exact Hf.
      * split; [rewrite sum_cons in Hs; rewrite <- (firstn_skipn i f), sum_app in Hs; lia|].
        intros y [k Hk]. destruct (Hx (x + y)) as [m Hm]; [exists (S k); cbn [firstn]; rewrite sum_cons; lia|].
        destruct (Nat.le_gt_cases i m) as [Hle|Hgt].
        -- exists (m - i). pose proof (sum_firstn_skipn f i (m - i)) as E. replace (i + (m - i)) with m in E by lia. lia.
        -- pose proof (firstn_sum_mono f m i ltac:(lia)). replace y with 0 by lia. apply psum_0.
      * exists (firstn i f :: gs). cbn. rewrite G1, G2, firstn_skipn. split; [reflexivity|congruence].
Qed.

Lemma common_block_main l r : positive l -> positive r -> sum l = sum r ->
  exists c, get_common_block_structure l r = Ok c /\ positive c /\ refines l c /\ refines r c /\
    (forall d, refines l d -> refines r d -> refines c d).
Proof.
  intros Hl Hr Hs. destruct (gcb_ok (S (length l + length r)) l r Hl Hr Hs ltac:(lia)) as (c & H1 & H2 & H3 & H4).
  exists c. split; [exact H1|]. split; [exact H2|]. rewrite !refines_psum by assumption.
  split; [split; [congruence|intros x Hx; apply H4, Hx]|].
  split; [split; [congruence|intros x Hx; apply H4, Hx]|].
  intros d Hld Hrd. rewrite refines_psum in Hld, Hrd by assumption. apply refines_psum; [exact H2|].
  split; [destruct Hld; congruence|]. intros x Hx. apply H4. split; [apply Hld, Hx|apply Hrd, Hx].
Qed.

Lemma common_block_bad l r : sum l <> sum r -> get_common_block_structure l r = Err IncompatibleBlockStructures.
Proof.
  intros H. unfold get_common_block_structure. cbn [gcb].
  destruct (Nat.eqb_spec (sum l) (sum r)); [contradiction|reflexivity].
Qed.

End WithX.
