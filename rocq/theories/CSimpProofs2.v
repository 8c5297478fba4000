(** Feedback laws of a [cmodel] for arbitrary ports. *)
From Verif Require Import Prelude ListFacts PermModel PermSpec PermProofs1 PermProofs3 PermProofs4 CircModel CircSpec CircProofs1 CircProofs2 CSimpSpec CSimpProofs1.

Ltac oks := repeat first
  [ assumption | apply ok_ser | apply ok_inv | apply ok_idn | apply ok_id1 | apply ok_nil
  | apply ok_out; lia | apply ok_in; lia
  | (apply ok_cat'; [| |lia]) | (apply ok_cat3; [| | |lia]) ].

Section Fb.
  Context (M : cmodel).
  Local Notation ok := (mok M). Local Notation ser := (mser M). Local Notation cat := (mcat M).
  Local Notation inv := (minv M). Local Notation prm := (mprm M). Local Notation fb := (mfb M).
  Local Notation idn := (idn M). Local Notation cat3 := (cat3 M).
  Local Notation mports := (mports M). Local Notation loop := (loop M).
  Implicit Types (a b c d : dom M) (n m : nat).

  Lemma ok_ports n a o i : ok (S n) a -> o <= n -> i <= n -> ok (S n) (mports n a o i).
  Proof. intros Ha Ho Hi. unfold CSimpSpec.mports. oks. Qed.
  Lemma ok_loop n a o i b : ok (S n) a -> o <= n -> i <= n -> loop n a o i b -> ok n b.
  Proof. intros Ha Ho Hi H. eapply ok_fb; [|exact H]. now apply ok_ports. Qed.
  Lemma loop_fun n a o i b c : ok (S n) a -> o <= n -> i <= n -> loop n a o i b -> loop n a o i c -> b = c.
  Proof. intros Ha Ho Hi. apply fb_fun. now apply ok_ports. Qed.
  Lemma m_out_last' n : m_out n (S n) = seq 0 (S n).
  Proof.
    apply list_eq_nth with (d := 0); [now rewrite m_out_length, seq_length|]. rewrite m_out_length. intros k Hk.
    rewrite m_out_nth, seq_nth by exact Hk. unfold drop. destruct (Nat.eqb_spec k n), (Nat.ltb_spec k n); lia.
  Qed.
  Lemma m_in_last' n : m_in n (S n) = seq 0 (S n).
  Proof.
    apply list_eq_nth with (d := 0); [now rewrite m_in_length, seq_length|]. rewrite m_in_length. intros k Hk.
    rewrite m_in_nth, seq_nth by exact Hk. unfold keep. destruct (Nat.eqb_spec k (S n - 1)), (Nat.ltb_spec k n); lia.
  Qed.
  Lemma ports_last n a : ok (S n) a -> mports n a n n = a.
  Proof.
    intros Ha. unfold CSimpSpec.mports. rewrite m_out_last', m_in_last'. rewrite (idn_r M) by oks. now apply idn_l.
  Qed.

  (** generic pull-outs: a factor that commutes with the port move *)
  Lemma pull_l n n' o i x y r b : S n = n' -> o <= n -> i <= n -> ok (S n) x -> ok n y -> ok (S n) r ->
    ser (S n) (prm (m_out o (S n))) x = ser (S n) (cat n 1 y (prm [0])) (prm (m_out o (S n))) ->
    loop n (ser (S n) x r) o i b -> exists b', loop n r o i b' /\ b = ser n y b'.
  Proof.
    intros E Ho Hi Hx Hy Hr Hc H. unfold CSimpSpec.loop, CSimpSpec.mports in H.
    rewrite <- (ser_assoc M (S n) _ x) in H by oks. rewrite Hc in H.
    rewrite (ser_assoc M (S n) (cat n 1 y (prm [0]))) in H by oks.
    rewrite (ser_assoc M (S n) (cat n 1 y (prm [0]))) in H by oks.
    apply fb_ser_l in H; [exact H|exact Hy|]. apply ok_ports; assumption.
  Qed.
  Lemma pull_r n o i x y r b : o <= n -> i <= n -> ok (S n) x -> ok n y -> ok (S n) r ->
    ser (S n) x (prm (m_in i (S n))) = ser (S n) (prm (m_in i (S n))) (cat n 1 y (prm [0])) ->
    loop n (ser (S n) r x) o i b -> exists b', loop n r o i b' /\ b = ser n b' y.
  Proof.
    intros Ho Hi Hx Hy Hr Hc H. unfold CSimpSpec.loop, CSimpSpec.mports in H.
    rewrite <- (ser_assoc M (S n) _ r) in H by oks. rewrite (ser_assoc M (S n) _ x) in H by oks. rewrite Hc in H.
    rewrite <- (ser_assoc M (S n) _ _ (cat n 1 y (prm [0]))) in H by oks.
    apply fb_ser_r in H; [exact H|exact Hy|]. apply ok_ports; assumption.
  Qed.

  (** a channel permutation on the output side *)
  Lemma loop_perm_l n p r o i b : is_perm p -> length p = S n -> o <= n -> i <= n -> ok (S n) r ->
    loop n (ser (S n) (prm p) r) o i b ->
    let oi := nth o (inv_of p) 0 in
    oi <= n /\ is_perm (red p o oi) /\ length (red p o oi) = n /\
    exists b', loop n r oi i b' /\ b = ser n (prm (red p o oi)) b'.
  Proof.
    intros Hp Hl Ho Hi Hr H oi.
    destruct (inv_of_nth p o Hp ltac:(lia)) as [G1 G2]. fold oi in G1, G2.
    assert (is_perm (red p o oi)) as Hred.
    { unfold red. pose proof (mid_length p o oi) as Eml. apply red_perm.
      - apply mid_perm; [assumption|lia|lia].
      - rewrite Eml; lia.
      - rewrite Eml. apply mid_last; assumption. }
    assert (length (red p o oi) = n) as Hlr by (unfold red; rewrite removelast_length, mid_length; lia).
    split; [lia|]. split; [exact Hred|]. split; [exact Hlr|].
    pose proof (factor_lhs_eq p o Hp ltac:(lia)) as E. cbn zeta in E. fold oi in E. rewrite Hl in E.
    pose proof (ok_prm' M p (S n) Hp Hl) as Okp. pose proof (ok_prm' M _ _ Hred Hlr) as Okr.
    unfold CSimpSpec.loop, CSimpSpec.mports in H. rewrite <- (ser_assoc M (S n) _ (prm p)) in H by oks.
    rewrite (prm_ser' M (S n)) in H by (try assumption; try (apply m_out_perm; lia); apply m_out_length).
    rewrite E in H. rewrite <- (prm_ser' M (S n)) in H.
    2: apply conc_perm; [exact Hred|apply (is_perm_seq 1)].
    2: apply m_out_perm; lia.
    2: rewrite conc_length, Hlr; cbn; lia.
    2: apply m_out_length.
    rewrite <- (cat_prm' M n 1) in H; [|exact Hred|apply (is_perm_seq 1)|exact Hlr|reflexivity].
    rewrite (ser_assoc M (S n) (cat n 1 _ _)) in H by oks.
    rewrite (ser_assoc M (S n) (cat n 1 _ _)) in H by oks.
    apply fb_ser_l in H; [exact H|exact Okr|]. apply ok_ports; [assumption|lia|lia].
  Qed.
  Lemma loop_perm_r n p r o i b : is_perm p -> length p = S n -> o <= n -> i <= n -> ok (S n) r ->
    loop n (ser (S n) r (prm p)) o i b ->
    let im := nth i p 0 in
    im <= n /\ is_perm (red p im i) /\ length (red p im i) = n /\
    exists b', loop n r o im b' /\ b = ser n b' (prm (red p im i)).
  Proof.
    intros Hp Hl Ho Hi Hr H im.
    assert (im < length p) as G1 by (apply is_perm_nth_lt; [assumption|lia]).
    assert (is_perm (red p im i)) as Hred.
    { unfold red. pose proof (mid_length p im i) as Eml. apply red_perm.
      - apply mid_perm; [assumption|lia|lia].
      - rewrite Eml; lia.
      - rewrite Eml. apply mid_last; [assumption|lia|reflexivity]. }
    assert (length (red p im i) = n) as Hlr by (unfold red; rewrite removelast_length, mid_length; lia).
    split; [lia|]. split; [exact Hred|]. split; [exact Hlr|].
    pose proof (factor_rhs_eq p i Hp ltac:(lia)) as E. fold im in E. rewrite Hl in E.
    pose proof (ok_prm' M p (S n) Hp Hl) as Okp. pose proof (ok_prm' M _ _ Hred Hlr) as Okr.
    unfold CSimpSpec.loop, CSimpSpec.mports in H. rewrite <- (ser_assoc M (S n) _ r) in H by oks.
    rewrite (ser_assoc M (S n) _ (prm p)) in H by oks.
    rewrite (prm_ser' M (S n)) in H by (try assumption; try (apply m_in_perm; lia); apply m_in_length).
    rewrite E in H. rewrite <- (prm_ser' M (S n)) in H.
    2: apply m_in_perm; lia.
    2: apply conc_perm; [exact Hred|apply (is_perm_seq 1)].
    2: apply m_in_length.
    2: rewrite conc_length, Hlr; cbn; lia.
    rewrite <- (cat_prm' M n 1) in H; [|exact Hred|apply (is_perm_seq 1)|exact Hlr|reflexivity].
    rewrite <- (ser_assoc M (S n) _ _ (cat n 1 _ _)) in H by oks.
    apply fb_ser_r in H; [exact H|exact Okr|]. apply ok_ports; [assumption|lia|lia].
  Qed.

  (** [before + id + after] with the port inside the identity block *)
  Lemma id_split j nx : j < nx -> cat3 j 1 (nx - 1 - j) (idn j) (prm [0]) (idn (nx - 1 - j)) = idn nx.
  Proof.
    intros H. unfold CSimpProofs1.cat3. change (prm [0]) with (idn 1). rewrite !idn_cat. f_equal. lia.
  Qed.
  Lemma id_split2 j nx : j < nx -> cat j (nx - 1 - j) (idn j) (idn (nx - 1 - j)) = idn (nx - 1).
  Proof. intros H. rewrite !idn_cat. f_equal. lia. Qed.
  Lemma blk_regroup nb nx na B A j : j < nx -> ok nb B -> ok na A ->
    cat3 nb nx na B (idn nx) A
    = cat3 (nb + j) 1 (nx - 1 - j + na) (cat nb j B (idn j)) (prm [0]) (cat (nx - 1 - j) na (idn (nx - 1 - j)) A).
  Proof.
    intros Hj HB HA. rewrite <- (id_split j nx Hj). unfold CSimpProofs1.cat3.
    rewrite (cat_assoc M nb j) by (try exact HB; oks). f_equal.
    - lia.
    - replace nx with (j + (1 + (nx - 1 - j))) at 1 by lia. rewrite (cat_assoc M j) by oks.
      rewrite (cat_assoc M 1) by oks. f_equal; lia.
  Qed.
  Lemma blk_regroup2 nb nx na B A j : j < nx -> ok nb B -> ok na A ->
    cat (nb + j) (nx - 1 - j + na) (cat nb j B (idn j)) (cat (nx - 1 - j) na (idn (nx - 1 - j)) A)
    = cat3 nb (nx - 1) na B (idn (nx - 1)) A.
  Proof.
    intros Hj HB HA. unfold CSimpProofs1.cat3. rewrite (cat_assoc M nb j) by oks.
    f_equal; [lia|]. rewrite <- (cat_assoc M j) by oks. rewrite id_split2 by exact Hj. f_equal. lia.
  Qed.
  Lemma blk_out nb nx na B A o N : nb <= o -> o < nb + nx -> ok nb B -> ok na A -> N = nb + (nx + na) ->
    ser N (prm (m_out o N)) (cat3 nb nx na B (idn nx) A)
    = ser N (cat (N - 1) 1 (cat3 nb (nx - 1) na B (idn (nx - 1)) A) (prm [0])) (prm (m_out o N)).
  Proof.
    intros H1 H2 HB HA EN. assert (exists j, o = nb + j) as [j ->] by (exists (o - nb); lia).
    rewrite (blk_regroup nb nx na B A j) by (try assumption; lia).
    pose proof (m_out_nat M (nb + j) (nx - 1 - j + na) (cat nb j B (idn j)) (cat (nx - 1 - j) na (idn (nx - 1 - j)) A)) as H.
    cbn zeta in H. rewrite blk_regroup2 in H by (try assumption; lia).
    replace (nb + j + S (nx - 1 - j + na)) with N in H by lia.
    replace (nb + j + (nx - 1 - j + na)) with (N - 1) in H by lia.
    apply H; oks.
  Qed.
  Lemma blk_in nb nx na B A i N : nb <= i -> i < nb + nx -> ok nb B -> ok na A -> N = nb + (nx + na) ->
    ser N (cat3 nb nx na B (idn nx) A) (prm (m_in i N))
    = ser N (prm (m_in i N)) (cat (N - 1) 1 (cat3 nb (nx - 1) na B (idn (nx - 1)) A) (prm [0])).
  Proof.
    intros H1 H2 HB HA EN. apply conj_swap; [lia| | |now apply blk_out].
    - oks.
    - oks.
  Qed.
  Lemma cat3_ser n1 n2 n3 a b c a' b' c' N : ok n1 a -> ok n1 a' -> ok n2 b -> ok n2 b' -> ok n3 c -> ok n3 c' -> N = n1 + (n2 + n3) ->
    ser N (cat3 n1 n2 n3 a b c) (cat3 n1 n2 n3 a' b' c') = cat3 n1 n2 n3 (ser n1 a a') (ser n2 b b') (ser n3 c c').
  Proof. intros. subst N. unfold CSimpProofs1.cat3. now rewrite !interchange by (try assumption; oks). Qed.
  Lemma cat3_split_l nb nx na B X A N : ok nb B -> ok nx X -> ok na A -> N = nb + (nx + na) ->
    cat3 nb nx na B X A = ser N (cat3 nb nx na B (idn nx) A) (cat3 nb nx na (idn nb) X (idn na)).
  Proof. intros HB HX HA EN. rewrite cat3_ser by (try assumption; oks). now rewrite (idn_r M nb), idn_l, (idn_r M na) by assumption. Qed.
  Lemma cat3_split_r nb nx na B X A N : ok nb B -> ok nx X -> ok na A -> N = nb + (nx + na) ->
    cat3 nb nx na B X A = ser N (cat3 nb nx na (idn nb) X (idn na)) (cat3 nb nx na B (idn nx) A).
  Proof. intros HB HX HA EN. rewrite cat3_ser by (try assumption; oks). now rewrite (idn_l M nb), idn_r, (idn_l M na) by assumption. Qed.

  Lemma loop_blk_l n nb nx na B X A r o i b : S n = nb + (nx + na) -> nb <= o -> o < nb + nx -> i <= n ->
    ok nb B -> ok nx X -> ok na A -> ok (S n) r ->
    loop n (ser (S n) (cat3 nb nx na B X A) r) o i b ->
    exists b', loop n (ser (S n) (cat3 nb nx na (idn nb) X (idn na)) r) o i b' /\
               b = ser n (cat3 nb (nx - 1) na B (idn (nx - 1)) A) b'.
  Proof.
    intros EN H1 H2 Hi HB HX HA Hr H. rewrite (cat3_split_l nb nx na B X A (S n)) in H by assumption.
    rewrite ser_assoc in H by (try assumption; oks).
    apply (pull_l n (S n) o i _ (cat3 nb (nx - 1) na B (idn (nx - 1)) A)) in H; try lia; try exact H; oks.
    rewrite (blk_out nb nx na B A o (S n)) by (try assumption; lia). do 2 f_equal. lia.
  Qed.
  Lemma loop_blk_r n nb nx na B X A r o i b : S n = nb + (nx + na) -> nb <= i -> i < nb + nx -> o <= n ->
    ok nb B -> ok nx X -> ok na A -> ok (S n) r ->
    loop n (ser (S n) r (cat3 nb nx na B X A)) o i b ->
    exists b', loop n (ser (S n) r (cat3 nb nx na (idn nb) X (idn na))) o i b' /\
               b = ser n b' (cat3 nb (nx - 1) na B (idn (nx - 1)) A).
  Proof.
    intros EN H1 H2 Ho HB HX HA Hr H. rewrite (cat3_split_r nb nx na B X A (S n)) in H by assumption.
    rewrite <- ser_assoc in H by (try assumption; oks).
    apply (pull_r n o i _ (cat3 nb (nx - 1) na B (idn (nx - 1)) A)) in H; try lia; try exact H; oks.
    rewrite (blk_in nb nx na B A i (S n)) by (try assumption; lia). do 2 f_equal. lia.
  Qed.
  Lemma cat3_id nb nx na N : N = nb + (nx + na) -> cat3 nb nx na (idn nb) (idn nx) (idn na) = idn N.
  Proof. intros ->. unfold CSimpProofs1.cat3. now rewrite !idn_cat. Qed.

  (** feedback of the last port of a concatenation *)
  Lemma loop_last n1 n2 a x c : ok n1 a -> ok (S n2) x -> loop (n1 + n2) (cat n1 (S n2) a x) (n1 + n2) (n1 + n2) c ->
    exists x', loop n2 x n2 n2 x' /\ c = cat n1 n2 a x'.
  Proof.
    intros Ha Hx H. unfold CSimpSpec.loop in *. rewrite ports_last in H by oks.
    apply fb_cat in H; [|assumption|assumption]. destruct H as (x' & H & E). exists x'. rewrite ports_last by exact Hx. auto.
  Qed.

  (** shifting ports by leading channels *)
  Lemma m_out_shift k o n : o <= n -> m_out (k + o) (k + S n) = concatenate_permutations (seq 0 k) (m_out o (S n)).
  Proof.
    intros Ho. apply list_eq_nth with (d := 0); [now rewrite conc_length, !m_out_length, seq_length|].
    rewrite m_out_length. intros x Hx. rewrite m_out_nth by exact Hx. destruct (Nat.lt_ge_cases x k) as [G|G].
    - rewrite conc_nth_l, seq_nth by (rewrite ?seq_length; lia). unfold drop.
      destruct (Nat.eqb_spec x (k + o)); [lia|]. destruct (Nat.ltb_spec x (k + o)); lia.
    - rewrite conc_nth_r by (rewrite seq_length, ?m_out_length; lia). rewrite seq_length, m_out_nth by lia. unfold drop.
      destruct (Nat.eqb_spec x (k + o)), (Nat.eqb_spec (x - k) o); try lia.
      destruct (Nat.ltb_spec x (k + o)), (Nat.ltb_spec (x - k) o); lia.
  Qed.
  Lemma m_in_shift k o n : o <= n -> m_in (k + o) (k + S n) = concatenate_permutations (seq 0 k) (m_in o (S n)).
  Proof.
    intros Ho. apply list_eq_nth with (d := 0); [now rewrite conc_length, !m_in_length, seq_length|].
    rewrite m_in_length. intros x Hx. rewrite m_in_nth by exact Hx. destruct (Nat.lt_ge_cases x k) as [G|G].
    - rewrite conc_nth_l, seq_nth by (rewrite ?seq_length; lia). unfold keep.
      destruct (Nat.eqb_spec x (k + S n - 1)); [lia|]. destruct (Nat.ltb_spec x (k + o)); lia.
    - rewrite conc_nth_r by (rewrite seq_length, ?m_in_length; lia). rewrite seq_length, m_in_nth by lia. unfold keep.
      destruct (Nat.eqb_spec x (k + S n - 1)), (Nat.eqb_spec (x - k) (S n - 1)); try lia.
      destruct (Nat.ltb_spec x (k + o)), (Nat.ltb_spec (x - k) o); lia.
  Qed.
  Lemma loop_after k n a x o i c : ok k a -> ok (S n) x -> o <= n -> i <= n ->
    loop (k + n) (cat k (S n) a x) (k + o) (k + i) c -> exists x', loop n x o i x' /\ c = cat k n a x'.
  Proof.
    intros Ha Hx Ho Hi H. unfold CSimpSpec.loop, CSimpSpec.mports in H.
    replace (S (k + n)) with (k + S n) in H by lia. rewrite m_out_shift, m_in_shift in H by assumption.
    rewrite <- !(cat_prm' M k (S n)) in H
      by (try apply is_perm_seq; try (apply m_out_perm; lia); try (apply m_in_perm; lia); rewrite ?seq_length, ?m_out_length, ?m_in_length; lia).
    rewrite !interchange in H by oks. fold (idn k) in H. rewrite idn_l, idn_r in H by assumption.
    apply fb_cat in H; [exact H|exact Ha|]. oks.
  Qed.

  (** trailing channels: rotate them to the front *)
  Definition swp (n m : nat) : list nat := fbp [1;0] [n;m].
  Lemma swp_perm n m : is_perm (swp n m).
  Proof. apply fbp_is_perm; [apply checkp_spec; reflexivity|reflexivity]. Qed.
  Lemma swp_length n m : length (swp n m) = n + m.
  Proof. unfold swp. rewrite fbp_length; [cbn; lia|apply checkp_spec; reflexivity|reflexivity]. Qed.
  Lemma swp_nth n m x : x < n + m -> nth x (swp n m) 0 = if x <? n then m + x else x - n.
  Proof.
    intros Hx. unfold swp, fbp. cbn [length seq map concat nth]. rewrite app_nil_r.
    assert (moved [1;0] [n;m] = [m;n]) as -> by reflexivity. unfold block_start. cbn [firstn sum fold_right].
    destruct (Nat.ltb_spec x n).
    - rewrite app_nth1 by (rewrite seq_length; lia). rewrite seq_nth; lia.
    - rewrite app_nth2 by (rewrite seq_length; lia). rewrite seq_length, seq_nth; lia.
  Qed.
  Lemma swp_nat n m a c : ok n a -> ok m c ->
    ser (n + m) (prm (swp n m)) (cat n m a c) = ser (n + m) (cat m n c a) (prm (swp n m)).
  Proof.
    intros Ha Hc. pose proof (nat_block M [(n, a); (m, c)] [1;0]) as H. cbn [map fst snd length] in H.
    specialize (H ltac:(repeat constructor; assumption) ltac:(apply checkp_spec; reflexivity) eq_refl).
    assert (move_blocks (0, prm []) [1;0] [(n, a); (m, c)] = [(m, c); (n, a)]) as E by reflexivity.
    rewrite E in H. cbn [catl_of map fst snd sum fold_right] in H. rewrite !Nat.add_0_r, !cat_0_r in H by assumption. exact H.
  Qed.
  Lemma ok_swp n m N : N = n + m -> ok N (prm (swp n m)).
  Proof. intros ->. apply ok_prm'; [apply swp_perm|apply swp_length]. Qed.
  Lemma swp_swp n m N : N = n + m -> ser N (prm (swp m n)) (prm (swp n m)) = idn N.
  Proof.
    intros ->. rewrite (prm_ser' M (n + m)) by (try apply swp_perm; rewrite swp_length; lia).
    unfold CSimpProofs1.idn. f_equal. apply list_eq_nth with (d := 0); [now rewrite comp_length, swp_length, seq_length|].
    rewrite comp_length, swp_length. intros x Hx. rewrite comp_nth by (rewrite swp_length; exact Hx).
    rewrite seq_nth by exact Hx. rewrite (swp_nth n m) by exact Hx. destruct (Nat.ltb_spec x n).
    - rewrite swp_nth by lia. destruct (Nat.ltb_spec (m + x) m); lia.
    - rewrite swp_nth by lia. destruct (Nat.ltb_spec (x - n) m); lia.
  Qed.
  (** [m_out] of an inner port, with the trailing channels rotated away *)
  Lemma m_out_rot n m o : o <= n -> m_out o (S n + m) =
    comp (comp (concatenate_permutations (swp m n) [0]) (concatenate_permutations (seq 0 m) (m_out o (S n)))) (swp (S n) m).
  Proof.
    intros Ho. apply list_eq_nth with (d := 0); [rewrite comp_length, swp_length, m_out_length; reflexivity|].
    rewrite m_out_length. intros x Hx. rewrite m_out_nth by exact Hx.
    rewrite comp_nth by (rewrite swp_length; exact Hx).
    rewrite (swp_nth (S n) m) by exact Hx. unfold drop.
    destruct (Nat.ltb_spec x (S n)) as [G|G].
    - rewrite comp_nth by (rewrite conc_length, seq_length, m_out_length; lia).
      rewrite (conc_nth_r (seq 0 m)) by (rewrite seq_length, ?m_out_length; lia). rewrite seq_length.
      replace (m + x - m) with x by lia. rewrite m_out_nth by lia. unfold drop.
      destruct (Nat.eqb_spec x o) as [->|Hne].
      + rewrite conc_nth_r by (rewrite swp_length; cbn [length]; lia). rewrite swp_length.
        replace (m + (S n - 1) - (m + n)) with 0 by lia. cbn [nth]. lia.
      + assert ((if x <? o then x else x - 1) < n) as Hy by (destruct (Nat.ltb_spec x o); lia).
        rewrite conc_nth_l by (rewrite swp_length; lia). rewrite swp_nth by lia.
        destruct (Nat.ltb_spec (m + (if x <? o then x else x - 1)) m); lia.
    - rewrite comp_nth by (rewrite conc_length, seq_length, m_out_length; lia).
      rewrite (conc_nth_l (seq 0 m)) by (rewrite seq_length; lia). rewrite seq_nth by lia. cbn [Nat.add].
      rewrite conc_nth_l by (rewrite swp_length; lia). rewrite swp_nth by lia.
      destruct (Nat.ltb_spec (x - S n) m); [|lia]. destruct (Nat.eqb_spec x o); [lia|]. destruct (Nat.ltb_spec x o); lia.
  Qed.
  Lemma m_in_rot n m o : o <= n -> m_in o (S n + m) =
    comp (swp m (S n)) (comp (concatenate_permutations (seq 0 m) (m_in o (S n))) (concatenate_permutations (swp n m) [0])).
  Proof.
    intros Ho. apply list_eq_nth with (d := 0); [rewrite !comp_length, conc_length, swp_length, m_in_length; cbn [length]; lia|].
    rewrite m_in_length. intros x Hx. rewrite m_in_nth by exact Hx.
    rewrite comp_nth by (rewrite comp_length, conc_length, swp_length; cbn [length]; lia).
    rewrite comp_nth by (rewrite conc_length, swp_length; cbn [length]; lia). unfold keep.
    destruct (Nat.lt_ge_cases x (n + m)) as [G|G].
    - rewrite (conc_nth_l (swp n m)) by (rewrite swp_length; lia). rewrite (swp_nth n m) by lia.
      destruct (Nat.ltb_spec x n) as [G1|G1].
      + rewrite conc_nth_r by (rewrite seq_length, ?m_in_length; lia). rewrite seq_length.
        replace (m + x - m) with x by lia. rewrite m_in_nth by lia. unfold keep.
        destruct (Nat.eqb_spec x (S n - 1)); [lia|]. destruct (Nat.eqb_spec x (S n + m - 1)); [lia|].
        destruct (Nat.ltb_spec x o); (rewrite swp_nth by lia); [destruct (Nat.ltb_spec (m + x) m)|destruct (Nat.ltb_spec (m + S x) m)]; lia.
      + rewrite conc_nth_l by (rewrite seq_length; lia). rewrite seq_nth by lia. rewrite Nat.add_0_l, swp_nth by lia.
        destruct (Nat.ltb_spec (x - n) m); [|lia]. destruct (Nat.eqb_spec x (S n + m - 1)); [lia|]. destruct (Nat.ltb_spec x o); lia.
    - rewrite (conc_nth_r (swp n m)) by (rewrite swp_length; cbn [length]; lia). rewrite swp_length.
      replace (x - (n + m)) with 0 by lia. cbn [nth]. rewrite conc_nth_r by (rewrite seq_length, ?m_in_length; lia).
      rewrite seq_length. rewrite m_in_nth by lia. destruct (Nat.eqb_spec (n + m + 0 - m) (S n - 1)); [|lia].
      rewrite swp_nth by lia. destruct (Nat.ltb_spec (m + o) m); [lia|]. destruct (Nat.eqb_spec x (S n + m - 1)); lia.
  Qed.
  Lemma loop_before n m x z o i c : ok (S n) x -> ok m z -> o <= n -> i <= n ->
    loop (n + m) (cat (S n) m x z) o i c -> exists x', loop n x o i x' /\ c = cat n m x' z.
  Proof.
    intros Hx Hz Ho Hi H. set (N := S n + m) in *.
    pose proof (ok_swp (S n) m N eq_refl) as OT. pose proof (ok_swp m (S n) N ltac:(unfold N; lia)) as OT'.
    pose proof (ok_swp m n (n + m) ltac:(lia)) as Ot. pose proof (ok_swp n m (n + m) eq_refl) as Ot'.
    assert (forall k, k <= n -> ok N (cat m (S n) (idn m) (prm (m_out k (S n))))) as Oo by (intros k Hk; unfold N; oks).
    assert (forall k, k <= n -> ok N (cat m (S n) (idn m) (prm (m_in k (S n))))) as Oi by (intros k Hk; unfold N; oks).
    assert (ok N (cat (n + m) 1 (prm (swp m n)) (prm [0]))) as Oc by (unfold N; oks).
    assert (ok N (cat (n + m) 1 (prm (swp n m)) (prm [0]))) as Oc' by (unfold N; oks).
    assert (prm (m_out o N) = ser N (ser N (cat (n + m) 1 (prm (swp m n)) (prm [0])) (cat m (S n) (idn m) (prm (m_out o (S n))))) (prm (swp (S n) m))) as E1.
    { unfold N. rewrite m_out_rot by exact Ho. unfold CSimpProofs1.idn.
      rewrite (cat_prm' M (n + m) 1), (cat_prm' M m (S n))
        by (try apply swp_perm; try apply is_perm_seq; try apply (is_perm_seq 1); try (apply m_out_perm; lia);
            rewrite ?swp_length, ?seq_length, ?m_out_length; cbn [length]; lia).
      assert (is_perm (concatenate_permutations (swp m n) [0])) as P1 by (apply conc_perm; [apply swp_perm|apply (is_perm_seq 1)]).
      assert (is_perm (concatenate_permutations (seq 0 m) (m_out o (S n)))) as P2
        by (apply conc_perm; [apply is_perm_seq|apply m_out_perm; lia]).
      assert (length (concatenate_permutations (swp m n) [0]) = S n + m) as L1 by (rewrite conc_length, swp_length; cbn [length]; lia).
      assert (length (concatenate_permutations (seq 0 m) (m_out o (S n))) = S n + m) as L2
        by (rewrite conc_length, seq_length, m_out_length; lia).
      rewrite !(prm_ser' M (S n + m)); try assumption; try reflexivity; try apply swp_perm; try apply swp_length.
      - apply comp_perm; [lia|assumption|assumption].
      - rewrite comp_length; exact L2. }
    assert (prm (m_in i N) = ser N (prm (swp m (S n))) (ser N (cat m (S n) (idn m) (prm (m_in i (S n)))) (cat (n + m) 1 (prm (swp n m)) (prm [0])))) as E2.
    { unfold N. rewrite m_in_rot by exact Hi. unfold CSimpProofs1.idn.
      rewrite (cat_prm' M (n + m) 1), (cat_prm' M m (S n))
        by (try apply swp_perm; try apply is_perm_seq; try apply (is_perm_seq 1); try (apply m_in_perm; lia);
            rewrite ?swp_length, ?seq_length, ?m_in_length; cbn [length]; lia).
      assert (is_perm (concatenate_permutations (swp n m) [0])) as P1 by (apply conc_perm; [apply swp_perm|apply (is_perm_seq 1)]).
      assert (is_perm (concatenate_permutations (seq 0 m) (m_in i (S n)))) as P2
        by (apply conc_perm; [apply is_perm_seq|apply m_in_perm; lia]).
      assert (length (concatenate_permutations (swp n m) [0]) = S n + m) as L1 by (rewrite conc_length, swp_length; cbn [length]; lia).
      assert (length (concatenate_permutations (seq 0 m) (m_in i (S n))) = S n + m) as L2
        by (rewrite conc_length, seq_length, m_in_length; lia).
      rewrite !(prm_ser' M (S n + m)); try assumption; try reflexivity; try apply swp_perm; try (rewrite swp_length; lia).
      - apply comp_perm; [lia|assumption|assumption].
      - rewrite comp_length; exact L1. }
    unfold CSimpSpec.loop, CSimpSpec.mports in H. change (S (n + m)) with N in H. rewrite E1, E2 in H.
    pose proof (ok_ports n x o i Hx Ho Hi) as Op.
    assert (ok N (cat (S n) m x z)) as Oxz by (unfold N; oks).
    assert (ok N (cat m (S n) z x)) as Ozx by (unfold N; oks).
    set (C1 := cat (n + m) 1 (prm (swp m n)) (prm [0])) in *.
    set (C2 := cat (n + m) 1 (prm (swp n m)) (prm [0])) in *.
    set (Q1 := cat m (S n) (idn m) (prm (m_out o (S n)))) in *.
    set (Q2 := cat m (S n) (idn m) (prm (m_in i (S n)))) in *.
    assert (ser N (ser N (ser N (ser N C1 Q1) (prm (swp (S n) m))) (cat (S n) m x z)) (ser N (prm (swp m (S n))) (ser N Q2 C2))
            = ser N C1 (ser N (cat m (S n) z (mports n x o i)) C2)) as E.
    { pose proof (Oo o Ho) as Oq1. pose proof (Oi i Hi) as Oq2. fold Q1 in Oq1. fold Q2 in Oq2.
      rewrite (ser_assoc M N (ser N C1 Q1) (prm (swp (S n) m))) by oks.
      assert (ser N (prm (swp (S n) m)) (cat (S n) m x z) = ser N (cat m (S n) z x) (prm (swp (S n) m))) as ->
        by (unfold N; now apply swp_nat).
      rewrite (ser_assoc M N (ser N C1 Q1)) by oks. rewrite (ser_assoc M N (cat m (S n) z x)) by oks.
      rewrite <- (ser_assoc M N (prm (swp (S n) m))) by oks. rewrite (swp_swp m (S n)) by (unfold N; lia).
      rewrite idn_l by oks. rewrite (ser_assoc M N C1) by oks. f_equal.
      rewrite <- (ser_assoc M N (cat m (S n) z x)) by oks. rewrite <- (ser_assoc M N Q1) by oks. f_equal.
      unfold Q1, Q2, CSimpSpec.mports. rewrite <- (ser_assoc M N _ (cat m (S n) z x)) by (unfold N; oks).
      replace N with (m + S n) by (unfold N; lia). rewrite !interchange by oks.
      now rewrite idn_l, idn_r by assumption. }
    rewrite E in H. clear E E1 E2.
    assert (ok N (cat m (S n) z (mports n x o i))) as Ozp by (unfold N; oks).
    unfold C1 in H. apply (fb_ser_l M (n + m)) in H; [|exact Ot|change (S (n + m)) with N; oks].
    destruct H as (b1 & H & Ec). unfold C2 in H. apply (fb_ser_r M (n + m)) in H; [|exact Ot'|exact Ozp].
    destruct H as (b2 & H & Eb1).
    replace (n + m) with (m + n) in H at 1 by lia. apply fb_cat in H; [|assumption|assumption].
    destruct H as (x' & H & Eb2). exists x'. split; [exact H|]. subst.
    assert (ok n x') as Ox' by (eapply ok_loop; [exact Hx|exact Ho|exact Hi|exact H]).
    assert (ok (n + m) (cat m n z x')) as Ozx' by oks.
    rewrite <- (ser_assoc M (n + m)) by oks.
    assert (ser (n + m) (prm (swp m n)) (cat m n z x') = ser (n + m) (cat n m x' z) (prm (swp m n))) as ->.
    { replace (n + m) with (m + n) by lia. now apply swp_nat. }
    rewrite (ser_assoc M (n + m)) by oks. rewrite swp_swp by reflexivity. apply idn_r. oks.
  Qed.

  (** feedback within one block of a concatenation *)
  Lemma loop_same nb nx na B X A o i c : ok nb B -> ok (S nx) X -> ok na A -> o <= nx -> i <= nx ->
    loop (nb + (nx + na)) (cat3 nb (S nx) na B X A) (nb + o) (nb + i) c ->
    exists x', loop nx X o i x' /\ c = cat3 nb nx na B x' A.
  Proof.
    intros HB HX HA Ho Hi H. unfold CSimpProofs1.cat3 in *. cbn [Nat.add] in H.
    apply loop_after in H; try assumption; try lia; [|apply ok_cat'; [assumption|assumption|lia]].
    destruct H as (y & H & E). apply loop_before in H; try assumption. destruct H as (x' & H & E').
    exists x'. split; [exact H|]. now subst.
  Qed.

  (** *** permutations *)
  Lemma fb_perm_mid p o i : is_perm p -> o < length p -> i < length p ->
    fb_perm (mid p o i) (length p - 1) (length p - 1) = fb_perm p o i.
  Proof.
    intros Hp Ho Hi. destruct (length p) as [|n] eqn:El; [lia|]. replace (S n - 1) with n by lia.
    assert (length (mid p o i) = S n) as Eml by (rewrite mid_length; exact El).
    unfold fb_perm. rewrite Eml, El. apply map_ext_in. intros k Hk. apply in_seq in Hk. unfold fb_route. cbn zeta.
    rewrite !mid_nth by (try assumption; try lia; unfold keep; destruct (k <? n) eqn:?; try lia;
                         apply Nat.ltb_ge in Heqb; lia).
    rewrite El. replace (S n - 1) with n by lia. rewrite Nat.eqb_refl.
    assert (keep n k = k) as -> by (unfold keep; destruct (Nat.ltb_spec k n); lia).
    destruct (Nat.eqb_spec k n); [lia|].
    pose proof (is_perm_nth_lt p (keep i k) Hp) as G1. pose proof (is_perm_nth_lt p i Hp ltac:(lia)) as G2.
    assert (keep i k < length p) as G3 by (unfold keep; destruct (Nat.ltb_spec k i); lia). specialize (G1 G3).
    assert (nth (keep i k) p 0 = nth i p 0 -> False) as G4.
    { intros E. apply (is_perm_inj p) in E; try assumption; [|lia]. unfold keep in E. destruct (Nat.ltb_spec k i); lia. }
    unfold drop. rewrite El in *.
    destruct (Nat.eqb_spec (nth (keep i k) p 0) o), (Nat.eqb_spec (nth i p 0) o);
      repeat (match goal with
        | |- context[?x =? ?y] => destruct (Nat.eqb_spec x y)
        | |- context[?x <? ?y] => destruct (Nat.ltb_spec x y)
        end); try lia.
  Qed.
  Lemma loop_prm n p o i b : is_perm p -> length p = S n -> o <= n -> i <= n -> loop n (prm p) o i b -> b = prm (fb_perm p o i).
  Proof.
    intros Hp Hl Ho Hi H. unfold CSimpSpec.loop, CSimpSpec.mports in H.
    rewrite !(prm_ser' M (S n)) in H;
      try assumption; try (apply m_out_perm; lia); try (apply m_in_perm; lia); try apply m_out_length; try apply m_in_length.
    2: apply comp_perm; [rewrite m_out_length; lia|apply m_out_perm; lia|exact Hp].
    2: rewrite comp_length; exact Hl.
    rewrite <- Hl in H. fold (mid p o i) in H. 
    apply fb_prm in H; [|apply mid_perm; try assumption; lia|rewrite mid_length; exact Hl].
    rewrite H. f_equal. pose proof (fb_perm_mid p o i Hp ltac:(lia) ltac:(lia)) as E. rewrite Hl in E.
    replace (S n - 1) with n in E by lia. exact E.
  Qed.

  (** *** no loop at all: an effective series product *)
  Lemma fb_identity_lt N o i : i < o -> o < S N -> routes_as [(Z.of_nat (o - 1), Z.of_nat i)] N (fb_perm (seq 0 (S N)) o i).
  Proof.
    intros H1 H2.
    assert (forall k, k < N -> nth k (fb_perm (seq 0 (S N)) o i) 0 = if k =? o - 1 then i else if k <? i then k else if k <? o then S k else k) as Hn.
    { intros k Hk. unfold fb_perm. rewrite seq_length. replace (S N - 1) with N by lia.
      rewrite (nth_map_lt _ _ _ 0 0) by (rewrite seq_length; exact Hk). rewrite seq_nth by exact Hk. cbn [Nat.add].
      unfold fb_route. cbn zeta. assert (keep i k < S N) by (unfold keep; destruct (k <? i); lia).
      rewrite !seq_nth by lia. cbn [Nat.add]. unfold keep, drop.
      repeat (match goal with
        | |- context[?x =? ?y] => destruct (Nat.eqb_spec x y)
        | |- context[?x <? ?y] => destruct (Nat.ltb_spec x y)
        end); lia. }
    assert (length (fb_perm (seq 0 (S N)) o i) = N) as Hl by (unfold fb_perm; rewrite map_length, !seq_length; lia).
    split; [apply is_perm_bij, fb_perm_perm; [apply is_perm_seq|rewrite seq_length; lia|rewrite seq_length; lia]|].
    split; [exact Hl|]. split.
    - intros k v [E|[]] Hk. injection E as E1 E2. apply Nat2Z.inj in E1. subst. rewrite Hn by exact Hk. now rewrite Nat.eqb_refl.
    - intros a b Hab Hb Na Nb. rewrite !Hn by lia. cbn in Na, Nb.
      assert (a <> o - 1) by (intros ->; apply Na; left; reflexivity). assert (b <> o - 1) by (intros ->; apply Nb; left; reflexivity).
      repeat (match goal with
        | |- context[?x =? ?y] => destruct (Nat.eqb_spec x y)
        | |- context[?x <? ?y] => destruct (Nat.ltb_spec x y)
        end); lia.
  Qed.
  Lemma fb_identity_gt N o i : o < i -> i < S N -> routes_as [(Z.of_nat o, Z.of_nat (i - 1))] N (fb_perm (seq 0 (S N)) o i).
  Proof.
    intros H1 H2.
    assert (forall k, k < N -> nth k (fb_perm (seq 0 (S N)) o i) 0 = if k =? o then i - 1 else if k <? o then k else if k <? i then k - 1 else k) as Hn.
    { intros k Hk. unfold fb_perm. rewrite seq_length. replace (S N - 1) with N by lia.
      rewrite (nth_map_lt _ _ _ 0 0) by (rewrite seq_length; exact Hk). rewrite seq_nth by exact Hk. cbn [Nat.add].
      unfold fb_route. cbn zeta. assert (keep i k < S N) by (unfold keep; destruct (k <? i); lia).
      rewrite !seq_nth by lia. cbn [Nat.add]. unfold keep, drop. destruct (Nat.ltb_spec k i).
      all: repeat (match goal with
        | |- context[?x =? ?y] => destruct (Nat.eqb_spec x y)
        | |- context[?x <? ?y] => destruct (Nat.ltb_spec x y)
        end); lia. }
    assert (length (fb_perm (seq 0 (S N)) o i) = N) as Hl by (unfold fb_perm; rewrite map_length, !seq_length; lia).
    split; [apply is_perm_bij, fb_perm_perm; [apply is_perm_seq|rewrite seq_length; lia|rewrite seq_length; lia]|].
    split; [exact Hl|]. split.
    - intros k v [E|[]] Hk. injection E as E1 E2. apply Nat2Z.inj in E1. subst. rewrite Hn by exact Hk. now rewrite Nat.eqb_refl.
    - intros a b Hab Hb Na Nb. rewrite !Hn by lia. cbn in Na, Nb.
      assert (a <> o) by (intros ->; apply Na; left; reflexivity). assert (b <> o) by (intros ->; apply Nb; left; reflexivity).
      repeat (match goal with
        | |- context[?x =? ?y] => destruct (Nat.eqb_spec x y)
        | |- context[?x <? ?y] => destruct (Nat.ltb_spec x y)
        end); lia.
  Qed.
  Lemma loop_idn n o i b : o <= n -> i <= n -> loop n (idn (S n)) o i b -> b = prm (fb_perm (seq 0 (S n)) o i).
  Proof. intros Ho Hi H. apply (loop_prm n) in H; try assumption; [apply is_perm_seq|apply seq_length]. Qed.

  Lemma loop_eff n k1 k2 b1 b2 o i c : S n = k1 + k2 -> ok k1 b1 -> ok k2 b2 -> 0 < k1 -> 0 < k2 ->
    loop n (cat k1 k2 b1 b2) o i c ->
    (i < k1 -> k1 <= o -> o <= n ->
       c = ser n (ser n (cat k1 (k2 - 1) b1 (idn (k2 - 1))) (prm (fb_perm (seq 0 (S n)) o i))) (cat (k1 - 1) k2 (idn (k1 - 1)) b2)) /\
    (o < k1 -> k1 <= i -> i <= n ->
       c = ser n (ser n (cat (k1 - 1) k2 (idn (k1 - 1)) b2) (prm (fb_perm (seq 0 (S n)) o i))) (cat k1 (k2 - 1) b1 (idn (k2 - 1)))).
  Proof.
    intros EN H1 H2 P1 P2 H.
    assert (forall x, ok k1 x -> cat k1 k2 x (idn k2) = cat3 k1 k2 0 x (idn k2) (prm [])) as Ex.
    { intros x Hx. unfold CSimpProofs1.cat3. rewrite cat_0_r by oks. now rewrite Nat.add_0_r. }
    assert (forall x, ok k1 x -> cat k1 (k2 - 1) x (idn (k2 - 1)) = cat3 k1 (k2 - 1) 0 x (idn (k2 - 1)) (prm [])) as Ex'.
    { intros x Hx. unfold CSimpProofs1.cat3. rewrite cat_0_r by oks. now rewrite Nat.add_0_r. }
    assert (forall y, ok k2 y -> cat k1 k2 (idn k1) y = cat3 0 k1 k2 (prm []) (idn k1) y) as Ey.
    { intros y Hy. unfold CSimpProofs1.cat3. rewrite cat_0_l by oks. reflexivity. }
    assert (forall y, ok k2 y -> cat (k1 - 1) k2 (idn (k1 - 1)) y = cat3 0 (k1 - 1) k2 (prm []) (idn (k1 - 1)) y) as Ey'.
    { intros y Hy. unfold CSimpProofs1.cat3. rewrite cat_0_l by oks. reflexivity. }
    assert (ok (S n) (cat k1 k2 b1 (idn k2))) as O1 by oks. assert (ok (S n) (cat k1 k2 (idn k1) b2)) as O2 by oks.
    assert (ok n (cat k1 (k2 - 1) b1 (idn (k2 - 1)))) as O3 by oks. assert (ok n (cat (k1 - 1) k2 (idn (k1 - 1)) b2)) as O4 by oks.
    assert (n = S n - 1) as En by lia.
    split; intros Hi Ho Hn.
    - assert (cat k1 k2 b1 b2 = ser (S n) (cat k1 k2 b1 (idn k2)) (ser (S n) (idn (S n)) (cat k1 k2 (idn k1) b2))) as E.
      { rewrite idn_l by assumption. rewrite EN. rewrite interchange by oks. now rewrite idn_l, idn_r. }
      rewrite E in H.
      apply (pull_l n (S n) o i _ (cat k1 (k2 - 1) b1 (idn (k2 - 1)))) in H; try lia; try assumption; [|oks|].
      2: { rewrite Ex, Ex' by assumption. rewrite (blk_out k1 k2 0 b1 (prm []) o (S n)) by (try apply ok_nil; try assumption; lia).
           now rewrite <- En. }
      destruct H as (b' & H & ->).
      apply (pull_r n o i _ (cat (k1 - 1) k2 (idn (k1 - 1)) b2)) in H; try lia; try assumption; [|oks|].
      2: { rewrite Ey, Ey' by assumption. rewrite (blk_in 0 k1 k2 (prm []) b2 i (S n)) by (try apply ok_nil; try assumption; lia).
           now rewrite <- En. }
      destruct H as (b'' & H & ->). pose proof H as Hok. apply ok_loop in Hok; [|oks|lia|lia].
      apply loop_idn in H; try lia. subst b''. rewrite ser_assoc by assumption. reflexivity.
    - assert (cat k1 k2 b1 b2 = ser (S n) (cat k1 k2 (idn k1) b2) (ser (S n) (idn (S n)) (cat k1 k2 b1 (idn k2)))) as E.
      { rewrite idn_l by assumption. rewrite EN. rewrite interchange by oks. now rewrite idn_l, idn_r. }
      rewrite E in H.
      apply (pull_l n (S n) o i _ (cat (k1 - 1) k2 (idn (k1 - 1)) b2)) in H; try lia; try assumption; [|oks|].
      2: { rewrite Ey, Ey' by assumption. rewrite (blk_out 0 k1 k2 (prm []) b2 o (S n)) by (try apply ok_nil; try assumption; lia).
           now rewrite <- En. }
      destruct H as (b' & H & ->).
      apply (pull_r n o i _ (cat k1 (k2 - 1) b1 (idn (k2 - 1)))) in H; try lia; try assumption; [|oks|].
      2: { rewrite Ex, Ex' by assumption. rewrite (blk_in k1 k2 0 b1 (prm []) i (S n)) by (try apply ok_nil; try assumption; lia).
           now rewrite <- En. }
      destruct H as (b'' & H & ->). pose proof H as Hok. apply ok_loop in Hok; [|oks|lia|lia].
      apply loop_idn in H; try lia. subst b''. rewrite ser_assoc by assumption. reflexivity.
  Qed.

  (** inversion reverses the direction of the loop *)
  Lemma loop_inv n a o i b : ok (S n) a -> o <= n -> i <= n -> loop n a o i b -> loop n (inv (S n) a) i o (inv n b).
  Proof.
    intros Ha Ho Hi H. unfold CSimpSpec.loop in *. apply fb_inv in H; [|now apply ok_ports].
    assert (inv (S n) (mports n a o i) = mports n (inv (S n) a) i o) as <-; [|exact H].
    assert (forall k, k <= n -> inv (S n) (prm (m_out k (S n))) = prm (m_in k (S n))) as E1.
    { intros k Hk. symmetry. apply inv_unique; try (oks; fail). apply m_out_in_id. lia. }
    assert (forall k, k <= n -> inv (S n) (prm (m_in k (S n))) = prm (m_out k (S n))) as E2.
    { intros k Hk. symmetry. apply inv_unique; try (oks; fail). apply m_in_out_id. lia. }
    unfold CSimpSpec.mports. rewrite !inv_ser by oks. rewrite E1, E2 by assumption. rewrite <- ser_assoc by oks. reflexivity.
  Qed.
End Fb.
