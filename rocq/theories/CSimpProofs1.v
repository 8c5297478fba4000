(** Algebra of a [cmodel]: derived laws. *)
From Verif Require Import Prelude ListFacts PermModel PermSpec PermProofs1 PermProofs3 PermProofs4 CircModel CircSpec CircProofs1 CircProofs2 CSimpSpec.

Section Alg.
  Context (M : cmodel).
  Local Notation ok := (mok M). Local Notation ser := (mser M). Local Notation cat := (mcat M).
  Local Notation inv := (minv M). Local Notation prm := (mprm M). Local Notation fb := (mfb M).
  Definition idn (n : nat) : dom M := mprm M (seq 0 n).
  Implicit Types (a b c d : dom M) (n m : nat).

  Lemma ok_prm' p n : is_perm p -> length p = n -> ok n (prm p).
  Proof. intros H E. subst n. now apply ok_prm. Qed.
  Lemma ok_idn n : ok n (idn n).
  Proof. apply ok_prm'; [apply is_perm_seq|apply seq_length]. Qed.
  Lemma ok_id1 : ok 1 (prm [0]).
  Proof. apply (ok_idn 1). Qed.
  Lemma ok_nil : ok 0 (prm []).
  Proof. apply (ok_idn 0). Qed.
  Lemma idn_l n a : ok n a -> ser n (idn n) a = a.
  Proof. apply ser_id_l. Qed.
  Lemma idn_r n a : ok n a -> ser n a (idn n) = a.
  Proof. apply ser_id_r. Qed.
  Lemma prm_ser' n p q : is_perm p -> is_perm q -> length p = n -> length q = n -> ser n (prm p) (prm q) = prm (comp p q).
  Proof. intros Hp Hq E1 E2. subst n. now apply prm_ser. Qed.
  Lemma cat_prm' n m p q : is_perm p -> is_perm q -> length p = n -> length q = m ->
    cat n m (prm p) (prm q) = prm (concatenate_permutations p q).
  Proof. intros Hp Hq E1 E2. subst. now apply cat_prm. Qed.
  Lemma conc_length p q : length (concatenate_permutations p q) = length p + length q.
  Proof. apply (concatenate_side p q). Qed.
  Lemma conc_perm p q : is_perm p -> is_perm q -> is_perm (concatenate_permutations p q).
  Proof. intros Hp Hq. apply from_blocks_is_perm. repeat constructor; assumption. Qed.
  Lemma conc_nth_l p q i : i < length p -> nth i (concatenate_permutations p q) 0 = nth i p 0.
  Proof. apply (concatenate_side p q). Qed.
  Lemma conc_nth_r p q i : length p <= i -> i < length p + length q ->
    nth i (concatenate_permutations p q) 0 = length p + nth (i - length p) q 0.
  Proof.
    intros H1 H2. destruct (concatenate_side p q) as (_ & _ & H).
    specialize (H (i - length p) ltac:(lia)). replace (length p + (i - length p)) with i in H by lia. exact H.
  Qed.
  Lemma conc_seq n m : concatenate_permutations (seq 0 n) (seq 0 m) = seq 0 (n + m).
  Proof.
    apply list_eq_nth with (d := 0); [now rewrite conc_length, !seq_length|].
    rewrite conc_length, !seq_length. intros i Hi. rewrite seq_nth by lia. destruct (Nat.lt_ge_cases i n).
    - rewrite conc_nth_l by (rewrite seq_length; lia). rewrite seq_nth; lia.
    - rewrite conc_nth_r by (rewrite !seq_length; lia). rewrite seq_length, seq_nth; lia.
  Qed.
  Lemma idn_cat n m : cat n m (idn n) (idn m) = idn (n + m).
  Proof.
    unfold idn. rewrite (cat_prm' n m) by (try apply is_perm_seq; apply seq_length). now rewrite conc_seq.
  Qed.
  Lemma ok_cat' k n m a b : ok n a -> ok m b -> k = n + m -> ok k (cat n m a b).
  Proof. intros Ha Hb ->. now apply ok_cat. Qed.

  (** *** inverses *)
  Lemma inv_unique n a b : ok n a -> ok n b -> ser n a b = idn n -> b = inv n a.
  Proof.
    intros Ha Hb E. rewrite <- (idn_l n b Hb). unfold idn. rewrite <- (inv_l M n a Ha).
    rewrite ser_assoc by (try assumption; now apply ok_inv). rewrite E. apply idn_r. now apply ok_inv.
  Qed.
  Lemma inv_unique_l n a b : ok n a -> ok n b -> ser n b a = idn n -> b = inv n a.
  Proof.
    intros Ha Hb E. rewrite <- (idn_r n b Hb). unfold idn. rewrite <- (inv_r M n a Ha).
    rewrite <- ser_assoc by (try assumption; now apply ok_inv). rewrite E. apply idn_l. now apply ok_inv.
  Qed.
  Lemma inv_inv n a : ok n a -> inv n (inv n a) = a.
  Proof. intros Ha. symmetry. apply inv_unique; [now apply ok_inv|exact Ha|now apply inv_l]. Qed.
  Lemma inv_ser n a b : ok n a -> ok n b -> inv n (ser n a b) = ser n (inv n b) (inv n a).
  Proof.
    intros Ha Hb. pose proof (ok_inv M n a Ha) as Ia. pose proof (ok_inv M n b Hb) as Ib. symmetry.
    apply inv_unique; [now apply ok_ser|now apply ok_ser|].
    rewrite ser_assoc by (try assumption; now apply ok_ser). rewrite <- (ser_assoc M n b) by assumption.
    rewrite inv_r by assumption. rewrite ser_id_l by assumption. now apply inv_r.
  Qed.
  Lemma inv_cat n m a b : ok n a -> ok m b -> inv (n + m) (cat n m a b) = cat n m (inv n a) (inv m b).
  Proof.
    intros Ha Hb. pose proof (ok_inv M n a Ha) as Ia. pose proof (ok_inv M m b Hb) as Ib. symmetry.
    apply inv_unique; try now apply ok_cat. rewrite interchange by assumption. rewrite !inv_r by assumption. apply idn_cat.
  Qed.
  Lemma inv_prm n p : is_perm p -> length p = n -> inv n (prm p) = prm (inv_of p).
  Proof.
    intros Hp E. symmetry. apply inv_unique.
    - now apply ok_prm'.
    - apply ok_prm'; [now apply inv_of_perm|now rewrite inv_of_length].
    - rewrite (prm_ser' n) by (try assumption; try (apply inv_of_perm; assumption); rewrite inv_of_length; assumption).
      rewrite comp_inv_r by exact Hp. now rewrite E.
  Qed.
  Lemma inv_idn n : inv n (idn n) = idn n.
  Proof. symmetry. apply inv_unique; try apply ok_idn. apply idn_l, ok_idn. Qed.

  (** *** moving one channel to the end past systems that do not touch it *)
  Definition cat3 n1 n2 n3 a b c : dom M := cat n1 (n2 + n3) a (cat n2 n3 b c).
  Lemma ok_cat3 n n1 n2 n3 a b c : ok n1 a -> ok n2 b -> ok n3 c -> n = n1 + (n2 + n3) -> ok n (cat3 n1 n2 n3 a b c).
  Proof. intros Ha Hb Hc ->. unfold cat3. apply ok_cat; [exact Ha|now apply ok_cat]. Qed.

  Lemma m_out_fbp n1 n2 : fbp [0;2;1] [n1;1;n2] = m_out n1 (n1 + S n2).
  Proof.
    unfold fbp. cbn [length seq map concat nth]. rewrite app_nil_r.
    assert (moved [0;2;1] [n1;1;n2] = [n1;n2;1]) as -> by reflexivity.
    unfold block_start. cbn [firstn sum fold_right].
    apply list_eq_nth with (d := 0).
    - rewrite !app_length, !seq_length, m_out_length. cbn [length]. lia.
    - rewrite !app_length, !seq_length. cbn [length]. intros i Hi. rewrite m_out_nth by lia. unfold drop.
      destruct (Nat.lt_ge_cases i n1) as [G|G].
      + rewrite app_nth1 by (rewrite seq_length; lia). rewrite seq_nth by lia.
        destruct (Nat.eqb_spec i n1); [lia|]. destruct (Nat.ltb_spec i n1); lia.
      + rewrite app_nth2 by (rewrite seq_length; lia). rewrite seq_length. destruct (Nat.eqb_spec i n1) as [->|Hne].
        * rewrite Nat.sub_diag. cbn. lia.
        * rewrite app_nth2 by (cbn [length]; lia). cbn [length]. rewrite seq_nth by lia.
          destruct (Nat.ltb_spec i n1); lia.
  Qed.
  Lemma m_out_nat n1 n2 a c : ok n1 a -> ok n2 c ->
    let N := n1 + S n2 in
    ser N (prm (m_out n1 N)) (cat3 n1 1 n2 a (prm [0]) c)
    = ser N (cat (n1 + n2) 1 (cat n1 n2 a c) (prm [0])) (prm (m_out n1 N)).
  Proof.
    intros Ha Hc N. pose proof ok_id1 as H1.
    pose proof (nat_block M [(n1, a); (1, prm [0]); (n2, c)] [0;2;1]) as H.
    cbn [map fst snd length] in H. specialize (H ltac:(repeat constructor; assumption)).
    assert (is_perm [0;2;1]) as Hp by (apply checkp_spec; reflexivity). specialize (H Hp eq_refl).
    rewrite m_out_fbp in H.
    replace (sum [n1;1;n2]) with N in H by (unfold N; cbn; lia).
    assert (move_blocks (0, prm []) [0;2;1] [(n1, a); (1, prm [0]); (n2, c)] = [(n1, a); (n2, c); (1, prm [0])]) as E by reflexivity.
    rewrite E in H. cbn [catl_of map fst snd sum fold_right] in H. fold N in H.
    rewrite !Nat.add_0_r, !cat_0_r in H by assumption.
    unfold cat3. rewrite cat_assoc by assumption. exact H.
  Qed.
  Lemma m_in_out_id n k : k < n -> ser n (prm (m_in k n)) (prm (m_out k n)) = idn n.
  Proof.
    intros Hk. rewrite (prm_ser' n) by (try apply m_in_perm; try apply m_out_perm; try assumption; try apply m_in_length; apply m_out_length).
    now rewrite (proj1 (m_out_in_inverse k n Hk)).
  Qed.
  Lemma m_out_in_id n k : k < n -> ser n (prm (m_out k n)) (prm (m_in k n)) = idn n.
  Proof.
    intros Hk. rewrite (prm_ser' n) by (try apply m_in_perm; try apply m_out_perm; try assumption; try apply m_in_length; apply m_out_length).
    now rewrite (proj2 (m_out_in_inverse k n Hk)).
  Qed.
  Lemma ok_out n k : k < n -> ok n (prm (m_out k n)).
  Proof. intros H. apply ok_prm'; [now apply m_out_perm|apply m_out_length]. Qed.
  Lemma ok_in n k : k < n -> ok n (prm (m_in k n)).
  Proof. intros H. apply ok_prm'; [now apply m_in_perm|apply m_in_length]. Qed.
  (** [x out = out y] implies [in x = y in], and so on *)
  Lemma conj_swap n k x y : k < n -> ok n x -> ok n y ->
    ser n (prm (m_out k n)) x = ser n y (prm (m_out k n)) ->
    ser n x (prm (m_in k n)) = ser n (prm (m_in k n)) y.
  Proof.
    intros Hk Hx Hy E. pose proof (ok_out n k Hk) as Ho. pose proof (ok_in n k Hk) as Hi.
    rewrite <- (idn_l n (ser n x (prm (m_in k n)))) by now apply ok_ser.
    rewrite <- (m_in_out_id n k Hk). rewrite ser_assoc by (try assumption; now apply ok_ser).
    rewrite <- (ser_assoc M n (prm (m_out k n)) x) by assumption. rewrite E.
    rewrite (ser_assoc M n y) by assumption. rewrite m_out_in_id by exact Hk. now rewrite idn_r.
  Qed.
  Lemma m_in_nat n1 n2 a c : ok n1 a -> ok n2 c ->
    let N := n1 + S n2 in
    ser N (cat3 n1 1 n2 a (prm [0]) c) (prm (m_in n1 N))
    = ser N (prm (m_in n1 N)) (cat (n1 + n2) 1 (cat n1 n2 a c) (prm [0])).
  Proof.
    intros Ha Hc N. apply conj_swap.
    - unfold N; lia.
    - apply ok_cat3; try assumption; [apply ok_id1|reflexivity].
    - apply ok_cat'; [now apply ok_cat|apply ok_id1|unfold N; lia].
    - now apply m_out_nat.
  Qed.
End Alg.
