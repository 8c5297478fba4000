(** C45: matrices of operators. *)
From Coq Require Import QArith Qcanon.
From Verif Require Import Prelude ListFacts PermModel PermSpec PermProofs1 AlgSpec CAlg CInst MatModel SlhModel MatSpec MatProofs SlhProofs1 SlhProofs2 SlhProofs3 SlhProofs5 MatProofs2.
Local Open Scope nat_scope.

Section Props.
  Context {M : calgebra}.
  Notation A := (A M).
  Implicit Types a b c d : matrix A.

  (** ** stacking *)
  Theorem C45_hstackm a b n m n' m' : has_shape a n m -> has_shape b n' m' ->
    (n = n' -> exists c, hstackm a b = Ok c /\ has_shape c n (m + m') /\
       forall i j, i < n -> (j < m -> ent c i j = ent a i j) /\ (j < m' -> ent c i (m + j) = ent b i j)) /\
    (n <> n' -> hstackm a b = Err ValueError).
  Proof.
    intros (A1 & A2 & _) (B1 & B2 & _). unfold hstackm. rewrite A1, A2, B1, B2. split.
    - intros <-. rewrite Nat.eqb_refl. eexists. split; [reflexivity|]. split; [apply tab_shape|].
      intros i j Hi. split; intros Hj; rewrite ent_tab by lia.
      + destruct (Nat.ltb_spec j m); [reflexivity|lia].
      + destruct (Nat.ltb_spec (m + j) m); [lia|]. f_equal. lia.
    - intros Hn. destruct (Nat.eqb_spec n n'); [contradiction|reflexivity].
  Qed.
  Theorem C45_vstackm a b n m n' m' : has_shape a n m -> has_shape b n' m' ->
    (m = m' -> exists c, vstackm a b = Ok c /\ has_shape c (n + n') m /\
       forall i j, j < m -> (i < n -> ent c i j = ent a i j) /\ (i < n' -> ent c (n + i) j = ent b i j)) /\
    (m <> m' -> vstackm a b = Err ValueError).
  Proof.
    intros (A1 & A2 & _) (B1 & B2 & _). unfold vstackm. rewrite A1, A2, B1, B2. split.
    - intros <-. rewrite Nat.eqb_refl. eexists. split; [reflexivity|]. split; [apply tab_shape|].
      intros i j Hi. split; intros Hj; rewrite ent_tab by lia.
      + destruct (Nat.ltb_spec i n); [reflexivity|lia].
      + destruct (Nat.ltb_spec (n + i) n); [lia|]. f_equal. lia.
    - intros Hn. destruct (Nat.eqb_spec m m'); [contradiction|reflexivity].
  Qed.
  Theorem C45_block_matrix a b c d n1 n2 m1 m2 :
    has_shape a n1 m1 -> has_shape b n1 m2 -> has_shape c n2 m1 -> has_shape d n2 m2 ->
    exists r, block_matrix a b c d = Ok r /\ has_shape r (n1 + n2) (m1 + m2) /\
      (forall i j, i < n1 -> j < m1 -> ent r i j = ent a i j) /\
      (forall i j, i < n1 -> j < m2 -> ent r i (m1 + j) = ent b i j) /\
      (forall i j, i < n2 -> j < m1 -> ent r (n1 + i) j = ent c i j) /\
      (forall i j, i < n2 -> j < m2 -> ent r (n1 + i) (m1 + j) = ent d i j).
  Proof.
    intros Ha Hb Hc Hd. unfold block_matrix.
    destruct (proj1 (C45_hstackm a b n1 m1 n1 m2 Ha Hb) eq_refl) as (t & -> & Ht & Et).
    destruct (proj1 (C45_hstackm c d n2 m1 n2 m2 Hc Hd) eq_refl) as (u & Eu' & Hu & Eu). cbn [bind]. rewrite Eu'. cbn [bind].
    destruct (proj1 (C45_vstackm t u n1 (m1 + m2) n2 (m1 + m2) Ht Hu) eq_refl) as (r & -> & Hr & Er).
    exists r. split; [reflexivity|]. split; [exact Hr|]. repeat split; intros i j Hi Hj.
    - rewrite (proj1 (Er i j ltac:(lia)) Hi). now apply Et.
    - rewrite (proj1 (Er i (m1 + j) ltac:(lia)) Hi). now apply Et.
    - rewrite (proj2 (Er i j ltac:(lia)) Hi). now apply Eu.
    - rewrite (proj2 (Er i (m1 + j) ltac:(lia)) Hi). now apply Eu.
  Qed.

  (** ** permutation matrices *)
  Theorem C45_permutation_matrix p :
    (bijection p -> exists m, permutation_matrix p = Ok m /\ has_shape m (length p) (length p) /\
       forall i j, i < length p -> j < length p -> ent m i j = if i =? nth j p 0 then a1 else a0 : A) /\
    (~ bijection p -> permutation_matrix (M:=M) p = Err AssertionError).
  Proof.
    split; intros Hp.
    - apply is_perm_bij in Hp. rewrite (permutation_matrix_tab p Hp). eexists. split; [reflexivity|]. split; [apply tab_shape|].
      intros i j Hi Hj. now rewrite ent_tab.
    - unfold permutation_matrix. destruct (checkp p) eqn:E; [|reflexivity]. exfalso. apply Hp. apply is_perm_bij. now apply checkp_spec.
  Qed.
  Lemma perm_mm p q : is_perm p -> is_perm q -> length p = length q ->
    mmul (tab (length p) (length p) (pdelta (M:=M) p)) (tab (length q) (length q) (pdelta q))
      = Ok (tab (length p) (length p) (pdelta (comp p q))).
  Proof.
    intros Hp Hq Hl. rewrite (mmul_shape _ _ (length p) (length p) (length p)) by (rewrite ?Hl; apply tab_shape).
    f_equal. apply tab_ext. intros i j Hi Hj.
    assert (bigsum (length p) (fun l => amul (pdelta p i l) (pdelta q l j)) = pdelta (M:=M) (comp p q) i j) as <-.
    { transitivity (pdelta (M:=M) p i (nth j q 0)).
      - apply (asum_delta_r (M:=M) (length p) (nth j q 0) (fun l => pdelta p i l)).
        rewrite Hl. apply is_perm_nth_lt; [exact Hq|lia].
      - unfold pdelta. now rewrite comp_nth by lia. }
    apply asum_ext. intros l Hll. apply in_seq in Hll. rewrite !ent_tab by lia. reflexivity.
  Qed.
  (** M_p M_q = M_{p o q} *)
  Theorem C45_permutation_product p q : bijection p -> bijection q -> length p = length q ->
    exists mp mq mpq : matrix A, permutation_matrix p = Ok mp /\ permutation_matrix q = Ok mq /\
      permutation_matrix (map (fun k => nth k p 0) q) = Ok mpq /\ mmul mp mq = Ok mpq.
  Proof.
    intros Hp Hq Hl. apply is_perm_bij in Hp. apply is_perm_bij in Hq. do 3 eexists.
    split; [now apply permutation_matrix_tab|]. split; [now apply permutation_matrix_tab|].
    pose proof (comp_perm p q Hl Hp Hq) as Hc.
    split; [now apply (permutation_matrix_tab (comp p q))|].
    rewrite perm_mm by assumption. now rewrite (comp_length p q), Hl.
  Qed.
  Lemma perm_inverse_unique p q : is_perm p -> length p = length q ->
    (forall i, i < length p -> nth (nth i p 0) q 0 = i) -> q = inv_of p.
  Proof.
    intros Hp Hl Hinv. apply list_eq_nth with (d := 0); [now rewrite inv_of_length|]. intros i Hi.
    destruct (inv_of_nth p i Hp ltac:(lia)) as [G1 G2]. rewrite <- (Hinv _ G1). now rewrite G2.
  Qed.
  (** the transpose (= adjoint) is the matrix of the inverse permutation *)
  Theorem C45_permutation_transpose p q : bijection p -> bijection q -> length p = length q ->
    (forall i, i < length p -> nth (nth i p 0) q 0 = i) ->
    exists mp mq : matrix A, permutation_matrix p = Ok mp /\ permutation_matrix q = Ok mq /\ mtranspose mp = mq /\ madj mp = mq.
  Proof.
    intros Hp Hq Hl Hinv. apply is_perm_bij in Hp. apply is_perm_bij in Hq.
    do 2 eexists. split; [now apply permutation_matrix_tab|]. split; [now apply permutation_matrix_tab|].
    assert (forall i j, i < length p -> j < length p -> (j =? nth i p 0) = (i =? nth j q 0)) as G.
    { intros i j Hi Hj. destruct (Nat.eqb_spec j (nth i p 0)) as [E|E].
      - subst j. rewrite Hinv by exact Hi. symmetry. apply Nat.eqb_refl.
      - destruct (Nat.eqb_spec i (nth j q 0)) as [E'|]; [|reflexivity]. exfalso. apply E. subst i.
        pose proof (perm_inverse_unique p q Hp Hl Hinv) as ->. destruct (inv_of_nth p j Hp Hj) as [_ G2]. now rewrite G2. }
    assert (mtranspose (tab (length p) (length p) (pdelta (M:=M) p)) = tab (length q) (length q) (pdelta q)) as Et.
    { unfold mtranspose. rewrite !nrows_tab, !ncols_tab, <- Hl. apply tab_ext. intros i j Hi Hj. rewrite ent_tab by assumption.
      unfold pdelta, delta. now rewrite G. }
    split; [exact Et|]. unfold madj. rewrite Et. unfold element_wise. rewrite !nrows_tab, !ncols_tab. apply tab_ext.
    intros i j Hi Hj. rewrite ent_tab by assumption. unfold pdelta, delta. destruct (i =? nth j q 0); [apply star_1|apply star_0].
  Qed.

  (** ** products and adjoints *)
  Theorem C45_product_assoc a b c n m k l : has_shape a n m -> has_shape b m k -> has_shape c k l ->
    exists ab bc r, mmul a b = Ok ab /\ mmul b c = Ok bc /\ mmul ab c = Ok r /\ mmul a bc = Ok r /\ has_shape r n l.
  Proof.
    intros Ha Hb Hc. do 3 eexists. split; [apply (mmul_shape a b n m k Ha Hb)|]. split; [apply (mmul_shape b c m k l Hb Hc)|].
    split; [apply (mmul_shape _ c n k l); [apply tab_shape|exact Hc]|].
    rewrite (mmul_shape a _ n m l Ha) by apply tab_shape. split; [|apply tab_shape].
    f_equal. apply tab_ext. intros i j Hi Hj. unfold bigsum.
    transitivity (bigsum m (fun x => bigsum k (fun y => amul (amul (ent a i x) (ent b x y)) (ent c y j)))).
    - apply asum_ext. intros x Hx. apply in_seq in Hx. rewrite ent_tab by lia. unfold bigsum. rewrite <- asum_mul_l.
      apply asum_ext. intros y _. apply amul_assoc.
    - unfold bigsum. rewrite asum_swap. apply asum_ext. intros y Hy. apply in_seq in Hy. rewrite ent_tab by lia.
      apply asum_mul_r.
  Qed.
  Theorem C45_identity a n m : has_shape a n m -> mmul (identity_matrix n) a = Ok a /\ mmul a (identity_matrix m) = Ok a.
  Proof.
    intros Ha. rewrite (mmul_shape _ a n n m) by (try exact Ha; apply tab_shape).
    rewrite (mmul_shape a _ n m m) by (try exact Ha; apply tab_shape).
    rewrite (shape_tab _ _ _ Ha). split; f_equal; apply tab_ext; intros i j Hi Hj; unfold bigsum, identity_matrix.
    - rewrite (asum_ext _ _ (fun l => amul (if l =? i then a1 else a0) (ent a l j))); [exact (asum_delta_l (M:=M) n i (fun l => ent a l j) Hi)|].
      intros l Hl. apply in_seq in Hl. rewrite !ent_tab by lia. now rewrite Nat.eqb_sym.
    - rewrite (asum_ext _ _ (fun l => amul (ent a i l) (if l =? j then a1 else a0))); [exact (asum_delta_r (M:=M) m j (fun l => ent a i l) Hj)|].
      intros l Hl. apply in_seq in Hl. now rewrite !ent_tab by lia.
  Qed.
  Lemma madj_tab n m (f : nat -> nat -> A) : madj (tab n m f) = tab m n (fun i j => star (f j i)).
  Proof.
    unfold madj, element_wise, mtranspose. rewrite !nrows_tab, !ncols_tab. apply tab_ext. intros i j Hi Hj. now rewrite !ent_tab.
  Qed.
  Theorem C45_adjoint a b n m k : has_shape a n m -> has_shape b m k ->
    has_shape (madj a) m n /\ madj (madj a) = a /\
    (forall i j, i < m -> j < n -> ent (madj a) i j = star (ent a j i)) /\
    exists ab, mmul a b = Ok ab /\ mmul (madj b) (madj a) = Ok (madj ab).
  Proof.
    intros Ha Hb. rewrite (shape_tab _ _ _ Ha), (shape_tab _ _ _ Hb). rewrite !madj_tab. split; [apply tab_shape|].
    split; [apply tab_ext; intros; apply star_star|]. split; [intros; now rewrite !ent_tab|].
    eexists. split; [apply (mmul_shape _ _ n m k); apply tab_shape|]. rewrite madj_tab.
    rewrite (mmul_shape _ _ k m n) by apply tab_shape. f_equal. apply tab_ext. intros i j Hi Hj. unfold bigsum.
    rewrite star_asum. apply asum_ext. intros l Hl. apply in_seq in Hl. rewrite !ent_tab by lia. symmetry. apply star_mul.
  Qed.
  Theorem C45_trace a n m : has_shape a n m ->
    (n = m -> mtrace a = Ok (bigsum n (fun k => ent a k k))) /\ (n <> m -> mtrace a = Err PlainException).
  Proof.
    intros (A1 & A2 & _). unfold mtrace. rewrite A1, A2. split.
    - intros <-. rewrite Nat.eqb_refl. f_equal. unfold bigsum.
      assert (forall l x, fold_left (fun s k => aadd s (ent a k k)) l x = aadd x (asum (fun k => ent a k k) l)) as G.
      { induction l as [|k l IH]; intros x; cbn [fold_left]; [symmetry; apply aadd_0r|].
        rewrite IH, asum_cons. now rewrite aadd_assoc. }
      rewrite G. apply aadd_0.
    - intros Hn. destruct (Nat.eqb_spec n m); [contradiction|reflexivity].
  Qed.

  (** ** block structure; [zb] is the test for zero *)
  Context (zb : A -> bool).
  (** [block_structure] returns positive block sizes that add up to [n]; the block
      boundaries are exactly the positions where the matrix splits *)
  Theorem C45_block_structure a n : has_shape a n n -> 0 < n ->
    exists bs, block_structure zb a = Ok bs /\ sum bs = n /\ Forall (fun x : nat => 0 < x) bs /\
      (forall k, (exists r, r <= length bs /\ k = sum (firstn r bs)) <-> k = 0 \/ k = n \/ (0 < k < n /\ split_at zb a n k)).
  Proof.
    intros (H1 & H2 & _) Hn. unfold block_structure. rewrite H1.
    destruct (bs_loop_ok zb (S n) a n H1 H2 ltac:(lia)) as (bs & E & Hs & Hp & _ & Hk).
    exists bs. split; [exact E|]. split; [exact Hs|]. split; [now apply Hp|exact Hk].
  Qed.
  (** entries outside the diagonal blocks vanish when the test is sound *)
  Theorem C45_off_block_zero a n bs : (forall x, zb x = true -> x = a0) -> has_shape a n n -> 0 < n ->
    block_structure zb a = Ok bs ->
    forall r i j, i < n -> j < n -> i < sum (firstn r bs) <= j \/ j < sum (firstn r bs) <= i -> ent a i j = a0.
  Proof.
    intros Hz Ha Hn E r i j Hi Hj Hc. destruct (C45_block_structure a n Ha Hn) as (bs' & E' & Hs & _ & Hk).
    rewrite E in E'. injection E' as <-.
    assert (exists r', r' <= length bs /\ sum (firstn r bs) = sum (firstn r' bs)) as Hx.
    { destruct (le_lt_dec r (length bs)); [now exists r|]. exists (length bs). split; [lia|]. now rewrite firstn_all, firstn_all2 by lia. }
    apply Hk in Hx. destruct Hx as [Hx|[Hx|[_ Hx]]]; try lia. apply Hz. now apply Hx.
  Qed.
  Theorem C45_block_structure_not_square a n m : has_shape a n m -> n <> m -> block_structure zb a = Err AttributeError.
  Proof.
    intros (H1 & H2 & _) Hn. unfold block_structure. cbn [bs_loop]. rewrite H1, H2. destruct (Nat.eqb_spec n m); [contradiction|reflexivity].
  Qed.
  (** [_get_blocks]: the diagonal blocks, for exactly those structures the matrix has *)
  Theorem C45_get_blocks a n bs : has_shape a n n ->
    (sum bs = n /\ (forall r, r <= length bs -> split_at zb a n (sum (firstn r bs))) ->
      exists bl, get_blocks zb a bs = Ok bl /\ length bl = length bs /\
        forall r b, nth_error bl r = Some b -> has_shape b (nth r bs 0) (nth r bs 0) /\
          forall i j, i < nth r bs 0 -> j < nth r bs 0 ->
            ent b i j = ent a (sum (firstn r bs) + i) (sum (firstn r bs) + j)) /\
    (forall bl, get_blocks zb a bs = Ok bl ->
      sum bs = n /\ (forall r, r <= length bs -> split_at zb a n (sum (firstn r bs)))).
  Proof.
    intros (H1 & H2 & _). split.
    - intros [Hs Hr]. destruct (get_blocks_ok zb bs a n H1 H2 Hs Hr) as (bl & E & Hl & Hb). exists bl.
      split; [exact E|]. split; [exact Hl|]. intros r b Hn. rewrite (Hb r b Hn). split; [apply tab_shape|].
      intros i j Hi Hj. now rewrite ent_tab.
    - intros bl E. now apply (get_blocks_inv zb bs a n bl).
  Qed.
  Theorem C45_blocks_of_structure a n bs : has_shape a n n -> 0 < n -> block_structure zb a = Ok bs ->
    exists bl, get_blocks zb a bs = Ok bl /\ length bl = length bs.
  Proof.
    intros Ha Hn E. destruct (C45_block_structure a n Ha Hn) as (bs' & E' & Hs & _ & Hk). rewrite E in E'. injection E' as <-.
    destruct (proj1 (C45_get_blocks a n bs Ha)) as (bl & E1 & E2 & _); [|now exists bl].
    split; [exact Hs|]. intros r Hr. assert (exists r', r' <= length bs /\ sum (firstn r bs) = sum (firstn r' bs)) as Hx by (now exists r).
    apply Hk in Hx. destruct Hx as [->|[->|[_ Hx]]]; [intros i j Hi Hj; lia|intros i j Hi Hj; lia|exact Hx].
  Qed.
End Props.

(** Column vectors: [_get_blocks] is meant to cut a column into the given blocks, but
    the recursion continues with the first block instead of the rest of the column. *)
Theorem C45_get_blocks_column_refuted :
  ~ (forall (zb : A CM -> bool) (v : matrix (A CM)) n bs bl, has_shape v n 1 -> sum bs = n -> n <> 1 -> get_blocks zb v bs = Ok bl ->
      forall r b, nth_error bl r = Some b -> forall i, i < nth r bs 0 -> ent b i 0 = ent v (sum (firstn r bs) + i) 0).
Proof.
  intros H.
  specialize (H (fun x => q2_eqb x zero2) (Mat 4 1 [[one2]; [one2]; [lower]; [lower]]) 4 [2; 2]).
  edestruct (get_blocks (M:=CM) (fun x => q2_eqb x zero2) (Mat 4 1 [[one2]; [one2]; [lower]; [lower]]) [2; 2]) as [bl|] eqn:E; [|vm_compute in E; discriminate].
  assert (E' := E). cbv - [one2 lower] in E'. injection E' as <-.
  specialize (H _ ltac:(repeat split; repeat constructor) eq_refl ltac:(discriminate) E 1 _ eq_refl 0 ltac:(cbn; lia)).
  apply (f_equal (fun x => q2_eqb x one2)) in H. vm_compute in H. discriminate.
Qed.

(** Non-vacuity: a 4x4 matrix with blocks of size 1, 2, 1. *)
Definition ex_m : matrix (A CM) :=
  Mat 4 4 [[one2; zero2; zero2; zero2]; [zero2; zero2; lower; zero2]; [zero2; raise; pauliz; zero2]; [zero2; zero2; zero2; paulix]].
Example C45_nonvacuous : has_shape (M:=CM) ex_m 4 4 /\
  block_structure (M:=CM) (fun x => q2_eqb x zero2) ex_m = Ok [1; 2; 1] /\ bijection [2; 0; 1].
Proof.
  split; [repeat split; repeat constructor|]. split; [vm_compute; reflexivity|].
  apply is_perm_bij. now apply checkp_spec.
Qed.

Print Assumptions C45_hstackm.
Print Assumptions C45_vstackm.
Print Assumptions C45_block_matrix.
Print Assumptions C45_permutation_matrix.
Print Assumptions C45_permutation_product.
Print Assumptions C45_permutation_transpose.
Print Assumptions C45_product_assoc.
Print Assumptions C45_identity.
Print Assumptions C45_adjoint.
Print Assumptions C45_trace.
Print Assumptions C45_block_structure.
Print Assumptions C45_off_block_zero.
Print Assumptions C45_block_structure_not_square.
Print Assumptions C45_get_blocks.
Print Assumptions C45_blocks_of_structure.
Print Assumptions C45_get_blocks_column_refuted.
