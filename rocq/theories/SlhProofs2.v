(** What the SLH operations compute, entry by entry. *)
From Verif Require Import Prelude ListFacts PermModel PermSpec PermProofs1 AlgSpec CAlg NcRing MatModel SlhModel MatProofs MatSpec SlhProofs1.

Section F.
  Context {M : calgebra}.
  Add Ring Kr : (kring M).
  Notation A := (A M). Notation K := (K M). Notation slh := (slh M).
  Notation "x + y" := (aadd x y). Notation "x * y" := (amul x y).
  Implicit Types x y z : A. Implicit Types u v w : nat -> A. Implicit Types s t : nat -> nat -> A.
  Implicit Types n m : nat.

  Lemma nth_seq_map {B} (l : list B) d : map (fun i => nth i l d) (seq 0 (length l)) = l.
  Proof.
    induction l as [|b l IH]; [reflexivity|]. cbn [length seq map nth]. f_equal.
    rewrite <- seq_shift, map_map. exact IH.
  Qed.
  Lemma shape_tab (a : matrix A) n m : has_shape a n m -> a = tab n m (ent a).
  Proof.
    intros (H1 & H2 & H3 & H4). destruct a as [n' m' rs]. cbn [nrows ncols rows] in *. subst n' m'. unfold tab. f_equal.
    rewrite <- (nth_seq_map rs []) at 1. rewrite H3. apply map_ext_in. intros i Hi. apply in_seq in Hi.
    rewrite <- (nth_seq_map (nth i rs []) a0) at 1.
    replace (length (nth i rs [])) with m; [reflexivity|]. symmetry.
    rewrite Forall_forall in H4. apply H4. apply nth_In. lia.
  Qed.
  Lemma tab_shape n m (f : nat -> nat -> A) : has_shape (tab n m f) n m.
  Proof.
    split; [reflexivity|]. split; [reflexivity|]. cbn [rows tab]. split; [now rewrite map_length, seq_length|].
    apply Forall_forall. intros r Hr. apply in_map_iff in Hr as (i & <- & _). now rewrite map_length, seq_length.
  Qed.

  Definition mkS n s u x : slh := SLH (tab n n s) (tab n 1 (fun i _ => u i)) x.
  Definition Sf (a : slh) : nat -> nat -> A := fun i j => ent (sS a) i j.
  Definition Lf (a : slh) : nat -> A := fun i => ent (sL a) i 0.
  Lemma mkS_system n s u x : system (mkS n s u x) n.
  Proof. split; apply tab_shape. Qed.
  Lemma system_mkS a n : system a n -> a = mkS n (Sf a) (Lf a) (sH a).
  Proof.
    intros [H1 H2]. destruct a as [s l h]. cbn [sS sL sH] in *. unfold mkS. f_equal; [apply shape_tab; exact H1|].
    rewrite (shape_tab _ _ _ H2) at 1. apply tab_ext. intros i j Hi Hj. unfold Lf. cbn [sL]. now replace j with 0 by lia.
  Qed.
  Lemma mkS_ext n s u x s' u' x' : (forall i j, i < n -> j < n -> s i j = s' i j) ->
    (forall i, i < n -> u i = u' i) -> x = x' -> mkS n s u x = mkS n s' u' x'.
  Proof. intros H1 H2 ->. unfold mkS. f_equal; apply tab_ext; auto. Qed.
  Lemma mkS_inj n s u x s' u' x' : mkS n s u x = mkS n s' u' x' ->
    (forall i j, i < n -> j < n -> s i j = s' i j) /\ (forall i, i < n -> u i = u' i) /\ x = x'.
  Proof.
    unfold mkS. intros H. injection H as H1 H2 H3.
    assert (tab n n s = tab n n s') as E1 by (unfold tab; f_equal; exact H1).
    assert (tab n 1 (fun i _ => u i) = tab n 1 (fun i _ => u' i)) as E2 by (unfold tab; f_equal; exact H2).
    split; [intros; eapply tab_inj; eassumption|]. split; [|assumption].
    intros i Hi. exact (tab_inj _ _ _ _ i 0 E2 Hi Nat.lt_0_1).
  Qed.
  Lemma Sf_mkS n s u x i j : i < n -> j < n -> Sf (mkS n s u x) i j = s i j.
  Proof. intros. now apply ent_tab. Qed.
  Lemma Lf_mkS n s u x i : i < n -> Lf (mkS n s u x) i = u i.
  Proof. intros. unfold Lf. apply (ent_tab n 1 (fun i _ => u i)); [assumption|lia]. Qed.
  Lemma sH_mkS n s u x : sH (mkS n s u x) = x.
  Proof. reflexivity. Qed.
  Lemma mkS_slh_eq a b n : system a n -> system b n ->
    (forall i j, i < n -> j < n -> Sf a i j = Sf b i j) -> (forall i, i < n -> Lf a i = Lf b i) -> sH a = sH b -> a = b.
  Proof.
    intros Ha Hb H1 H2 H3. rewrite (system_mkS a n Ha), (system_mkS b n Hb). now apply mkS_ext.
  Qed.

  Lemma mmul_tab n m k s t : mmul (tab n m s) (tab m k t) =
    Ok (tab n k (fun i j => bigsum m (fun l => s i l * t l j))).
  Proof.
    unfold mmul. rewrite !ncols_tab, !nrows_tab, Nat.eqb_refl. f_equal. apply tab_ext. intros i j Hi Hj.
    apply sm_ext. intros l Hl. now rewrite !ent_tab by assumption.
  Qed.
  Lemma madd_tab n m s t : madd (tab n m s) (tab n m t) = Ok (tab n m (fun i j => s i j + t i j)).
  Proof.
    unfold madd. rewrite !ncols_tab, !nrows_tab, !Nat.eqb_refl. cbn [andb]. f_equal. apply tab_ext. intros i j Hi Hj.
    now rewrite !ent_tab by assumption.
  Qed.
  Lemma mscale_tab n m c s : mscale c (tab n m s) = tab n m (fun i j => smul c (s i j)).
  Proof. unfold mscale. rewrite !ncols_tab, !nrows_tab. apply tab_ext. intros i j Hi Hj. now rewrite ent_tab. Qed.
  Lemma mul_op_r_tab n m x s : mul_op_r (tab n m s) x = tab n m (fun i j => s i j * x).
  Proof. unfold mul_op_r. rewrite !ncols_tab, !nrows_tab. apply tab_ext. intros i j Hi Hj. now rewrite ent_tab. Qed.
  Lemma madj_tab n m s : madj (tab n m s) = tab m n (fun i j => star (s j i)).
  Proof.
    unfold madj, mtranspose, element_wise. rewrite !ncols_tab, !nrows_tab. apply tab_ext. intros i j Hi Hj.
    rewrite ent_tab by assumption. now rewrite ent_tab.
  Qed.
  Lemma msub_block_tab n m s r0 r1 c0 c1 : r1 <= n -> c1 <= m ->
    msub_block (tab n m s) r0 r1 c0 c1 = tab (r1 - r0) (c1 - c0) (fun i j => s (Nat.add r0 i) (Nat.add c0 j)).
  Proof. intros Hr Hc. apply tab_ext. intros i j Hi Hj. rewrite ent_tab by lia. reflexivity. Qed.
  Lemma im_adjoint_11 s : im_adjoint (tab 1 1 s) = Ok (tab 1 1 (fun i j => imp (s i j))).
  Proof.
    unfold im_adjoint, msub. rewrite madj_tab, mscale_tab, madd_tab. cbn [bind]. rewrite mscale_tab.
    reflexivity.
  Qed.

  Definition fseries n s1 u1 x1 s2 u2 x2 : slh :=
    mkS n (mm n s1 s2) (fun i => mv n s1 u2 i + u1 i) (x1 + x2 + imp (dot n u1 (mv n s1 u2))).
  Lemma series_mkS n s1 u1 x1 s2 u2 x2 :
    series_with_slh (mkS n s1 u1 x1) (mkS n s2 u2 x2) = Ok (fseries n s1 u1 x1 s2 u2 x2).
  Proof.
    unfold series_with_slh, mkS. cbn [sS sL sH].
    rewrite mmul_tab. cbn [bind]. rewrite mmul_tab. cbn [bind]. rewrite madd_tab. cbn [bind].
    rewrite madj_tab, mmul_tab. cbn [bind]. rewrite mmul_tab. cbn [bind].
    rewrite im_adjoint_11. cbn [bind]. unfold mk_slh. rewrite !nrows_tab, !ncols_tab, !Nat.eqb_refl. cbn [negb].
    unfold fseries, mkS. do 2 f_equal. rewrite ent_tab by lia. do 2 f_equal.
    rewrite dot_mv. unfold dot, mv, hc. apply sm_ext. intros l _. f_equal. rewrite star_sm. apply sm_ext.
    intros k _. now rewrite star_mul, star_star.
  Qed.

  Definition fcat n1 s1 s2 : nat -> nat -> A := fun i j =>
    if i <? n1 then if j <? n1 then s1 i j else a0
    else if j <? n1 then a0 else s2 (i - n1) (j - n1).
  Definition vcat n1 u1 u2 : nat -> A := fun i => if i <? n1 then u1 i else u2 (i - n1).
  Lemma concat_mkS n1 n2 s1 u1 x1 s2 u2 x2 :
    concatenate_slh (mkS n1 s1 u1 x1) (mkS n2 s2 u2 x2) =
    Ok (mkS (n1 + n2)%nat (fcat n1 s1 s2) (vcat n1 u1 u2) (x1 + x2)).
  Proof.
    unfold concatenate_slh, mkS. cbn [sS sL sH]. unfold block_matrix, hstackm, vstackm, zerosm.
    rewrite !nrows_tab, !ncols_tab, !Nat.eqb_refl. cbn [bind]. rewrite !nrows_tab, !ncols_tab, !Nat.eqb_refl. cbn [bind].
    unfold mk_slh. rewrite !nrows_tab, !ncols_tab, !Nat.eqb_refl. cbn [negb]. do 2 f_equal.
    - apply tab_ext. intros i j Hi Hj. unfold fcat. destruct (Nat.ltb_spec i n1).
      + rewrite ent_tab by assumption. destruct (Nat.ltb_spec j n1).
        * now rewrite ent_tab.
        * rewrite ent_tab by lia. reflexivity.
      + rewrite ent_tab by lia. destruct (Nat.ltb_spec j n1).
        * rewrite ent_tab by lia. reflexivity.
        * rewrite ent_tab by lia. reflexivity.
    - apply tab_ext. intros i j Hi Hj. unfold vcat. destruct (Nat.ltb_spec i n1); rewrite ent_tab by lia; reflexivity.
  Qed.

  Lemma inverse_mkS n s u x :
    slh_series_inverse (mkS n s u x) = Ok (mkS n (hc s) (fun i => aopp (mv n (hc s) u i)) (aopp x)).
  Proof.
    unfold slh_series_inverse, mkS, mneg. cbn [sS sL sH]. rewrite madj_tab, mscale_tab, mmul_tab. cbn [bind].
    unfold mk_slh. rewrite !nrows_tab, !ncols_tab, !Nat.eqb_refl. cbn [negb]. do 2 f_equal.
    apply tab_ext. intros i j Hi Hj. unfold mv, hc. rewrite <- sm_opp. apply sm_ext. intros k _. apply smul_amul_l.
  Qed.

  Lemma fill_perm_spec p : forall i (f : nat -> nat -> A) r c,
    fill_perm i p f r c = if (i <=? c) && (c <? Nat.add i (length p)) && (r =? nth (c - i) p 0) then a1 else f r c.
  Proof.
    induction p as [|j p IH]; intros i f r c; cbn [fill_perm length].
    - destruct (Nat.leb_spec i c), (Nat.ltb_spec c (Nat.add i 0)); cbn [andb]; try reflexivity. lia.
    - rewrite IH. unfold set_entry.
      destruct (Nat.eqb_spec c i) as [->|Hc].
      + destruct (Nat.leb_spec (S i) i); [lia|]. cbn [andb].
        destruct (Nat.leb_spec i i); [|lia]. destruct (Nat.ltb_spec i (Nat.add i (S (length p)))); [|lia].
        rewrite Nat.sub_diag. cbn [nth andb]. destruct (r =? j); reflexivity.
      + rewrite andb_false_r.
        destruct (Nat.leb_spec (S i) c), (Nat.leb_spec i c); try lia; cbn [andb]; [|reflexivity].
        replace (c - i) with (S (c - S i)) by lia. cbn [nth].
        destruct (Nat.ltb_spec c (Nat.add (S i) (length p))), (Nat.ltb_spec c (Nat.add i (S (length p)))); try lia; reflexivity.
  Qed.
  Definition pdelta (p : list nat) : nat -> nat -> A := fun i j => delta i (nth j p 0).
  Lemma permutation_matrix_tab p : is_perm p ->
    permutation_matrix p = Ok (tab (length p) (length p) (pdelta p)).
  Proof.
    intros Hp. unfold permutation_matrix. rewrite (proj2 (checkp_spec p) Hp). cbn [negb]. f_equal. apply tab_ext.
    intros i j Hi Hj. rewrite fill_perm_spec. cbn [plus]. destruct (Nat.ltb_spec j (length p)); [|lia].
    rewrite Nat.sub_0_r. cbn [andb Nat.leb]. reflexivity.
  Qed.
  Lemma perm_mkS p : is_perm p -> perm_to_slh p = Ok (mkS (length p) (pdelta p) (fun _ => a0) a0).
  Proof.
    intros Hp. unfold perm_to_slh. rewrite (permutation_matrix_tab p Hp). cbn [bind]. unfold mk_slh, zerosm.
    rewrite !nrows_tab, !ncols_tab, !Nat.eqb_refl. reflexivity.
  Qed.

  Context (scalar_inv : A -> res K).
  Definition ffb n s u x y : slh :=
    mkS n (fun i j => s i j + s i n * y * s n j) (fun i => u i + s i n * y * u n)
      (x + imp (dot (S n) u (fun k => s k n) * y * u n)).
  Lemma smul_via c x : smul c x = smul c a1 * x.
  Proof. rewrite smul_amul_l, amul_1l. reflexivity. Qed.
  Lemma smul_via_r c x : smul c x = x * smul c a1.
  Proof. rewrite smul_amul_r, amul_1r. reflexivity. Qed.
  Lemma fb_mkS n s u x :
    feedback_last scalar_inv (mkS (S n) s u x) =
    do c <- scalar_inv (a1 + aopp (s n n)); Ok (ffb n s u x (smul c a1)).
  Proof.
    unfold feedback_last, mkS, slh_cdim. cbn [sS sL sH]. rewrite !nrows_tab.
    replace (S n - 1) with n by lia. rewrite ent_tab by lia. fold (@aopp M (s n n)).
    destruct (scalar_inv _) as [c|e]; [|reflexivity]. cbn [bind].
    rewrite !msub_block_tab by lia. replace (Nat.add n 1 - n)%nat with 1 by lia. rewrite !Nat.sub_0_r.
    rewrite mscale_tab, mmul_tab. cbn [bind]. rewrite madd_tab. cbn [bind].
    rewrite mmul_tab. cbn [bind]. rewrite madd_tab. cbn [bind].
    replace (Nat.add n 1) with (S n) by lia.
    rewrite madj_tab, mmul_tab. cbn [bind]. rewrite mscale_tab, mul_op_r_tab, im_adjoint_11. cbn [bind].
    unfold mk_slh. rewrite !nrows_tab, !ncols_tab, !Nat.eqb_refl. cbn [negb].
    unfold ffb, mkS. do 2 f_equal.
    - apply tab_ext. intros i j Hi Hj. cbn [plus]. f_equal. rewrite sm_S. unfold bigsum. cbn [seq asum fold_right].
      rewrite aadd_0. rewrite !Nat.add_0_r. now rewrite smul_via_r.
    - apply tab_ext. intros i j Hi Hj. cbn [plus]. f_equal. rewrite sm_S. unfold bigsum. cbn [seq asum fold_right].
      rewrite aadd_0. rewrite !Nat.add_0_r. now rewrite smul_via_r.
    - f_equal. rewrite ent_tab by lia. rewrite ent_tab by lia. f_equal. f_equal.
      rewrite smul_via_r. f_equal. apply sm_ext. intros k _. cbn [plus]. now rewrite Nat.add_0_r.
  Qed.
End F.
