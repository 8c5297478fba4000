(** Permutations and feedback. *)
From Verif Require Import Prelude ListFacts PermModel PermSpec PermProofs1 PermProofs3 PermProofs4 AlgSpec CAlg NcRing MatModel SlhModel MatProofs MatSpec SlhProofs1 SlhProofs2 SlhProofs3 SlhProofs4.

Section F.
  Context {M : calgebra}.
  Add Ring Kr : (kring M).
  Notation A := (A M). Notation K := (K M). Notation slh := (slh M).
  Notation "x + y" := (aadd x y). Notation "x * y" := (amul x y).
  Implicit Types x y z : A. Implicit Types u v w : nat -> A. Implicit Types s t : nat -> nat -> A.
  Implicit Types n m : nat. Implicit Types a b c : slh.
  Notation sm := (@bigsum M).
  Local Notation pdelta := (@pdelta M).

  (** *** permutations *)
  Lemma mm_pdelta_r n p s i j : nth j p 0 < n -> mm n s (pdelta p) i j = s i (nth j p 0).
  Proof. intros H. unfold mm, pdelta. exact (sm_delta_r n (nth j p 0) (fun k => s i k) H). Qed.
  Lemma mm_pdelta_l n p s i j : is_perm p -> length p = n -> i < n -> mm n (pdelta p) s (nth i p 0) j = s i j.
  Proof.
    intros Hp Hl Hi. unfold mm, pdelta. rewrite <- (sm_delta_l n i (fun k => s k j) Hi). apply sm_ext. intros k Hk.
    f_equal. unfold delta. destruct (Nat.eqb_spec (nth i p 0) (nth k p 0)) as [E|E], (Nat.eqb_spec i k) as [E'|E']; try reflexivity.
    - apply is_perm_inj in E; try assumption; lia.
    - subst. contradiction.
  Qed.
  Lemma mv_pdelta n p u i : is_perm p -> length p = n -> i < n -> mv n (pdelta p) u (nth i p 0) = u i.
  Proof. intros. exact (mm_pdelta_l n p (fun k _ => u k) i 0 H H0 H1). Qed.
  Lemma perm_surj p n i : is_perm p -> length p = n -> i < n -> exists k, k < n /\ nth k p 0 = i.
  Proof. intros Hp Hl Hi. exists (nth i (inv_of p) 0). subst n. apply inv_of_nth; assumption. Qed.
  Lemma pdelta_iso p : is_perm p -> iso (length p) (pdelta p).
  Proof.
    intros Hp i j Hi Hj. rewrite (mm_pdelta_r (length p)) by (apply is_perm_nth_lt; assumption).
    unfold hc, pdelta. rewrite star_delta. unfold delta.
    destruct (Nat.eqb_spec (nth j p 0) (nth i p 0)) as [E|E], (Nat.eqb_spec i j) as [E'|E']; try reflexivity.
    - apply is_perm_inj in E; try assumption. lia.
    - subst. contradiction.
  Qed.
  Lemma hc_pdelta p i j : is_perm p -> i < length p -> j < length p -> hc (pdelta p) i j = pdelta (inv_of p) i j.
  Proof.
    intros Hp Hi Hj. unfold hc, pdelta. rewrite star_delta. unfold delta.
    destruct (inv_of_nth p j Hp Hj) as [G1 G2].
    destruct (Nat.eqb_spec j (nth i p 0)) as [E|E], (Nat.eqb_spec i (nth j (inv_of p) 0)) as [E'|E']; try reflexivity.
    - subst j. rewrite inv_of_nth' in E' by assumption. contradiction.
    - subst i. rewrite G2 in E. contradiction.
  Qed.
  Lemma iso_ext n s t : (forall i j, i < n -> j < n -> s i j = t i j) -> iso n s -> iso n t.
  Proof.
    intros H Hs i j Hi Hj. rewrite <- (Hs i j Hi Hj). apply mm_ext; intros k Hk; unfold hc; rewrite H by assumption; reflexivity.
  Qed.
  Lemma pdelta_ciso p : is_perm p -> ciso (length p) (pdelta p).
  Proof.
    intros Hp. unfold ciso. apply (iso_ext _ (pdelta (inv_of p))).
    - intros. symmetry. now apply hc_pdelta.
    - rewrite <- (inv_of_length p). apply pdelta_iso. now apply inv_of_perm.
  Qed.
  Lemma prm_ser p q : is_perm p -> is_perm q -> length p = length q ->
    ser (length p) (prm p) (prm q) = prm (comp p q) :> slh.
  Proof.
    intros Hp Hq Hl. unfold prm. rewrite ser_mkS_l. rewrite comp_length, <- Hl.
    transitivity (fseries (length p) (pdelta p) (fun _ => @a0 M) a0 (pdelta q) (fun _ => a0) a0).
    - apply ser_ext; intros; try reflexivity; [now apply Sf_mkS|].
      rewrite Lf_mkS by assumption. reflexivity.
    - assert (forall i, mv (length p) (pdelta p) (fun _ => @a0 M) i = a0) as Hz by (intros; apply sm_zero; intros; apply amul_0r).
      unfold fseries. apply mkS_ext.
      + intros i j Hi Hj. rewrite (mm_pdelta_r (length p)).
        * unfold pdelta. rewrite comp_nth by lia. reflexivity.
        * rewrite Hl. apply is_perm_nth_lt; [assumption|lia].
      + intros i Hi. rewrite Hz. apply aadd_0.
      + unfold dot. rewrite sm_zero by (intros; rewrite star_0; apply amul_0l).
        rewrite imp_selfadj by apply star_0. ncr.
  Qed.
  Lemma prm_ident n : prm (seq 0 n) = ident n :> slh.
  Proof.
    unfold prm, ident. rewrite seq_length. apply mkS_ext; try reflexivity. intros i j Hi Hj. unfold pdelta.
    rewrite seq_nth by exact Hj. reflexivity.
  Qed.
  Lemma cat_prm p q : is_perm p -> is_perm q ->
    cat (length p) (length q) (prm p) (prm q) = prm (concatenate_permutations p q) :> slh.
  Proof.
    intros Hp Hq. destruct (concatenate_side p q) as (E & E1 & E2). unfold cat. replace (prm (concatenate_permutations p q) : slh) with (mkS (Nat.add (length p) (length q)) (pdelta (concatenate_permutations p q)) (fun _ => a0) a0) by (unfold prm; now rewrite E). apply mkS_ext.
    - intros i j Hi Hj. unfold pdelta at 1. unfold prm.
      destruct (split_lt _ _ _ Hi) as [H|(i' & -> & H)]; destruct (split_lt _ _ _ Hj) as [H'|(j' & -> & H')].
      + rewrite fcat_ll by assumption. rewrite Sf_mkS by assumption. unfold pdelta. now rewrite E1.
      + rewrite fcat_lr by lia. rewrite E2 by assumption. rewrite delta_neq by lia. reflexivity.
      + rewrite fcat_rl by lia. rewrite E1 by assumption. rewrite delta_neq; [reflexivity|].
        pose proof (is_perm_nth_lt p j Hp H'). lia.
      + rewrite fcat_rr. rewrite Sf_mkS by assumption. rewrite E2 by assumption. unfold pdelta, delta.
        destruct (Nat.eqb_spec i' (nth j' q 0)), (Nat.eqb_spec (Nat.add (length p) i') (Nat.add (length p) (nth j' q 0))); try lia; reflexivity.
    - intros i Hi. unfold prm.
      destruct (split_lt _ _ _ Hi) as [H|(i' & -> & H)].
      + rewrite vcat_l by assumption. rewrite Lf_mkS by assumption. reflexivity.
      + rewrite vcat_r. rewrite Lf_mkS by assumption. reflexivity.
    - apply aadd_0.
  Qed.

  (** physical systems *)
  Definition phys n a : Prop := system a n /\ iso n (Sf a) /\ ciso n (Sf a) /\ star (sH a) = sH a.
  Lemma phys_spec n a : phys n a <-> physical a n.
  Proof.
    unfold phys, physical. assert (iso n (Sf a) <-> isometry (sS a) n) as H1 by reflexivity.
    assert (ciso n (Sf a) <-> coisometry (sS a) n) as H2.
    { split; intros H i j Hi Hj.
      - rewrite <- (ciso_mm n (Sf a) i j H Hi Hj). reflexivity.
      - rewrite <- (H i j Hi Hj). apply sm_ext. intros k Hk. unfold hc, Sf. rewrite star_star. reflexivity. }
    tauto.
  Qed.
  Lemma phys_ser n a b : phys n a -> phys n b -> phys n (ser n a b).
  Proof.
    intros (A1 & A2 & A3 & A4) (B1 & B2 & B3 & B4). split; [apply ser_system|]. split; [|split].
    - apply (iso_ext n (mm n (Sf a) (Sf b))); [intros; symmetry; now apply Sf_ser|]. now apply iso_mm.
    - unfold ciso. apply (iso_ext n (mm n (hc (Sf b)) (hc (Sf a)))).
      + intros i j Hi Hj. rewrite <- hc_mm. unfold hc. now rewrite Sf_ser.
      + now apply iso_mm.
    - unfold ser, fseries. rewrite sH_mkS. rewrite !star_add, star_imp, A4, B4. reflexivity.
  Qed.
  Lemma iso_fcat n1 n2 s1 s2 : iso n1 s1 -> iso n2 s2 -> iso (Nat.add n1 n2) (fcat n1 s1 s2).
  Proof.
    intros H1 H2 i j Hi Hj.
    rewrite (mm_ext (Nat.add n1 n2) (hc (fcat n1 s1 s2)) (fcat n1 s1 s2) (fcat n1 (hc s1) (hc s2)) (fcat n1 s1 s2) i j).
    - rewrite mm_fcat by assumption. rewrite (fcat_ext n1 n2 _ _ delta delta) by assumption.
      destruct (split_lt _ _ _ Hi) as [H|(i' & -> & H)]; destruct (split_lt _ _ _ Hj) as [H'|(j' & -> & H')].
      + now rewrite fcat_ll.
      + rewrite fcat_lr by lia. rewrite delta_neq by lia. reflexivity.
      + rewrite fcat_rl by lia. rewrite delta_neq by lia. reflexivity.
      + rewrite fcat_rr. unfold delta.
        destruct (Nat.eqb_spec i' j'), (Nat.eqb_spec (Nat.add n1 i') (Nat.add n1 j')); try lia; reflexivity.
    - intros k Hk. unfold hc, fcat. destruct (k <? n1), (i <? n1); try reflexivity; apply star_0.
    - reflexivity.
  Qed.
  Lemma hc_fcat n1 s1 s2 i j : hc (fcat n1 s1 s2) i j = fcat n1 (hc s1) (hc s2) i j.
  Proof. unfold hc, fcat. destruct (i <? n1), (j <? n1); try reflexivity; apply star_0. Qed.
  Lemma Sf_cat n1 n2 a b i j : i < Nat.add n1 n2 -> j < Nat.add n1 n2 -> Sf (cat n1 n2 a b) i j = fcat n1 (Sf a) (Sf b) i j.
  Proof. intros Hi Hj. unfold cat. now rewrite Sf_mkS. Qed.
  Lemma Lf_cat n1 n2 a b i : i < Nat.add n1 n2 -> Lf (cat n1 n2 a b) i = vcat n1 (Lf a) (Lf b) i.
  Proof. intros Hi. unfold cat. now rewrite Lf_mkS. Qed.
  Lemma phys_cat n1 n2 a b : phys n1 a -> phys n2 b -> phys (Nat.add n1 n2) (cat n1 n2 a b).
  Proof.
    intros (A1 & A2 & A3 & A4) (B1 & B2 & B3 & B4). split; [apply cat_system|]. split; [|split].
    - apply (iso_ext _ (fcat n1 (Sf a) (Sf b))); [intros; symmetry; now apply Sf_cat|]. now apply iso_fcat.
    - unfold ciso. apply (iso_ext _ (fcat n1 (hc (Sf a)) (hc (Sf b)))).
      + intros i j Hi Hj. rewrite <- hc_fcat. unfold hc. now rewrite Sf_cat.
      + now apply iso_fcat.
    - unfold cat. rewrite sH_mkS, star_add, A4, B4. reflexivity.
  Qed.
  Lemma phys_prm p : is_perm p -> phys (length p) (prm p).
  Proof.
    intros Hp. split; [apply prm_system|]. split; [|split].
    - apply (iso_ext _ (pdelta p)); [intros; symmetry; unfold prm; now apply Sf_mkS|]. now apply pdelta_iso.
    - unfold ciso. apply (iso_ext _ (hc (pdelta p))); [intros; unfold hc, prm; now rewrite Sf_mkS|]. now apply pdelta_ciso.
    - apply star_0.
  Qed.
  Lemma phys_ident n : phys n (ident n).
  Proof. rewrite <- prm_ident. rewrite <- (seq_length n 0) at 1. apply phys_prm. apply is_perm_seq. Qed.
  Lemma phys_sinv n a : phys n a -> phys n (sinv n a).
  Proof.
    intros (A1 & A2 & A3 & A4). split; [apply sinv_system|]. split; [|split].
    - apply (iso_ext _ (hc (Sf a))); [intros; symmetry; unfold sinv; now apply Sf_mkS|]. exact A3.
    - unfold ciso. apply (iso_ext _ (Sf a)); [|exact A2]. intros. unfold hc, sinv. rewrite Sf_mkS by assumption.
      unfold hc. symmetry. apply star_star.
    - unfold sinv. rewrite sH_mkS, star_opp, A4. reflexivity.
  Qed.
  (** an inverse is unique *)
  Lemma inverse_unique n a b : phys n a -> phys n b -> ser n a b = ident n -> b = sinv n a.
  Proof.
    intros Ha Hb E. destruct (Ha) as (A1 & A2 & A3 & A4).
    transitivity (ser n (sinv n a) (ser n a b)).
    - rewrite <- ser_assoc; [|apply (phys_sinv n a Ha)]. rewrite sinv_l by assumption.
      symmetry. apply ident_l. apply Hb.
    - rewrite E. apply ident_r. apply sinv_system.
  Qed.
  Lemma sinv_ser n a b : phys n a -> phys n b -> sinv n (ser n a b) = ser n (sinv n b) (sinv n a).
  Proof.
    intros Ha Hb. symmetry. apply inverse_unique.
    - now apply phys_ser.
    - apply phys_ser; now apply phys_sinv.
    - rewrite ser_assoc by apply Ha. rewrite <- (ser_assoc n b) by apply Hb. rewrite sinv_r by apply Hb.
      rewrite ident_l by apply sinv_system. apply sinv_r. apply Ha.
  Qed.
  Lemma sinv_cat n1 n2 a b : phys n1 a -> phys n2 b ->
    sinv (Nat.add n1 n2) (cat n1 n2 a b) = cat n1 n2 (sinv n1 a) (sinv n2 b).
  Proof.
    intros Ha Hb. symmetry. apply inverse_unique.
    - now apply phys_cat.
    - apply phys_cat; now apply phys_sinv.
    - rewrite interchange, !sinv_r by (apply Ha || apply Hb). apply cat_ident.
  Qed.
  Lemma sinv_prm p : is_perm p -> sinv (length p) (prm p) = prm (inv_of p) :> slh.
  Proof.
    intros Hp. pose proof (inv_of_perm p Hp) as Hq. symmetry. apply inverse_unique.
    - now apply phys_prm.
    - rewrite <- (inv_of_length p). now apply phys_prm.
    - rewrite prm_ser by (try assumption; symmetry; apply inv_of_length). rewrite comp_inv_r by exact Hp. apply prm_ident.
  Qed.
  Lemma sinv_ident n : sinv n (ident n) = ident n :> slh.
  Proof. symmetry. apply inverse_unique; try apply phys_ident. apply ident_l. apply ident_system. Qed.

  (** *** feedback *)
  Definition invs x y : Prop := (a1 + aopp x) * y = a1 /\ y * (a1 + aopp x) = a1.
  Lemma invs_l x y : invs x y -> x * y = y + aopp a1.
  Proof. intros [H _]. rewrite <- H. ncr. Qed.
  Lemma invs_r x y : invs x y -> y * x = y + aopp a1.
  Proof. intros [_ H]. rewrite <- H. ncr. Qed.
  Lemma invs_star x y : invs x y -> invs (star x) (star y).
  Proof.
    intros [H1 H2]. split.
    - rewrite <- star_1 at 1. rewrite <- star_opp, <- star_add, <- star_mul, H2. apply star_1.
    - rewrite <- star_1 at 1. rewrite <- star_opp, <- star_add, <- star_mul, H1. apply star_1.
  Qed.
  Lemma invs_scal x k : smul k a1 * (a1 + aopp x) = a1 -> invs x (smul k a1).
  Proof. intros H. split; [|exact H]. rewrite <- smul_via_r. rewrite smul_via. exact H. Qed.
  Lemma invs_unique x y y' : invs x y -> invs x y' -> y = y'.
  Proof.
    intros [H1 H2] [H1' H2']. rewrite <- (amul_1r M y), <- H1', amul_assoc, H2. apply amul_1l.
  Qed.

  Definition red n s y u : nat -> A := fun i => u i + s i n * y * u n.
  Lemma dot_S n u v : dot (S n) u v = dot n u v + star (u n) * v n.
  Proof. exact (sm_S n (fun k => star (u k) * v k)). Qed.
  Lemma fb_dot n s y u v : invs (s n n) y -> dot (S n) (fun k => s k n) (fun k => s k n) = a1 ->
    dot n (red n s y u) (red n s y v) =
    dot (S n) u v + dot (S n) u (fun k => s k n) * y * v n + star (u n) * star y * dot (S n) (fun k => s k n) v.
  Proof.
    intros Hy Hc. rewrite !dot_S in *. unfold red. rewrite dot_add_l, !dot_add_r.
    assert (forall w, dot n w (fun k => s k n * y * v n) = dot n w (fun k => s k n) * (y * v n)) as E1.
    { intros w. rewrite <- dot_mul_r. apply dot_ext; intros; [reflexivity|]. symmetry. apply amul_assoc. }
    assert (forall w, dot n (fun k => s k n * y * u n) w = star (u n) * star y * dot n (fun k => s k n) w) as E2.
    { intros w. rewrite <- star_mul, <- dot_mul_l. apply dot_ext; intros; [|reflexivity]. symmetry. apply amul_assoc. }
    rewrite !E1, !E2. set (c := fun k => s k n) in *.
    assert (dot n c c = a1 + aopp (star (s n n) * s n n)) as Ec by (rewrite <- Hc; change (c n) with (s n n); ncr).
    rewrite Ec. pose proof (invs_l _ _ Hy) as H1. pose proof (invs_r _ _ (invs_star _ _ Hy)) as H2.
    change (c n) with (s n n).
    set (Y := star y) in *. set (S0 := star (s n n)) in *. set (s0 := s n n) in *.
    set (d1 := dot n u v). set (d2 := dot n u c). set (d3 := dot n c v). set (U := star (u n)). set (V := v n).
    transitivity (d1 + d2 * y * V + U * Y * d3 + U * (Y * y + aopp ((Y * S0) * (s0 * y))) * V); [ncr|].
    transitivity (d1 + U * V + d2 * y * V + U * (s0 * y) * V + U * Y * d3 + U * (Y * S0) * V); [|ncr].
    rewrite H1, H2. ncr.
  Qed.
  Lemma iso_col n s i j : iso n s -> i < n -> j < n -> dot n (fun k => s k i) (fun k => s k j) = delta i j.
  Proof. intros H Hi Hj. exact (H i j Hi Hj). Qed.

  Lemma fb_iso n s y : iso (S n) s -> invs (s n n) y -> iso n (fun i j => s i j + s i n * y * s n j).
  Proof.
    intros Hs Hy i j Hi Hj.
    change (dot n (red n s y (fun k => s k i)) (red n s y (fun k => s k j)) = delta i j).
    assert (n < S n) as Hn by lia.
    rewrite fb_dot; [|exact Hy|rewrite (iso_col (S n) s n n Hs Hn Hn); apply delta_refl].
    rewrite !(iso_col (S n) s) by (try exact Hs; lia). rewrite (delta_neq i n), (delta_neq n j) by lia. ncr.
  Qed.
  Lemma Sf_fbl n a y i j : i < n -> j < n -> Sf (fbl n a y) i j = Sf a i j + Sf a i n * y * Sf a n j.
  Proof. intros Hi Hj. unfold fbl, ffb. now rewrite Sf_mkS. Qed.
  Lemma Lf_fbl n a y i : i < n -> Lf (fbl n a y) i = red n (Sf a) y (Lf a) i.
  Proof. intros Hi. unfold fbl, ffb. now rewrite Lf_mkS. Qed.
  Lemma phys_fbl n a y : phys (S n) a -> invs (Sf a n n) y -> phys n (fbl n a y).
  Proof.
    intros (A1 & A2 & A3 & A4) Hy. split; [apply fbl_system|]. split; [|split].
    - apply (iso_ext n (fun i j => Sf a i j + Sf a i n * y * Sf a n j)); [intros; symmetry; now apply Sf_fbl|].
      now apply fb_iso.
    - unfold ciso. apply (iso_ext n (fun i j => hc (Sf a) i j + hc (Sf a) i n * star y * hc (Sf a) n j)).
      + intros i j Hi Hj. unfold hc. rewrite Sf_fbl by assumption. rewrite star_add, !star_mul. now rewrite amul_assoc.
      + apply fb_iso; [exact A3|]. apply invs_star. exact Hy.
    - unfold fbl, ffb. rewrite sH_mkS, star_add, star_imp, A4. reflexivity.
  Qed.

  (** the generator of the closed loop is the Schur complement *)
  Lemma bel_fbl n a y : iso (S n) (Sf a) -> invs (Sf a n n) y ->
    eqx n (bel n (fbl n a y)) (fun i j => bel (S n) a i j + bel (S n) a i (iC n) * y * bel (S n) a (iC n) j).
  Proof.
    intros Ha Hy i j Hi Hj. assert (n < S n) as Hn by lia.
    pose proof (iso_col (S n) (Sf a) n n Ha Hn Hn) as Hc. rewrite delta_refl in Hc.
    destruct i as [| |i], j as [| |j]; cbn [bel inb] in *; try ncr.
    - (* T B *)
      rewrite (dot_ext n (Lf (fbl n a y)) (Lf (fbl n a y)) _ _ (fun k Hk => Lf_fbl n a y k Hk) (fun k Hk => Lf_fbl n a y k Hk)).
      rewrite fb_dot by assumption. unfold fbl, ffb. rewrite sH_mkS.
      set (m := dot (S n) (Lf a) (fun k => Sf a k n) * y * Lf a n).
      replace (star (Lf a n) * star y * dot (S n) (fun k => Sf a k n) (Lf a)) with (star m).
      2:{ unfold m. rewrite !star_mul, star_dot. apply amul_assoc. }
      rewrite <- aadd_assoc. rewrite !(smul_addr M khalf). rewrite smul_addr.
      replace (aopp (dot (S n) (Lf a) (fun k => Sf a k n)) * y * Lf a n) with (aopp m) by (unfold m; ncr).
      rewrite <- (imp_half m). rewrite smul_addr. set (q := dot (S n) (Lf a) (Lf a)).
      set (p1 := smul (kopp iu) (sH a)). set (p2 := smul (kopp iu) (imp m)). set (p3 := smul khalf q).
      set (p4 := smul khalf m). set (p5 := smul khalf (star m)). ncr.
    - (* T C *)
      rewrite (dot_ext n (Lf (fbl n a y)) (fun k => Sf (fbl n a y) k j) (red n (Sf a) y (Lf a)) (red n (Sf a) y (fun k => Sf a k j))).
      + rewrite fb_dot by assumption. rewrite (iso_col (S n) (Sf a) n j) by (try exact Ha; lia). rewrite delta_neq by lia.
        set (d1 := dot (S n) _ _). set (d2 := dot (S n) (Lf a) (fun k => Sf a k n)). ncr.
      + intros k Hk. now apply Lf_fbl.
      + intros k Hk. now apply Sf_fbl.
    - (* C B *) rewrite Lf_fbl by assumption. unfold red. reflexivity.
    - (* C C *) rewrite Sf_fbl by assumption. reflexivity.
  Qed.
End F.
