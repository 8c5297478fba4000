(** Laws of the feedback operation. *)
From Verif Require Import Prelude ListFacts PermModel PermSpec PermProofs1 PermProofs3 PermProofs4 AlgSpec CAlg NcRing MatModel SlhModel MatProofs MatSpec SlhProofs1 SlhProofs2 SlhProofs3 SlhProofs4 SlhProofs5.

Section F.
  Context {M : calgebra}.
  Add Ring Kr : (kring M).
  Notation A := (A M). Notation K := (K M). Notation slh := (slh M).
  Notation "x + y" := (aadd x y). Notation "x * y" := (amul x y).
  Implicit Types x y z : A. Implicit Types u v w : nat -> A. Implicit Types s t : nat -> nat -> A.
  Implicit Types n m : nat. Implicit Types a b c : slh.
  Notation sm := (@bigsum M).
  Local Notation pdelta := (@pdelta M).

  Lemma ffb_ext n s u x y s' u' x' : (forall i j, i < S n -> j < S n -> s i j = s' i j) ->
    (forall i, i < S n -> u i = u' i) -> x = x' -> ffb n s u x y = ffb n s' u' x' y.
  Proof.
    intros Hs Hu ->. unfold ffb. apply mkS_ext.
    - intros i j Hi Hj. rewrite !Hs by lia. reflexivity.
    - intros i Hi. rewrite !Hs, !Hu by lia. reflexivity.
    - rewrite Hu by lia. do 4 f_equal. apply dot_ext; intros k Hk; [now apply Hu|apply Hs; lia].
  Qed.

  (** feedback acts on the last component only *)
  Lemma fb_cat n1 n2 a b y : fbl (Nat.add n1 n2) (cat n1 (S n2) a b) y = cat n1 n2 a (fbl n2 b y).
  Proof.
    unfold fbl at 1.
    rewrite (ffb_ext (Nat.add n1 n2) (Sf (cat n1 (S n2) a b)) (Lf (cat n1 (S n2) a b)) _ y
               (fcat n1 (Sf a) (Sf b)) (vcat n1 (Lf a) (Lf b)) (sH a + sH b)).
    2:{ intros i j Hi Hj. apply Sf_cat; lia. }
    2:{ intros i Hi. apply Lf_cat; lia. }
    2:{ reflexivity. }
    unfold ffb, cat. apply mkS_ext.
    - intros i j Hi Hj. destruct (split_lt _ _ _ Hi) as [H|(i' & -> & H)]; destruct (split_lt _ _ _ Hj) as [H'|(j' & -> & H')].
      + rewrite !(fcat_ll n1 _ _ i j) by assumption. rewrite (fcat_lr n1 _ _ i) by lia. ncr.
      + rewrite !(fcat_lr n1 _ _ i) by lia. ncr.
      + rewrite !(fcat_rl n1 _ _ _ j) by lia. ncr.
      + rewrite !fcat_rr. now rewrite Sf_fbl.
    - intros i Hi. destruct (split_lt _ _ _ Hi) as [H|(i' & -> & H)].
      + rewrite !(vcat_l n1 _ _ i) by assumption. rewrite (fcat_lr n1 _ _ i) by lia. ncr.
      + rewrite !vcat_r, fcat_rr. now rewrite Lf_fbl.
    - unfold fbl, ffb. rewrite sH_mkS. rewrite vcat_r.
      replace (S (Nat.add n1 n2)) with (Nat.add n1 (S n2)) by lia.
      rewrite (dot_ext (Nat.add n1 (S n2)) (vcat n1 (Lf a) (Lf b)) (fun k => fcat n1 (Sf a) (Sf b) k (Nat.add n1 n2))
                (vcat n1 (Lf a) (Lf b)) (vcat n1 (fun _ => a0) (fun k => Sf b k n2))).
      + rewrite dot_vcat. unfold dot at 1. rewrite sm_zero by (intros; apply amul_0r). rewrite aadd_0. symmetry. apply aadd_assoc.
      + reflexivity.
      + intros k Hk. destruct (split_lt _ _ _ Hk) as [H|(k' & -> & H)].
        * rewrite fcat_lr, vcat_l by lia. reflexivity.
        * now rewrite fcat_rr, vcat_r.
  Qed.

  (** the ingredients of [a + cid(1)] *)
  Lemma Sf_cat1 n a i j : i < n -> j < n -> Sf (cat n 1 a (ident 1)) i j = Sf a i j.
  Proof. intros. rewrite Sf_cat by lia. now apply fcat_ll. Qed.
  Lemma Sf_cat1_col n a i : i < n -> Sf (cat n 1 a (ident 1)) i n = a0.
  Proof. intros. rewrite Sf_cat by lia. apply fcat_lr; lia. Qed.
  Lemma Sf_cat1_row n a j : j < n -> Sf (cat n 1 a (ident 1)) n j = a0.
  Proof. intros. rewrite Sf_cat by lia. apply fcat_rl; lia. Qed.
  Lemma Sf_cat1_nn n a : Sf (cat n 1 a (ident 1)) n n = a1.
  Proof.
    rewrite Sf_cat by lia. rewrite <- (Nat.add_0_r n) at 2 3. rewrite fcat_rr. unfold ident. rewrite Sf_mkS by lia. apply delta_refl.
  Qed.
  Lemma Lf_cat1 n a i : i < n -> Lf (cat n 1 a (ident 1)) i = Lf a i.
  Proof. intros. rewrite Lf_cat by lia. now apply vcat_l. Qed.
  Lemma Lf_cat1_n n a : Lf (cat n 1 a (ident 1)) n = a0.
  Proof.
    rewrite Lf_cat by lia. rewrite <- (Nat.add_0_r n) at 2. rewrite vcat_r. unfold ident. now rewrite Lf_mkS by lia.
  Qed.
  Lemma sH_cat1 n a : sH (cat n 1 a (ident 1)) = sH a.
  Proof. unfold cat. rewrite sH_mkS. apply aadd_0r. Qed.
  Lemma mv_cat1 n a u i : i < n -> mv (S n) (Sf (cat n 1 a (ident 1))) u i = mv n (Sf a) u i.
  Proof.
    intros Hi. unfold mv. rewrite sm_S, Sf_cat1_col by assumption. rewrite amul_0l, aadd_0r. apply sm_ext. intros k Hk.
    now rewrite Sf_cat1.
  Qed.
  Lemma mv_cat1_n n a u : mv (S n) (Sf (cat n 1 a (ident 1))) u n = u n.
  Proof.
    unfold mv. rewrite sm_S, Sf_cat1_nn, amul_1l. rewrite sm_zero; [apply aadd_0|]. intros k Hk. rewrite Sf_cat1_row by assumption.
    apply amul_0l.
  Qed.
  Lemma dot_last0 n u v : u n = a0 \/ v n = a0 -> dot (S n) u v = dot n u v.
  Proof. intros [H|H]; rewrite dot_S, H, ?star_0, ?amul_0l, ?amul_0r; apply aadd_0r. Qed.

  (** a factor that does not touch the loop can be pulled out on the output side *)
  Lemma fb_ser_l n a b y : iso n (Sf a) ->
    fbl n (ser (S n) (cat n 1 a (ident 1)) b) y = ser n a (fbl n b y).
  Proof.
    intros Ha. set (a' := cat n 1 a (ident 1)). unfold fbl at 1.
    rewrite (ffb_ext n (Sf (ser (S n) a' b)) (Lf (ser (S n) a' b)) _ y
               (mm (S n) (Sf a') (Sf b)) (fun i => mv (S n) (Sf a') (Lf b) i + Lf a' i) (sH (ser (S n) a' b)))
      by (intros; first [reflexivity|now apply Sf_ser|now apply Lf_ser]).
    unfold ffb. unfold ser at 2. unfold fseries. apply mkS_ext.
    - intros i j Hi Hj. rewrite !mv_col. unfold a'. rewrite !mv_cat1, mv_cat1_n by assumption.
      unfold mm, mv. rewrite <- sm_mul_r, <- sm_mul_r, <- sm_add. apply sm_ext. intros k Hk.
      rewrite Sf_fbl by assumption. ncr.
    - intros i Hi. rewrite !mv_col. unfold a'. rewrite !mv_cat1, mv_cat1_n, Lf_cat1, Lf_cat1_n by assumption.
      rewrite aadd_0r. rewrite (mv_ext n (Sf a) (Lf (fbl n b y)) (Sf a) (fun k => Lf b k + Sf b k n * y * Lf b n) i)
        by (intros; try reflexivity; now apply Lf_fbl).
      rewrite mv_add. rewrite !mv_mul. set (p := mv n _ _ _). set (q := mv n _ _ _). ncr.
    - unfold ser, fseries. rewrite sH_mkS. unfold fbl, ffb. rewrite sH_mkS. fold a'.
      replace (sH a') with (sH a) by (symmetry; apply sH_cat1).
      set (L' := fun i => mv (S n) (Sf a') (Lf b) i + Lf a' i).
      assert (L' n = Lf b n) as En by (unfold L', a'; rewrite mv_cat1_n, Lf_cat1_n; apply aadd_0r).
      cbn beta. replace (mv (S n) (Sf a') (Lf b) n + Lf a' n) with (Lf b n) by (symmetry; exact En).
      change (fun k => mm (S n) (Sf a') (Sf b) k n) with (mv (S n) (Sf a') (fun k => Sf b k n)).
      (* the three dot products *)
      rewrite (dot_last0 n (Lf a')) by (left; apply Lf_cat1_n).
      rewrite (dot_ext n (Lf a') (mv (S n) (Sf a') (Lf b)) (Lf a) (mv n (Sf a) (Lf b)))
        by (intros; first [now apply Lf_cat1|now apply mv_cat1]).
      unfold L'. rewrite dot_add_l. rewrite (dot_last0 n (Lf a')) by (left; apply Lf_cat1_n).
      rewrite (dot_ext n (Lf a') _ (Lf a) (mv n (Sf a) (fun k => Sf b k n))) by (intros; first [now apply Lf_cat1|now apply mv_cat1]).
      assert (dot (S n) (mv (S n) (Sf a') (Lf b)) (mv (S n) (Sf a') (fun k => Sf b k n)) = dot (S n) (Lf b) (fun k => Sf b k n)) as E1.
      { rewrite !dot_S. unfold a'. rewrite !mv_cat1_n. f_equal.
        rewrite <- (iso_dot n (Sf a) (Lf b) (fun k => Sf b k n) Ha).
        apply dot_ext; intros; now apply mv_cat1. }
      rewrite E1.
      fold (ffb n (Sf b) (Lf b) (sH b) y). fold (fbl n b y).
      rewrite (dot_ext n (Lf a) (mv n (Sf a) (Lf (fbl n b y))) (Lf a)
                 (fun i => mv n (Sf a) (Lf b) i + mv n (Sf a) (fun k => Sf b k n) i * (y * Lf b n))).
      2:{ reflexivity. }
      2:{ intros k Hk. rewrite <- mv_mul, <- mv_add. apply mv_ext; [reflexivity|]. intros l Hl. rewrite Lf_fbl by assumption.
          unfold red. now rewrite amul_assoc. }
      rewrite dot_add_r, dot_mul_r. rewrite !amul_addl, !imp_add. rewrite !amul_assoc.
      set (p1 := imp _). set (p2 := imp _). set (p3 := imp _). ncr.
  Qed.

  (** ... and on the input side *)
  Lemma fb_ser_r n a b y : iso (S n) (Sf b) -> invs (Sf b n n) y ->
    fbl n (ser (S n) b (cat n 1 a (ident 1))) y = ser n (fbl n b y) a.
  Proof.
    intros Hb Hy. set (a' := cat n 1 a (ident 1)). unfold fbl at 1.
    assert (forall i, i < S n -> mm (S n) (Sf b) (Sf a') i n = Sf b i n) as Ec.
    { intros i Hi. unfold mm. rewrite sm_S. unfold a'. rewrite Sf_cat1_nn, amul_1r. rewrite sm_zero; [apply aadd_0|].
      intros k Hk. rewrite Sf_cat1_col by assumption. apply amul_0r. }
    assert (forall i j, j < n -> mm (S n) (Sf b) (Sf a') i j = mm n (Sf b) (Sf a) i j) as Em.
    { intros i j Hj. unfold mm. rewrite sm_S. unfold a'. rewrite Sf_cat1_row by assumption. rewrite amul_0r, aadd_0r.
      apply sm_ext. intros k Hk. now rewrite Sf_cat1. }
    assert (forall i, mv (S n) (Sf b) (Lf a') i = mv n (Sf b) (Lf a) i) as Ev.
    { intros i. unfold mv. rewrite sm_S. unfold a'. rewrite Lf_cat1_n. rewrite amul_0r, aadd_0r.
      apply sm_ext. intros k Hk. now rewrite Lf_cat1. }
    rewrite (ffb_ext n (Sf (ser (S n) b a')) (Lf (ser (S n) b a')) _ y
               (mm (S n) (Sf b) (Sf a')) (fun i => mv n (Sf b) (Lf a) i + Lf b i) (sH (ser (S n) b a'))).
    2:{ intros; now apply Sf_ser. }
    2:{ intros i Hi. rewrite <- Ev. now apply Lf_ser. }
    2:{ reflexivity. }
    unfold ffb. unfold ser at 2. unfold fseries. apply mkS_ext.
    - intros i j Hi Hj. rewrite Ec, !Em by lia. unfold mm. rewrite <- sm_mul_l, <- sm_add. apply sm_ext. intros k Hk.
      rewrite Sf_fbl by assumption. ncr.
    - intros i Hi. rewrite Ec by lia. rewrite Lf_fbl by assumption. unfold red.
      rewrite (mv_ext n (Sf (fbl n b y)) (Lf a) (fun i k => Sf b i k + Sf b i n * y * Sf b n k) (Lf a) i)
        by (intros; try reflexivity; now apply Sf_fbl).
      unfold mv. rewrite amul_addr, <- sm_mul_l.
      rewrite (sm_ext n (fun k => (Sf b i k + Sf b i n * y * Sf b n k) * Lf a k)
                 (fun k => Sf b i k * Lf a k + Sf b i n * y * (Sf b n k * Lf a k))) by (intros; ncr).
      rewrite sm_add. set (p := sm n _). set (q := sm n _). ncr.
    - unfold ser, fseries. rewrite sH_mkS. unfold fbl, ffb. rewrite sH_mkS. fold a'.
      replace (sH a') with (sH a) by (symmetry; apply sH_cat1).
      fold (ffb n (Sf b) (Lf b) (sH b) y). fold (fbl n b y).
      set (v := mv n (Sf b) (Lf a)). set (c := fun k => Sf b k n).
      rewrite (dot_ext (S n) (Lf b) (mv (S n) (Sf b) (Lf a')) (Lf b) v) by (intros; try reflexivity; apply Ev).
      rewrite (dot_ext (S n) (fun i => v i + Lf b i) (fun k => mm (S n) (Sf b) (Sf a') k n) (fun i => v i + Lf b i) c)
        by (intros; try reflexivity; now apply Ec).
      rewrite dot_add_l. change (mv n (Sf b) (Lf a) n) with (v n).
      assert (dot (S n) v c = a0) as Evc.
      { rewrite (dot_ext (S n) v c (mv (S n) (Sf b) (Lf a')) (mv (S n) (Sf b) (fun k => delta k n))).
        - rewrite iso_dot by exact Hb. unfold dot. rewrite (sm_delta_r (S n) n (fun k => star (Lf a' k))) by lia.
          unfold a'. rewrite Lf_cat1_n. apply star_0.
        - intros. symmetry. apply Ev.
        - intros k Hk. unfold c. symmetry. exact (mm_delta_r (S n) (Sf b) k n ltac:(lia)). }
      rewrite Evc, aadd_0.
      rewrite (dot_ext n (Lf (fbl n b y)) (mv n (Sf (fbl n b y)) (Lf a)) (red n (Sf b) y (Lf b)) (red n (Sf b) y v)).
      2:{ intros; now apply Lf_fbl. }
      2:{ intros k Hk. unfold red, v. rewrite (mv_ext n (Sf (fbl n b y)) (Lf a) (fun i k => Sf b i k + Sf b i n * y * Sf b n k) (Lf a) k)
            by (intros; try reflexivity; now apply Sf_fbl).
          unfold mv. rewrite <- sm_mul_l, <- sm_add. apply sm_ext. intros l Hl. ncr. }
      pose proof (iso_col (S n) (Sf b) n n Hb ltac:(lia) ltac:(lia)) as Hc. rewrite delta_refl in Hc.
      rewrite fb_dot by assumption. fold c. replace (dot (S n) c v) with (@a0 M).
      2:{ rewrite <- (star_dot (S n) v c), Evc, star_0. reflexivity. }
      rewrite amul_0r, aadd_0r. rewrite amul_addr, !imp_add.
      set (p1 := imp _). set (p2 := imp _). set (p3 := imp _). ncr.
  Qed.

  (** feedback of a physical system commutes with the inverse *)
  Lemma fb_sinv n a y : iso (S n) (Sf a) -> ciso (S n) (Sf a) -> star (sH a) = sH a -> system a (S n) -> invs (Sf a n n) y ->
    fbl n (sinv (S n) a) (star y) = sinv n (fbl n a y).
  Proof.
    intros H1 H2 H3 H4 Hy.
    assert (phys (S n) a) as Ha by (split; [|split; [|split]]; assumption).
    pose proof (phys_sinv (S n) a Ha) as Hi.
    assert (Sf (sinv (S n) a) n n = star (Sf a n n)) as En by (unfold sinv; rewrite Sf_mkS by lia; reflexivity).
    assert (invs (Sf (sinv (S n) a) n n) (star y)) as Hy' by (rewrite En; now apply invs_star).
    apply (mkS_slh_eq _ _ n); [apply fbl_system|apply sinv_system|..].
    - intros i j Hi' Hj. rewrite Sf_fbl by assumption. unfold sinv. rewrite !Sf_mkS by lia. unfold hc. rewrite Sf_fbl by assumption.
      rewrite star_add, !star_mul. now rewrite amul_assoc.
    - intros i Hi'. rewrite Lf_fbl by assumption. unfold red, sinv. rewrite Sf_mkS, !Lf_mkS by lia.
      rewrite (mv_ext n (hc (Sf (fbl n a y))) (Lf (fbl n a y))
        (fun i k => star (red n (Sf a) y (fun k => Sf a k i) k)) (red n (Sf a) y (Lf a)) i).
      2:{ intros k Hk. unfold hc. rewrite Sf_fbl by assumption. reflexivity. }
      2:{ intros k Hk. now apply Lf_fbl. }
      change (mv n (fun i k => star (red n (Sf a) y (fun k => Sf a k i) k)) (red n (Sf a) y (Lf a)) i)
        with (dot n (red n (Sf a) y (fun k => Sf a k i)) (red n (Sf a) y (Lf a))).
      pose proof (iso_col (S n) (Sf a) n n H1 ltac:(lia) ltac:(lia)) as Hc. rewrite delta_refl in Hc.
      rewrite fb_dot by assumption. rewrite (iso_col (S n) (Sf a) i n) by (try assumption; lia). rewrite delta_neq by lia.
      unfold hc at 2. change (mv (S n) (hc (Sf a)) (Lf a) i) with (dot (S n) (fun k => Sf a k i) (Lf a)).
      change (mv (S n) (hc (Sf a)) (Lf a) n) with (dot (S n) (fun k => Sf a k n) (Lf a)).
      set (p := dot _ _ _). set (q := dot _ _ _). set (r := star _). ncr.
    - (* H *)
      unfold fbl, ffb. rewrite sH_mkS. unfold sinv at 1 2 3 4. rewrite sH_mkS.
      unfold sinv. rewrite sH_mkS, Lf_mkS by lia.
      rewrite (dot_ext (S n) (Lf (mkS (S n) (hc (Sf a)) (fun i => aopp (mv (S n) (hc (Sf a)) (Lf a) i)) (aopp (sH a))))
                 (fun k => Sf (mkS (S n) (hc (Sf a)) (fun i => aopp (mv (S n) (hc (Sf a)) (Lf a) i)) (aopp (sH a))) k n)
                 (fun i => aopp (mv (S n) (hc (Sf a)) (Lf a) i)) (fun k => mv (S n) (hc (Sf a)) (fun j => delta j n) k)).
      2:{ intros k Hk. now rewrite Lf_mkS. }
      2:{ intros k Hk. rewrite Sf_mkS by lia. symmetry. exact (mm_delta_r (S n) (hc (Sf a)) k n ltac:(lia)). }
      rewrite dot_opp_l. rewrite iso_dot by exact H2. unfold dot at 1.
      rewrite (sm_delta_r (S n) n (fun k => star (Lf a k))) by lia.
      change (mv (S n) (hc (Sf a)) (Lf a) n) with (dot (S n) (fun k => Sf a k n) (Lf a)).
      rewrite <- (star_dot (S n) (Lf a)). set (d := dot (S n) (Lf a) _). set (l := Lf a n).
      replace (aopp (star l) * star y * aopp (star d)) with (star (d * y * l)) by (rewrite !star_mul; ncr).
      rewrite imp_star. rewrite sH_mkS. ncr.
  Qed.
End F.
