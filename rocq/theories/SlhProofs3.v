(** The Ito generator matrix of an SLH triple:
      [ 1   -L^dagger S   -iH - L^dagger L / 2 ]
      [ 0        S                 L           ]
      [ 0        0                 1           ]
    Series products become matrix products and feedback becomes a Schur
    complement, which gives the laws of the SLH operations. *)
From Verif Require Import Prelude ListFacts PermModel PermSpec PermProofs1 AlgSpec CAlg NcRing MatModel SlhModel MatProofs MatSpec SlhProofs1 SlhProofs2.

Section F.
  Context {M : calgebra}.
  Add Ring Kr : (kring M).
  Notation A := (A M). Notation K := (K M). Notation slh := (slh M).
  Notation "x + y" := (aadd x y). Notation "x * y" := (amul x y).
  Implicit Types x y z : A. Implicit Types u v w : nat -> A. Implicit Types s t : nat -> nat -> A.
  Implicit Types n m : nat. Implicit Types a b c : slh. Implicit Types F G : ix -> ix -> A.
  Notation sm := (@bigsum M).

  Lemma asum_ixs n (f : ix -> A) : asum f (ixs n) = f iT + (f iB + sm n (fun k => f (iC k))).
  Proof. unfold ixs. rewrite !asum_cons, asum_map. reflexivity. Qed.
  Lemma in_ixs n i : In i (ixs n) <-> inb n i.
  Proof.
    unfold ixs. destruct i as [| |k]; cbn [In inb]; [tauto|tauto|].
    split.
    - intros [H|[H|H]]; try discriminate. apply in_map_iff in H as (k' & E & Hk). injection E as ->. apply in_seq in Hk. lia.
    - intros H. right. right. apply in_map. apply in_seq. lia.
  Qed.
  Definition xm n F G i j : A := asum (fun k => F i k * G k j) (ixs n).
  Definition eqx n F G : Prop := forall i j, inb n i -> inb n j -> F i j = G i j.
  Lemma eqx_sym n F G : eqx n F G -> eqx n G F.
  Proof. intros H i j Hi Hj. symmetry. now apply H. Qed.
  Lemma eqx_trans n F G G' : eqx n F G -> eqx n G G' -> eqx n F G'.
  Proof. intros H H' i j Hi Hj. rewrite H by assumption. now apply H'. Qed.
  Lemma xm_ext n F G F' G' : eqx n F F' -> eqx n G G' -> eqx n (xm n F G) (xm n F' G').
  Proof.
    intros HF HG i j Hi Hj. apply asum_ext. intros k Hk. apply in_ixs in Hk. rewrite HF, HG by assumption. reflexivity.
  Qed.
  Lemma xm_assoc n F G G' : eqx n (xm n (xm n F G) G') (xm n F (xm n G G')).
  Proof.
    intros i j _ _. unfold xm.
    transitivity (asum (fun k => asum (fun l => F i l * G l k * G' k j) (ixs n)) (ixs n)).
    - apply asum_ext. intros k _. symmetry. apply (asum_mul_r M (fun l => F i l * G l k)).
    - rewrite asum_swap. apply asum_ext. intros l _. rewrite <- asum_mul_l. apply asum_ext. intros k _.
      symmetry. apply amul_assoc.
  Qed.

  Definition bel n a (i j : ix) : A :=
    match i, j with
    | iT, iT => a1
    | iT, iC l => aopp (dot n (Lf a) (fun k => Sf a k l))
    | iT, iB => smul (kopp iu) (sH a) + aopp (smul khalf (dot n (Lf a) (Lf a)))
    | iC k, iC l => Sf a k l
    | iC k, iB => Lf a k
    | iB, iB => a1
    | _, _ => a0
    end.
  Lemma bel_inj n a b : system a n -> system b n -> eqx n (bel n a) (bel n b) -> a = b.
  Proof.
    intros Ha Hb H. assert (forall i, i < n -> Lf a i = Lf b i) as HL by (intros i Hi; exact (H (iC i) iB Hi I)).
    apply (mkS_slh_eq a b n Ha Hb).
    - intros i j Hi Hj. exact (H (iC i) (iC j) Hi Hj).
    - exact HL.
    - pose proof (H iT iB I I) as E. cbn [bel] in E.
      rewrite (dot_ext n (Lf a) (Lf a) (Lf b) (Lf b) HL HL) in E.
      rewrite (aadd_comm M (smul _ (sH a))), (aadd_comm M (smul _ (sH b))) in E. apply aadd_cancel_l in E.
      rewrite !smul_opp in E. apply (f_equal aopp) in E. rewrite !aopp_opp in E. now apply smul_inj_iu in E.
  Qed.

  (** total versions of the operations *)
  Definition ser n a b : slh := fseries n (Sf a) (Lf a) (sH a) (Sf b) (Lf b) (sH b).
  Definition cat n1 n2 a b : slh :=
    mkS (Nat.add n1 n2) (fcat n1 (Sf a) (Sf b)) (vcat n1 (Lf a) (Lf b)) (sH a + sH b).
  Definition sinv n a : slh := mkS n (hc (Sf a)) (fun i => aopp (mv n (hc (Sf a)) (Lf a) i)) (aopp (sH a)).
  Definition prm (p : list nat) : slh := mkS (length p) (pdelta p) (fun _ => a0) a0.
  Definition fbl n a y : slh := ffb n (Sf a) (Lf a) (sH a) y.
  Definition ident n : slh := mkS n delta (fun _ => a0) a0.

  Lemma series_ok a b n : system a n -> system b n -> series_with_slh a b = Ok (ser n a b).
  Proof.
    intros Ha Hb. rewrite (system_mkS a n Ha) at 1. rewrite (system_mkS b n Hb) at 1. apply series_mkS.
  Qed.
  Lemma concat_ok a b n1 n2 : system a n1 -> system b n2 -> concatenate_slh a b = Ok (cat n1 n2 a b).
  Proof.
    intros Ha Hb. rewrite (system_mkS a n1 Ha) at 1. rewrite (system_mkS b n2 Hb) at 1. apply concat_mkS.
  Qed.
  Lemma sinv_ok a n : system a n -> slh_series_inverse a = Ok (sinv n a).
  Proof. intros Ha. rewrite (system_mkS a n Ha) at 1. apply inverse_mkS. Qed.
  Lemma ser_system n a b : system (ser n a b) n.
  Proof. apply mkS_system. Qed.
  Lemma cat_system n1 n2 a b : system (cat n1 n2 a b) (n1 + n2).
  Proof. apply mkS_system. Qed.
  Lemma sinv_system n a : system (sinv n a) n.
  Proof. apply mkS_system. Qed.
  Lemma prm_system p : system (prm p) (length p).
  Proof. apply mkS_system. Qed.
  Lemma fbl_system n a y : system (fbl n a y) n.
  Proof. apply mkS_system. Qed.
  Lemma ident_system n : system (ident n) n.
  Proof. apply mkS_system. Qed.

  Lemma Sf_ser n a b i j : i < n -> j < n -> Sf (ser n a b) i j = mm n (Sf a) (Sf b) i j.
  Proof. apply Sf_mkS. Qed.
  Lemma Lf_ser n a b i : i < n -> Lf (ser n a b) i = mv n (Sf a) (Lf b) i + Lf a i.
  Proof. intros Hi. unfold ser, fseries. now rewrite Lf_mkS. Qed.

  (** -i Im m - (m + m^dagger)/2 = -m *)
  Lemma imp_half x : smul (kopp iu) (imp x) + aopp (smul khalf (x + star x)) = aopp x.
  Proof.
    rewrite imp_i. transitivity (smul khalf (aopp x + aopp x)); [|apply half_half]. rewrite !smul_addr.
    set (p := smul khalf (star x)). set (q := smul khalf (aopp x)).
    replace (smul khalf x) with (aopp q) by (unfold q, aopp; rewrite <- !smul_mul; f_equal; ring). ncr.
  Qed.

  Lemma bel_ser n a b : iso n (Sf a) -> eqx n (bel n (ser n a b)) (xm n (bel n a) (bel n b)).
  Proof.
    intros Ha i j Hi Hj. unfold xm. rewrite asum_ixs.
    destruct i as [| |i], j as [| |j]; cbn [bel inb] in *.
    - (* T T *) rewrite sm_zero by (intros; apply amul_0r). ncr.
    - (* T B *)
      rewrite (dot_ext n (Lf (ser n a b)) (Lf (ser n a b)) _ _ (fun k Hk => Lf_ser n a b k Hk) (fun k Hk => Lf_ser n a b k Hk)).
      rewrite dot_add_l, !dot_add_r, iso_dot by exact Ha. cbn [ser fseries]. unfold ser, fseries. rewrite sH_mkS.
      rewrite <- (star_dot n (Lf a) (mv n (Sf a) (Lf b))).
      rewrite (sm_ext n _ (fun k => aopp (dot n (Lf a) (fun k0 => Sf a k0 k) * Lf b k))) by (intros; apply aopp_mul_l).
      rewrite sm_opp. rewrite (sm_ext n _ (fun k => star (mv n (hc (Sf a)) (Lf a) k) * Lf b k)).
      2:{ intros k _. f_equal. unfold dot, mv, hc. rewrite star_sm. apply sm_ext. intros l _. now rewrite star_mul, star_star. }
      fold (dot n (mv n (hc (Sf a)) (Lf a)) (Lf b)). rewrite <- dot_mv.
      set (m := dot n (Lf a) (mv n (Sf a) (Lf b))). rewrite <- (imp_half m). rewrite !smul_addr.
      set (p1 := smul (kopp iu) (sH a)). set (p2 := smul (kopp iu) (sH b)). set (p3 := smul (kopp iu) (imp m)).
      set (q1 := smul khalf (dot n (Lf a) (Lf a))). set (q2 := smul khalf (dot n (Lf b) (Lf b))).
      set (q3 := smul khalf m). set (q4 := smul khalf (star m)). ncr.
    - (* T C *)
      rewrite (dot_ext n (Lf (ser n a b)) (fun k => Sf (ser n a b) k j) _ _ (fun k Hk => Lf_ser n a b k Hk) (fun k Hk => Sf_ser n a b k j Hk Hj)).
      rewrite dot_add_l. change (fun k : nat => mm n (Sf a) (Sf b) k j) with (mv n (Sf a) (fun k => Sf b k j)).
      rewrite iso_dot by exact Ha.
      rewrite (sm_ext n _ (fun k => aopp (star (mv n (hc (Sf a)) (Lf a) k) * Sf b k j))).
      2:{ intros k _. rewrite aopp_mul_l. do 2 f_equal. unfold dot, mv, hc. rewrite star_sm. apply sm_ext. intros l _. now rewrite star_mul, star_star. }
      rewrite sm_opp. change (sm n (fun k : nat => star (mv n (hc (Sf a)) (Lf a) k) * Sf b k j)) with (dot n (mv n (hc (Sf a)) (Lf a)) (fun k => Sf b k j)).
      rewrite <- dot_mv.
      set (m := dot n (Lf a) _). set (q := dot n (Lf b) _). ncr.
    - (* B T *) rewrite sm_zero by (intros; apply amul_0r). ncr.
    - (* B B *) rewrite sm_zero by (intros; apply amul_0l). ncr.
    - (* B C *) rewrite sm_zero by (intros; apply amul_0l). ncr.
    - (* C T *) rewrite sm_zero by (intros; apply amul_0r). ncr.
    - (* C B *) rewrite Lf_ser by exact Hi. unfold mv. set (q := sm n _). ncr.
    - (* C C *) rewrite Sf_ser by assumption. unfold mm. set (q := sm n _). ncr.
  Qed.
End F.
