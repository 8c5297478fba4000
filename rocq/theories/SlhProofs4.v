(** The laws of the SLH operations. *)
From Verif Require Import Prelude ListFacts PermModel PermSpec PermProofs1 AlgSpec CAlg NcRing MatModel SlhModel MatProofs MatSpec SlhProofs1 SlhProofs2 SlhProofs3.

Section F.
  Context {M : calgebra}.
  Add Ring Kr : (kring M).
  Notation A := (A M). Notation K := (K M). Notation slh := (slh M).
  Notation "x + y" := (aadd x y). Notation "x * y" := (amul x y).
  Implicit Types x y z : A. Implicit Types u v w : nat -> A. Implicit Types s t : nat -> nat -> A.
  Implicit Types n m : nat. Implicit Types a b c : slh.
  Notation sm := (@bigsum M).

  Lemma ser_ext n s1 u1 x1 s2 u2 x2 s1' u1' x1' s2' u2' x2' :
    (forall i j, i < n -> j < n -> s1 i j = s1' i j) -> (forall i, i < n -> u1 i = u1' i) -> x1 = x1' ->
    (forall i j, i < n -> j < n -> s2 i j = s2' i j) -> (forall i, i < n -> u2 i = u2' i) -> x2 = x2' ->
    fseries n s1 u1 x1 s2 u2 x2 = fseries n s1' u1' x1' s2' u2' x2'.
  Proof.
    intros Hs1 Hu1 -> Hs2 Hu2 ->. apply mkS_ext.
    - intros i j Hi Hj. apply mm_ext; auto.
    - intros i Hi. rewrite Hu1 by assumption. f_equal. apply mv_ext; auto.
    - do 2 f_equal. apply dot_ext; [auto|]. intros k Hk. apply mv_ext; auto.
  Qed.
  Lemma ser_mkS_l n s u x b : ser n (mkS n s u x) b = fseries n s u x (Sf b) (Lf b) (sH b).
  Proof. apply ser_ext; intros; try reflexivity; [now apply Sf_mkS|now apply Lf_mkS]. Qed.
  Lemma ser_mkS_r n s u x a : ser n a (mkS n s u x) = fseries n (Sf a) (Lf a) (sH a) s u x.
  Proof. apply ser_ext; intros; try reflexivity; [now apply Sf_mkS|now apply Lf_mkS]. Qed.

  (** *** C09 *)
  Lemma ser_assoc n a b c : iso n (Sf a) -> ser n (ser n a b) c = ser n a (ser n b c).
  Proof.
    intros Ha. unfold ser at 2 4. unfold fseries at 1 2. rewrite ser_mkS_l, ser_mkS_r. unfold fseries. apply mkS_ext.
    - intros i j Hi Hj. apply mm_assoc.
    - intros i Hi. rewrite mv_mm, mv_add. rewrite aadd_assoc. reflexivity.
    - set (Lb := Lf b). set (La := Lf a). set (Sa := Sf a). set (Lc := Lf c). set (Sb := Sf b).
      rewrite dot_add_l.
      rewrite (dot_ext n (mv n Sa Lb) (mv n (mm n Sa Sb) Lc) (mv n Sa Lb) (mv n Sa (mv n Sb Lc)))
        by (intros; try reflexivity; apply mv_mm).
      rewrite iso_dot by exact Ha.
      rewrite (dot_ext n La (mv n (mm n Sa Sb) Lc) La (mv n Sa (mv n Sb Lc))) by (intros; try reflexivity; apply mv_mm).
      rewrite (dot_ext n La (mv n Sa (fun i => mv n Sb Lc i + Lb i)) La (fun k => mv n Sa (mv n Sb Lc) k + mv n Sa Lb k))
        by (intros; try reflexivity; apply mv_add).
      rewrite dot_add_r, !imp_add.
      set (p1 := imp (dot n La (mv n Sa Lb))). set (p2 := imp (dot n Lb (mv n Sb Lc))).
      set (p3 := imp (dot n La (mv n Sa (mv n Sb Lc)))). ncr.
  Qed.
  Lemma ident_l n a : system a n -> ser n (ident n) a = a.
  Proof.
    intros Ha. unfold ident. rewrite ser_mkS_l. transitivity (mkS n (Sf a) (Lf a) (sH a)); [|symmetry; now apply system_mkS].
    unfold fseries. apply mkS_ext.
    - intros i j Hi Hj. apply mm_delta_l. exact Hi.
    - intros i Hi. rewrite mv_delta by exact Hi. apply aadd_0r.
    - unfold dot. rewrite sm_zero; [|intros; rewrite star_0; apply amul_0l].
      rewrite imp_selfadj by apply star_0. ncr.
  Qed.
  Lemma ident_r n a : system a n -> ser n a (ident n) = a.
  Proof.
    intros Ha. unfold ident. rewrite ser_mkS_r. transitivity (mkS n (Sf a) (Lf a) (sH a)); [|symmetry; now apply system_mkS].
    assert (forall i, mv n (Sf a) (fun _ => a0) i = a0) as Hz by (intros; apply sm_zero; intros; apply amul_0r).
    unfold fseries. apply mkS_ext.
    - intros i j Hi Hj. apply mm_delta_r. exact Hj.
    - intros i Hi. rewrite Hz. apply aadd_0.
    - unfold dot. rewrite sm_zero; [|intros; rewrite Hz; apply amul_0r].
      rewrite imp_selfadj by apply star_0. ncr.
  Qed.

  (** *** C10 *)
  Lemma fcat_ll n1 s1 s2 i j : i < n1 -> j < n1 -> fcat n1 s1 s2 i j = s1 i j.
  Proof. intros. unfold fcat. destruct (Nat.ltb_spec i n1), (Nat.ltb_spec j n1); try lia; reflexivity. Qed.
  Lemma fcat_lr n1 s1 s2 i j : i < n1 -> n1 <= j -> fcat n1 s1 s2 i j = a0.
  Proof. intros. unfold fcat. destruct (Nat.ltb_spec i n1), (Nat.ltb_spec j n1); try lia; reflexivity. Qed.
  Lemma fcat_rl n1 s1 s2 i j : n1 <= i -> j < n1 -> fcat n1 s1 s2 i j = a0.
  Proof. intros. unfold fcat. destruct (Nat.ltb_spec i n1), (Nat.ltb_spec j n1); try lia; reflexivity. Qed.
  Lemma fcat_rr n1 s1 s2 i j : fcat n1 s1 s2 (Nat.add n1 i) (Nat.add n1 j) = s2 i j.
  Proof.
    unfold fcat. destruct (Nat.ltb_spec (Nat.add n1 i) n1), (Nat.ltb_spec (Nat.add n1 j) n1); try lia. f_equal; lia.
  Qed.
  Lemma vcat_l n1 u1 u2 i : i < n1 -> vcat n1 u1 u2 i = u1 i.
  Proof. intros. unfold vcat. destruct (Nat.ltb_spec i n1); [reflexivity|lia]. Qed.
  Lemma vcat_r n1 u1 u2 i : vcat n1 u1 u2 (Nat.add n1 i) = u2 i.
  Proof. intros. unfold vcat. destruct (Nat.ltb_spec (Nat.add n1 i) n1); [lia|f_equal; lia]. Qed.
  Lemma split_lt n1 n2 i : i < Nat.add n1 n2 -> i < n1 \/ exists i', i = Nat.add n1 i' /\ i' < n2.
  Proof. intros H. destruct (Nat.lt_ge_cases i n1); [now left|]. right. exists (i - n1)%nat. lia. Qed.

  Lemma dot_vcat n1 n2 u1 u2 v1 v2 :
    dot (Nat.add n1 n2) (vcat n1 u1 u2) (vcat n1 v1 v2) = dot n1 u1 v1 + dot n2 u2 v2.
  Proof.
    unfold dot. rewrite sm_split. f_equal; apply sm_ext; intros k Hk.
    - rewrite !vcat_l by exact Hk. reflexivity.
    - now rewrite !vcat_r.
  Qed.
  Lemma mv_fcat n1 n2 s1 s2 u1 u2 i : i < Nat.add n1 n2 ->
    mv (Nat.add n1 n2) (fcat n1 s1 s2) (vcat n1 u1 u2) i = vcat n1 (mv n1 s1 u1) (mv n2 s2 u2) i.
  Proof.
    intros Hi. unfold mv at 1. rewrite sm_split. destruct (split_lt _ _ _ Hi) as [H|(i' & -> & H)].
    - rewrite vcat_l by exact H. rewrite (sm_zero n2).
      + rewrite aadd_0r. apply sm_ext. intros k Hk. rewrite fcat_ll, vcat_l by assumption. reflexivity.
      + intros k Hk. rewrite fcat_lr by lia. apply amul_0l.
    - rewrite vcat_r. rewrite (sm_zero n1).
      + rewrite aadd_0. apply sm_ext. intros k Hk. rewrite fcat_rr, vcat_r. reflexivity.
      + intros k Hk. rewrite fcat_rl by lia. apply amul_0l.
  Qed.
  Lemma mm_fcat n1 n2 s1 s2 t1 t2 i j : i < Nat.add n1 n2 -> j < Nat.add n1 n2 ->
    mm (Nat.add n1 n2) (fcat n1 s1 s2) (fcat n1 t1 t2) i j = fcat n1 (mm n1 s1 t1) (mm n2 s2 t2) i j.
  Proof.
    intros Hi Hj. unfold mm at 1. rewrite sm_split.
    destruct (split_lt _ _ _ Hi) as [H|(i' & -> & H)]; destruct (split_lt _ _ _ Hj) as [H'|(j' & -> & H')].
    - rewrite fcat_ll by assumption. rewrite (sm_zero n2).
      + rewrite aadd_0r. apply sm_ext. intros k Hk. rewrite !fcat_ll by assumption. reflexivity.
      + intros k Hk. rewrite fcat_lr by lia. apply amul_0l.
    - rewrite fcat_lr by lia. rewrite !sm_zero; [apply aadd_0|..].
      + intros k Hk. rewrite fcat_lr by lia. apply amul_0l.
      + intros k Hk. rewrite (fcat_lr n1 t1 t2) by lia. apply amul_0r.
    - rewrite fcat_rl by lia. rewrite !sm_zero; [apply aadd_0|..].
      + intros k Hk. rewrite (fcat_rl n1 t1 t2) by lia. apply amul_0r.
      + intros k Hk. rewrite fcat_rl by lia. apply amul_0l.
    - rewrite fcat_rr. rewrite (sm_zero n1).
      + rewrite aadd_0. apply sm_ext. intros k Hk. rewrite !fcat_rr. reflexivity.
      + intros k Hk. rewrite fcat_rl by lia. apply amul_0l.
  Qed.
  Lemma fcat_ext n1 n2 s1 s2 t1 t2 i j :
    (forall i j, i < n1 -> j < n1 -> s1 i j = t1 i j) -> (forall i j, i < n2 -> j < n2 -> s2 i j = t2 i j) ->
    i < Nat.add n1 n2 -> j < Nat.add n1 n2 -> fcat n1 s1 s2 i j = fcat n1 t1 t2 i j.
  Proof.
    intros H1 H2 Hi Hj. unfold fcat. destruct (Nat.ltb_spec i n1), (Nat.ltb_spec j n1); try reflexivity.
    - now apply H1.
    - apply H2; lia.
  Qed.
  Lemma vcat_ext n1 n2 u1 u2 v1 v2 i :
    (forall i, i < n1 -> u1 i = v1 i) -> (forall i, i < n2 -> u2 i = v2 i) ->
    i < Nat.add n1 n2 -> vcat n1 u1 u2 i = vcat n1 v1 v2 i.
  Proof. intros H1 H2 Hi. unfold vcat. destruct (Nat.ltb_spec i n1); [now apply H1|apply H2; lia]. Qed.

  Lemma interchange n1 n2 a b c d :
    ser (Nat.add n1 n2) (cat n1 n2 a b) (cat n1 n2 c d) = cat n1 n2 (ser n1 a c) (ser n2 b d).
  Proof.
    unfold cat at 1 2. rewrite ser_mkS_l. unfold cat.
    transitivity (fseries (Nat.add n1 n2) (fcat n1 (Sf a) (Sf b)) (vcat n1 (Lf a) (Lf b)) (sH a + sH b)
                    (fcat n1 (Sf c) (Sf d)) (vcat n1 (Lf c) (Lf d)) (sH c + sH d)).
    - apply ser_ext; intros; try reflexivity; [now apply Sf_mkS|now apply Lf_mkS].
    - unfold fseries. apply mkS_ext.
      + intros i j Hi Hj. rewrite mm_fcat by assumption. apply (fcat_ext n1 n2); try assumption; intros; symmetry; now apply Sf_ser.
      + intros i Hi. rewrite mv_fcat by exact Hi. unfold vcat. destruct (Nat.ltb_spec i n1).
        * symmetry. now apply Lf_ser.
        * symmetry. apply Lf_ser. lia.
      + unfold ser, fseries. rewrite !sH_mkS.
        rewrite (dot_ext (Nat.add n1 n2) (vcat n1 (Lf a) (Lf b)) (mv (Nat.add n1 n2) (fcat n1 (Sf a) (Sf b)) (vcat n1 (Lf c) (Lf d)))
                  (vcat n1 (Lf a) (Lf b)) (vcat n1 (mv n1 (Sf a) (Lf c)) (mv n2 (Sf b) (Lf d))))
          by (intros; try reflexivity; now apply mv_fcat).
        rewrite dot_vcat, imp_add. set (p := imp _). set (q := imp (dot n2 _ _)). ncr.
  Qed.
  Lemma cat_assoc n1 n2 n3 a b c :
    cat (Nat.add n1 n2) n3 (cat n1 n2 a b) c = cat n1 (Nat.add n2 n3) a (cat n2 n3 b c).
  Proof.
    unfold cat. rewrite Nat.add_assoc. apply mkS_ext.
    - intros i j Hi Hj. destruct (split_lt (Nat.add n1 n2) n3 i Hi) as [H|(i' & -> & H)]; destruct (split_lt (Nat.add n1 n2) n3 j Hj) as [H'|(j' & -> & H')].
      + rewrite fcat_ll by assumption. rewrite Sf_mkS by assumption.
        destruct (split_lt n1 n2 i H) as [G|(i' & -> & G)]; destruct (split_lt n1 n2 j H') as [G'|(j' & -> & G')].
        * now rewrite !fcat_ll by assumption.
        * now rewrite !fcat_lr by lia.
        * now rewrite !fcat_rl by lia.
        * rewrite !fcat_rr. rewrite Sf_mkS by lia. now rewrite fcat_ll.
      + rewrite fcat_lr by lia. destruct (split_lt n1 n2 i H) as [G|(i' & -> & G)].
        * now rewrite fcat_lr by lia.
        * rewrite <- Nat.add_assoc, fcat_rr. rewrite Sf_mkS by lia. now rewrite fcat_lr by lia.
      + rewrite fcat_rl by lia. destruct (split_lt n1 n2 j H') as [G|(j' & -> & G)].
        * now rewrite fcat_rl by lia.
        * rewrite <- Nat.add_assoc, fcat_rr. rewrite Sf_mkS by lia. now rewrite fcat_rl by lia.
      + rewrite fcat_rr. rewrite <- !Nat.add_assoc, fcat_rr. rewrite Sf_mkS by lia. now rewrite fcat_rr.
    - intros i Hi. destruct (split_lt (Nat.add n1 n2) n3 i Hi) as [H|(i' & -> & H)].
      + rewrite vcat_l by assumption. rewrite Lf_mkS by assumption.
        destruct (split_lt n1 n2 i H) as [G|(i' & -> & G)].
        * now rewrite !vcat_l.
        * rewrite !vcat_r. rewrite Lf_mkS by lia. now rewrite vcat_l.
      + rewrite vcat_r. rewrite <- Nat.add_assoc, vcat_r. rewrite Lf_mkS by lia. now rewrite vcat_r.
    - cbn [mkS sH]. symmetry. apply aadd_assoc.
  Qed.
  Lemma cat_ident0_l n a : system a n -> cat 0 n (ident 0) a = a.
  Proof.
    intros Ha. transitivity (mkS n (Sf a) (Lf a) (sH a)); [|symmetry; now apply system_mkS]. apply mkS_ext; intros.
    - unfold fcat. cbn [Nat.ltb Nat.leb]. now rewrite !Nat.sub_0_r.
    - unfold vcat. cbn [Nat.ltb Nat.leb]. now rewrite !Nat.sub_0_r.
    - cbn [ident mkS sH]. apply aadd_0.
  Qed.
  Lemma cat_ident0_r n a : system a n -> cat n 0 a (ident 0) = a.
  Proof.
    intros Ha. transitivity (mkS n (Sf a) (Lf a) (sH a)); [|symmetry; now apply system_mkS]. unfold cat. rewrite Nat.add_0_r. apply mkS_ext; intros.
    - now rewrite fcat_ll.
    - now rewrite vcat_l.
    - cbn [ident mkS sH]. apply aadd_0r.
  Qed.
  Lemma cat_ident n1 n2 : cat n1 n2 (ident n1) (ident n2) = ident (Nat.add n1 n2) :> slh.
  Proof.
    apply mkS_ext.
    - intros i j Hi Hj. destruct (split_lt _ _ _ Hi) as [H|(i' & -> & H)]; destruct (split_lt _ _ _ Hj) as [H'|(j' & -> & H')].
      + rewrite fcat_ll by assumption. unfold ident. rewrite Sf_mkS by assumption. reflexivity.
      + rewrite fcat_lr by lia. rewrite delta_neq by lia. reflexivity.
      + rewrite fcat_rl by lia. rewrite delta_neq by lia. reflexivity.
      + rewrite fcat_rr. unfold ident. rewrite Sf_mkS by assumption. unfold delta.
        destruct (Nat.eqb_spec i' j'), (Nat.eqb_spec (Nat.add n1 i') (Nat.add n1 j')); try lia; reflexivity.
    - intros i Hi. destruct (split_lt _ _ _ Hi) as [H|(i' & -> & H)].
      + rewrite vcat_l by assumption. unfold ident. rewrite Lf_mkS by assumption. reflexivity.
      + rewrite vcat_r. unfold ident. rewrite Lf_mkS by assumption. reflexivity.
    - apply aadd_0.
  Qed.

  (** *** C11 *)
  Definition ciso n s := iso n (hc s).
  Lemma ciso_mv n s u i : ciso n s -> i < n -> mv n s (mv n (hc s) u) i = u i.
  Proof.
    intros Hs Hi. rewrite <- (iso_mv n (hc s) u i Hs Hi). apply mv_ext; [|reflexivity]. intros. symmetry. apply hc_hc.
  Qed.
  Lemma ciso_mm n s i j : ciso n s -> i < n -> j < n -> mm n s (hc s) i j = delta i j.
  Proof.
    intros Hs Hi Hj. rewrite <- (Hs i j Hi Hj). apply mm_ext; [|reflexivity]. intros. symmetry. apply hc_hc.
  Qed.
  Lemma star_dot_self n u : star (dot n u u) = dot n u u.
  Proof. apply star_dot. Qed.
  Lemma sinv_r n a : ciso n (Sf a) -> ser n a (sinv n a) = ident n.
  Proof.
    intros Ha. unfold sinv. rewrite ser_mkS_r. unfold fseries. apply mkS_ext.
    - intros i j Hi Hj. now apply ciso_mm.
    - intros i Hi. rewrite mv_opp, ciso_mv by assumption. apply aopp_l.
    - rewrite (dot_ext n (Lf a) _ (Lf a) (fun k => aopp (Lf a k))).
      + rewrite dot_opp_r, imp_selfadj; [ncr|]. rewrite star_opp. f_equal. apply star_dot.
      + reflexivity.
      + intros k Hk. rewrite mv_opp, ciso_mv by assumption. reflexivity.
  Qed.
  Lemma sinv_l n a : iso n (Sf a) -> ciso n (Sf a) -> ser n (sinv n a) a = ident n.
  Proof.
    intros Ha Hc. unfold sinv. rewrite ser_mkS_l. unfold fseries. apply mkS_ext.
    - intros i j Hi Hj. now apply Ha.
    - intros i Hi. apply aopp_r.
    - rewrite dot_opp_l, imp_selfadj; [ncr|]. rewrite star_opp. f_equal. apply star_dot.
  Qed.
  Lemma sinv_sinv n a : system a n -> ciso n (Sf a) -> sinv n (sinv n a) = a.
  Proof.
    intros Ha Hc. transitivity (mkS n (Sf a) (Lf a) (sH a)); [|symmetry; now apply system_mkS]. unfold sinv at 1. apply mkS_ext.
    - intros i j Hi Hj. unfold hc at 1. unfold sinv. rewrite Sf_mkS by assumption. apply star_star.
    - intros i Hi. rewrite <- (ciso_mv n (Sf a) (Lf a) i Hc Hi).
      rewrite <- (aopp_opp M (mv n (Sf a) (mv n (hc (Sf a)) (Lf a)) i)). f_equal. rewrite <- mv_opp.
      apply mv_ext; intros k Hk.
      + unfold hc at 1. unfold sinv. rewrite Sf_mkS by assumption. apply star_star.
      + unfold sinv. rewrite Lf_mkS by assumption. reflexivity.
    - unfold sinv. cbn [mkS sH]. apply aopp_opp.
  Qed.
End F.
