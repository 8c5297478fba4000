(** Feedback between arbitrary ports, elimination of the loop, and coherent drives. *)
From Verif Require Import Prelude ListFacts PermModel PermSpec PermProofs1 PermProofs3 PermProofs4 AlgSpec CAlg NcRing MatModel SlhModel MatProofs MatSpec CircModel CircSpec CircProofs1 CircProofs2 SlhProofs1 SlhProofs2 SlhProofs3 SlhProofs4 SlhProofs5 SlhProofs6 SlhProofs7.

Section F.
  Context {M : calgebra}.
  Add Ring Kr : (kring M).
  Notation A := (A M). Notation K := (K M). Notation slh := (slh M).
  Notation "x + y" := (aadd x y). Notation "x * y" := (amul x y).
  Implicit Types x y z : A. Implicit Types u v w : nat -> A. Implicit Types s t : nat -> nat -> A.
  Implicit Types n m : nat. Implicit Types a b c : slh.
  Notation sm := (@bigsum M).
  Local Notation pdelta := (@pdelta M).

  Lemma bel_generator n a : bel n a = generator n a.
  Proof. reflexivity. Qed.

  (** *** ports *)
  Definition ports n a (o i : nat) : slh :=
    ser (S n) (ser (S n) (prm (m_out o (S n))) a) (prm (m_in i (S n))).
  Lemma m_out_last n : m_out n (S n) = seq 0 (S n).
  Proof.
    apply list_eq_nth with (d := 0); rewrite ?m_out_length, ?seq_length; [reflexivity|]. intros k Hk.
    rewrite m_out_nth, seq_nth by exact Hk. unfold drop. destruct (Nat.eqb_spec k n), (Nat.ltb_spec k n); lia.
  Qed.
  Lemma m_in_last n : m_in n (S n) = seq 0 (S n).
  Proof.
    apply list_eq_nth with (d := 0); rewrite ?m_in_length, ?seq_length; [reflexivity|]. intros k Hk.
    rewrite m_in_nth, seq_nth by exact Hk. unfold keep. destruct (Nat.eqb_spec k (S n - 1)), (Nat.ltb_spec k n); lia.
  Qed.
  Lemma m_out_not_id o n : o < n -> m_out o (S n) <> seq 0 (S n).
  Proof.
    intros Ho E. assert (nth o (m_out o (S n)) 0 = nth o (seq 0 (S n)) 0) as H by now rewrite E.
    rewrite m_out_nth, seq_nth in H by lia. rewrite Nat.eqb_refl in H. lia.
  Qed.
  Lemma m_in_not_id o n : o < n -> m_in o (S n) <> seq 0 (S n).
  Proof.
    intros Ho E. assert (nth n (m_in o (S n)) 0 = nth n (seq 0 (S n)) 0) as H by now rewrite E.
    rewrite m_in_nth, seq_nth in H by lia. destruct (Nat.eqb_spec n (S n - 1)); lia.
  Qed.
  Lemma channel_slh_pc p : is_perm p -> p <> seq 0 (length p) -> channel_slh (pc p) = Ok (prm p : slh).
  Proof.
    intros Hp Hn. destruct (@pc_cases slh p) as [[E _]|[_ ->]]; [contradiction|]. apply perm_mkS. exact Hp.
  Qed.
  Context (inv : A -> res K).
  Lemma feedback_last_ok n a : system a (S n) ->
    feedback_last inv a = do k0 <- inv (a1 + aopp (Sf a n n)); Ok (fbl n a (smul k0 a1)).
  Proof. intros Ha. rewrite (system_mkS a (S n) Ha) at 1. apply fb_mkS. Qed.
  Lemma system_cdim a n : system a n -> slh_cdim a = n.
  Proof. intros [(H & _) _]. exact H. Qed.
  Lemma slh_feedback_ok n a o i : system a (S n) -> o <= n -> i <= n ->
    slh_feedback inv a o i = do k0 <- inv (a1 + aopp (Sf (ports n a o i) n n)); Ok (fbl n (ports n a o i) (smul k0 a1)).
  Proof.
    intros Ha Ho Hi. unfold slh_feedback. rewrite (system_cdim a (S n) Ha). replace (S n - 1) with n by lia.
    transitivity (feedback_last inv (ports n a o i)); [|apply feedback_last_ok; apply ser_system].
    pose proof (@mc1_out slh o (S n) ltac:(lia)) as E1. pose proof (@mc1_in slh i (S n) ltac:(lia)) as E2.
    replace (S n - 1) with n in E1, E2 by lia.
    assert ((if negb (o =? n) then do q <- mc1 o n (S n); do p <- channel_slh q; series_with_slh p a else Ok a)
            = Ok (ser (S n) (prm (m_out o (S n))) a)) as ->.
    { destruct (Nat.eqb_spec o n) as [->|H]; cbn [negb].
      - rewrite m_out_last, prm_ident, ident_l by exact Ha. reflexivity.
      - rewrite E1. cbn [bind]. rewrite channel_slh_pc.
        + cbn [bind]. rewrite <- (m_out_length o (S n)) at 2. apply series_ok; [apply prm_system|now rewrite m_out_length].
        + apply m_out_perm. lia.
        + rewrite m_out_length. apply m_out_not_id. lia. }
    cbn [bind]. unfold ports. set (a' := ser (S n) (prm (m_out o (S n))) a).
    assert (system a' (S n)) as Ha' by apply ser_system.
    assert ((if negb (i =? n) then do q <- mc1 n i (S n); do p <- channel_slh q; series_with_slh a' p else Ok a')
            = Ok (ser (S n) a' (prm (m_in i (S n))))) as ->; [|reflexivity].
    destruct (Nat.eqb_spec i n) as [->|H]; cbn [negb].
    - rewrite m_in_last, prm_ident, ident_r by exact Ha'. reflexivity.
    - rewrite E2. cbn [bind]. rewrite channel_slh_pc.
      + cbn [bind]. apply series_ok; [exact Ha'|]. rewrite <- (m_in_length i (S n)) at 2. apply prm_system.
      + apply m_in_perm. lia.
      + rewrite m_in_length. apply m_in_not_id. lia.
  Qed.
  Lemma slh_feedback_bad n a o i : system a (S n) -> n < o \/ n < i -> slh_feedback inv a o i = Err ValueError.
  Proof.
    intros Ha H. unfold slh_feedback. rewrite (system_cdim a (S n) Ha). replace (S n - 1) with n by lia.
    destruct (Nat.lt_ge_cases n o) as [Ho|Ho].
    - destruct (Nat.eqb_spec o n); [lia|]. cbn [negb]. rewrite mc1_bad by lia. reflexivity.
    - assert (n < i) as Hi by lia. destruct (Nat.eqb_spec i n); [lia|]. cbn [negb].
      destruct (Nat.eqb_spec o n) as [->|H']; cbn [negb bind].
      + rewrite mc1_bad by lia. reflexivity.
      + pose proof (@mc1_out slh o (S n) ltac:(lia)) as E1. replace (S n - 1) with n in E1 by lia. rewrite E1. cbn [bind].
        rewrite channel_slh_pc.
        * cbn [bind]. rewrite (series_ok _ a (S n)); [|rewrite <- (m_out_length o (S n)) at 2; apply prm_system|exact Ha].
          cbn [bind]. rewrite mc1_bad by lia. reflexivity.
        * apply m_out_perm. lia.
        * rewrite m_out_length. apply m_out_not_id. lia.
  Qed.
  (** the entries of the system whose ports were moved *)
  Lemma Sf_ports n a o i k l : o <= n -> i <= n -> k <= n -> l <= n ->
    Sf (ports n a o i) (nth k (m_out o (S n)) 0) l = Sf a k (nth l (m_in i (S n)) 0).
  Proof.
    intros Ho Hi Hk Hl. pose proof (m_out_perm o (S n) ltac:(lia)) as P1. pose proof (m_in_perm i (S n) ltac:(lia)) as P2.
    pose proof (m_out_length o (S n)) as L1. pose proof (m_in_length i (S n)) as L2.
    assert (nth k (m_out o (S n)) 0 < S n) as B1 by (rewrite <- L1 at 2; apply is_perm_nth_lt; [exact P1|lia]).
    assert (nth l (m_in i (S n)) 0 < S n) as B2 by (rewrite <- L2 at 2; apply is_perm_nth_lt; [exact P2|lia]).
    unfold ports. rewrite Sf_ser by lia.
    rewrite (mm_ext (S n) _ (Sf (prm (m_in i (S n)))) (Sf (ser (S n) (prm (m_out o (S n))) a)) (pdelta (m_in i (S n))))
      by (intros; try reflexivity; apply Sf_prm; lia).
    rewrite mm_pdelta_r by exact B2. rewrite Sf_ser by lia.
    rewrite (mm_ext (S n) (Sf (prm (m_out o (S n)))) (Sf a) (pdelta (m_out o (S n))) (Sf a))
      by (intros; try reflexivity; apply Sf_prm; lia).
    apply mm_pdelta_l; [exact P1|exact L1|lia].
  Qed.
  Lemma Sf_ports_nn n a o i : o <= n -> i <= n -> Sf (ports n a o i) n n = Sf a o i.
  Proof.
    intros Ho Hi. pose proof (Sf_ports n a o i o n Ho Hi Ho ltac:(lia)) as H.
    rewrite m_out_nth, m_in_nth in H by lia. rewrite Nat.eqb_refl in H. replace (S n - 1) with n in H by lia.
    rewrite Nat.eqb_refl in H. exact H.
  Qed.
  Lemma Lf_ports n a o i k : o <= n -> i <= n -> k <= n ->
    Lf (ports n a o i) (nth k (m_out o (S n)) 0) = Lf a k.
  Proof.
    intros Ho Hi Hk. pose proof (m_out_perm o (S n) ltac:(lia)) as P1.
    pose proof (m_out_length o (S n)) as L1. pose proof (m_in_length i (S n)) as L2.
    assert (nth k (m_out o (S n)) 0 < S n) as B1 by (rewrite <- L1 at 2; apply is_perm_nth_lt; [exact P1|lia]).
    unfold ports. rewrite Lf_ser by lia. unfold mv. rewrite sm_zero.
    - rewrite aadd_0, Lf_ser by lia.
      rewrite (mv_ext (S n) (Sf (prm (m_out o (S n)))) (Lf a) (pdelta (m_out o (S n))) (Lf a))
        by (intros; try reflexivity; apply Sf_prm; lia).
      rewrite mv_pdelta by (try assumption; lia). rewrite Lf_prm by lia. apply aadd_0r.
    - intros j Hj. rewrite Lf_prm by lia. apply amul_0r.
  Qed.
  Lemma phys_ports n a o i : phys (S n) a -> o <= n -> i <= n -> phys (S n) (ports n a o i).
  Proof.
    intros Ha Ho Hi. unfold ports. apply phys_ser; [apply phys_ser; [|exact Ha]|].
    - rewrite <- (m_out_length o (S n)) at 1. apply phys_prm. apply m_out_perm. lia.
    - rewrite <- (m_in_length i (S n)) at 1. apply phys_prm. apply m_in_perm. lia.
  Qed.

  (** *** closing the loop *)
  Lemma apply_ixs n G (x : ix -> A) i :
    apply_gen n G x i = G i iT * x iT + (G i iB * x iB + sm n (fun k => G i (iC k) * x (iC k))).
  Proof. unfold apply_gen. now rewrite asum_ixs. Qed.
  Lemma loop_elim n a y (x : ix -> A) : iso (S n) (Sf a) -> invs (Sf a n n) y ->
    x (iC n) = apply_gen (S n) (bel (S n) a) x (iC n) ->
    forall i, inb n i -> apply_gen n (bel n (fbl n a y)) x i = apply_gen (S n) (bel (S n) a) x i.
  Proof.
    intros Ha Hy Hloop i Hi. rewrite !apply_ixs in *. rewrite sm_S in *.
    set (G := bel (S n) a) in *. set (xn := x (iC n)) in *.
    set (r := G (iC n) iT * x iT + (G (iC n) iB * x iB + sm n (fun k => G (iC n) (iC k) * x (iC k)))).
    assert (xn = y * r) as Ex.
    { assert ((a1 + aopp (Sf a n n)) * xn = r) as E.
      { rewrite amul_addl, amul_1l. rewrite Hloop at 1. unfold r. change (G (iC n) (iC n)) with (Sf a n n).
        set (q := sm n _). ncr. }
      rewrite <- E, amul_assoc, (proj2 Hy). symmetry. apply amul_1l. }
    pose proof (bel_fbl n a y Ha Hy) as HG. fold G in HG.
    rewrite (HG i iT), (HG i iB) by (try exact Hi; exact I).
    rewrite (sm_ext n (fun k => bel n (fbl n a y) i (iC k) * x (iC k))
      (fun k => G i (iC k) * x (iC k) + G i (iC n) * y * (G (iC n) (iC k) * x (iC k)))).
    2:{ intros k Hk. rewrite (HG i (iC k)) by (try exact Hi; exact Hk). ncr. }
    rewrite sm_add, sm_mul_l. rewrite Ex. unfold r. set (q1 := sm n _). set (q2 := sm n _). ncr.
  Qed.

  (** *** coherent drives *)
  Lemma Ls_system n a : system a n -> Ls a = map (Lf a) (seq 0 n).
  Proof. intros [_ (H & _)]. unfold Ls. rewrite H. reflexivity. Qed.
  Definition dis (l r : A) : A :=
    l * r * star l + aopp (smul khalf (star l * l * r + r * star l * l)).
  Lemma master_system n a r : system a n ->
    master_equation a r = smul (kopp iu) (sH a * r + aopp (r * sH a)) + sm n (fun k => dis (Lf a k) r).
  Proof. intros Ha. unfold master_equation. rewrite (Ls_system n a Ha), asum_map. reflexivity. Qed.

  Lemma smul_swap (c d : K) x : smul c (smul d x) = smul d (smul c x).
  Proof. rewrite <- !smul_mul. f_equal. ring. Qed.
  Lemma dis_shift l r (c : K) :
    dis (l + smul c a1) r =
    dis l r + smul khalf ((smul (kconj c) (l * r) + smul c (r * star l)) + aopp (smul (kconj c) (r * l) + smul c (star l * r))).
  Proof.
    unfold dis. rewrite star_add, star_smul, star_1.
    set (t1 := smul (kconj c) (l * r)). set (t2 := smul (kconj c) (r * l)).
    set (t3 := smul c (r * star l)). set (t4 := smul c (star l * r)). set (t5 := smul (kmul c (kconj c)) r).
    set (C := smul c a1). set (D := smul (kconj c) a1).
    assert (forall x, C * x = smul c x) as HC by (intros; symmetry; apply smul_via).
    assert (forall x, x * C = smul c x) as HC' by (intros; symmetry; apply smul_via_r).
    assert (forall x, D * x = smul (kconj c) x) as HD by (intros; symmetry; apply smul_via).
    assert (forall x, x * D = smul (kconj c) x) as HD' by (intros; symmetry; apply smul_via_r).
    replace ((l + C) * r * (star l + D)) with (l * r * star l + (t1 + t3 + t5)).
    2:{ transitivity (l * r * star l + (l * r * D + C * (r * star l) + C * (r * D))); [|ncr].
        now rewrite !HD', !HC, <- smul_mul. }
    replace ((star l + D) * (l + C) * r) with (star l * l * r + (t4 + t1 + t5)).
    2:{ transitivity (star l * l * r + (star l * C * r + D * (l * r) + D * (C * r))); [|ncr].
        rewrite HC', !HC, !HD, smul_amul_l, (smul_swap (kconj c) c), <- smul_mul. reflexivity. }
    replace (r * (star l + D) * (l + C)) with (r * star l * l + (t3 + t2 + t5)).
    2:{ transitivity (r * star l * l + ((r * star l) * C + r * D * l + (r * D) * C)); [|ncr].
        rewrite !HC', !HD', smul_amul_l, <- smul_mul. reflexivity. }
    rewrite <- (half_half (t1 + t3 + t5)) at 1.
    assert (forall x, smul khalf (aopp x) = aopp (smul khalf x)) as Ho by (intros; apply smul_swap).
    rewrite !smul_addr, !Ho, !smul_addr.
    set (h1 := smul khalf t1). set (h2 := smul khalf t2). set (h3 := smul khalf t3). set (h4 := smul khalf t4). set (h5 := smul khalf t5).
    set (q1 := smul khalf (star l * l * r)). set (q2 := smul khalf (r * star l * l)). ncr.
  Qed.

  (** a drive in front of the outputs of [a] *)
  Definition driven n (al : nat -> K) a : slh := ser n (mkS n delta (fun i => smul (al i) a1) a0) a.
  Lemma driven_S n (al : nat -> K) a i j : i < n -> j < n -> Sf (driven n al a) i j = Sf a i j.
  Proof.
    intros Hi Hj. unfold driven. rewrite Sf_ser by assumption.
    rewrite (mm_ext n _ (Sf a) delta (Sf a)) by (intros; try reflexivity; now apply Sf_mkS). now apply mm_delta_l.
  Qed.
  Lemma driven_L n (al : nat -> K) a i : i < n -> Lf (driven n al a) i = Lf a i + smul (al i) a1.
  Proof.
    intros Hi. unfold driven. rewrite Lf_ser by assumption.
    rewrite (mv_ext n _ (Lf a) delta (Lf a)) by (intros; try reflexivity; now apply Sf_mkS). rewrite mv_delta by assumption.
    rewrite Lf_mkS by assumption. reflexivity.
  Qed.
  Lemma driven_H n (al : nat -> K) a : sH (driven n al a) = sH a + imp (sm n (fun k => smul (kconj (al k)) (Lf a k))).
  Proof.
    unfold driven, ser, fseries. rewrite !sH_mkS, aadd_0. do 2 f_equal. unfold dot. apply sm_ext. intros k Hk.
    rewrite Lf_mkS by assumption. rewrite star_smul, star_1.
    rewrite (mv_ext n _ (Lf a) delta (Lf a)) by (intros; try reflexivity; now apply Sf_mkS). rewrite mv_delta by assumption.
    symmetry. apply smul_via.
  Qed.
  Lemma driven_master n (al : nat -> K) a r : system a n -> master_equation (driven n al a) r = master_equation a r.
  Proof.
    intros Ha. rewrite (master_system n a r Ha). rewrite (master_system n) by apply ser_system.
    rewrite (sm_ext n (fun k => dis (Lf (driven n al a) k) r)
      (fun k => dis (Lf a k) r + smul khalf ((smul (kconj (al k)) (Lf a k * r) + smul (al k) (r * star (Lf a k)))
         + aopp (smul (kconj (al k)) (r * Lf a k) + smul (al k) (star (Lf a k) * r)))))
      by (intros k Hk; rewrite driven_L by assumption; apply dis_shift).
    rewrite sm_add, sm_smul, sm_add, sm_opp, !sm_add. rewrite driven_H.
    set (m := sm n (fun k => smul (kconj (al k)) (Lf a k))).
    assert (sm n (fun k => smul (kconj (al k)) (Lf a k * r)) = m * r) as ->.
    { unfold m. rewrite <- sm_mul_r. apply sm_ext. intros. symmetry. apply smul_amul_l. }
    assert (sm n (fun k => smul (kconj (al k)) (r * Lf a k)) = r * m) as ->.
    { unfold m. rewrite <- sm_mul_l. apply sm_ext. intros. symmetry. apply smul_amul_r. }
    assert (star m = sm n (fun k => smul (al k) (star (Lf a k)))) as Em.
    { unfold m. rewrite star_sm. apply sm_ext. intros. rewrite star_smul, kconj_conj. reflexivity. }
    assert (sm n (fun k => smul (al k) (r * star (Lf a k))) = r * star m) as ->.
    { rewrite Em, <- sm_mul_l. apply sm_ext. intros. symmetry. apply smul_amul_r. }
    assert (sm n (fun k => smul (al k) (star (Lf a k) * r)) = star m * r) as ->.
    { rewrite Em, <- sm_mul_r. apply sm_ext. intros. symmetry. apply smul_amul_l. }
    assert (forall (k : K) x, smul k (aopp x) = aopp (smul k x)) as Ho by (intros; apply smul_swap).
    rewrite !amul_addl, !amul_addr, !aopp_add, !smul_addr, !Ho.
    rewrite <- (smul_amul_l M (kopp iu) (imp m) r), <- (smul_amul_r M (kopp iu) r (imp m)), imp_i.
    rewrite smul_addr, Ho.
    rewrite <- (smul_amul_l M khalf m r), <- (smul_amul_l M khalf (star m) r), <- (smul_amul_r M khalf r m), <- (smul_amul_r M khalf r (star m)).
    set (h := smul khalf m). set (hs := smul khalf (star m)).
    set (i1 := smul (kopp iu) (sH a * r)). set (i2 := smul (kopp iu) (r * sH a)).
    set (q := sm n _). ncr.
  Qed.

  Definition disH (l r : A) : A :=
    star l * r * l + smul khalf (aopp (star l * l * r + r * star l * l)).
  Lemma heis_system n a r : system a n ->
    heisenberg_eom a r = smul iu (sH a * r + aopp (r * sH a)) + sm n (fun k => disH (Lf a k) r).
  Proof. intros Ha. unfold heisenberg_eom. rewrite (Ls_system n a Ha), asum_map. reflexivity. Qed.
  Lemma disH_shift l r (c : K) :
    disH (l + smul c a1) r =
    disH l r + smul khalf ((smul c (star l * r) + smul (kconj c) (r * l)) + aopp (smul (kconj c) (l * r) + smul c (r * star l))).
  Proof.
    unfold disH. rewrite star_add, star_smul, star_1.
    set (t1 := smul (kconj c) (l * r)). set (t2 := smul (kconj c) (r * l)).
    set (t3 := smul c (r * star l)). set (t4 := smul c (star l * r)). set (t5 := smul (kmul c (kconj c)) r).
    set (C := smul c a1). set (D := smul (kconj c) a1).
    assert (forall x, C * x = smul c x) as HC by (intros; symmetry; apply smul_via).
    assert (forall x, x * C = smul c x) as HC' by (intros; symmetry; apply smul_via_r).
    assert (forall x, D * x = smul (kconj c) x) as HD by (intros; symmetry; apply smul_via).
    assert (forall x, x * D = smul (kconj c) x) as HD' by (intros; symmetry; apply smul_via_r).
    replace ((star l + D) * r * (l + C)) with (star l * r * l + (t4 + t2 + t5)).
    2:{ transitivity (star l * r * l + (star l * r * C + D * (r * l) + D * (r * C))); [|ncr].
        rewrite !HC', !HD, (smul_swap (kconj c) c), <- smul_mul. reflexivity. }
    replace ((star l + D) * (l + C) * r) with (star l * l * r + (t4 + t1 + t5)).
    2:{ transitivity (star l * l * r + (star l * C * r + D * (l * r) + D * (C * r))); [|ncr].
        rewrite HC', !HC, !HD, smul_amul_l, (smul_swap (kconj c) c), <- smul_mul. reflexivity. }
    replace (r * (star l + D) * (l + C)) with (r * star l * l + (t3 + t2 + t5)).
    2:{ transitivity (r * star l * l + ((r * star l) * C + r * D * l + (r * D) * C)); [|ncr].
        rewrite !HC', !HD', smul_amul_l, <- smul_mul. reflexivity. }
    rewrite <- (half_half (t4 + t2 + t5)) at 1.
    assert (forall x, smul khalf (aopp x) = aopp (smul khalf x)) as Ho by (intros; apply smul_swap).
    rewrite !Ho, !smul_addr, !Ho, !smul_addr.
    set (h1 := smul khalf t1). set (h2 := smul khalf t2). set (h3 := smul khalf t3). set (h4 := smul khalf t4). set (h5 := smul khalf t5).
    set (q1 := smul khalf (star l * l * r)). set (q2 := smul khalf (r * star l * l)). ncr.
  Qed.
  Lemma driven_heis n (al : nat -> K) a r : system a n -> heisenberg_eom (driven n al a) r = heisenberg_eom a r.
  Proof.
    intros Ha. rewrite (heis_system n a r Ha). rewrite (heis_system n) by apply ser_system.
    rewrite (sm_ext n (fun k => disH (Lf (driven n al a) k) r)
      (fun k => disH (Lf a k) r + smul khalf ((smul (al k) (star (Lf a k) * r) + smul (kconj (al k)) (r * Lf a k))
         + aopp (smul (kconj (al k)) (Lf a k * r) + smul (al k) (r * star (Lf a k))))))
      by (intros k Hk; rewrite driven_L by assumption; apply disH_shift).
    rewrite sm_add, sm_smul, sm_add, sm_opp, !sm_add. rewrite driven_H.
    set (m := sm n (fun k => smul (kconj (al k)) (Lf a k))).
    assert (sm n (fun k => smul (kconj (al k)) (Lf a k * r)) = m * r) as ->.
    { unfold m. rewrite <- sm_mul_r. apply sm_ext. intros. symmetry. apply smul_amul_l. }
    assert (sm n (fun k => smul (kconj (al k)) (r * Lf a k)) = r * m) as ->.
    { unfold m. rewrite <- sm_mul_l. apply sm_ext. intros. symmetry. apply smul_amul_r. }
    assert (star m = sm n (fun k => smul (al k) (star (Lf a k)))) as Em.
    { unfold m. rewrite star_sm. apply sm_ext. intros. rewrite star_smul, kconj_conj. reflexivity. }
    assert (sm n (fun k => smul (al k) (r * star (Lf a k))) = r * star m) as ->.
    { rewrite Em, <- sm_mul_l. apply sm_ext. intros. symmetry. apply smul_amul_r. }
    assert (sm n (fun k => smul (al k) (star (Lf a k) * r)) = star m * r) as ->.
    { rewrite Em, <- sm_mul_r. apply sm_ext. intros. symmetry. apply smul_amul_l. }
    assert (forall (k : K) x, smul k (aopp x) = aopp (smul k x)) as Ho by (intros; apply smul_swap).
    rewrite !amul_addl, !amul_addr, !aopp_add, !smul_addr, !Ho.
    assert (smul iu (imp m) = smul khalf (m + aopp (star m))) as Ei.
    { pose proof (imp_i m) as E. rewrite smul_opp in E. apply (f_equal aopp) in E. rewrite aopp_opp in E. rewrite E.
      rewrite <- Ho, aopp_add, aopp_opp, aadd_comm. reflexivity. }
    rewrite <- (smul_amul_l M iu (imp m) r), <- (smul_amul_r M iu r (imp m)), Ei.
    rewrite smul_addr, Ho.
    rewrite <- (smul_amul_l M khalf m r), <- (smul_amul_l M khalf (star m) r), <- (smul_amul_r M khalf r m), <- (smul_amul_r M khalf r (star m)).
    set (h := smul khalf m). set (hs := smul khalf (star m)).
    set (i1 := smul iu (sH a * r)). set (i2 := smul iu (r * sH a)).
    set (q := sm n _). ncr.
  Qed.
End F.
