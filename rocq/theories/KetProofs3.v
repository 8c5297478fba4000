(** Kets: operators applied to kets, inner and outer products are sound. For C43. *)
From Coq Require Import QArith Qcanon Permutation Relations.
From Verif Require Import Prelude ListFacts SortModel SortProofs BinModel BinSpec BinProofs AlgSpec CAlg OpModel OpSpec OpProofs1 CSimpProofs5 OpProofs2 OpProofs3 KetModel KetSpec KetProofs1 KetProofs2.
Local Open Scope nat_scope.

Section Sound.
  Context {S : scalars} {dim : nat -> option nat} {I : interp S dim} (W : kets I).
  Local Notation V := (V W).
  Local Notation klegal := (klegal (I:=I)).
  Local Notation kvalue := (kvalue W).
  Local Notation kmeans := (kmeans W).
  Local Notation kat := (kat (I:=I)).
  Local Notation ket := (ket S).
  Local Notation op := (op S).
  Local Notation value := (value I).
  Local Notation legal := (legal I).
  Local Notation level := (level (dim:=dim)).
  Add Ring Kk3 : (kring I).

  Context (KO : ocreators S) (HK : soundK I KO) (Q : kcreators S) (HQ : soundQ W Q).
  Context (chk_phase : S -> bool) (Hphase : forall u, chk_phase u = true -> kconj (ev (r:=I) u) = ev u).
  Context (chk_split : list op -> list op -> list nat -> list nat -> bool)
    (Hsplit : forall on off h h', chk_split on off h h' = true -> (forall o, In o on -> incl (space o) h) /\ (forall o, In o off -> incl (space o) h')).

  (** ** Single operators on basis states: a level is the image of its projector *)
  Lemma basis_proj n l : level l n -> act (isigma n n l) (ebasis n l : V) = ebasis n l.
  Proof. intros H. rewrite (sigma_basis I W) by assumption. now rewrite Nat.eqb_refl. Qed.
  Lemma lift_scal a (v : K I) n m l : level l n -> level l m ->
    amul a (isigma n n l) = smul v (isigma m n l) -> act a (ebasis n l : V) = vs v (ebasis m l).
  Proof.
    intros Hn Hm E. rewrite <- (basis_proj n l Hn), <- (act_mul I W), E, (act_smul I W), (sigma_basis I W) by assumption. now rewrite Nat.eqb_refl.
  Qed.
  Lemma lift_zero a n l : level l n -> amul a (isigma n n l) = a0 -> act a (ebasis n l : V) = vz.
  Proof. intros Hn E. rewrite <- (basis_proj n l Hn), <- (act_mul I W), E. apply act_0. Qed.
  Lemma knext_up j l : level l (j + 1) -> knext dim j l 1 = KBasis (S:=S) (j + 1) l.
  Proof.
    intros H. unfold knext, in_range. replace (Z.of_nat j + 1)%Z with (Z.of_nat (j + 1)) by lia. rewrite Nat2Z.id.
    destruct (Z.leb_spec 0 (Z.of_nat (j + 1))); [|lia]. cbn [andb]. unfold OpSpec.level in H. destruct (dim l) as [d|]; [|reflexivity].
    destruct (Z.ltb_spec (Z.of_nat (j + 1)) (Z.of_nat d)); [reflexivity|lia].
  Qed.
  Lemma knext_top n j l : dim l = Some n -> n <= j + 1 -> knext dim j l 1 = KZero (S:=S).
  Proof.
    intros Hn H. unfold knext, in_range. rewrite Hn. destruct (Z.leb_spec 0 (Z.of_nat j + 1)); [|reflexivity]. cbn [andb].
    destruct (Z.ltb_spec (Z.of_nat j + 1) (Z.of_nat n)); [lia|reflexivity].
  Qed.
  Lemma knext_down j l : level l j -> knext dim j l (-1) = if j =? 0 then KZero (S:=S) else KBasis (j - 1) l.
  Proof.
    intros H. unfold knext, in_range. destruct (Nat.eqb_spec j 0) as [->|Hj]; [reflexivity|].
    replace (Z.of_nat j + -1)%Z with (Z.of_nat (j - 1)) by lia. rewrite Nat2Z.id. destruct (Z.leb_spec 0 (Z.of_nat (j - 1))); [|lia]. cbn [andb].
    unfold OpSpec.level in H. destruct (dim l) as [d|]; [|reflexivity]. destruct (Z.ltb_spec (Z.of_nat (j - 1)) (Z.of_nat d)); [reflexivity|lia].
  Qed.
  Lemma kop_new_sound a t k h : legal a -> kat h t -> t <> KZero -> kop_new a t = Ok k -> kmeans k h (act (value a) (kvalue t)).
  Proof.
    intros La [Lt St] Nz E. unfold kop_new in E. destruct (sp_incl (space a) (kspace t)) eqn:Ei; [|discriminate]. injection E as <-. apply sp_incl_spec in Ei.
    split; [repeat split; assumption|]. split; [reflexivity|]. right. destruct St as [?|St]; [contradiction|exact St].
  Qed.
  Lemma level_boson l j : boson (i:=I) l -> level l j.
  Proof. intros H. unfold OpSpec.level. now rewrite (boson_dim _ _ I _ H). Qed.
  Lemma scal_basis c n l k : level l n -> kc_scal Q c (KBasis n l) = Ok k -> kmeans k [l] (vs (ev c) (ebasis n l)).
  Proof. intros Hn E. apply (q_scal W Q HQ c (KBasis n l) k [l]); [split; [exact Hn|right; apply same_refl]|exact E]. Qed.
  Lemma scal_kzero c h k (v : V) : v = vz -> kc_scal Q c KZero = Ok k -> kmeans k h v.
  Proof. intros -> E. rewrite <- (vs_z W (ev c)). apply (q_scal W Q HQ c KZero k h); [apply kat_zero|exact E]. Qed.
  Lemma atom_basis_sound a j l k : legal (OAtom a) -> level l j -> atom_basis dim Q a j l = Ok k -> kmeans k [l] (act (atom_val I a) (ebasis j l)).
  Proof.
    intros La Hj E.
    assert (forall a', legal (OAtom a') -> kop_new (OAtom a') (KBasis j l) = Ok k -> kmeans k [l] (act (atom_val I a') (ebasis j l))) as Other.
    { intros a' La' E'. apply (kop_new_sound (OAtom a') (KBasis j l)); [exact La'|split; [exact Hj|right; apply same_refl]|discriminate|exact E']. }
    destruct a as [n h|l'|l'|n m l'|u l'|u l'|u l'|l'|l'|l']; cbn [atom_basis] in E; try (now apply Other);
      try (destruct (Nat.eqb_spec l' l) as [->|]; [|now apply Other]); cbn [atom_val].
    - cbn in La. rewrite (lift_scal _ (ksqrt (qn (j + 1))) j (j + 1) l Hj (level_boson l _ La)) by (now apply (create_sigma _ _ I)).
      rewrite knext_up in E by (now apply level_boson). replace (ksqrt (r:=I) (qn (j + 1))) with (ev (r:=I) (ssqrt (qn j + 1)%Qc)) by (rewrite ev_sqrt, qn_add, qn_1; reflexivity).
      apply scal_basis; [now apply level_boson|exact E].
    - cbn in La. rewrite knext_down in E by exact Hj. destruct (Nat.eqb_spec j 0) as [->|Nj].
      + apply (scal_kzero _ _ _ _) with (2 := E). apply lift_zero; [exact Hj|]. now apply (destroy_sigma_0 _ _ I).
      + rewrite (lift_scal _ (ksqrt (qn j)) j (j - 1) l Hj (level_boson l _ La)).
        * rewrite <- (ev_sqrt S I). apply scal_basis; [now apply level_boson|exact E].
        * pose proof (destroy_sigma _ _ I (j - 1) j l La) as G. replace (j - 1 + 1) with j in G by lia. exact G.
    - destruct La as [Ln Lm]. rewrite (sigma_basis I W) by assumption. destruct (Nat.eqb_spec m j) as [->|Nm].
      + pose proof (scal_basis _ _ _ _ Ln E) as G. rewrite (ev_s1 I), (vs_1 I W) in G. exact G.
      + pose proof (scal_basis _ _ _ _ Ln E) as G. rewrite (ev_s0 I), (vs_0 I W) in G. exact G.
    - cbn in La. rewrite (boson_dim _ _ I _ La) in E. rewrite (lift_scal _ (kexp (kmul (kmul iu (ev u)) (kQ (qn j)))) j j l Hj Hj) by (now apply (phase_sigma _ _ I)).
      rewrite <- (ev_Q S I), <- (ev_I S I), <- !(ev_mul S I), <- (ev_exp S I). now apply scal_basis.
    - cbn in La. cbn [andb] in E. destruct (Nat.eqb_spec j 0) as [->|Nj]; [|exact (Other (ADisp u l) La E)]. rewrite (boson_dim _ _ I _ (displ_boson _ _ I _ La)) in E. cbn [andb] in E. injection E as <-.
      split; [exact La|]. split; [reflexivity|]. right. apply same_refl.
    - cbn in La. destruct (spin_levels I l La) as [n [Hn Hl]]. rewrite Hl in Hj. unfold Jpjmcoeff, spin_coeff in E. rewrite Hn in E. destruct (Nat.ltb_spec j n) as [_|]; [|lia]. cbn [bind] in E.
      rewrite jp_radicand_nat in E by exact Hj. pose proof (jp_sigma _ _ I n j j l La Hn Hj) as G. destruct (Nat.ltb_spec (j + 1) n) as [H1|H1].
      + assert (level l (j + 1)) as L1 by (now apply Hl). rewrite knext_up in E by exact L1. rewrite (lift_scal _ _ j (j + 1) l (proj2 (Hl j) Hj) L1 G).
        rewrite <- (ev_sqrt S I). now apply scal_basis.
      + rewrite (knext_top n) in E by assumption. apply (scal_kzero _ _ _ _) with (2 := E). apply lift_zero; [now apply Hl|exact G].
    - cbn in La. destruct (spin_levels I l La) as [n [Hn Hl]]. pose proof Hj as Hj'. rewrite Hl in Hj. unfold Jmjmcoeff, spin_coeff in E. rewrite Hn in E. destruct (Nat.ltb_spec j n) as [_|]; [|lia]. cbn [bind] in E.
      rewrite jm_radicand_nat in E by exact Hj. pose proof (jm_sigma _ _ I n j j l La Hn Hj) as G. rewrite knext_down in E by exact Hj'. destruct (Nat.eqb_spec j 0) as [->|N0].
      + apply (scal_kzero _ _ _ _) with (2 := E). apply lift_zero; [now apply Hl|exact G].
      + assert (level l (j - 1)) as L1 by (apply Hl; lia). rewrite (lift_scal _ _ j (j - 1) l Hj' L1 G). rewrite <- (ev_sqrt S I). now apply scal_basis.
    - cbn in La. destruct (spin_levels I l La) as [n [Hn Hl]]. pose proof Hj as Hj'. rewrite Hl in Hj. unfold Jzjmcoeff, spin_coeff in E. rewrite Hn in E. destruct (Nat.ltb_spec j n) as [_|]; [|lia]. cbn [bind] in E.
      pose proof (jz_sigma _ _ I n j j l La Hn Hj) as G. rewrite (lift_scal _ _ j j l Hj' Hj' G). rewrite <- (ev_Q S I). now apply scal_basis.
  Qed.

  (** ** Single operators on coherent states *)
  Lemma kat_coh u l : displ (i:=I) l -> kat [l] (KCoh u l : ket).
  Proof. intros H. split; [exact H|right; apply same_refl]. Qed.
  Lemma kat_vac l : displ (i:=I) l -> kat [l] (KBasis 0 l : ket).
  Proof. intros H. split; [apply level_boson; now apply (displ_boson _ _ I)|right; apply same_refl]. Qed.
  Lemma atom_coh_sound a v l k : legal (OAtom a) -> displ (i:=I) l -> atom_coh KO chk_phase Q a v l = Ok k -> kmeans k [l] (act (atom_val I a) (kvalue (KCoh v l))).
  Proof.
    intros La Hl E.
    assert (forall a', legal (OAtom a') -> kop_new (OAtom a') (KCoh v l) = Ok k -> kmeans k [l] (act (atom_val I a') (kvalue (KCoh v l)))) as Other.
    { intros a' La' E'. apply (kop_new_sound (OAtom a') (KCoh v l)); [exact La'|now apply kat_coh|discriminate|exact E']. }
    destruct a as [n h|l'|l'|n m l'|u l'|u l'|u l'|l'|l'|l']; cbn [atom_coh] in E; try (now apply Other);
      destruct (Nat.eqb_spec l' l) as [->|]; try (now apply Other); cbn [atom_val KetSpec.kvalue].
    - destruct (q_scal W Q HQ _ _ _ [l] (kat_coh v l Hl) E) as (L & Vk & Sk). split; [exact L|]. split; [|exact Sk]. rewrite Vk. cbn [KetSpec.kvalue].
      rewrite <- (act_mul I W), (destroy_disp _ _ I) by exact Hl. rewrite (act_mul I W), (act_add I W), (act_smul I W), (act_1 I W).
      rewrite (lift_zero (idestroy l) 0 l), (va_0 I W), (act_vs I W); [reflexivity|now apply kat_vac|]. apply (destroy_sigma_0 _ _ I). now apply (displ_boson _ _ I).
    - destruct (chk_phase u) eqn:Ec; [|discriminate]. injection E as <-. split; [exact Hl|]. split; [|right; apply same_refl]. cbn [KetSpec.kvalue].
      rewrite ev_mul, ev_exp, ev_mul, ev_I. symmetry. apply (phase_coherent I W); [exact Hl|now apply Hphase].
    - step E d Ed. destruct (m_times2 I KO HK (OAtom (ADisp u l)) (OAtom (ADisp v l)) d Hl Hl Ed) as [Ld Vd].
      destruct (q_op W Q HQ _ _ _ [l] Ld (kat_vac l Hl) E) as (L & Vk & Sk). split; [exact L|]. split; [|exact Sk]. rewrite Vk, Vd, (act_mul I W). reflexivity.
  Qed.

  (** ** Splitting tensor products *)
  Lemma split_perm {A} (p : A -> bool) l : Permutation l (filter (fun x => negb (p x)) l ++ filter p l).
  Proof.
    induction l as [|x l IH]; [constructor|]. cbn [filter]. destruct (p x); cbn [negb app].
    - apply (Permutation_trans (perm_skip x IH)). apply Permutation_middle.
    - now constructor.
  Qed.
  Lemma kfactor_sound spc l x y : klegal (KTensor l) -> kfactor Q spc l = Ok (x, y) ->
    klegal x /\ klegal y /\ kvalue (KTensor l) = vm (kvalue x) (kvalue y) /\ kat (flat_map kspace (kon spc l)) x /\ kat (flat_map kspace (koff spc l)) y
    /\ same_set (kspace (KTensor l)) (flat_map kspace (kon spc l) ++ flat_map kspace (koff spc l)) /\ apart (flat_map kspace (kon spc l)) (flat_map kspace (koff spc l)).
  Proof.
    intros [Hd Hl] E. rewrite klegal_fold in Hl. unfold kfactor in E. step E p Ep. step E q Eq'. injection E as <- <-.
    assert (Permutation l (kon spc l ++ koff spc l)) as P by (apply (split_perm (fun o => sp_disjoint (kspace o) spc))).
    assert (Forall klegal l) as Ll by (eapply Forall_impl; [|exact Hl]; now intros ? [_ ?]).
    assert (Forall klegal (kon spc l ++ koff spc l)) as Lp by (apply (Permutation_Forall P); exact Ll). apply Forall_app in Lp. destruct Lp as [L1 L2].
    destruct (q_tens W Q HQ _ _ L1 Ep) as [(Lx & Vx & Sx) _]. destruct (q_tens W Q HQ _ _ L2 Eq') as [(Ly & Vy & Sy) _].
    pose proof (disjoint_perm _ _ P Hd) as D. apply disjoint_app in D. destruct D as (_ & _ & D).
    split; [exact Lx|]. split; [exact Ly|]. split; [|split; [now split|split; [now split|split; [|exact D]]]].
    - rewrite Vx, Vy. cbn [KetSpec.kvalue]. rewrite <- vprod_app, <- map_app. apply vprod_perm. now apply Permutation_map.
    - apply (same_trans _ (flat_map kspace l)); [apply kspace_tensor|]. rewrite <- flat_map_app. now apply same_perm_space.
  Qed.
  Lemma act_locally_sound a l k h : is_local a = true -> legal (OAtom a) -> kat h (KTensor l) -> act_locally Q (OAtom a) l = Ok k -> kmeans k h (act (value (OAtom a)) (kvalue (KTensor l))).
  Proof.
    intros Hloc La [Lt St] E. unfold act_locally in E. step E f Ef. destruct f as [x y]. destruct (kfactor_sound _ _ _ _ Lt Ef) as (Lx & Ly & Vt & Kx & Ky & Ss & Dd).
    destruct St as [?|St]; [discriminate|].
    destruct (is_ktriv y) eqn:Ey.
    - apply (kop_new_sound _ _ _ h) in E; [exact E|exact La|split; [exact Lt|now right]|discriminate].
    - step E p Ep. destruct (q_op W Q HQ _ _ _ _ La Kx Ep) as (Lp & Vp & Sp). destruct (q_tens2 W Q HQ _ _ _ Lp Ly E) as [(Lk & Vk & Sk) Dk].
      assert (kvalue k = act (value (OAtom a)) (kvalue (KTensor l))) as VV.
      { rewrite Vk, Vp, Vt. symmetry. apply (act_local I W (space (OAtom a)) (flat_map kspace (kon (space (OAtom a)) l)) (flat_map kspace (koff (space (OAtom a)) l))).
        - now apply value_lives.
        - (* some factor contains the local space *)
          assert (kon (space (OAtom a)) l <> []) as Ne.
          { intros Ne. unfold kfactor in Ef. rewrite Ne in Ef. step Ef p' Ep'. exact (q_nil W Q HQ _ Ep'). }
          destruct (kon (space (OAtom a)) l) as [|z r] eqn:Eon; [contradiction|].
          assert (In z (kon (space (OAtom a)) l)) as Hz by (rewrite Eon; now left). unfold kon in Hz. apply filter_In in Hz. destruct Hz as [_ Hz].
          assert (exists s, space (OAtom (S:=S) a) = [s]) as [s Es] by (destruct a; try discriminate Hloc; cbn; eauto). rewrite Es in *.
          assert (sp_disjoint (kspace z) [s] = false) as Hz' by (now destruct (sp_disjoint (kspace z) [s])).
          intros s' [<-|[]]. cbn [flat_map]. apply in_or_app. left. destruct (in_dec Nat.eq_dec s (kspace z)) as [Hin|Hin]; [exact Hin|]. exfalso.
          assert (sp_disjoint (kspace z) [s] = true) as Ht by (apply sp_disjoint_apart; intros w Hw [<-|[]]; contradiction). congruence.
        - exact Dd.
        - now apply kat_on.
        - now apply kat_on. }
      split; [exact Lk|]. split; [exact VV|]. destruct (zero_dec k) as [->|Nk]; [now left|right]. destruct (Dk Nk) as (_ & Np & Ny).
      destruct Sk as [?|Sk]; [contradiction|]. destruct Sp as [?|Sp]; [contradiction|]. destruct Ky as [_ [?|Ky]]; [contradiction|].
      apply (same_trans _ _ _ Sk). apply (same_trans _ (flat_map kspace (kon (space (OAtom a)) l) ++ flat_map kspace (koff (space (OAtom a)) l))); [now apply same_app|].
      apply (same_trans _ (kspace (KTensor l))); [now apply same_sym|exact St].
  Qed.
  Lemma mprod_living h l : Forall legal l -> (forall o, In o l -> incl (space o) h) -> lives h (mprod I (map value l)).
  Proof.
    induction 1 as [|x l Hx Hl IH]; intros H; [apply (lives_incl _ _ I []); [intros ? []|apply (lives_1 _ _ I)]|]. cbn [map]. rewrite mprod_cons. apply (lives_mul _ _ I).
    - apply (lives_incl _ _ I (space x)); [apply H; now left|now apply value_lives].
    - apply IH. intros o Ho. apply H. now right.
  Qed.
  Lemma split_product (p : op -> bool) h1 h2 l : apart h1 h2 -> Forall legal l ->
    (forall o, In o (filter (fun x => negb (p x)) l) -> incl (space o) h1) -> (forall o, In o (filter p l) -> incl (space o) h2) ->
    mprod I (map value l) = amul (mprod I (map value (filter (fun x => negb (p x)) l))) (mprod I (map value (filter p l))).
  Proof.
    intros D. induction 1 as [|x l Hx Hl IH]; intros H1 H2; [cbn; symmetry; apply amul_1l|].
    assert (Forall legal (filter (fun x => negb (p x)) l)) as L1 by (rewrite Forall_forall in *; intros z Hz; apply filter_In in Hz; now apply Hl).
    cbn [filter] in *. cbn [map]. rewrite mprod_cons. destruct (p x); cbn [negb] in *.
    - rewrite IH; [|exact H1|intros o Ho; apply H2; now right]. cbn [map]. rewrite mprod_cons, !amul_assoc. f_equal.
      apply (lives_commute _ _ I h2 h1); [apply (lives_incl _ _ I (space x)); [apply H2; now left|now apply value_lives]|now apply mprod_living|now apply apart_sym].
    - rewrite IH; [|intros o Ho; apply H1; now right|exact H2]. cbn [map]. rewrite mprod_cons, !amul_assoc. reflexivity.
  Qed.
  Lemma kat_incl h k : kat h k -> incl (kspace k) h.
  Proof. intros [_ [->|H]]; [intros ? []|now apply same_incl]. Qed.
  Lemma tens_split p1 p2 k l h h1 h2 (v : V) : kat h1 p1 -> kat h2 p2 -> same_set (kspace (KTensor l : ket)) (h1 ++ h2) -> kat h (KTensor l) -> kc_tens Q [p1; p2] = Ok k ->
    v = vm (kvalue p1) (kvalue p2) -> kmeans k h v.
  Proof.
    intros H1 H2 Hs [Lt [?|St]] E ->; [discriminate|]. destruct (q_tens2 W Q HQ _ _ _ (proj1 H1) (proj1 H2) E) as [(Lk & Vk & Sk) Dk]. split; [exact Lk|]. split; [exact Vk|].
    destruct (zero_dec k) as [->|Nk]; [now left|right]. destruct (Dk Nk) as (_ & N1 & N2). destruct Sk as [?|Sk]; [contradiction|].
    destruct H1 as [_ [?|H1]]; [contradiction|]. destruct H2 as [_ [?|H2]]; [contradiction|]. apply (same_trans _ _ _ Sk).
    apply (same_trans _ (h1 ++ h2)); [now apply same_app|]. apply (same_trans _ (kspace (KTensor l))); [now apply same_sym|exact St].
  Qed.
  Lemma times_while_sound fuel ops l h : Forall legal ops -> kat h (KTensor l) -> forall spc k, times_while KO chk_split Q fuel ops l spc = Ok (Some k) ->
    kmeans k h (act (mprod I (map value ops)) (kvalue (KTensor l))).
  Proof.
    intros Lo Kt. induction fuel as [|fuel IH]; intros spc k E.
    - unfold times_while in E. destruct (sp_lt spc (kspace (KTensor l))); discriminate.
    - change (times_while KO chk_split Q (Datatypes.S fuel) ops l spc) with
        (if sp_lt spc (kspace (KTensor l)) then
           do o <- ofactor KO spc ops; do k <- kfactor Q spc l;
           let '(o1, o2) := o in let '(k1, k2) := k in
           if sp_incl (space o1) (kspace k1) && sp_incl (space o2) (kspace k2) && negb (is_ktriv k2) then
             if chk_split (oon spc ops) (ooff spc ops) (kspace k1) (kspace k2) then
               rmap Some (do x <- kc_op Q o1 k1; do y <- kc_op Q o2 k2; kc_tens Q [x; y])
             else Err Unmodelled
           else times_while KO chk_split Q fuel ops l (sp_union (space o1) (kspace k1))
         else Ok None) in E.
      destruct (sp_lt spc (kspace (KTensor l))); [|discriminate]. step E o Eo. destruct o as [o1 o2]. step E f Ef. destruct f as [k1 k2].
      destruct (sp_incl (space o1) (kspace k1) && sp_incl (space o2) (kspace k2) && negb (is_ktriv k2)); [|exact (IH _ _ E)].
      destruct (chk_split (oon spc ops) (ooff spc ops) (kspace k1) (kspace k2)) eqn:Ec; [|discriminate]. apply Hsplit in Ec. destruct Ec as [C1 C2].
      unfold ofactor in Eo. step Eo x1 Ex1. step Eo x2 Ex2. injection Eo as <- <-.
      assert (Forall legal (oon spc ops)) as L1 by (rewrite Forall_forall in *; intros z Hz; apply filter_In in Hz; now apply Lo).
      assert (Forall legal (ooff spc ops)) as L2 by (rewrite Forall_forall in *; intros z Hz; apply filter_In in Hz; now apply Lo).
      destruct (OpProofs2.s_times I KO HK _ _ L1 Ex1) as [Lx1 Vx1]. destruct (OpProofs2.s_times I KO HK _ _ L2 Ex2) as [Lx2 Vx2].
      destruct (kfactor_sound _ _ _ _ (proj1 Kt) Ef) as (Lk1 & Lk2 & Vt & K1 & K2 & Ss & Dd).
      set (h1 := flat_map kspace (kon spc l)) in *. set (h2 := flat_map kspace (koff spc l)) in *.
      assert (forall o, In o (oon spc ops) -> incl (space o) h1) as I1 by (intros o Ho; eapply incl_tran; [now apply C1|now apply kat_incl]).
      assert (forall o, In o (ooff spc ops) -> incl (space o) h2) as I2 by (intros o Ho; eapply incl_tran; [now apply C2|now apply kat_incl]).
      match type of E with rmap Some ?r = _ => destruct r as [k'|] eqn:Ek end; [|discriminate]. cbn [rmap] in E. injection E as <-.
      step Ek p1 Ep1. step Ek p2 Ep2. destruct (q_op W Q HQ _ _ _ _ Lx1 K1 Ep1) as (A1 & A2 & A3). destruct (q_op W Q HQ _ _ _ _ Lx2 K2 Ep2) as (B1 & B2 & B3).
      apply (tens_split p1 p2 k' l h h1 h2); [now split|now split|exact Ss|exact Kt|exact Ek|].
      rewrite A2, B2, Vx1, Vx2, Vt. rewrite (split_product (fun o => sp_disjoint (space o) spc) h1 h2 ops Dd Lo I1 I2).
      change (filter (fun o => sp_disjoint (space o) spc) ops) with (ooff spc ops). change (filter (fun o => negb (sp_disjoint (space o) spc)) ops) with (oon spc ops).
      rewrite (act_mul I W), (vm_comm I W (kvalue k1)).
      rewrite (act_local I W h2 h2 h1); [|now apply mprod_living|apply incl_refl|now apply apart_sym|now apply kat_on|now apply kat_on].
      rewrite (vm_comm I W _ (kvalue k1)). apply (act_local I W h1 h1 h2); [now apply mprod_living|apply incl_refl|exact Dd|now apply kat_on|].
      apply (on_act I W h2); [now apply mprod_living|apply incl_refl|now apply kat_on].
  Qed.
  Lemma first_some_In {A B} (f : A -> res (option B)) l y : first_some f l = Ok (Some y) -> exists x, In x l /\ f x = Ok (Some y).
  Proof.
    induction l as [|x l IH]; cbn [first_some]; [discriminate|]. destruct (f x) as [[z|]|] eqn:E; cbn [bind]; intros H; [|destruct (IH H) as (w & H1 & H2); exists w; split; [now right|exact H2]|discriminate].
    injection H as <-. exists x. split; [now left|exact E].
  Qed.
  Lemma act_times_sound fuel ops l k h : Forall legal ops -> kat h (KTensor l) -> act_times KO chk_split Q fuel ops l = Ok (Some k) -> kmeans k h (act (mprod I (map value ops)) (kvalue (KTensor l))).
  Proof. intros Lo Kt E. apply first_some_In in E. destruct E as (s & _ & E). exact (times_while_sound fuel ops l h Lo Kt [s] k E). Qed.
  Lemma times_local_sound ops t k h : Forall legal ops -> kat h t -> t <> KZero -> times_local KO Q ops t = Ok k -> kmeans k h (act (mprod I (map value ops)) (kvalue t)).
  Proof.
    intros Lo Kt Nt E. unfold times_local in E.
    assert (kop_new (OTimes ops) t = Ok k -> kmeans k h (act (mprod I (map value ops)) (kvalue t))) as Other.
    { intros E'. apply (kop_new_sound (OTimes ops)); [now apply legal_times|exact Kt|exact Nt|exact E']. }
    destruct (rev ops) as [|o r] eqn:Er; [now apply Other|]. destruct o as [| |b| | | | | | |]; try (now apply Other). destruct r as [|o' r']; [now apply Other|]. destruct (is_local b); [|now apply Other].
    assert (ops = rev (o' :: r') ++ [OAtom b]) as Eo. { rewrite <- (rev_involutive ops), Er. reflexivity. }
    rewrite Eo in E. rewrite removelast_last in E. rewrite Eo in Lo. apply Forall_app in Lo. destruct Lo as [L1 L2].
    step E p Ep. destruct (OpProofs2.s_times I KO HK _ _ L1 Ep) as [Lp Vp]. step E x Ex. destruct (q_op W Q HQ _ _ _ h (Forall_inv L2) Kt Ex) as (A1 & A2 & A3).
    destruct (q_op W Q HQ _ _ _ h Lp (conj A1 A3) E) as (B1 & B2 & B3). split; [exact B1|]. split; [|exact B3].
    rewrite B2, Vp, A2, Eo, map_app, mprod_app. cbn [map]. rewrite mprod_1, (act_mul I W). reflexivity.
  Qed.
  Lemma op_then_scal u a t k h : legal a -> kat h t -> (do x <- kc_op Q a t; kc_scal Q u x) = Ok k -> kmeans k h (vs (ev u) (act (value a) (kvalue t))).
  Proof.
    intros La Kt E. step E r Er. destruct (q_op W Q HQ _ _ _ h La Kt Er) as (A1 & A2 & A3). destruct (q_scal W Q HQ _ _ _ h (conj A1 A3) E) as (B1 & B2 & B3).
    split; [exact B1|]. split; [|exact B3]. now rewrite B2, A2.
  Qed.
  Lemma kop_sound fuel a t k h : legal a -> kat h t -> kop_step dim KO chk_phase chk_split Q fuel a t = Ok k -> kmeans k h (act (value a) (kvalue t)).
  Proof.
    intros La Kt E. unfold kop_step in E.
    assert (a = OOne \/ a = OZero \/ (a <> OOne /\ a <> OZero)) as [->|[->|[N1 N0]]] by (destruct a; auto; right; right; split; discriminate).
    - injection E as <-. apply kmeans_self; [exact Kt|]. symmetry. apply (act_1 I W).
    - injection E as <-. apply kmeans_zero. apply act_0.
    - assert (forall X (f g e : X), match a with OOne => f | OZero => g | _ => e end = e) as Ea by (intros; destruct a; congruence).
      rewrite Ea in E. clear Ea N1 N0.
      assert (t <> KZero -> kop_new a t = Ok k -> kmeans k h (act (value a) (kvalue t))) as New by (intros Nt E'; exact (kop_new_sound _ _ _ h La Kt Nt E')).
      assert (forall u b, a = OScal u b -> (do x <- kc_op Q b t; kc_scal Q u x) = Ok k -> kmeans k h (act (value a) (kvalue t))) as Scal.
      { intros u b -> E'. cbn [OpSpec.value]. rewrite (act_smul I W). now apply op_then_scal. }
      destruct t as [| |j l|v l|n hs|v p|l|l|b p].
      + injection E as <-. apply kmeans_zero. apply act_z.
      + destruct a; try (apply New; [discriminate|exact E]). exact (Scal _ _ eq_refl E).
      + destruct a as [| |x|u b|os|os|x y|x|x hs|s x]; try (apply New; [discriminate|exact E]).
        * destruct Kt as [Lt [?|St]]; [discriminate|]. apply (kmeans_same W _ _ _ _ St). exact (atom_basis_sound x j l k La Lt E).
        * exact (Scal _ _ eq_refl E).
        * apply times_local_sound; [now apply legal_times in La|exact Kt|discriminate|exact E].
      + destruct a as [| |x|u b|os|os|x y|x|x hs|s x]; try (apply New; [discriminate|exact E]).
        * destruct Kt as [Lt [?|St]]; [discriminate|]. apply (kmeans_same W _ _ _ _ St). exact (atom_coh_sound x v l k La Lt E).
        * exact (Scal _ _ eq_refl E).
        * apply times_local_sound; [now apply legal_times in La|exact Kt|discriminate|exact E].
      + destruct a; try (apply New; [discriminate|exact E]). exact (Scal _ _ eq_refl E).
      + destruct Kt as [[Np Lp] [?|St]]; [discriminate|]. cbn [KetSpec.kvalue]. rewrite (act_vs I W). apply op_then_scal; [exact La|split; [exact Lp|now right]|exact E].
      + destruct a; try (apply New; [discriminate|exact E]). exact (Scal _ _ eq_refl E).
      + destruct a as [| |x|u b|os|os|x y|x|x hs|s x]; try (apply New; [discriminate|exact E]).
        * destruct (is_local x) eqn:El; [|apply New; [discriminate|exact E]]. now apply act_locally_sound.
        * exact (Scal _ _ eq_refl E).
        * step E r Er. destruct r as [x|]; [|apply New; [discriminate|exact E]]. injection E as <-. apply (act_times_sound fuel os l x h); [now apply legal_times in La|exact Kt|exact Er].
      + destruct Kt as [(Np & Lp & Lb & Hi) [?|St]]; [discriminate|]. assert (kat h p) as Kp by (split; [exact Lp|now right]).
        step E x Ex. destruct (q_op W Q HQ _ _ _ h Lb Kp Ex) as (A1 & A2 & A3). destruct (keqb x (KOp b p)).
        * step E ab Eab. destruct (m_times2 I KO HK _ _ _ La Lb Eab) as [Lab Vab]. destruct (q_op W Q HQ _ _ _ h Lab Kp E) as (B1 & B2 & B3).
          split; [exact B1|]. split; [|exact B3]. rewrite B2, Vab, (act_mul I W). reflexivity.
        * destruct (q_op W Q HQ _ _ _ h La (conj A1 A3) E) as (B1 & B2 & B3). split; [exact B1|]. split; [|exact B3]. rewrite B2, A2. reflexivity.
  Qed.

  (** ** Inner and outer products *)
  Context (bk : ket -> ket -> S) (kb : ket -> ket -> op) (Hbk : bk_ok W bk) (Hkb : kb_ok W kb).
  Lemma same_h a b h1 h2 : klegal a -> klegal b -> a <> KZero -> b <> KZero -> same_kets h1 [a; b] -> same_kets h2 [a; b] -> same_set h1 h2.
  Proof. intros _ _ Na _ H1 H2. apply (same_trans _ (kspace a)); [apply same_sym; apply H1; [now left|exact Na]|apply H2; [now left|exact Na]]. Qed.
  Lemma bk_new_sound a b c h : klegal a -> klegal b -> same_kets h [a; b] -> bk_new bk a b = Ok c -> ev (r:=I) c = inner h (kvalue a) (kvalue b).
  Proof. intros Ha Hb Hs E. unfold bk_new in E. destruct (same_space [a; b]); [|discriminate]. injection E as <-. now apply Hbk. Qed.
  Lemma kb_new_sound a b e h : klegal a -> klegal b -> same_kets h [a; b] -> kb_new kb a b = Ok e -> means I e (outer h (kvalue a) (kvalue b)).
  Proof. intros Ha Hb Hs E. unfold kb_new in E. destruct (same_space [a; b]); [|discriminate]. injection E as <-. now apply Hkb. Qed.

  (** how [tensor_decompose_kets] splits a pair of products *)
  Lemma decompose_while_split {B} fuel (f : ket -> ket -> res B) mul l m : klegal (KTensor l) -> klegal (KTensor m) -> forall spc r,
    decompose_while Q fuel f mul l m spc = Ok (Some r) ->
    exists p1 p2 q1 q2 x y h1 h2 g1 g2, kat h1 p1 /\ kat h2 p2 /\ kat g1 q1 /\ kat g2 q2 /\ kspace p1 = kspace q1 /\ kspace p2 = kspace q2
      /\ kvalue (KTensor l) = vm (kvalue p1) (kvalue p2) /\ kvalue (KTensor m) = vm (kvalue q1) (kvalue q2)
      /\ same_set (kspace (KTensor l)) (h1 ++ h2) /\ apart h1 h2 /\ same_set (kspace (KTensor m)) (g1 ++ g2) /\ apart g1 g2
      /\ f p1 q1 = Ok x /\ f p2 q2 = Ok y /\ mul x y = Ok r.
  Proof.
    intros Ll Lm. induction fuel as [|fuel IH]; intros spc r E.
    - unfold decompose_while in E. destruct (sp_lt spc _); discriminate.
    - change (decompose_while Q (Datatypes.S fuel) f mul l m spc) with
        (if sp_lt spc (sp_union (kspace (KTensor l)) (kspace (KTensor m))) then
           do p <- kfactor Q spc l; do q <- kfactor Q spc m;
           let '(p1, p2) := p in let '(q1, q2) := q in
           if eqb_list_nat (kspace p1) (kspace q1) && eqb_list_nat (kspace p2) (kspace q2) && negb (is_ktriv p2) then
             rmap Some (do x <- f p1 q1; do y <- f p2 q2; mul x y)
           else decompose_while Q fuel f mul l m (sp_union (kspace p1) (kspace q1))
         else Ok None) in E.
      destruct (sp_lt spc (sp_union (kspace (KTensor l)) (kspace (KTensor m)))); [|discriminate]. step E p Ep. destruct p as [p1 p2]. step E q Eq'. destruct q as [q1 q2].
      destruct (eqb_list_nat (kspace p1) (kspace q1) && eqb_list_nat (kspace p2) (kspace q2) && negb (is_ktriv p2)) eqn:Ec; [|exact (IH _ _ E)].
      apply andb_prop in Ec. destruct Ec as [Ec _]. apply andb_prop in Ec. destruct Ec as [E1 E2]. apply eqb_list_nat_spec in E1, E2.
      destruct (kfactor_sound _ _ _ _ Ll Ep) as (_ & _ & Vl & K1 & K2 & Ss & Dd). destruct (kfactor_sound _ _ _ _ Lm Eq') as (_ & _ & Vm & K3 & K4 & Ss' & Dd').
      match type of E with rmap Some ?r = _ => destruct r as [k'|] eqn:Ek end; [|discriminate]. cbn [rmap] in E. injection E as <-. step Ek x Ex. step Ek y Ey.
      exists p1, p2, q1, q2, x, y, (flat_map kspace (kon spc l)), (flat_map kspace (koff spc l)), (flat_map kspace (kon spc m)), (flat_map kspace (koff spc m)). repeat (split; [assumption|]). exact Ek.
  Qed.
  Lemma decompose_split {B} fuel (f : ket -> ket -> res B) mul l m r h : klegal (KTensor l) -> klegal (KTensor m) -> same_kets h [KTensor l; KTensor m] ->
    decompose Q fuel f mul l m = Ok (Some r) ->
    exists p1 p2 q1 q2 x y h1 h2, klegal p1 /\ klegal p2 /\ klegal q1 /\ klegal q2 /\ same_kets h1 [p1; q1] /\ same_kets h2 [p2; q2]
      /\ kvalue (KTensor l) = vm (kvalue p1) (kvalue p2) /\ kvalue (KTensor m) = vm (kvalue q1) (kvalue q2)
      /\ ((same_set h (h1 ++ h2) /\ apart h1 h2) \/ (p1 = KZero \/ p2 = KZero \/ q1 = KZero \/ q2 = KZero))
      /\ f p1 q1 = Ok x /\ f p2 q2 = Ok y /\ mul x y = Ok r.
  Proof.
    intros Ll Lm Hs E. apply first_some_In in E. destruct E as (s & _ & E). destruct (decompose_while_split _ _ _ _ _ Ll Lm _ _ E) as
      (p1 & p2 & q1 & q2 & x & y & h1 & h2 & g1 & g2 & K1 & K2 & K3 & K4 & S1 & S2 & V1 & V2 & T1 & D1 & T2 & D2 & F1 & F2 & F3).
    exists p1, p2, q1, q2, x, y, (kspace p1), (kspace p2). split; [apply K1|]. split; [apply K2|]. split; [apply K3|]. split; [apply K4|].
    split; [intros z [<-|[<-|[]]] _; [apply same_refl|rewrite S1; apply same_refl]|]. split; [intros z [<-|[<-|[]]] _; [apply same_refl|rewrite S2; apply same_refl]|].
    split; [exact V1|]. split; [exact V2|]. split; [|split; [exact F1|split; [exact F2|exact F3]]].
    destruct K1 as [_ [?|K1]]; [right; now left|]. destruct K2 as [_ [?|K2]]; [right; right; now left|]. left. split.
    - apply (same_trans _ (kspace (KTensor l))); [apply same_sym; apply Hs; [now left|discriminate]|]. apply (same_trans _ (h1 ++ h2)); [exact T1|]. apply same_app; now apply same_sym.
    - apply (apart_same h1 _ h2); [now apply same_sym|now apply same_sym|exact D1].
  Qed.
End Sound.
