(** Proofs for C54: soundness, monotonicity, operators on one local space. *)
From Coq Require Import QArith Qcanon Ring.
From Verif Require Import Prelude ListFacts BinModel AlgSpec CAlg OpModel OpSpec OpForms OpProofs1 OpProofs2 OpProofs3 OpFuel OpOrder OpLocal DiffModel DiffSpec.
Local Open Scope nat_scope.

Section Sound.
  Context {S : scalars} {dim : nat -> option nat} {I : interp S dim} (D : derivation I).
  Context (dep : S -> bool) (dS simp : S -> S) (sym_dep sym_moves : nat -> bool) (dname : atom S -> nat) (same : op S -> op S -> bool).
  Context (HS : sympy_diff D dep dS simp) (HY : symbols_diff D dep sym_dep sym_moves dname).
  Context (K : ocreators S) (HK : soundK I K) (m : nat).
  Add Ring Kr2 : (kring I).
  Local Notation op := (op S).
  Local Notation legal := (legal I).
  Local Notation value := (value I).
  Local Notation means := (means I).
  Local Notation dA := (dA D).
  Local Notation depends := (depends dep sym_dep).
  Local Notation simplify := (simplify simp same K).
  Local Notation clean := (clean simp same K m).
  Local Notation udiff := (udiff dep dS simp sym_dep sym_moves dname same K m).

  Lemma is_zero_val e : is_zero e = true -> value e = a0.
  Proof. now destruct e. Qed.
  Lemma ev_s0 : ev (r:=I) s0 = k0.
  Proof. unfold s0. now rewrite (ev_Q S I), kQ_0. Qed.
  Lemma dK_m1 : dK D (kopp k1) k0.
  Proof.
    replace (kopp k1) with (kQ (r:=I) (- (1))%Qc); [apply dK_Q|].
    assert (kadd (kQ (r:=I) (- (1))%Qc) (kQ 1%Qc) = k0) as H by (rewrite <- kQ_add, <- (kQ_0 S I); f_equal; ring).
    rewrite kQ_1 in H. transitivity (kadd (kadd (kQ (r:=I) (- (1))%Qc) k1) (kopp k1)); [ring|]. rewrite H. ring.
  Qed.
  Lemma dA_neg x x' : dA x x' -> dA (smul (kopp k1) x) (smul (kopp k1) x').
  Proof. intros H. pose proof (dA_smul I D _ _ _ _ dK_m1 H) as G. rewrite smul_0, aadd_0 in G. exact G. Qed.
  Lemma dA_msum xs : forall xs', Forall2 dA xs xs' -> dA (msum I xs) (msum I xs').
  Proof. intros xs' H. induction H as [|x x' xs xs' H _ IH]; [apply dA_0|]. rewrite !msum_cons. now apply dA_add. Qed.
  Lemma dA_mprod0 xs : Forall (fun x => dA x a0) xs -> dA (mprod I xs) a0.
  Proof.
    induction 1 as [|x xs H _ IH]; [apply dA_1|]. rewrite mprod_cons. pose proof (dA_mul I D _ _ _ _ H IH) as G. rewrite amul_0l, amul_0r, aadd_0 in G. exact G.
  Qed.
  Lemma dA_mcomm x x' y y' : dA x x' -> dA y y' -> dA (mcomm I x y) (aadd (mcomm I x' y) (mcomm I x y')).
  Proof.
    intros Hx Hy. unfold mcomm. pose proof (dA_add I D _ _ _ _ (dA_mul I D _ _ _ _ Hx Hy) (dA_neg _ _ (dA_mul I D _ _ _ _ Hy Hx))) as G.
    match goal with |- DiffSpec.dA D _ ?v => match type of G with DiffSpec.dA D _ ?w => replace v with w; [exact G|] end end.
    rewrite smul_addr, (aadd_comm I (smul (kopp k1) (amul y' x))). apply aadd_perm4.
  Qed.

  Lemma atom_const a : legal_atom I a -> atom_dep dep sym_dep a = false -> dA (atom_val I a) a0.
  Proof.
    intros L H. destruct a as [n h|l|l|j k l|u l|u l|u l|l|l|l]; cbn [atom_dep] in H; try (apply (sy_local D _ _ _ _ HY _ L); first [exact Logic.I|exact H]).
    apply (sy_const D _ _ _ _ HY). now left.
  Qed.
  (** what does not depend on the parameter has the derivative zero *)
  Lemma existsb_false {X} (f : X -> bool) l : existsb f l = false -> Forall (fun x => f x = false) l.
  Proof.
    induction l as [|x l IH]; cbn [existsb]; intros H; [constructor|]. apply Bool.orb_false_iff in H. destruct H as [H1 H2]. constructor; auto.
  Qed.
  Lemma constant_zero : forall e, legal e -> depends e = false -> dA (value e) a0.
  Proof.
    induction e as [| |a|c t IH|l IH|l IH|a b IHa IHb|a IH|a h IH|s a IH] using op_ind'; intros HL H; cbn [DiffModel.depends OpSpec.value] in *.
    - apply dA_0.
    - apply dA_1.
    - now apply atom_const.
    - apply Bool.orb_false_iff in H. destruct H as [H1 H2]. pose proof (dA_smul I D _ _ _ _ (sd_const D _ _ _ HS c H1) (IH HL H2)) as G.
      rewrite smul_0, smul_zero, aadd_0 in G. exact G.
    - apply existsb_false in H. apply legal_plus in HL. replace a0 with (msum I (map (fun _ => a0) l)).
      + apply dA_msum. induction l as [|x l IHl]; [constructor|]. cbn [map]. constructor; [exact (Forall_inv IH (Forall_inv HL) (Forall_inv H))|].
        exact (IHl (Forall_inv_tail IH) (Forall_inv_tail HL) (Forall_inv_tail H)).
      + clear. induction l as [|x l IH]; [reflexivity|]. cbn [map]. rewrite msum_cons, IH. apply aadd_0.
    - apply existsb_false in H. apply legal_times in HL. apply dA_mprod0. induction l as [|x l IHl]; [constructor|]. cbn [map].
      constructor; [exact (Forall_inv IH (Forall_inv HL) (Forall_inv H))|]. exact (IHl (Forall_inv_tail IH) (Forall_inv_tail HL) (Forall_inv_tail H)).
    - apply Bool.orb_false_iff in H. destruct H as [H1 H2], HL as [L1 L2]. pose proof (dA_mcomm _ _ _ _ (IHa L1 H1) (IHb L2 H2)) as G.
      rewrite mcomm_0l, mcomm_0r, aadd_0 in G. exact G.
    - rewrite <- (star_0 I). apply dA_star. now apply IH.
    - apply dA_trace. now apply IH.
    - pose proof (dA_star I D _ _ (IH HL H)) as G. rewrite (star_0 I) in G. destruct s.
      + rewrite <- (aadd_0 I a0). apply dA_add; [now apply IH|exact G].
      + pose proof (dA_add I D _ _ _ _ (IH HL H) (dA_neg _ _ G)) as G2. rewrite smul_zero, aadd_0 in G2. exact G2.
  Qed.

  Lemma scal_diff_sound c : dK D (ev c) (ev (scal_diff dep dS simp c)).
  Proof.
    unfold scal_diff. destruct (dep c) eqn:E; [|rewrite ev_s0; exact (sd_const D _ _ _ HS c E)]. pose proof (sd_diff D _ _ _ HS c E) as H. cbn zeta.
    destruct (seqb (dS c) s0) eqn:E0; [rewrite <- (ev_eq S I _ _ E0); exact H|]. now rewrite (sd_simp D _ _ _ HS).
  Qed.

  (** simplification of the coefficients *)
  Lemma atom_simplify_sound a : legal_atom I a -> means (atom_simplify simp a) (atom_val I a).
  Proof.
    intros L. destruct a as [n h|l|l|j k l|u l|u l|u l|l|l|l]; cbn [atom_simplify]; try (split; [exact L|reflexivity]).
    - unfold phase_create. destruct (seqb (simp u) s0) eqn:E; [|split; [exact L|cbn [OpSpec.value atom_val]; now rewrite (sd_simp D _ _ _ HS)]].
      split; [exact Logic.I|]. cbn [OpSpec.value atom_val]. rewrite <- (sd_simp D _ _ _ HS u), (ev_eq S I _ _ E), ev_s0. symmetry. now apply phase_0.
    - unfold disp_create. destruct (seqb (simp u) s0) eqn:E; [|split; [exact L|cbn [OpSpec.value atom_val]; now rewrite (sd_simp D _ _ _ HS)]].
      split; [exact Logic.I|]. cbn [OpSpec.value atom_val]. rewrite <- (sd_simp D _ _ _ HS u), (ev_eq S I _ _ E), ev_s0. symmetry. now apply disp_0.
    - unfold squeeze_create. destruct (seqb (simp u) s0) eqn:E; [|split; [exact L|cbn [OpSpec.value atom_val]; now rewrite (sd_simp D _ _ _ HS)]].
      split; [exact Logic.I|]. cbn [OpSpec.value atom_val]. rewrite <- (sd_simp D _ _ _ HS u), (ev_eq S I _ _ E), ev_s0. symmetry. now apply squeeze_0.
  Qed.
  Lemma simplify_sound : forall e e', legal e -> simplify e = Ok e' -> means e' (value e).
  Proof.
    induction e as [| |a|c t IH|l IH|l IH|a b IHa IHb|a IH|a h IH|s a IH] using op_ind'; intros e' HL H; cbn [DiffModel.simplify] in H.
    - injection H as <-. now split.
    - injection H as <-. now split.
    - injection H as <-. now apply atom_simplify_sound.
    - step H t' Et. destruct (IH t' HL eq_refl) as [Lt Vt]. cbn [OpSpec.value]. rewrite <- Vt, <- (sd_simp D _ _ _ HS c). now apply (s_scal I K HK).
    - match type of H with bind (?f l) _ = _ => set (go := f) in * end. step H l' El.
      assert (Forall legal l' /\ map value l' = map value l) as [Ll Vl].
      { apply legal_plus in HL. clear H. revert l' El. induction l as [|x l IHl]; cbn; intros l' El; [injection El as <-; split; [constructor|reflexivity]|].
        step El x' Ex. step El l2 El2. injection El as <-. destruct (IHl (Forall_inv_tail IH) (Forall_inv_tail HL) l2 eq_refl) as [L2 V2].
        destruct (Forall_inv IH x' (Forall_inv HL) Ex) as [Lx Vx]. split; [now constructor|]. cbn [map]. now rewrite Vx, V2. }
      destruct (all_same same l l') eqn:Ea; [injection H as <-; now split|]. cbn [OpSpec.value]. rewrite <- Vl. now apply (s_plus I K HK).
    - match type of H with bind (?f l) _ = _ => set (go := f) in * end. step H l' El.
      assert (Forall legal l' /\ map value l' = map value l) as [Ll Vl].
      { apply legal_times in HL. clear H. revert l' El. induction l as [|x l IHl]; cbn; intros l' El; [injection El as <-; split; [constructor|reflexivity]|].
        step El x' Ex. step El l2 El2. injection El as <-. destruct (IHl (Forall_inv_tail IH) (Forall_inv_tail HL) l2 eq_refl) as [L2 V2].
        destruct (Forall_inv IH x' (Forall_inv HL) Ex) as [Lx Vx]. split; [now constructor|]. cbn [map]. now rewrite Vx, V2. }
      destruct (all_same same l l') eqn:Ea; [injection H as <-; now split|]. cbn [OpSpec.value]. rewrite <- Vl. now apply (s_times I K HK).
    - step H a' Ea. step H b' Eb. destruct HL as [La Lb]. destruct (IHa a' La eq_refl) as [La' Va]. destruct (IHb b' Lb eq_refl) as [Lb' Vb].
      destruct (same a a' && same b b'); [injection H as <-; now split|]. cbn [OpSpec.value]. rewrite <- Va, <- Vb. now apply (s_comm I K HK).
    - step H a' Ea. destruct (IH a' HL eq_refl) as [La Va]. destruct (same a a'); [injection H as <-; now split|]. cbn [OpSpec.value]. rewrite <- Va.
      now apply (oadj_sound I K HK).
    - discriminate.
    - step H a' Ea. destruct (IH a' HL eq_refl) as [La Va]. destruct (same a a'); injection H as <-; [now split|]. split; [exact La|]. destruct s; cbn [OpSpec.value]; now rewrite Va.
  Qed.
  Lemma clean_sound d e : legal d -> clean d = Ok e -> means e (value d).
  Proof.
    intros L H. unfold DiffModel.clean in H. destruct (is_zero d); [injection H as <-; now split|]. step H d' Ed.
    destruct (expand_sound I K HK m d d' L Ed) as [L' V']. rewrite <- V'. now apply simplify_sound.
  Qed.

  (** derivatives *)
  Lemma atom_diff_sound a : legal_atom I a -> legal (atom_diff sym_moves dname a) /\ dA (atom_val I a) (value (atom_diff sym_moves dname a)).
  Proof.
    intros L. assert (legal (derivative_of dname a) /\ dA (atom_val I a) (value (derivative_of dname a))) as G by (split; [exact Logic.I|exact (sy_der D _ _ _ _ HY a L)]).
    destruct a as [n h|l|l|j k l|u l|u l|u l|l|l|l]; try exact G. cbn [atom_diff]. destruct (sym_moves n) eqn:E; [exact G|].
    split; [exact Logic.I|]. apply (sy_const D _ _ _ _ HY). now right.
  Qed.
  Lemma udiff_sound : forall n e d, legal e -> udiff n e = Ok d -> legal d /\ dA (value e) (value d).
  Proof.
    induction n as [|n IH]; intros e d HL H; [discriminate|]. cbn [DiffModel.udiff] in H.
    set (diff := diff_by dep simp sym_dep same K m (udiff n)) in *.
    assert (forall x x', legal x -> diff x = Ok x' -> legal x' /\ dA (value x) (value x')) as Hd.
    { intros x x' Lx Hx. unfold diff, diff_by in Hx. destruct (depends x) eqn:E.
      - step Hx y Ey. destruct (IH x y Lx Ey) as [Ly Dy]. destruct (clean_sound y x' Ly Hx) as [L' V']. rewrite V'. now split.
      - injection Hx as <-. split; [exact Logic.I|]. now apply constant_zero. }
    clearbody diff. destruct e as [| |a|c t|l|l|a b|a|a h|s a].
    - injection H as <-. split; [exact Logic.I|apply dA_0].
    - injection H as <-. split; [exact Logic.I|apply dA_1].
    - injection H as <-. now apply atom_diff_sound.
    - assert (legal t) as HLt by exact HL. step H x Ex. step H t' Et. step H y Ey. destruct (Hd t t' HL Et) as [Lt Dt]. destruct (s_scal I K HK _ t _ HL Ex) as [Lx Vx].
      destruct (s_scal I K HK _ _ _ Lt Ey) as [Ly Vy]. destruct (m_plus2 I K HK _ _ _ Lx Ly H) as [Le Ve]. split; [exact Le|].
      rewrite Ve, Vx, Vy. cbn [OpSpec.value]. apply dA_smul; [apply scal_diff_sound|exact Dt].
    - step H l' El. apply legal_plus in HL. assert (Forall legal l' /\ Forall2 dA (map value l) (map value l')) as [Ll Dl].
      { clear H. revert l' El. induction l as [|x l IHl]; cbn [mapM]; intros l' El; [injection El as <-; split; constructor|].
        step El x' Ex. step El l2 El2. injection El as <-. destruct (IHl (Forall_inv_tail HL) l2 eq_refl) as [L2 D2].
        destruct (Hd x x' (Forall_inv HL) Ex) as [Lx Dx]. split; constructor; assumption. }
      destruct (foldM_plus I K HK _ _ _ (Logic.I : legal OZero) Ll H) as [Le Ve]. split; [exact Le|]. rewrite Ve. change (value OZero) with (@a0 I). rewrite aadd_0.
      cbn [OpSpec.value]. now apply dA_msum.
    - apply legal_times in HL. destruct l as [|first [|second others]]; [discriminate|discriminate|]. step H rest Er. step H f' Ef. step H x Ex. step H r' Er'. step H y Ey.
      destruct (s_times I K HK _ _ (Forall_inv_tail HL) Er) as [Lr Vr]. destruct (Hd _ _ (Forall_inv HL) Ef) as [Lf Df]. destruct (Hd _ _ Lr Er') as [Lr' Dr].
      destruct (m_times2 I K HK _ _ _ Lf Lr Ex) as [Lx Vx]. destruct (m_times2 I K HK _ _ _ (Forall_inv HL) Lr' Ey) as [Ly Vy].
      destruct (m_plus2 I K HK _ _ _ Lx Ly H) as [Le Ve]. split; [exact Le|]. rewrite Ve, Vx, Vy. cbn [OpSpec.value].
      change (mprod I (map value (first :: second :: others))) with (amul (value first) (mprod I (map value (second :: others)))). rewrite <- Vr. now apply dA_mul.
    - destruct HL as [La Lb]. step H a' Ea. step H b' Eb. destruct (Hd _ _ La Ea) as [La' Da]. destruct (Hd _ _ Lb Eb) as [Lb' Db].
      destruct (m_plus2 I K HK (OComm a' b) (OComm a b') d (conj La' Lb) (conj La Lb') H) as [Le Ve]. split; [exact Le|]. rewrite Ve. cbn [OpSpec.value]. now apply dA_mcomm.
    - step H a' Ea. destruct (Hd a _ HL Ea) as [La' Da]. destruct (oadj_sound I K HK _ _ La' H) as [Le Ve]. split; [exact Le|]. rewrite Ve. cbn [OpSpec.value]. now apply dA_star.
    - discriminate.
    - discriminate.
  Qed.
  Local Notation repeated := (repeated dep dS simp sym_dep sym_moves dname same K m).
  Local Notation diff := (diff dep dS simp sym_dep sym_moves dname same K m).
  Lemma repeated_sound n : forall times e d, legal e -> repeated n times e = Ok d -> legal d /\ nth_derivative D times (value e) (value d).
  Proof.
    induction times as [|t IH]; intros e d L H; cbn [DiffModel.repeated nth_derivative] in *; [injection H as <-; now split|]. step H x Ex.
    destruct (udiff_sound n e x L Ex) as [Lx Dx]. destruct (IH x d Lx H) as [Ld Dd]. split; [exact Ld|]. now exists (value x).
  Qed.
  Lemma nth_zero times : nth_derivative D times a0 a0.
  Proof. induction times as [|t IH]; [reflexivity|]. exists a0. split; [apply dA_0|exact IH]. Qed.
  Lemma diff_sound n times tidy e d : legal e -> times <> 0 -> diff n times tidy e = Ok d -> legal d /\ nth_derivative D times (value e) (value d).
  Proof.
    intros L Ht H. unfold DiffModel.diff in H. destruct (depends e) eqn:E.
    - step H x Ex. destruct (repeated_sound n times e x L Ex) as [Lx Dx]. destruct tidy; [|injection H as <-; now split].
      destruct (clean_sound x d Lx H) as [Ld Vd]. rewrite Vd. now split.
    - injection H as <-. split; [exact Logic.I|]. destruct times as [|t]; [contradiction|]. exists a0. split; [now apply constant_zero|]. change (value OZero) with (@a0 I). apply nth_zero.
  Qed.
  Lemma nth_unique times : forall x y z, nth_derivative D times x y -> nth_derivative D times x z -> y = z.
  Proof.
    induction times as [|t IH]; intros x y z H1 H2; cbn [nth_derivative] in *; [congruence|]. destruct H1 as [u [U1 U2]], H2 as [v [V1 V2]].
    rewrite (dA_unique I D _ _ _ V1 U1) in V2. eapply IH; eassumption.
  Qed.
End Sound.

Section Mono.
  Context {S : scalars} (dep : S -> bool) (dS simp : S -> S) (sym_dep sym_moves : nat -> bool) (dname : atom S -> nat) (same : op S -> op S -> bool).
  Context (K K' : ocreators S) (HK : leK K K') (m : nat).
  Lemma simplify_mono : forall e, le (simplify simp same K e) (simplify simp same K' e).
  Proof.
    induction e as [| |a|c t IH|l IH|l IH|a b IHa IHb|a IH|a h IH|s a IH] using op_ind'; cbn [simplify]; try apply le_refl.
    - apply le_bind; [exact IH|]. intros t'. apply HK.
    - apply le_bind.
      + induction l as [|x l IHl]; [apply le_refl|]. apply le_bind; [exact (Forall_inv IH)|]. intros x'. apply le_bind; [exact (IHl (Forall_inv_tail IH))|]. intros r. apply le_refl.
      + intros l'. destruct (all_same same l l'); [apply le_refl|apply HK].
    - apply le_bind.
      + induction l as [|x l IHl]; [apply le_refl|]. apply le_bind; [exact (Forall_inv IH)|]. intros x'. apply le_bind; [exact (IHl (Forall_inv_tail IH))|]. intros r. apply le_refl.
      + intros l'. destruct (all_same same l l'); [apply le_refl|apply HK].
    - apply le_bind; [exact IHa|]. intros a'. apply le_bind; [exact IHb|]. intros b'. destruct (same a a' && same b b'); [apply le_refl|apply HK].
    - apply le_bind; [exact IH|]. intros a'. destruct (same a a'); [apply le_refl|]. now apply oadj_mono.
    - apply le_bind; [exact IH|]. intros a'. destruct (same a a'); apply le_refl.
  Qed.
  Lemma clean_mono d : le (clean simp same K m d) (clean simp same K' m d).
  Proof.
    unfold clean. destruct (is_zero d); [apply le_refl|]. apply le_bind; [now apply expand_mono|]. apply simplify_mono.
  Qed.
  Local Notation udiff K := (udiff dep dS simp sym_dep sym_moves dname same K m).
  Lemma udiff_mono : forall n e, le (udiff K n e) (udiff K' n e).
  Proof.
    induction n as [|n IH]; intros e; [apply le_refl|]. cbn [DiffModel.udiff].
    set (d := diff_by dep simp sym_dep same K m (udiff K n)).
    set (d' := diff_by dep simp sym_dep same K' m (udiff K' n)).
    assert (forall x, le (d x) (d' x)) as Hd.
    { intros x. unfold d, d', diff_by. destruct (depends dep sym_dep x); [|apply le_refl]. apply le_bind; [apply IH|]. intros y. apply clean_mono. }
    clearbody d d'. destruct e as [| |a|c t|l|l|a b|a|a h|s a]; try apply le_refl.
    - apply le_bind; [apply HK|]. intros x. apply le_bind; [apply Hd|]. intros t'. apply le_bind; [apply HK|]. intros y. apply HK.
    - apply le_bind; [now apply le_mapM|]. intros l'. apply le_foldM. intros x y. apply HK.
    - destruct l as [|first [|second others]]; try apply le_refl.
      apply le_bind; [apply HK|]. intros rest. apply le_bind; [apply Hd|]. intros f'. apply le_bind; [apply HK|]. intros x. apply le_bind; [apply Hd|]. intros r'. apply le_bind; [apply HK|]. intros y. apply HK.
    - apply le_bind; [apply Hd|]. intros a'. apply le_bind; [apply Hd|]. intros b'. apply HK.
    - apply le_bind; [apply Hd|]. intros a'. now apply oadj_mono.
  Qed.
  Lemma diff_mono n times tidy e : le (diff dep dS simp sym_dep sym_moves dname same K m n times tidy e) (diff dep dS simp sym_dep sym_moves dname same K' m n times tidy e).
  Proof.
    unfold diff. destruct (depends dep sym_dep e); [|apply le_refl]. apply le_bind.
    - revert e. induction times as [|t IH]; intros e; [apply le_refl|]. cbn [repeated]. apply le_bind; [apply udiff_mono|exact IH].
    - intros d. destruct tidy; [apply clean_mono|apply le_refl].
  Qed.
End Mono.

Section Local.
  Context {S : scalars} (s : nat) (dep : S -> bool) (dS simp : S -> S) (sym_dep sym_moves : nat -> bool) (dname : atom S -> nat) (same : op S -> op S -> bool).
  Context (K K' : ocreators S) (HK : agreeK s K K') (m : nat).
  Local Notation loc := (local_to s).
  Lemma atom_simplify_loc a : loc (OAtom a) -> loc (atom_simplify simp a).
  Proof.
    intros H. destruct a as [n h|l|l|j k l|u l|u l|u l|l|l|l]; cbn [atom_simplify]; try exact H.
    - unfold phase_create. destruct (seqb _ _); [exact Logic.I|exact H].
    - unfold disp_create. destruct (seqb _ _); [exact Logic.I|exact H].
    - unfold squeeze_create. destruct (seqb _ _); [exact Logic.I|exact H].
  Qed.
  Lemma simps_agree l : Forall (fun e => loc e -> agree s (simplify simp same K e) (simplify simp same K' e)) l -> Forall loc l ->
    agrees s ((fix go (l : list (op S)) : res (list (op S)) := match l with [] => Ok [] | x :: l' => do x' <- simplify simp same K x; do r <- go l'; Ok (x' :: r) end) l)
             ((fix go (l : list (op S)) : res (list (op S)) := match l with [] => Ok [] | x :: l' => do x' <- simplify simp same K' x; do r <- go l'; Ok (x' :: r) end) l).
  Proof.
    intros IH HL. induction l as [|x l IHl]; [split; [reflexivity|intros es E; injection E as <-; constructor]|].
    destruct (Forall_inv IH (Forall_inv HL)) as [E1 H1]. rewrite E1 in *. destruct (simplify simp same K' x) as [y|e]; [|split; [reflexivity|discriminate]]. cbn [bind].
    destruct (IHl (Forall_inv_tail IH) (Forall_inv_tail HL)) as [E2 H2]. rewrite E2 in *. match goal with |- context [bind ?r _] => destruct r as [ys|e] end; [|split; [reflexivity|discriminate]]. cbn [bind].
    split; [reflexivity|]. intros es E. injection E as <-. constructor; [now apply H1|now apply H2].
  Qed.
  Lemma simplify_agree : forall e, loc e -> agree s (simplify simp same K e) (simplify simp same K' e).
  Proof.
    induction e as [| |a|c t IH|l IH|l IH|a b IHa IHb|a IH|a h IH|t a IH] using op_ind'; intros HL; cbn [simplify].
    - now apply agree_ok.
    - now apply agree_ok.
    - apply agree_ok. now apply atom_simplify_loc.
    - apply agree_bind; [now apply IH|]. intros t' Ht. now apply (a_scal s K K' HK).
    - apply loc_plus in HL. apply agrees_bind; [now apply simps_agree|]. intros l' Hl'. destruct (all_same same l l'); [apply agree_ok; now apply loc_plus|now apply (a_plus s K K' HK)].
    - apply loc_times in HL. apply agrees_bind; [now apply simps_agree|]. intros l' Hl'. destruct (all_same same l l'); [apply agree_ok; now apply loc_times|now apply (a_times s K K' HK)].
    - destruct HL as [La Lb]. apply agree_bind; [now apply IHa|]. intros a' Ha. apply agree_bind; [now apply IHb|]. intros b' Hb. destruct (same a a' && same b b'); [apply agree_ok; now split|now apply (a_comm s K K' HK)].
    - apply agree_bind; [now apply IH|]. intros a' Ha. destruct (same a a'); [now apply agree_ok|now apply oadj_agree].
    - apply agree_err.
    - apply agree_bind; [now apply IH|]. intros a' Ha. destruct (same a a'); now apply agree_ok.
  Qed.
  Lemma clean_agree d : loc d -> agree s (clean simp same K m d) (clean simp same K' m d).
  Proof.
    intros H. unfold clean. destruct (is_zero d); [now apply agree_ok|]. apply agree_bind; [now apply expand_agree|]. intros d' Hd. now apply simplify_agree.
  Qed.
  Lemma two_loc (a b : op S) : loc a -> loc b -> Forall loc [a; b].
  Proof. now repeat constructor. Qed.
  Local Notation udiff K := (udiff dep dS simp sym_dep sym_moves dname same K m).
  Lemma udiff_agree : forall n e, loc e -> agree s (udiff K n e) (udiff K' n e).
  Proof.
    induction n as [|n IH]; intros e HL; [apply agree_err|]. cbn [DiffModel.udiff].
    set (d := diff_by dep simp sym_dep same K m (udiff K n)).
    set (d' := diff_by dep simp sym_dep same K' m (udiff K' n)).
    assert (forall x, loc x -> agree s (d x) (d' x)) as Hd.
    { intros x Hx. unfold d, d', diff_by. destruct (depends dep sym_dep x); [|now apply agree_ok]. apply agree_bind; [now apply IH|]. intros y Hy. now apply clean_agree. }
    clearbody d d'. destruct e as [| |a|c t|l|l|a b|a|a h|t a].
    - now apply agree_ok.
    - now apply agree_ok.
    - apply agree_ok. destruct a as [nm h|l|l|j k l|u l|u l|u l|l|l|l]; cbn [atom_diff]; try exact HL. destruct (sym_moves nm); [exact HL|exact Logic.I].
    - apply agree_bind; [now apply (a_scal s K K' HK)|]. intros x Hx. apply agree_bind; [now apply Hd|]. intros t' Ht. apply agree_bind; [now apply (a_scal s K K' HK)|]. intros y Hy. apply (a_plus s K K' HK). now apply two_loc.
    - apply loc_plus in HL. apply agrees_bind.
      + apply agrees_mapM. intros x Hx. apply Hd. rewrite Forall_forall in HL. now apply HL.
      + intros l' Hl'. apply foldM_agree; [|exact Hl'|exact Logic.I]. intros x y Hx Hy. apply (a_plus s K K' HK). now apply two_loc.
    - apply loc_times in HL. destruct l as [|first [|second others]]; try apply agree_err. pose proof (Forall_inv HL) as Hf.
      apply agree_bind; [apply (a_times s K K' HK); exact (Forall_inv_tail HL)|]. intros rest Hr. apply agree_bind; [now apply Hd|]. intros f' Hf'. apply agree_bind; [apply (a_times s K K' HK); now apply two_loc|]. intros x Hx.
      apply agree_bind; [now apply Hd|]. intros r' Hr'. apply agree_bind; [apply (a_times s K K' HK); now apply two_loc|]. intros y Hy. apply (a_plus s K K' HK). now apply two_loc.
    - destruct HL as [La Lb]. apply agree_bind; [now apply Hd|]. intros a' Ha. apply agree_bind; [now apply Hd|]. intros b' Hb. apply (a_plus s K K' HK). apply two_loc; now split.
    - apply agree_bind; [now apply Hd|]. intros a' Ha. now apply oadj_agree.
    - apply agree_err.
    - apply agree_err.
  Qed.
  Lemma diff_agree n times tidy e : loc e ->
    agree s (diff dep dS simp sym_dep sym_moves dname same K m n times tidy e) (diff dep dS simp sym_dep sym_moves dname same K' m n times tidy e).
  Proof.
    intros HL. unfold diff. destruct (depends dep sym_dep e); [|now apply agree_ok]. apply agree_bind.
    - revert e HL. induction times as [|t IH]; intros e HL; [now apply agree_ok|]. cbn [repeated]. apply agree_bind; [now apply udiff_agree|exact IH].
    - intros d Hd. destruct tidy; [now apply clean_agree|now apply agree_ok].
  Qed.
End Local.
