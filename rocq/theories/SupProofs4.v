(** commutator, anti_commutator, lindblad and liouvillian compute the maps they are
    named after; facts about the master equation. *)
From Coq Require Import QArith Qcanon.
From Verif Require Import Prelude ListFacts SortModel SortProofs BinModel BinSpec BinProofs AlgSpec CAlg CSimpProofs5 OpModel OpSpec OpProofs1 OpProofs2 OpProofs3 SupModel SupSpec SupProofs1 SupProofs2 SupProofs3 SupOrder.
From Verif Require SlhModel.
Local Open Scope nat_scope.

Section Sound.
  Context {S : scalars} {dim : nat -> option nat} (T : sinterp S dim).
  Local Notation op := (op S).
  Local Notation sop := (sop S).
  Local Notation legal := (legal T).
  Local Notation value := (value T).
  Local Notation means := (means T).
  Local Notation slegal := (slegal T).
  Local Notation svalue := (svalue T).
  Local Notation smeans := (smeans T).
  Add Ring Kr : (kring T).
  Context (solt : sop -> sop -> bool) (slt : list nat -> list nat -> bool).
  Context (K : ocreators S) (HK : soundK T K) (sord : list sop -> res (list sop)) (Hord : sorder_ok sord).

  Lemma commutator_super_sound a : legal a -> smeans (commutator_super solt slt a) (mcomm T (value a)).
  Proof. intros Ha. apply (super_sub_sound T solt slt (SPre a) (SPost a)); exact Ha. Qed.
  Lemma anti_commutator_super_sound a : legal a ->
    smeans (anti_commutator_super solt slt a) (fun x => aadd (amul (value a) x) (amul x (value a))).
  Proof. intros Ha. apply (super_plus2_sound T solt slt (SPre a) (SPost a)); exact Ha. Qed.
  Lemma mul_arg_sound a b e : legal a -> match b with AOp b => legal b | ANum _ => True end -> mul_arg K a b = Ok e ->
    means e (match b with AOp b => amul (value a) (value b) | ANum c => smul (ev c) (value a) end).
  Proof. intros Ha Hb H. destruct b as [b|c]; cbn [mul_arg] in H; [now apply (m_times2 T K HK)|]. exact (OpProofs2.s_scal T K HK c a e Ha H). Qed.
  Lemma mul_arg'_sound a b e : legal a -> match b with AOp b => legal b | ANum _ => True end -> mul_arg' K b a = Ok e ->
    means e (match b with AOp b => amul (value b) (value a) | ANum c => smul (ev c) (value a) end).
  Proof. intros Ha Hb H. destruct b as [b|c]; cbn [mul_arg'] in H; [now apply (m_times2 T K HK)|]. exact (OpProofs2.s_scal T K HK c a e Ha H). Qed.
  Theorem commutator_sound a b e : legal a -> legal b -> commutator solt slt K a (Some (AOp b)) = Ok e ->
    exists c, e = inr c /\ means c (mcomm T (value a) (value b)).
  Proof.
    intros Ha Hb H. cbn [commutator truthy] in H. step H p Ep. step H q Eqq. step H r Er. injection H as <-. exists r. split; [reflexivity|].
    destruct (mul_arg_sound a (AOp b) p Ha Hb Ep) as [Lp Vp]. destruct (mul_arg'_sound a (AOp b) q Ha Hb Eqq) as [Lq Vq].
    destruct (m_sub T K HK p q r Lp Lq Er) as [L V]. split; [exact L|]. rewrite V, Vp, Vq. reflexivity.
  Qed.
  Theorem anti_commutator_sound a b e : legal a -> legal b -> anti_commutator solt slt K a (Some (AOp b)) = Ok e ->
    exists c, e = inr c /\ means c (aadd (amul (value a) (value b)) (amul (value b) (value a))).
  Proof.
    intros Ha Hb H. cbn [anti_commutator truthy] in H. step H p Ep. step H q Eqq. step H r Er. injection H as <-. exists r. split; [reflexivity|].
    destruct (mul_arg_sound a (AOp b) p Ha Hb Ep) as [Lp Vp]. destruct (mul_arg'_sound a (AOp b) q Ha Hb Eqq) as [Lq Vq].
    destruct (m_plus2 T K HK p q r Lp Lq Er) as [L V]. split; [exact L|]. rewrite V, Vp, Vq. reflexivity.
  Qed.
  Lemma ev_half : ev (half (S:=S)) = @khalf T.
  Proof.
    apply khalf_unique. unfold half. rewrite (ev_Q _ T), <- (kQ_add _ T). rewrite <- (kQ_1 _ T). f_equal. apply Qc_is_canon. vm_compute. reflexivity.
  Qed.
  Theorem lindblad_sound n c s : legal c -> lindblad solt slt K sord n (AOp c) = Ok s -> smeans s (dissipator (M:=T) (value c)).
  Proof.
    intros Hc H. cbn [lindblad] in H. step H cd Ecd. step H p Ep. step H q Eqq. injection H as <-.
    destruct (oadj_sound T K HK c cd Hc Ecd) as [Ld Vd].
    destruct (super_times2_sound T K HK sord Hord n (SPre c) (SPost cd) p Hc Ld Ep) as [Lp Vp].
    destruct (m_times2 T K HK cd c q Ld Hc Eqq) as [Lq Vq].
    destruct (anti_commutator_super_sound q Lq) as [La Va].
    destruct (super_scal_sound T _ half La) as [Ls Vs].
    destruct (super_sub_sound T solt slt _ _ Lp Ls) as [L V]. split; [exact L|]. intros x. rewrite V, Vp, Vs, Va, Vq, ev_half. cbn [SupSpec.svalue]. rewrite Vd.
    unfold dissipator. rewrite (amul_assoc _ (value c) x). reflexivity.
  Qed.
  Lemma dissipator_scalar c x : dissipator (M:=T) (smul c a1) x = a0.
  Proof.
    unfold dissipator. rewrite star_smul, star_1.
    assert (forall k y, amul (smul k (@a1 T)) y = smul k y) as E1 by (intros; now rewrite smul_amul_l, amul_1l).
    assert (forall k y, amul y (smul k (@a1 T)) = smul k y) as E2 by (intros; now rewrite smul_amul_r, amul_1r).
    rewrite !E1, !E2, <- !smul_mul, !E1, !E2. rewrite <- !smul_addl, <- !smul_mul, <- smul_addl. transitivity (smul k0 x); [f_equal|apply smul_0].
    generalize (kmul (kconj c) c). intros t. transitivity (kadd t (kopp (kmul (kadd khalf khalf) t))); [ring|]. rewrite khalf_2. ring.
  Qed.
  Theorem lindblad_arg_sound n c s : arg_legal T c -> lindblad solt slt K sord n c = Ok s -> smeans s (dissipator (M:=T) (arg_value T c)).
  Proof.
    intros Hc H. destruct c as [c|c]; [now apply (lindblad_sound n)|]. injection H as <-. split; [exact Logic.I|]. intros x. cbn [arg_value]. now rewrite dissipator_scalar.
  Qed.
  Theorem liouvillian_sound n h cs s : legal h -> Forall (arg_legal T) cs -> liouvillian solt slt K sord n h cs = Ok s ->
    smeans s (generator (M:=T) (value h) (map (arg_value T) cs)).
  Proof.
    intros Hh Hcs H. unfold liouvillian in H. step H ds Eds. injection H as <-.
    assert (Forall slegal ds /\ feqs T (map svalue ds) (map (fun c => dissipator (M:=T) (arg_value T c)) cs)) as [Ld Vd].
    { clear Hh. revert ds Eds. induction cs as [|c cs IH]; cbn [map mapM]; intros ds E; [injection E as <-; split; constructor|].
      step E d Ed. step E ds' Eds. injection E as <-. destruct (IH (Forall_inv_tail Hcs) ds' eq_refl) as [L2 V2].
      destruct (lindblad_arg_sound n c d (Forall_inv Hcs) Ed) as [L1 V1]. split; constructor; assumption. }
    destruct (commutator_super_sound h Hh) as [Lc Vc]. destruct (super_scal_sound T _ (sneg sI) Lc) as [Ls Vs].
    destruct (super_plus_sound T solt slt (super_scal (sneg sI) (commutator_super solt slt h) :: ds)) as [L V]; [now constructor|].
    split; [exact L|]. intros x. rewrite V. cbn [map]. rewrite fsum_cons, Vs, Vc, (ev_neg _ T), (ev_I _ T). unfold generator, mcomm. f_equal.
    rewrite (fsum_eqs T _ _ Vd x). unfold fsum. rewrite map_map. clear. induction cs as [|c cs IH]; [reflexivity|]. cbn [map msum fold_right]. f_equal. exact IH.
  Qed.
End Sound.

(** ** Facts about the master equation *)
Section Gen.
  Context {M : calgebra}.
  Add Ring Km : (kring M).
  Implicit Types (h c x rho : A M).

  Lemma generator_master (a : SlhModel.slh M) rho : SlhModel.master_equation a rho = generator (SlhModel.sH a) (SlhModel.Ls a) rho.
  Proof.
    unfold SlhModel.master_equation, generator. cbv zeta. f_equal. induction (SlhModel.Ls a) as [|c l IH]; [reflexivity|].
    rewrite asum_cons. cbn [fold_right]. rewrite IH. f_equal. unfold dissipator. f_equal. unfold SlhModel.aneg. do 3 f_equal. symmetry. apply (amul_assoc _ rho).
  Qed.
  (** a linear functional with f(xy) = f(yx) vanishes on the right-hand side *)
  Lemma dissipator_trace (f : A M -> K M) : (forall x y, f (aadd x y) = kadd (f x) (f y)) -> (forall k x, f (smul k x) = kmul k (f x)) -> (forall x y, f (amul x y) = f (amul y x)) ->
    forall c rho, f (dissipator c rho) = k0.
  Proof.
    intros Fa Fs Fc c rho. unfold dissipator. rewrite Fa, !Fs, Fa. rewrite (Fc rho (amul (star c) c)).
    assert (f (amul (amul c rho) (star c)) = f (amul (amul (star c) c) rho)) as -> by (rewrite Fc, amul_assoc; reflexivity).
    set (t := f (amul (amul (star c) c) rho)). transitivity (kadd t (kopp (kmul (kadd khalf khalf) t))); [ring|]. rewrite khalf_2. ring.
  Qed.
  Lemma generator_trace (f : A M -> K M) : (forall x y, f (aadd x y) = kadd (f x) (f y)) -> (forall k x, f (smul k x) = kmul k (f x)) -> (forall x y, f (amul x y) = f (amul y x)) ->
    forall h cs rho, f (generator h cs rho) = k0.
  Proof.
    intros Fa Fs Fc h cs rho. unfold generator. rewrite Fa, Fs, Fa, Fs, (Fc rho h).
    assert (f (fold_right (fun c s => aadd (dissipator c rho) s) a0 cs) = k0) as ->; [|ring].
    induction cs as [|c cs IH]; cbn [fold_right]; [|rewrite Fa, IH, (dissipator_trace f Fa Fs Fc); ring].
    transitivity (f (smul k0 (@a0 M))); [now rewrite smul_0|]. rewrite Fs. ring.
  Qed.
  Lemma dissipator_star c rho : star (dissipator c rho) = dissipator c (star rho).
  Proof.
    unfold dissipator. rewrite !star_add, !star_smul, !star_add, !star_mul, !star_star, kconj_opp, kconj_1, khalf_conj.
    rewrite (amul_assoc _ c (star rho)). f_equal. do 2 f_equal. apply aadd_comm.
  Qed.
  Lemma generator_star h cs rho : star h = h -> star (generator h cs rho) = generator h cs (star rho).
  Proof.
    intros Hh. unfold generator. rewrite !star_add, !star_smul, !star_add, !star_smul, !star_mul, Hh, !kconj_opp, kconj_1, iu_conj. f_equal.
    - rewrite !smul_addr, <- !smul_mul. rewrite aadd_comm. f_equal; f_equal; ring.
    - induction cs as [|c cs IH]; cbn [fold_right]; [apply star_0|]. now rewrite star_add, IH, dissipator_star.
  Qed.
End Gen.
