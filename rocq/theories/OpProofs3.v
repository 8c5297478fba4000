(** Commutators, adjoints and expansion; all entry points are sound. *)
From Coq Require Import QArith Qcanon.
From Verif Require Import Prelude ListFacts SortModel SortProofs BinModel BinSpec BinProofs AlgSpec CAlg OpModel OpSpec OpProofs1 OpProofs2.
Local Open Scope nat_scope.

Section Sound.
  Context {S : scalars} {dim : nat -> option nat} (I : interp S dim).
  Local Notation op := (op S).
  Local Notation legal := (legal I).
  Local Notation value := (value I).
  Local Notation means := (means I).
  Add Ring Kr3 : (kring I).

  Lemma mcomm_smul_l c x y : mcomm I (smul c x) y = smul c (mcomm I x y).
  Proof.
    unfold mcomm. rewrite smul_amul_l, smul_amul_r, smul_addr. f_equal. rewrite <- !smul_mul. f_equal. ring.
  Qed.
  Lemma mcomm_smul_r c x y : mcomm I x (smul c y) = smul c (mcomm I x y).
  Proof.
    unfold mcomm. rewrite smul_amul_l, smul_amul_r, smul_addr. f_equal. rewrite <- !smul_mul. f_equal. ring.
  Qed.
  Lemma mcomm_anti x y : mcomm I y x = smul (kopp k1) (mcomm I x y).
  Proof.
    unfold mcomm. rewrite smul_addr, <- smul_mul. replace (kmul (kopp k1) (kopp k1)) with (@k1 I) by ring. rewrite smul_1. apply aadd_comm.
  Qed.
  Lemma mcomm_same x : mcomm I x x = a0.
  Proof. apply aadd_opp. Qed.
  Lemma mcomm_0 x y : amul x y = amul y x -> mcomm I x y = a0.
  Proof. intros H. unfold mcomm. rewrite H. apply aadd_opp. Qed.
  Lemma mcomm_add_l x y z : mcomm I (aadd x y) z = aadd (mcomm I x z) (mcomm I y z).
  Proof. unfold mcomm. rewrite amul_addl, amul_addr, smul_addr. apply aadd_perm4. Qed.
  Lemma mcomm_add_r x y z : mcomm I z (aadd x y) = aadd (mcomm I z x) (mcomm I z y).
  Proof. unfold mcomm. rewrite amul_addl, amul_addr, smul_addr. apply aadd_perm4. Qed.
  Lemma mcomm_0l x : mcomm I a0 x = a0.
  Proof. apply mcomm_0. now rewrite amul_0l, amul_0r. Qed.
  Lemma mcomm_0r x : mcomm I x a0 = a0.
  Proof. apply mcomm_0. now rewrite amul_0l, amul_0r. Qed.
  Lemma mcomm_star x y : star (mcomm I x y) = mcomm I (star y) (star x).
  Proof.
    unfold mcomm. rewrite star_add, star_smul, !star_mul. do 2 f_equal. rewrite kconj_opp, kconj_1. reflexivity.
  Qed.

  Section Step.
  Context (K : ocreators S) (HK : soundK I K).

  Lemma written_out_sound a b e : legal a -> legal b -> written_out K a b = Ok e -> means e (mcomm I (value a) (value b)).
  Proof.
    intros Ha Hb H. unfold written_out in H. step H p Ep. step H q Eq0.
    destruct (m_times2 I K HK _ _ _ Ha Hb Ep) as [Lp Vp]. destruct (m_times2 I K HK _ _ _ Hb Ha Eq0) as [Lq Vq].
    unfold mcomm. rewrite <- Vp, <- Vq. now apply (m_sub I K HK).
  Qed.
  Lemma comm_rules_sound a b e : legal a -> legal b -> comm_rules K a b = Ok e -> means e (mcomm I (value a) (value b)).
  Proof.
    intros Ha Hb H. unfold comm_rules in H. destruct (oeqb a b) eqn:E.
    { injection H as <-. split; [exact Logic.I|]. apply (oeqb_value I) in E. rewrite E. symmetry. apply mcomm_same. }
    assert (forall u a', a = OScal u a' -> (do c <- k_comm K a' b; k_scal K u c) = Ok e -> means e (mcomm I (value a) (value b))) as G1.
    { intros u a' -> Hc. step Hc c Ec. destruct (s_comm I K HK a' b c Ha Hb Ec) as [Lc Vc].
      cbn [OpSpec.value]. rewrite mcomm_smul_l, <- Vc. exact (s_scal I K HK _ _ _ Lc Hc). }
    assert (forall v b', b = OScal v b' -> (do c <- k_comm K a b'; k_scal K v c) = Ok e -> means e (mcomm I (value a) (value b))) as G2.
    { intros v b' -> Hc. step Hc c Ec. destruct (s_comm I K HK a b' c Ha Hb Ec) as [Lc Vc].
      cbn [OpSpec.value]. rewrite mcomm_smul_r, <- Vc. exact (s_scal I K HK _ _ _ Lc Hc). }
    assert (Ok (OComm a b) = Ok e -> means e (mcomm I (value a) (value b))) as G3.
    { intros Hc. injection Hc as <-. now split. }
    destruct a as [| |x|u a'| | | | | |].
    all: destruct b as [| |y|v b'| | | | | |]; try exact (G3 H); try exact (G1 _ _ eq_refl H); try exact (G2 _ _ eq_refl H).
    - clear G1 G2.
      assert (written_out K (OAtom x) (OAtom y) = Ok e -> means e (mcomm I (value (OAtom x)) (value (OAtom y)))) as G4
        by (intros Hc; now apply written_out_sound).
      destruct x as [n h|l|l|j k l|u l|u l|u l|l|l|l]; destruct y as [n' h'|l'|l'|j' k' l'|u' l'|u' l'|u' l'|l'|l'|l']; cbn [fock_like spin_like andb] in H;
        try exact (G3 H); try exact (G4 H).
      destruct (Nat.eqb_spec l l') as [<-|_]; [|exact (G4 H)]. injection H as <-. split; [exact Logic.I|].
      cbn [OpSpec.value atom_val]. rewrite (ev_sm1 I). unfold mcomm. rewrite (ccr _ _ I l Ha). rewrite smul_addr.
      clear. set (X := amul (icreate l) (idestroy l)). change (smul (kopp k1) a1 = aadd X (aadd (smul (kopp k1) a1) (smul (kopp k1) X))).
      rewrite (aadd_comm _ (smul (kopp k1) a1)), aadd_assoc, aadd_opp, (aadd_comm _ a0). symmetry. apply aadd_0r.
    - clear G1 G2 G3. step H c Ec. destruct (s_comm I K HK a' b' c Ha Hb Ec) as [Lc Vc]. cbn [OpSpec.value].
      rewrite mcomm_smul_l, mcomm_smul_r, <- smul_mul, <- ev_mul, <- Vc. exact (s_scal I K HK _ _ _ Lc H).
  Qed.
  Lemma comm_sound olt slt a b e : legal a -> legal b -> comm_step olt slt K a b = Ok e -> means e (mcomm I (value a) (value b)).
  Proof.
    intros Ha Hb H. unfold comm_step in H. destruct (sp_disjoint (space b) (space a)) eqn:E.
    { injection H as <-. split; [exact Logic.I|]. symmetry. apply mcomm_0. symmetry. apply (apart_commute I); try assumption.
      now apply sp_disjoint_apart. }
    destruct (ofull_lt olt slt b a).
    - step H c Ec. destruct (s_comm I K HK b a c Hb Ha Ec) as [Lc Vc]. rewrite (mcomm_anti (value b)), <- Vc, <- (ev_sm1 I).
      exact (s_scal I K HK _ _ _ Lc H).
    - now apply comm_rules_sound.
  Qed.

  (** adjoints *)
  Lemma atom_adj_sound a : legal (OAtom a) -> means (atom_adj a) (star (value (OAtom a))).
  Proof.
    intros H. destruct a; cbn [OpSpec.legal legal_atom] in H; cbn [atom_adj OpSpec.value atom_val].
    - now split.
    - split; [exact H|]. symmetry. now apply create_star.
    - split; [exact H|]. symmetry. now apply destroy_star.
    - split; [exact (conj (proj2 H) (proj1 H))|]. symmetry. apply sigma_star.
    - rewrite phase_star, <- ev_conj, <- ev_neg by exact H. now apply m_phase.
    - rewrite disp_star, <- ev_neg by exact H. now apply m_disp.
    - split; [exact H|]. rewrite squeeze_star, <- ev_neg by exact H. reflexivity.
    - split; [exact H|]. symmetry. now apply jp_star.
    - split; [exact H|]. symmetry. now apply jm_star.
    - split; [exact H|]. symmetry. now apply jz_star.
  Qed.
  Lemma star_msum l : star (msum I l) = msum I (map star l).
  Proof. induction l as [|x l IH]; [apply star_0|]. cbn [map]. rewrite !msum_cons, star_add, IH. reflexivity. Qed.
  Lemma star_mprod l : star (mprod I l) = mprod I (rev (map star l)).
  Proof.
    induction l as [|x l IH]; [apply star_1|]. cbn [map rev]. rewrite mprod_cons, star_mul, IH, mprod_app, mprod_1. reflexivity.
  Qed.
  Lemma oadj_sound : forall e e', legal e -> oadj K e = Ok e' -> means e' (star (value e)).
  Proof.
    induction e as [| |a|c t IH|l IH|l IH|a b IHa IHb|a IH|a h IH|s a IH] using op_ind'; intros e' HL H; cbn [oadj] in H.
    - injection H as <-. split; [exact Logic.I|]. symmetry. apply star_0.
    - injection H as <-. split; [exact Logic.I|]. symmetry. apply star_1.
    - injection H as <-. now apply atom_adj_sound.
    - step H t' Et. injection H as <-. destruct (IH t' HL eq_refl) as [Lt Vt]. split; [exact Lt|]. cbn [OpSpec.value]. now rewrite Vt, ev_conj, star_smul.
    - match type of H with bind (?f l) _ = _ => set (adjs := f) in * end. step H l' El. injection H as <-.
      assert (Forall legal l' /\ map value l' = map star (map value l)) as [Ll Vl].
      { apply legal_plus in HL. revert l' El. induction l as [|x l IHl]; cbn; intros l' El; [injection El as <-; split; [constructor|reflexivity]|].
        step El x' Ex. step El l2 El2. injection El as <-. destruct (IHl (Forall_inv_tail IH) (Forall_inv_tail HL) l2 eq_refl) as [L2 V2].
        destruct (Forall_inv IH x' (Forall_inv HL) Ex) as [Lx Vx]. split; [now constructor|]. cbn [map]. now rewrite Vx, V2. }
      split; [now apply legal_plus|]. cbn [OpSpec.value]. now rewrite Vl, star_msum.
    - match type of H with bind (?f l) _ = _ => set (adjs := f) in * end. step H l' El.
      assert (Forall legal l' /\ map value l' = map star (map value l)) as [Ll Vl].
      { apply legal_times in HL. clear H. revert l' El. induction l as [|x l IHl]; cbn; intros l' El; [injection El as <-; split; [constructor|reflexivity]|].
        step El x' Ex. step El l2 El2. injection El as <-. destruct (IHl (Forall_inv_tail IH) (Forall_inv_tail HL) l2 eq_refl) as [L2 V2].
        destruct (Forall_inv IH x' (Forall_inv HL) Ex) as [Lx Vx]. split; [now constructor|]. cbn [map]. now rewrite Vx, V2. }
      cbn [OpSpec.value]. rewrite star_mprod, <- Vl, <- map_rev. apply (s_times I K HK); [|exact H]. now apply Forall_rev.
    - step H b' Eb. step H a' Ea. injection H as <-. destruct HL as [La Lb]. destruct (IHa a' La eq_refl) as [La' Va]. destruct (IHb b' Lb eq_refl) as [Lb' Vb].
      split; [now split|]. cbn [OpSpec.value]. now rewrite mcomm_star, Va, Vb.
    - injection H as <-. split; [exact HL|]. cbn [OpSpec.value]. now rewrite star_star.
    - injection H as <-. now split.
    - step H a' Ea. injection H as <-. destruct (IH a' HL eq_refl) as [La Va]. split; [exact La|]. destruct s; cbn [OpSpec.value]; rewrite Va, star_add; [reflexivity|].
      rewrite star_smul, kconj_opp, kconj_1. reflexivity.
  Qed.

  (** expansion *)
  Lemma foldM_times x l e : legal x -> Forall legal l -> foldM (fun a b => k_times K [a; b]) x l = Ok e ->
    means e (amul (value x) (mprod I (map value l))).
  Proof.
    revert x. induction l as [|y l IH]; intros x Hx Hl H; cbn [foldM] in H.
    - injection H as <-. split; [exact Hx|]. symmetry. apply amul_1r.
    - step H z Ez. destruct (m_times2 I K HK _ _ _ Hx (Forall_inv Hl) Ez) as [Lz Vz]. destruct (IH z Lz (Forall_inv_tail Hl) H) as [Le Ve].
      split; [exact Le|]. rewrite Ve, Vz. cbn [map]. rewrite mprod_cons. symmetry. apply amul_assoc.
  Qed.
  Lemma foldM_plus x l e : legal x -> Forall legal l -> foldM (fun a b => k_plus K [a; b]) x l = Ok e ->
    means e (aadd (value x) (msum I (map value l))).
  Proof.
    revert x. induction l as [|y l IH]; intros x Hx Hl H; cbn [foldM] in H.
    - injection H as <-. split; [exact Hx|]. symmetry. apply aadd_0r.
    - step H z Ez. destruct (m_plus2 I K HK _ _ _ Hx (Forall_inv Hl) Ez) as [Lz Vz]. destruct (IH z Lz (Forall_inv_tail Hl) H) as [Le Ve].
      split; [exact Le|]. rewrite Ve, Vz. cbn [map]. rewrite msum_cons. symmetry. apply aadd_assoc.
  Qed.
  Lemma mul_combo_sound l e : Forall legal l -> mul_combo K l = Ok e -> means e (mprod I (map value l)).
  Proof. destruct l as [|x l]; [discriminate|]. intros H E. exact (foldM_times x l e (Forall_inv H) (Forall_inv_tail H) E). Qed.
  Lemma add_all_sound l e : Forall legal l -> add_all K l = Ok e -> means e (msum I (map value l)).
  Proof. destruct l as [|x l]; [discriminate|]. intros H E. exact (foldM_plus x l e (Forall_inv H) (Forall_inv_tail H) E). Qed.
  Lemma summands_sound e : legal e -> Forall legal (summands_of e) /\ msum I (map value (summands_of e)) = value e.
  Proof.
    intros H. destruct e; cbn [summands_of]; try (split; [constructor; [exact H|constructor]|apply msum_1]). split; [now apply legal_plus|reflexivity].
  Qed.
  (** a pointwise-sound mapM *)
  Lemma mapM_sound {X} (f : X -> res op) (P : X -> Prop) (v : X -> A I) l l' :
    (forall x e, P x -> f x = Ok e -> means e (v x)) -> Forall P l -> mapM f l = Ok l' ->
    Forall legal l' /\ map value l' = map v l.
  Proof.
    intros Hf. revert l'. induction l as [|x l IH]; cbn [mapM]; intros l' HP E; [injection E as <-; split; [constructor|reflexivity]|].
    step E x' Ex. step E l2 El2. injection E as <-. destruct (IH l2 (Forall_inv_tail HP) eq_refl) as [L2 V2].
    destruct (Hf x x' (Forall_inv HP) Ex) as [Lx Vx]. split; [now constructor|]. cbn [map]. now rewrite Vx, V2.
  Qed.
  Lemma cartesian_forall {X} (P : X -> Prop) ls : Forall (Forall P) ls -> Forall (Forall P) (cartesian ls).
  Proof.
    induction ls as [|l ls IH]; intros H; [repeat constructor|]. cbn [cartesian]. rewrite Forall_forall. intros c Hc.
    apply in_flat_map in Hc. destruct Hc as [x [Hx Hc]]. apply in_map_iff in Hc. destruct Hc as [d [<- Hd]].
    specialize (IH (Forall_inv_tail H)). rewrite Forall_forall in IH. constructor; [|now apply IH].
    pose proof (Forall_inv H) as Hl. rewrite Forall_forall in Hl. now apply Hl.
  Qed.
  Lemma cartesian_sum ls : msum I (map (fun c => mprod I (map value c)) (cartesian ls)) = mprod I (map (fun l => msum I (map value l)) ls).
  Proof.
    induction ls as [|l ls IH]; [apply msum_1|]. cbn [cartesian map]. rewrite mprod_cons, <- IH, !msum_map, asum_flat_map.
    rewrite <- asum_mul_r. apply asum_ext. intros x _. rewrite asum_map. cbn [map].
    rewrite <- asum_mul_l. apply asum_ext. intros c _. reflexivity.
  Qed.
  Lemma comm_sums la lb :
    msum I (map (fun c => match c with [x; y] => mcomm I (value x) (value y) | _ => a0 end) (cartesian [la; lb]))
    = mcomm I (msum I (map value la)) (msum I (map value lb)).
  Proof.
    rewrite msum_map. cbn [cartesian]. rewrite asum_flat_map.
    transitivity (asum (fun x => mcomm I (value x) (msum I (map value lb))) la).
    - apply asum_ext. intros x _. rewrite asum_map, asum_flat_map. clear.
      induction lb as [|y lb IHb]; [symmetry; apply mcomm_0r|].
      rewrite asum_cons, IHb. cbn [map]. rewrite msum_cons, mcomm_add_r. f_equal. cbn. apply aadd_0r.
    - induction la as [|x la IHa]; [symmetry; apply mcomm_0l|]. rewrite asum_cons, IHa. cbn [map]. now rewrite msum_cons, mcomm_add_l.
  Qed.
  Lemma expand_sound : forall n e e', legal e -> expand K n e = Ok e' -> means e' (value e).
  Proof.
    induction n as [|n IH]; intros e e' HL H; [discriminate|]. cbn [expand] in H.
    assert (forall ret v, means ret v -> match ret with OPlus _ => expand K n ret | _ => Ok ret end = Ok e' -> means e' v) as Fin.
    { intros ret v [Lr Vr] Hr. destruct ret; try (injection Hr as <-; now split). rewrite <- Vr. now apply IH. }
    destruct e as [| |a|c t|l|l|a b|a|a h|s a]; try (injection H as <-; now split).
    - step H t' Et. step H sm Es. step H ret Eret. destruct (IH t t' HL Et) as [Lt Vt]. destruct (summands_sound t' Lt) as [Ls Vs].
      destruct (mapM_sound (k_scal K c) legal (fun x => smul (ev c) (value x)) _ _ (fun x e0 => s_scal I K HK c x e0) Ls Es) as [Lm Vm].
      apply (Fin ret); [|exact H]. destruct (add_all_sound sm ret Lm Eret) as [Lr Vr]. split; [exact Lr|]. rewrite Vr, Vm.
      cbn [OpSpec.value]. rewrite <- Vt, <- Vs, <- msum_smul, map_map. reflexivity.
    - step H l' El. apply legal_plus in HL.
      destruct (mapM_sound (expand K n) legal value l l' (fun x e0 => IH x e0) HL El) as [Ll Vl]. cbn [OpSpec.value]. rewrite <- Vl.
      exact (s_plus I K HK l' e' Ll H).
    - step H eops Ee. step H sm Es. step H ret Eret. apply legal_times in HL.
      destruct (mapM_sound (expand K n) legal value l eops (fun x e0 => IH x e0) HL Ee) as [Lo Vo].
      assert (Forall (Forall legal) (map summands_of eops)) as Ls.
      { apply Forall_map. apply (Forall_impl _ (fun a Ha => proj1 (summands_sound a Ha)) Lo). }
      destruct (mapM_sound (mul_combo K) (Forall legal) (fun c => mprod I (map value c)) _ _ (fun x e0 => mul_combo_sound x e0) (cartesian_forall _ _ Ls) Es) as [Lm Vm].
      apply (Fin ret); [|exact H]. destruct (add_all_sound sm ret Lm Eret) as [Lr Vr]. split; [exact Lr|]. rewrite Vr, Vm, cartesian_sum, map_map.
      cbn [OpSpec.value]. rewrite <- Vo. f_equal. apply map_ext_in. intros x Hx. apply summands_sound. rewrite Forall_forall in Lo. now apply Lo.
    - step H a' Ea. step H b' Eb. step H cs Ec. destruct HL as [La Lb]. destruct (IH a a' La Ea) as [La' Va]. destruct (IH b b' Lb Eb) as [Lb' Vb].
      destruct (summands_sound a' La') as [Lsa Vsa]. destruct (summands_sound b' Lb') as [Lsb Vsb].
      destruct (mapM_sound (fun c => match c with [x; y] => k_comm K x y | _ => Err TypeError end) (Forall legal)
                  (fun c => match c with [x; y] => mcomm I (value x) (value y) | _ => a0 end) (cartesian [summands_of a'; summands_of b']) cs) as [Lm Vm];
        [|apply cartesian_forall; repeat constructor; assumption|exact Ec|].
      { intros [|x [|y [|z c]]] e0 Hc E; try discriminate. exact (s_comm I K HK x y e0 (Forall_inv Hc) (Forall_inv (Forall_inv_tail Hc)) E). }
      destruct (s_plus I K HK cs e' Lm H) as [Le Ve]. split; [exact Le|]. rewrite Ve, Vm. cbn [OpSpec.value]. rewrite <- Va, <- Vb, <- Vsa, <- Vsb.
      apply comm_sums.
    - step H a' Ea. destruct (IH a a' HL Ea) as [La Va]. cbn [OpSpec.value]. rewrite <- Va.
      destruct a'; try exact (oadj_sound _ _ La H). discriminate H.
    - discriminate H.
  Qed.
  End Step.

  Theorem creators_sound olt slt ord : order_ok ord -> forall n, soundK I (creators_n dim olt slt ord n).
  Proof.
    intros Hord. induction n as [|n IH]; [constructor; discriminate|]. cbn [creators_n]. constructor; cbn [k_scal k_plus k_times k_comm].
    - intros c a e. now apply scal_sound.
    - intros l e. now apply plus_sound.
    - intros l e. now apply times_sound.
    - intros a b e. now apply comm_sound.
  Qed.
End Sound.
