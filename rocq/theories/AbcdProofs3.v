(** Proofs for C57: displacements, the scattering matrix, monotonicity. *)
From Coq Require Import QArith Qcanon Ring Sorting.
From Verif Require Import Prelude ListFacts BinModel AlgSpec CAlg NcRing MatModel SlhModel MatSpec OpModel OpSpec OpForms OpProofs1 OpProofs2 OpProofs3 OpFuel DiffModel DiffSpec DiffProofs NoiseSpec AbcdModel AbcdSpec AbcdProofs AbcdProofs2.
Local Open Scope nat_scope.

Lemma amp_of_In {S : scalars} (amps : list (nat * S)) l c : amp_of amps l = Some c -> In (l, c) amps.
Proof.
  induction amps as [|[l' c'] r IH]; cbn [amp_of]; [discriminate|]. destruct (Nat.eqb_spec l l') as [-> |_]; intros H; [injection H as ->; now left|right; auto].
Qed.
Lemma amp_of_None {S : scalars} (amps : list (nat * S)) l : amp_of amps l = None -> forall c, ~ In (l, c) amps.
Proof.
  induction amps as [|[l' c'] r IH]; cbn [amp_of]; intros H c; [easy|]. destruct (Nat.eqb_spec l l') as [-> |Hn]; [discriminate|].
  intros [E|E]; [injection E as -> _; congruence|exact (IH H c E)].
Qed.

Section Sound.
  Context {S : scalars} {dim : nat -> option nat} {I : interp S dim}.
  Context (simp : S -> S) (same : op S -> op S -> bool) (m : nat).
  Context (Hsimp : forall c, ev (r:=I) (simp c) = ev c).
  Context (K : ocreators S) (HK : soundK I K).
  Add Ring Kr2 : (kring I).
  Local Notation op := (op S).
  Local Notation legal := (legal I).
  Local Notation value := (value I).
  Local Notation means := (means I).
  Local Notation "x + y" := (aadd x y). Local Notation "x * y" := (amul x y).

  Lemma as_complex_sound o c : legal o -> as_complex m K o = Ok c -> value o = smul (ev c) a1.
  Proof.
    intros L H. unfold as_complex in H. step H e Ee. destruct (expand_sound I K HK m _ _ L Ee) as [Le Ve]. rewrite <- Ve.
    destruct e as [| | |c' t| | | | | |]; try discriminate.
    - injection H as <-. rewrite ev_s0, smul_0. reflexivity.
    - injection H as <-. unfold s1. rewrite (ev_Q S I), kQ_1, smul_1. reflexivity.
    - destruct t; try discriminate. injection H as <-. reflexivity.
  Qed.

  Lemma shifted_sound a c e : legal a -> shifted K a c = Ok e -> means e (value a + smul (ev c) a1).
  Proof.
    intros L H. unfold shifted in H. step H u Eu. destruct (s_scal I K HK c OOne u Logic.I Eu) as [Lu Vu]. cbn [OpSpec.value] in Vu. rewrite <- Vu. now apply m_plus2 with (K := K).
  Qed.
  Lemma substs_eq (amps : list (nat * S)) : forall l : list op,
    (fix go (l : list op) : res (list op) := match l with [] => Ok [] | x :: l' => do x' <- osubst K amps x; do r <- go l'; Ok (x' :: r) end) l = mapM (osubst K amps) l.
  Proof. induction l as [|x l IH]; [reflexivity|]. cbn [mapM]. now rewrite IH. Qed.

  Section Phi.
  Context (amps : list (nat * S)) (phi : A I -> A I) (Hphi : displacement I amps phi).
  Lemma phi_0 : phi a0 = a0.
  Proof. transitivity (phi (smul k0 a1)); [now rewrite smul_0|]. rewrite (d_smul I _ _ Hphi). apply smul_0. Qed.
  Lemma phi_msum l : phi (msum I l) = msum I (map phi l).
  Proof. induction l as [|x l IH]; [apply phi_0|]. cbn [map]. now rewrite !msum_cons, (d_add I _ _ Hphi), IH. Qed.
  Lemma phi_mprod l : phi (mprod I l) = mprod I (map phi l).
  Proof. induction l as [|x l IH]; [apply (d_1 I _ _ Hphi)|]. cbn [map]. now rewrite !mprod_cons, (d_mul I _ _ Hphi), IH. Qed.
  Lemma atom_lives a : legal_atom I a -> lives (i:=I) (atom_space a) (atom_val I a).
  Proof.
    destruct a as [n h|l|l|j k l|u l|u l|u l|l|l|l]; cbn [legal_atom atom_space atom_val]; intros H.
    - apply lives_sym. - now apply lives_create. - now apply lives_destroy. - apply lives_sigma. - now apply lives_phase. - now apply lives_disp.
    - now apply lives_squeeze. - now apply lives_jp. - now apply lives_jm. - now apply lives_jz.
  Qed.
  Lemma atom_subst_sound a e : legal_atom I a -> atom_ladder (map fst amps) a -> atom_subst K amps a = Ok e -> means e (phi (atom_val I a)).
  Proof.
    intros L Hl H.
    assert (apart (map fst amps) (atom_space a) -> means (OAtom a) (phi (atom_val I a))) as G.
    { intros Ha. split; [exact L|]. symmetry. apply (d_other I _ _ Hphi (atom_space a)); [now apply atom_lives|]. intros l c Hin. apply Ha. exact (in_map fst _ _ Hin). }
    assert (forall l, amp_of amps l = None -> apart (map fst amps) [l]) as Gn.
    { intros l Hn x Hx [<- |[]]. apply in_map_iff in Hx. destruct Hx as ([l' c] & E & Hx). cbn in E. subst l'. exact (amp_of_None amps l Hn c Hx). }
    destruct a as [n h|l|l|j k l|u l|u l|u l|l|l|l]; cbn [atom_subst atom_ladder atom_space] in *; try (injection H as <-; now apply G).
    - destruct (amp_of amps l) as [c|] eqn:E; [|injection H as <-; auto]. destruct (shifted_sound (OAtom _) _ _ L H) as [Le Ve]. split; [exact Le|]. rewrite Ve.
      cbn [OpSpec.value atom_val]. rewrite (ev_conj S I). transitivity (star (phi (idestroy l))).
      + rewrite (d_mode I _ _ Hphi l c (amp_of_In _ _ _ E) L), star_add, star_smul, star_1, (destroy_star I l L). reflexivity.
      + rewrite <- (d_star I _ _ Hphi), (destroy_star I l L). reflexivity.
    - destruct (amp_of amps l) as [c|] eqn:E; [|injection H as <-; auto]. destruct (shifted_sound (OAtom _) _ _ L H) as [Le Ve]. split; [exact Le|]. rewrite Ve.
      symmetry. exact (d_mode I _ _ Hphi l c (amp_of_In _ _ _ E) L).
  Qed.
  Lemma ladder_plus labels (l : list op) : fold_right (fun x P => ladder_only labels x /\ P) True l <-> Forall (ladder_only labels) l.
  Proof.
    induction l as [|x l IH]; cbn [fold_right]; [split; [constructor|easy]|]. rewrite IH. split; [intros [H1 H2]; now constructor|intros H; split; [exact (Forall_inv H)|exact (Forall_inv_tail H)]].
  Qed.
  Lemma osubst_sound : forall e e', legal e -> ladder_only (map fst amps) e -> osubst K amps e = Ok e' -> means e' (phi (value e)).
  Proof.
    induction e as [| |a|c t IH|l IH|l IH|a b IHa IHb|a IH|a h IH|s a IH] using op_ind'; intros e' HL HO H; cbn [osubst ladder_only] in *.
    - injection H as <-. split; [exact Logic.I|]. symmetry. apply phi_0.
    - injection H as <-. split; [exact Logic.I|]. symmetry. apply (d_1 I _ _ Hphi).
    - exact (atom_subst_sound a e' HL HO H).
    - step H t' Et. destruct (IH t' HL HO eq_refl) as [Lt Vt]. cbn [OpSpec.value]. rewrite (d_smul I _ _ Hphi), <- Vt. now apply (s_scal I K HK).
    - rewrite substs_eq in H. step H l' El. apply legal_plus in HL. apply ladder_plus in HO.
      assert (Forall legal l' /\ map value l' = map (fun x => phi (value x)) l) as [Ll Vl].
      { apply (mapM_sound I (osubst K amps) (fun x => In x l)) with (l := l); [|now apply Forall_forall|exact El]. intros x e Hx E. rewrite Forall_forall in IH, HL, HO. apply (IH x Hx e); auto. }
      cbn [OpSpec.value]. rewrite phi_msum, map_map, <- Vl. now apply (s_plus I K HK).
    - rewrite substs_eq in H. step H l' El. apply legal_times in HL. apply ladder_plus in HO.
      assert (Forall legal l' /\ map value l' = map (fun x => phi (value x)) l) as [Ll Vl].
      { apply (mapM_sound I (osubst K amps) (fun x => In x l)) with (l := l); [|now apply Forall_forall|exact El]. intros x e Hx E. rewrite Forall_forall in IH, HL, HO. apply (IH x Hx e); auto. }
      cbn [OpSpec.value]. rewrite phi_mprod, map_map, <- Vl. now apply (s_times I K HK).
    - destruct HL as [La Lb], HO as [Oa Ob]. step H a' Ea. step H b' Eb. destruct (IHa a' La Oa eq_refl) as [La' Va]. destruct (IHb b' Lb Ob eq_refl) as [Lb' Vb].
      cbn [OpSpec.value]. unfold mcomm. rewrite (d_add I _ _ Hphi), (d_smul I _ _ Hphi), !(d_mul I _ _ Hphi), <- Va, <- Vb. now apply (s_comm I K HK).
    - step H a' Ea. destruct (IH a' HL HO eq_refl) as [La Va]. cbn [OpSpec.value]. rewrite (d_star I _ _ Hphi), <- Va. now apply (oadj_sound I K HK).
    - destruct HO.
    - step H a' Ea. destruct (IH a' HL HO eq_refl) as [La Va]. injection H as <-. split; [exact La|].
      destruct s; cbn [OpSpec.value]; rewrite (d_add I _ _ Hphi), ?(d_smul I _ _ Hphi), (d_star I _ _ Hphi), Va; reflexivity.
  Qed.
  End Phi.

  (** entry by entry *)
  Definition sys_all (P : op -> Prop) (s : osys S) : Prop := Forall (Forall P) (oS s) /\ Forall P (oL s) /\ P (oH s).
  Definition sys_rel (v : A I -> A I) (s s' : osys S) : Prop :=
    (forall i j, i < length (oS s) -> j < length (nth i (oS s) []) -> value (nth j (nth i (oS s') []) OZero) = v (value (nth j (nth i (oS s) []) OZero))) /\
    (forall i, i < length (oL s) -> value (nth i (oL s') OZero) = v (value (nth i (oL s) OZero))) /\ value (oH s') = v (value (oH s)).
  Lemma sys_map_sound (f : op -> res op) (P : op -> Prop) v n s s' :
    (forall e e', P e -> legal e -> f e = Ok e' -> means e' (v (value e))) -> sys_all P s -> sys_ok I n s -> sys_map f s = Ok s' ->
    sys_ok I n s' /\ sys_rel v s s'.
  Proof.
    intros Hf (P1 & P2 & P3) (HS1 & HS2 & HL & LS & LL & LH) H. unfold sys_map in H. step H ss Es. step H ls El. step H h Eh. injection H as <-.
    destruct (Hf _ _ P3 LH Eh) as [Lh Vh].
    assert (forall row r, Forall P row -> Forall legal row -> mapM f row = Ok r -> length r = length row /\ Forall legal r /\ forall i, i < length row -> value (nth i r OZero) = v (value (nth i row OZero))) as Hrow.
    { intros row r Pr Lr Er. apply (mapM_at f (fun e => P e /\ legal e) (fun e => v (value e)) row r OZero); [intros x e [Hx Lx]; now apply Hf| |exact Er].
      rewrite Forall_forall in *. intros x Hx. auto. }
    destruct (Hrow _ _ P2 LL El) as (N2 & L2 & V2).
    destruct (mapM_nth (mapM f) (oS s) ss [] [] Es) as [N1 V1].
    assert (forall i, i < length (oS s) -> length (nth i ss []) = length (nth i (oS s) []) /\ Forall legal (nth i ss []) /\ forall j, j < length (nth i (oS s) []) -> value (nth j (nth i ss []) OZero) = v (value (nth j (nth i (oS s) []) OZero))) as G.
    { intros i Hi. apply Hrow; [apply (Forall_nth' (Forall P)); assumption|apply (Forall_nth' (Forall legal)); assumption|now apply V1]. }
    split.
    - unfold sys_ok. cbn [oS oL oH]. repeat split; try congruence; try assumption.
      + apply Forall_forall. intros r Hr. destruct (In_nth _ _ [] Hr) as (i & Hi & <-). rewrite N1 in Hi. rewrite (proj1 (G i Hi)). apply (Forall_nth' (fun r => length r = n)); assumption.
      + apply Forall_forall. intros r Hr. destruct (In_nth _ _ [] Hr) as (i & Hi & <-). rewrite N1 in Hi. apply (G i Hi).
    - unfold sys_rel. cbn [oS oL oH]. split; [intros i j Hi Hj; apply (G i Hi); exact Hj|]. split; assumption.
  Qed.
  Lemma sys_all_True s : sys_all (fun _ => True) s.
  Proof. repeat split; [|]; repeat (apply Forall_forall; intros); trivial. Qed.
  Lemma displaced_sound amps phi n s s' : displacement I amps phi -> sys_all (ladder_only (map fst amps)) s -> sys_ok I n s -> displaced simp same m K amps s = Ok s' ->
    sys_ok I n s' /\ sys_rel (match amps with [] => fun x => x | _ => phi end) s s'.
  Proof.
    intros Hphi Hlad Hok H. unfold displaced in H. destruct amps as [|p amps']; [injection H as <-; split; [exact Hok|]; repeat split|]. set (amps := p :: amps') in *. clearbody amps. clear p amps'.
    step H t1 E1. step H t2 E2.
    destruct (sys_map_sound _ _ phi n s t1 (fun e e' He Le E => osubst_sound amps phi Hphi e e' Le He E) Hlad Hok E1) as [O1 (R1 & R2 & R3)].
    destruct (sys_map_sound _ _ (fun x => x) n t1 t2 (fun e e' _ Le E => expand_sound I K HK m e e' Le E) (sys_all_True t1) O1 E2) as [O2 (Q1 & Q2 & Q3)].
    destruct (sys_map_sound _ _ (fun x => x) n t2 s' (fun e e' _ Le E => simplify_value simp same Hsimp K HK e e' Le E) (sys_all_True t2) O2 H) as [O3 (T1 & T2 & T3)].
    split; [exact O3|]. destruct Hok as (A1 & A2 & A3 & _), O1 as (B1 & B2 & B3 & _), O2 as (C1 & C2 & C3 & _). unfold sys_rel. split; [|split].
    - intros i j Hi Hj. pose proof (Forall_nth' _ _ [] i A2 Hi) as G1. pose proof (Forall_nth' _ _ [] i B2 ltac:(lia)) as G2. pose proof (Forall_nth' _ _ [] i C2 ltac:(lia)) as G3. cbn beta in *. rewrite T1, Q1, R1 by lia. reflexivity.
    - intros i Hi. rewrite T2, Q2, R2 by lia. reflexivity.
    - now rewrite T3, Q3, R3.
  Qed.
  (** without displacement hypotheses: the result has legal entries *)
  Lemma atom_subst_legal amps a e : legal_atom I a -> atom_subst K amps a = Ok e -> legal e.
  Proof.
    intros L H. destruct a as [n h|l|l|j k l|u l|u l|u l|l|l|l]; cbn [atom_subst] in H; try (injection H as <-; exact L).
    - destruct (amp_of amps l); [exact (proj1 (shifted_sound (OAtom _) _ _ L H))|injection H as <-; exact L].
    - destruct (amp_of amps l); [exact (proj1 (shifted_sound (OAtom _) _ _ L H))|injection H as <-; exact L].
  Qed.
End Sound.

Section Mono.
  Context {S : scalars} (simp : S -> S) (same : op S -> op S -> bool) (m : nat) (ext bname : nat -> nat).
  Context (K K' : ocreators S) (HK : leK K K').
  Lemma le_plus l : le (k_plus K l) (k_plus K' l). Proof. apply HK. Qed.
  Lemma le_times l : le (k_times K l) (k_times K' l). Proof. apply HK. Qed.
  Lemma le_scal c a : le (k_scal K c a) (k_scal K' c a). Proof. apply HK. Qed.
  Lemma le_kcomm a b : le (k_comm K a b) (k_comm K' a b). Proof. apply HK. Qed.
  Lemma le_adj a : le (oadj K a) (oadj K' a). Proof. now apply oadj_mono. Qed.
  Lemma le_exp e : le (expand K m e) (expand K' m e). Proof. now apply expand_mono. Qed.
  Lemma le_simplify e : le (simplify simp same K e) (simplify simp same K' e). Proof. now apply simplify_mono. Qed.
  Ltac le1 := repeat first [apply le_refl | apply le_plus | apply le_times | apply le_scal | apply le_kcomm | apply le_adj | apply le_exp | apply le_simplify
    | (apply le_bind; [|intros ?]) | (apply le_mapM; intros ?) ].
  Lemma dot_mono xs ys : le (dot K xs ys) (dot K' xs ys).
  Proof. unfold dot. le1. match goal with |- le (match ?l with _ => _ end) _ => destruct l as [|p l]; [apply le_refl|] end. unfold add_all. apply le_foldM. intros. le1. Qed.
  Lemma ocomm_mono a b : le (ocomm K a b) (ocomm K' a b).
  Proof. unfold ocomm, osub. le1. Qed.
  Lemma lindblad_mono x l : le (lindblad K x l) (lindblad K' x l).
  Proof. unfold lindblad. le1. Qed.
  Ltac le2 := repeat first [apply le_refl | apply dot_mono | apply ocomm_mono | apply lindblad_mono | apply le_plus | apply le_times | apply le_scal | apply le_adj | apply le_exp | apply le_simplify
    | (apply le_bind; [|intros ?]) | (apply le_mapM; intros ?) ].
  Lemma eom_mono sys x noises : le (eom simp same m K sys x noises) (eom simp same m K' sys x noises).
  Proof.
    unfold eom. le2. destruct (negb _); [apply le_refl|]. le2. destruct (overlaps _ _); [apply le_refl|]. le2.
  Qed.
  Lemma as_complex_mono o : le (as_complex m K o) (as_complex m K' o).
  Proof. unfold as_complex. le1. Qed.
  Lemma osubst_mono amps : forall e, le (osubst K amps e) (osubst K' amps e).
  Proof.
    induction e as [| |a|c t IH|l IH|l IH|a b IHa IHb|a IH|a h IH|s a IH] using op_ind'; cbn [osubst]; try apply le_refl.
    - destruct a; cbn [atom_subst]; try apply le_refl; destruct (amp_of amps ls); try apply le_refl; unfold shifted; le1.
    - apply le_bind; [exact IH|]. intros. le1.
    - rewrite !substs_eq. apply le_bind; [|intros; le1]. induction l as [|x l IHl]; [apply le_refl|]. cbn [mapM]. apply le_bind; [exact (Forall_inv IH)|intros y]. apply le_bind; [exact (IHl (Forall_inv_tail IH))|intros; apply le_refl].
    - rewrite !substs_eq. apply le_bind; [|intros; le1]. induction l as [|x l IHl]; [apply le_refl|]. cbn [mapM]. apply le_bind; [exact (Forall_inv IH)|intros y]. apply le_bind; [exact (IHl (Forall_inv_tail IH))|intros; apply le_refl].
    - apply le_bind; [exact IHa|intros]. apply le_bind; [exact IHb|intros]. le1.
    - apply le_bind; [exact IH|intros]. le1.
    - apply le_bind; [exact IH|intros]. le1.
  Qed.
  Lemma sys_map_mono f f' s : (forall e, le (f e) (f' e)) -> le (sys_map f s) (sys_map (S:=S) f' s).
  Proof. intros H. unfold sys_map. apply le_bind; [apply le_mapM; intros; now apply le_mapM|intros]. apply le_bind; [now apply le_mapM|intros]. apply le_bind; [apply H|intros]. apply le_refl. Qed.
  Lemma displaced_mono amps s : le (displaced simp same m K amps s) (displaced simp same m K' amps s).
  Proof.
    unfold displaced. destruct amps; [apply le_refl|]. apply le_bind; [apply sys_map_mono, osubst_mono|intros]. apply le_bind; [apply sys_map_mono, le_exp|intros]. apply sys_map_mono, le_simplify.
  Qed.
  Lemma getABCD_mono sys amps doubled : le (getABCD simp same m ext bname K sys amps doubled) (getABCD simp same m ext bname K' sys amps doubled).
  Proof.
    unfold getABCD. cbn zeta. apply le_bind; [apply le_mapM; intros; apply le_mapM; intros; apply as_complex_mono|intros]. apply le_bind; [apply displaced_mono|intros].
    apply le_bind; [apply le_mapM; intros; apply eom_mono|intros]. apply le_refl.
  Qed.
End Mono.

Section Exists.
  Context {S : scalars} {dim : nat -> option nat} {I : interp S dim}.
  Add Ring Kr3 : (kring I).
  Local Notation "x + y" := (aadd x y). Local Notation "x * y" := (amul x y).
  Lemma disp_inv l v : displ (i:=I) l -> idisp (kopp v) l * idisp v l = @a1 I.
  Proof.
    intros Hd. assert (smul (kexp (r:=I) k0) a1 = @a1 I) as E1.
    { transitivity (idisp (i:=I) k0 l * idisp k0 l); [|rewrite (disp_0 S dim I l Hd); apply amul_1l]. rewrite (disp_disp S dim I k0 k0 l Hd), kconj_0.
      replace (kadd k0 k0) with (@k0 I) by ring. rewrite (disp_0 S dim I l Hd). f_equal. f_equal. ring. }
    rewrite (disp_disp S dim I _ _ l Hd). replace (kadd (kopp v) v) with (@k0 I) by ring. rewrite (disp_0 S dim I l Hd).
    transitivity (smul (kexp (r:=I) k0) (@a1 I)); [|exact E1]. f_equal. f_equal. rewrite kconj_opp. ring.
  Qed.
  Lemma disp_inv' l v : displ (i:=I) l -> idisp v l * idisp (kopp v) l = @a1 I.
  Proof. intros Hd. transitivity (idisp (kopp (kopp v)) l * idisp (kopp v) l); [|exact (disp_inv l (kopp v) Hd)]. f_equal. f_equal. ring. Qed.
  (** conjugation with a displacement operator *)
  Lemma displace_one l (c : S) : displ (i:=I) l -> displacement I [(l, c)] (fun x => idisp (kopp (ev c)) l * x * idisp (ev c) l).
  Proof.
    intros Hd. pose proof (disp_inv l (ev c) Hd) as E1. pose proof (disp_inv' l (ev c) Hd) as E2. constructor.
    - now rewrite amul_1r.
    - intros x y. now rewrite amul_addr, amul_addl.
    - intros x y. transitivity (idisp (kopp (ev c)) l * x * (idisp (ev c) l * idisp (kopp (ev c)) l) * y * idisp (ev c) l); [rewrite E2, !amul_1r, <- !amul_assoc; reflexivity|rewrite <- !amul_assoc; reflexivity].
    - intros k x. now rewrite smul_amul_r, smul_amul_l.
    - intros x. rewrite !star_mul, !(disp_star S dim I _ l Hd). replace (kopp (kopp (ev (r:=I) c))) with (ev (r:=I) c) by ring. now rewrite <- !amul_assoc.
    - intros l' c' [E|[]] Hb. injection E as <- <-. rewrite <- amul_assoc, (destroy_disp S dim I _ l Hd), amul_assoc, E1. apply amul_1l.
    - intros h x Hx Hn. transitivity (idisp (kopp (ev c)) l * (idisp (ev c) l * x)).
      + rewrite <- amul_assoc. f_equal. apply (lives_commute S dim I h [l]); [exact Hx|now apply lives_disp|]. intros y Hy [<- |[]]. exact (Hn l c (or_introl eq_refl) Hy).
      + rewrite amul_assoc, E1. apply amul_1l.
  Qed.
  Lemma displacement_exists (amps : list (nat * S)) : NoDup (map fst amps) -> Forall (fun lc => displ (i:=I) (fst lc)) amps -> exists phi, displacement I amps phi.
  Proof.
    induction amps as [|[l c] amps IH]; cbn [map fst]; intros Hn Hd; [exists (fun x => x); constructor; try reflexivity; intros l c []|].
    apply NoDup_cons_iff in Hn. destruct Hn as [Hl Hn]. destruct (IH Hn (Forall_inv_tail Hd)) as [phi Hp]. pose proof (displace_one l c (Forall_inv Hd)) as Hq. cbn [fst] in Hq.
    set (q := fun x => idisp (kopp (ev c)) l * x * idisp (ev c) l) in *. clearbody q. exists (fun x => phi (q x)). constructor.
    - now rewrite (d_1 I _ _ Hq), (d_1 I _ _ Hp).
    - intros x y. now rewrite (d_add I _ _ Hq), (d_add I _ _ Hp).
    - intros x y. now rewrite (d_mul I _ _ Hq), (d_mul I _ _ Hp).
    - intros k x. now rewrite (d_smul I _ _ Hq), (d_smul I _ _ Hp).
    - intros x. now rewrite (d_star I _ _ Hq), (d_star I _ _ Hp).
    - intros l' c' [E|Hin] Hb.
      + injection E as <- <-. rewrite (d_mode I _ _ Hq l c (or_introl eq_refl) Hb), (d_add I _ _ Hp), (d_smul I _ _ Hp), (d_1 I _ _ Hp). f_equal.
        apply (d_other I _ _ Hp [l]); [now apply lives_destroy|]. intros l2 c2 H2 [<- |[]]. apply Hl. exact (in_map fst _ _ H2).
      + rewrite (d_other I _ _ Hq [l']); [now apply (d_mode I _ _ Hp)|now apply lives_destroy|]. intros l2 c2 [E|[]] [<- |[]]. injection E as -> _. apply Hl. exact (in_map fst _ _ Hin).
    - intros h x Hx Hh. rewrite (d_other I _ _ Hq h x Hx); [apply (d_other I _ _ Hp h x Hx)|]; intros l2 c2 H2; apply (Hh l2 c2); [now right|destruct H2 as [H2|[]]; now left].
  Qed.
End Exists.
