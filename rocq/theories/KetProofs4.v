(** Kets: inner and outer products are sound; all entry points. For C43. *)
From Coq Require Import QArith Qcanon Permutation Relations.
From Verif Require Import Prelude ListFacts SortModel SortProofs BinModel BinSpec BinProofs AlgSpec CAlg OpModel OpSpec OpProofs1 CSimpProofs5 OpProofs2 OpProofs3 KetModel KetSpec KetProofs1 KetProofs2 KetProofs3.
Local Open Scope nat_scope.

Section Sound.
  Context {S : scalars} {dim : nat -> option nat} {I : interp S dim} (W : kets I).
  Local Notation V := (V W).
  Local Notation klegal := (klegal (I:=I)).
  Local Notation kvalue := (kvalue W).
  Local Notation kmeans := (kmeans W).
  Local Notation kat := (kat (I:=I)).
  Local Notation ket := (ket S).
  Local Notation op := (op S).
  Local Notation value := (value I).
  Local Notation legal := (legal I).
  Local Notation level := (level (dim:=dim)).
  Add Ring Kk4 : (kring I).

  Section Step.
  Context (KO : ocreators S) (HK : soundK I KO) (Q : kcreators S) (HQ : soundQ W Q).
  Context (bk : ket -> ket -> S) (kb : ket -> ket -> op) (Hbk : bk_ok W bk) (Hkb : kb_ok W kb).

  Lemma kat_scal h c t : kat h (KScal c t) -> kat h t.
  Proof. intros [[_ L] [E|E]]; [discriminate|]. split; [exact L|now right]. Qed.
  Lemma kat_op h a t : kat h (KOp a t) -> kat h t /\ legal a /\ incl (space a) h.
  Proof. intros [(_ & L & La & Hi) [E|E]]; [discriminate|]. split; [split; [exact L|now right]|]. split; [exact La|]. intros s Hs. apply E. now apply Hi. Qed.
  Lemma lives_at h a : legal a -> incl (space a) h -> lives h (value a).
  Proof. intros La Hi. apply (lives_incl _ _ I (space a)); [exact Hi|now apply value_lives]. Qed.

  Definition bk_rest (a b : ket) : res S :=
    if (match a with KSym _ _ => true | _ => false end) && keqb a b then Ok s1
    else
      match a with
      | KScal u p => do x <- kc_bk Q p b; Ok (smult (sconj u) x)
      | KOp x p => do x' <- oadj KO x; do y <- kc_op Q x' b; kc_bk Q p y
      | _ => match b with KScal u p => do x <- kc_bk Q a p; Ok (smult u x) | _ => bk_new bk a b end
      end.
  Lemma bk_rest_sound a b c h : kat h a -> kat h b -> bk_rest a b = Ok c -> ev (r:=I) c = inner h (kvalue a) (kvalue b).
  Proof.
    intros Ka Kb E. unfold bk_rest in E.
    assert ((exists n hs, a = KSym n hs /\ b = KSym n hs) \/ (match a with KSym _ _ => true | _ => false end) && keqb a b = false) as [(n & hs & -> & ->)|Ef].
    { destruct a; auto. destruct b; auto. cbn [andb keqb]. destruct ((name =? name0) && eqb_list_nat h0 h1) eqn:E1; auto. apply andb_prop in E1. destruct E1 as [E1 E2].
      apply Nat.eqb_eq in E1. apply eqb_list_nat_spec in E2. subst. left. now exists name0, h1. }
    - assert (keqb (S:=S) (KSym n hs) (KSym n hs) = true) as Ek by (cbn [keqb]; rewrite Nat.eqb_refl; cbn [andb]; now apply eqb_list_nat_spec). rewrite Ek in E. cbn [andb] in E. injection E as <-.
      destruct Ka as [_ [?|Sa]]; [discriminate|]. cbn [KetSpec.kvalue]. rewrite <- (inner_same I W hs h) by exact Sa. rewrite (inner_sym I W). apply (ev_s1 I).
    - rewrite Ef in E. clear Ef.
      assert (match b with KScal u p => do x <- kc_bk Q a p; Ok (smult u x) | _ => bk_new bk a b end = Ok c -> ev (r:=I) c = inner h (kvalue a) (kvalue b)) as Right.
      { intros E'. assert (bk_new bk a b = Ok c -> ev (r:=I) c = inner h (kvalue a) (kvalue b)) as New by (apply bk_new_sound; [exact Hbk|apply Ka|apply Kb|now apply (two_kat (I:=I))]).
        destruct b; try (now apply New). step E' x Ex. injection E' as <-. apply kat_scal in Kb. cbn [KetSpec.kvalue]. rewrite (inner_smul I W) by (now apply kat_on). rewrite ev_mul. f_equal.
        apply (q_bk W Q HQ a b x h); [apply Ka|apply Kb|now apply (two_kat (I:=I))|exact Ex]. }
      destruct a; try (now apply Right).
      + step E x Ex. injection E as <-. apply kat_scal in Ka. cbn [KetSpec.kvalue]. rewrite inner_smul_l by (now apply kat_on). rewrite ev_mul, ev_conj. f_equal.
        apply (q_bk W Q HQ a b x h); [apply Ka|apply Kb|now apply (two_kat (I:=I))|exact Ex].
      + step E x Ex. step E y Ey. apply kat_op in Ka. destruct Ka as (Kp & La & Hi). destruct (oadj_sound I KO HK _ _ La Ex) as [Lx Vx].
        destruct (q_op W Q HQ _ _ _ h Lx Kb Ey) as (Ly & Vy & Sy). assert (kat h y) as Ky by (now split).
        cbn [KetSpec.kvalue]. rewrite (inner_act I W h h); [|now apply lives_at|apply incl_refl|now apply kat_on|now apply kat_on].
        rewrite <- Vx, <- Vy. apply (q_bk W Q HQ a0 y c h); [apply Kp|exact Ly|now apply (two_kat (I:=I))|exact E].
  Qed.
  Lemma bk_sound fuel a b c h : klegal a -> klegal b -> same_kets h [a; b] -> bk_step KO bk Q fuel a b = Ok c -> ev (r:=I) c = inner h (kvalue a) (kvalue b).
  Proof.
    intros La Lb Hs E. destruct (kat_two h a b La Lb Hs) as [Ka Kb].
    assert (b = KZero -> c = s0 -> ev (r:=I) c = inner h (kvalue a) (kvalue b)) as Zb. { intros -> ->. cbn [KetSpec.kvalue]. rewrite inner_z by (now apply kat_on). apply (ev_s0 I). }
    assert (a = KZero -> c = s0 -> ev (r:=I) c = inner h (kvalue a) (kvalue b)) as Za. { intros -> ->. cbn [KetSpec.kvalue]. rewrite inner_zl by (now apply kat_on). apply (ev_s0 I). }
    pose proof (bk_rest_sound a b c h Ka Kb) as Rest.
    destruct a as [| |j l|v l|n hs|v p|l|l|x p]; (destruct b as [| |j' l'|v' l'|n' hs'|v' p'|l'|l'|x' p'];
      [unfold bk_step in E; injection E as <-; now apply Zb|..]);
      try (unfold bk_step in E; injection E as <-; now apply Za); try (exact (Rest E)).
    - unfold bk_step in E. injection E as <-. destruct Ka as [Lj [?|Sa]]; [discriminate|]. destruct Kb as [Lj' [?|Sb]]; [discriminate|]. cbn [kspace] in Sa, Sb.
      assert (l' = l) as ->. { assert (In l' [l]) as [<-|[]] by (apply Sa, Sb; now left). reflexivity. }
      cbn [KetSpec.kvalue]. rewrite <- (inner_same I W [l] h) by exact Sa. rewrite (inner_basis I W) by assumption. destruct (j =? j'); [apply (ev_s1 I)|apply (ev_s0 I)].
    - change (bk_step KO bk Q fuel (KTensor l) (KTensor l')) with (do r <- decompose Q fuel (kc_bk Q) (fun x y => Ok (smult x y)) l l'; match r with Some x => Ok x | None => bk_new bk (KTensor l) (KTensor l') end) in E.
      step E r Er. destruct r as [r|]; [|apply (bk_new_sound W bk Hbk _ _ _ _ La Lb Hs E)]. injection E as <-.
      destruct (decompose_split W Q HQ _ _ _ _ _ _ h La Lb Hs Er) as (p1 & p2 & q1 & q2 & x & y & h1 & h2 & L1 & L2 & L3 & L4 & S1 & S2 & V1 & V2 & Hh & F1 & F2 & F3).
      injection F3 as <-. rewrite ev_mul. pose proof (q_bk W Q HQ _ _ _ _ L1 L3 S1 F1) as G1. pose proof (q_bk W Q HQ _ _ _ _ L2 L4 S2 F2) as G2.
      destruct (kat_two _ _ _ L1 L3 S1) as [K1 K3]. destruct (kat_two _ _ _ L2 L4 S2) as [K2 K4]. rewrite G1, G2, V1, V2.
      destruct Hh as [[Hh Hd]|Hz].
      + rewrite (inner_same I W h (h1 ++ h2)) by exact Hh. symmetry. apply (inner_mul I W); [exact Hd|now apply kat_on|now apply kat_on|now apply kat_on|now apply kat_on].
      + pose proof (kat_on W h (KTensor l) Ka) as OnL. pose proof (kat_on W h (KTensor l') Kb) as OnM. rewrite V1 in OnL. rewrite V2 in OnM.
        destruct Hz as [->|[->|[->| ->]]]; cbn [KetSpec.kvalue] in *; rewrite ?vm_z, ?vm_zr in *; rewrite ?(inner_zl W h), ?(inner_z W h) by assumption; rewrite ?(inner_zl W h1), ?(inner_z W h1), ?(inner_zl W h2), ?(inner_z W h2) by (now apply kat_on); ring.
  Qed.

  Lemma outer_swap a p h (x y : V) : means I p (outer h x y) -> legal a -> incl (space a) h -> on h x -> on h y -> forall e, k_times KO [a; p] = Ok e -> means I e (outer h (act (value a) x) y).
  Proof.
    intros [Lp Vp] La Hi Hx Hy e E. destruct (m_times2 I KO HK _ _ _ La Lp E) as [Le Ve]. split; [exact Le|]. rewrite Ve, Vp. symmetry. apply (outer_act I W h h); [now apply lives_at|apply incl_refl|exact Hx|exact Hy].
  Qed.
  Lemma kb_rest_sound fuel a b e h : klegal a -> klegal b -> same_kets h [a; b] -> kb_rest KO kb Q fuel a b = Ok e -> means I e (outer h (kvalue a) (kvalue b)).
  Proof.
    intros La Lb Hs E. destruct (kat_two h a b La Lb Hs) as [Ka Kb]. unfold kb_rest in E.
    assert ((exists u l, a = KCoh u l) \/ forall X f (g : X), match a with KCoh u l => f u l | _ => g end = g) as [(u & l & ->)|Na] by (destruct a; eauto).
    { step E p Ep. destruct Ka as [Ld [?|Sl]]; [discriminate|]. cbn [kspace] in Sl. assert (kat h (KBasis 0 l : ket)) as K0 by (apply (kat_same [l]); [exact Sl|now apply kat_vac]).
      pose proof (q_kb W Q HQ _ _ _ h (proj1 K0) Lb (two_kat (I:=I) h _ _ K0 Kb) Ep) as Mp.
      apply (outer_swap (OAtom (ADisp u l)) p h (kvalue (KBasis 0 l)) (kvalue b) Mp); [exact Ld|now apply same_incl|now apply kat_on|now apply kat_on|exact E]. }
    rewrite Na in E. clear Na.
    assert ((exists u l, b = KCoh u l) \/ forall X f (g : X), match b with KCoh u l => f u l | _ => g end = g) as [(u & l & ->)|Nb] by (destruct b; eauto).
    { step E p Ep. destruct Kb as [Ld [?|Sl]]; [discriminate|]. cbn [kspace] in Sl. assert (kat h (KBasis 0 l : ket)) as K0 by (apply (kat_same [l]); [exact Sl|now apply kat_vac]).
      destruct (q_kb W Q HQ _ _ _ h La (proj1 K0) (two_kat (I:=I) h _ _ Ka K0) Ep) as [Lp Vp].
      destruct (m_times2 I KO HK _ (OAtom (ADisp (sneg u) l)) _ Lp Ld E) as [Le Ve]. split; [exact Le|]. rewrite Ve, Vp. cbn [KetSpec.kvalue OpSpec.value atom_val].
      rewrite (outer_act_r W h [l]); [|now apply (lives_disp _ _ I)|now apply same_incl|now apply kat_on|exact (kat_on W h (KBasis 0 l) K0)].
      rewrite (disp_star _ _ I) by exact Ld. rewrite ev_neg. reflexivity. }
    rewrite Nb in E. clear Nb.
    assert (kb_new kb a b = Ok e -> means I e (outer h (kvalue a) (kvalue b))) as New by (now apply kb_new_sound).
    assert (forall x p, a = KOp x p -> (do y <- kc_kb Q p b; k_times KO [x; y]) = Ok e -> means I e (outer h (kvalue a) (kvalue b))) as OpL.
    { intros x p -> E'. step E' y Ey. apply kat_op in Ka. destruct Ka as (Kp & Lx & Hi). apply (outer_swap x y h (kvalue p) (kvalue b)); [|exact Lx|exact Hi|now apply kat_on|now apply kat_on|exact E'].
      apply (q_kb W Q HQ p b y h); [apply Kp|exact Lb|now apply (two_kat (I:=I))|exact Ey]. }
    assert (forall x p, b = KOp x p -> (do y <- kc_kb Q a p; do x' <- oadj KO x; k_times KO [y; x']) = Ok e -> means I e (outer h (kvalue a) (kvalue b))) as OpR.
    { intros x p -> E'. step E' y Ey. apply kat_op in Kb. destruct Kb as (Kp & Lx & Hi). step E' x' Ex. destruct (oadj_sound I KO HK _ _ Lx Ex) as [Lx' Vx'].
      destruct (q_kb W Q HQ a p y h) as [Ly Vy]; [exact La|apply Kp|now apply (two_kat (I:=I))|exact Ey|]. destruct (m_times2 I KO HK _ _ _ Ly Lx' E') as [Le Ve]. split; [exact Le|].
      rewrite Ve, Vy, Vx'. cbn [KetSpec.kvalue]. symmetry. apply (outer_act_r W h h); [now apply lives_at|apply incl_refl|now apply kat_on|now apply kat_on]. }
    assert (forall u p, a = KScal u p -> (do y <- kc_kb Q p b; k_scal KO u y) = Ok e -> means I e (outer h (kvalue a) (kvalue b))) as ScL.
    { intros u p -> E'. step E' y Ey. apply kat_scal in Ka. destruct (q_kb W Q HQ p b y h) as [Ly Vy]; [apply Ka|exact Lb|now apply (two_kat (I:=I))|exact Ey|].
      destruct (OpProofs2.s_scal I KO HK _ _ _ Ly E') as [Le Ve]. split; [exact Le|]. rewrite Ve, Vy. cbn [KetSpec.kvalue]. symmetry. apply (outer_smul I W); now apply kat_on. }
    assert (forall u p, b = KScal u p -> (do y <- kc_kb Q a p; k_scal KO (sconj u) y) = Ok e -> means I e (outer h (kvalue a) (kvalue b))) as ScR.
    { intros u p -> E'. step E' y Ey. apply kat_scal in Kb. destruct (q_kb W Q HQ a p y h) as [Ly Vy]; [exact La|apply Kb|now apply (two_kat (I:=I))|exact Ey|].
      destruct (OpProofs2.s_scal I KO HK _ _ _ Ly E') as [Le Ve]. split; [exact Le|]. rewrite Ve, Vy, ev_conj. cbn [KetSpec.kvalue]. symmetry. apply outer_smul_r; now apply kat_on. }
    assert (forall l m, a = KTensor l -> b = KTensor m -> (do r <- decompose Q fuel (kc_kb Q) (fun x y => k_times KO [x; y]) l m; match r with Some x => Ok x | None => kb_new kb a b end) = Ok e -> means I e (outer h (kvalue a) (kvalue b))) as Ten.
    { intros l m -> -> E'. step E' r Er. destruct r as [r|]; [|now apply New]. injection E' as <-.
      destruct (decompose_split W Q HQ _ _ _ _ _ _ h La Lb Hs Er) as (p1 & p2 & q1 & q2 & x & y & h1 & h2 & L1 & L2 & L3 & L4 & S1 & S2 & V1 & V2 & Hh & F1 & F2 & F3).
      destruct (q_kb W Q HQ _ _ _ _ L1 L3 S1 F1) as [Lx Vx]. destruct (q_kb W Q HQ _ _ _ _ L2 L4 S2 F2) as [Ly Vy]. destruct (m_times2 I KO HK _ _ _ Lx Ly F3) as [Le Ve]. split; [exact Le|].
      destruct (kat_two _ _ _ L1 L3 S1) as [K1 K3]. destruct (kat_two _ _ _ L2 L4 S2) as [K2 K4]. rewrite Ve, Vx, Vy, V1, V2.
      destruct Hh as [[Hh Hd]|Hz].
      + rewrite (outer_same I W h (h1 ++ h2)) by exact Hh. symmetry. apply (outer_mul I W); [exact Hd|now apply kat_on|now apply kat_on|now apply kat_on|now apply kat_on].
      + pose proof (kat_on W h (KTensor l) Ka) as OnL. pose proof (kat_on W h (KTensor m) Kb) as OnM. rewrite V1 in OnL. rewrite V2 in OnM.
        destruct Hz as [->|[->|[->| ->]]]; cbn [KetSpec.kvalue] in *; rewrite ?vm_z, ?vm_zr in *; rewrite ?(outer_z W h), ?(outer_zr W h) by assumption; rewrite ?(outer_z W h1), ?(outer_zr W h1), ?(outer_z W h2), ?(outer_zr W h2) by (now apply kat_on); rewrite ?amul_0l, ?amul_0r; reflexivity. }
    destruct a as [| |j l|v l|n hs|v p|l|l|x p]; destruct b as [| |j' l'|v' l'|n' hs'|v' p'|l'|l'|x' p'];
      try (exact (New E)); try (exact (Ten _ _ eq_refl eq_refl E)); try (exact (OpL _ _ eq_refl E)); try (exact (OpR _ _ eq_refl E)); try (exact (ScL _ _ eq_refl E)); try (exact (ScR _ _ eq_refl E)).
  Qed.
  Lemma kb_sound fuel a b e h : klegal a -> klegal b -> same_kets h [a; b] -> kb_step KO kb Q fuel a b = Ok e -> means I e (outer h (kvalue a) (kvalue b)).
  Proof.
    intros La Lb Hs E. pose proof (kb_rest_sound fuel a b e h La Lb Hs) as Rest.
    destruct a as [| |j l|v l|n hs|v p|l|l|x p]; try (exact (Rest E)). destruct b as [| |j' l'|v' l'|n' hs'|v' p'|l'|l'|x' p']; try (exact (Rest E)).
    change (kb_step KO kb Q fuel (KBasis j l) (KBasis j' l')) with (if l =? l' then Ok (OAtom (ASigma (S:=S) j j' l)) else kb_new kb (KBasis j l) (KBasis j' l')) in E.
    destruct (Nat.eqb_spec l l') as [<-|]; [|now apply (kb_new_sound W kb Hkb)]. injection E as <-. split; [now split|].
    assert (same_set [l] h) as Sa by (apply (Hs (KBasis j l)); [now left|discriminate]). cbn [KetSpec.kvalue OpSpec.value atom_val]. rewrite <- (outer_same I W [l] h) by exact Sa.
    symmetry. now apply (outer_basis I W).
  Qed.
  End Step.

  (** ** All entry points *)
  Context (klt : ket -> ket -> bool) (slt : list nat -> list nat -> bool) (bk : ket -> ket -> S) (kb : ket -> ket -> op) (Hbk : bk_ok W bk) (Hkb : kb_ok W kb).
  Context (chk_phase : S -> bool) (Hphase : forall u, chk_phase u = true -> kconj (ev (r:=I) u) = ev u).
  Context (KO : ocreators S) (HK : soundK I KO).
  Lemma clean_split_ok on off h h' : clean_split (S:=S) on off h h' = true -> (forall o, In o on -> incl (space o) h) /\ (forall o, In o off -> incl (space o) h').
  Proof. unfold clean_split. intros H. apply andb_prop in H. destruct H as [H1 H2]. rewrite forallb_forall in H1, H2. split; intros o Ho; apply sp_incl_spec; auto. Qed.
  Theorem kcreators_sound n : soundQ W (kcreators_n dim KO klt slt bk kb chk_phase clean_split n).
  Proof.
    induction n as [|n IH]; [constructor; cbn [kcreators_n kc_scal kc_plus kc_tens kc_op kc_bk kc_kb]; discriminate|].
    constructor; cbn [kcreators_n kc_scal kc_plus kc_tens kc_op kc_bk kc_kb].
    - intros c t k h. now apply kscal_sound.
    - intros l k. now apply kplus_sound.
    - intros l k. now apply ktens_sound.
    - intros k E. unfold ktens_step in E. cbn [existsb] in E. step E x Ex. discriminate.
    - intros a t k h. apply kop_sound; [exact HK|exact IH|exact Hphase|exact clean_split_ok].
    - intros a b c h. now apply bk_sound.
    - intros a b e h. now apply kb_sound.
  Qed.
End Sound.
