(** Proofs about Python arithmetic on operators (AriModel). *)
From Coq Require Import QArith Qcanon.
From Verif Require Import Prelude ListFacts SortModel SortProofs BinModel AlgSpec CAlg OpModel OpSpec OpForms OpProofs1 OpProofs2 OpProofs3 OpFuel OpOrder OpLocal OpRun AriModel AriSpec.
Local Open Scope nat_scope.

Ltac bstep H x E := match type of H with bind ?r _ = _ => destruct r as [x|] eqn:E; [cbn [bind] in H|discriminate H] end.

(** ** Every result has the value of the formula *)
Section Sound.
  Context {S : scalars} {dim : nat -> option nat} (I : interp S dim).
  Context (K : ocreators S) (HK : soundK I K) (sinv : S -> res S) (Hinv : inverts I sinv).
  Add Ring Ar1 : (kring I).
  Local Notation stands := (stands I).
  Local Notation yields := (yields I).
  Local Notation vm v m := (yields v m).

  Lemma smul_one (x : A I) c : amul (smul c a1) x = smul c x.
  Proof. rewrite smul_amul_l, amul_1l. reflexivity. Qed.
  Lemma smul_one_r (x : A I) c : amul x (smul c a1) = smul c x.
  Proof. rewrite smul_amul_r, amul_1r. reflexivity. Qed.
  Lemma mprod_repeat (x : A I) n : mprod I (repeat x n) = mpow I x n.
  Proof. induction n; [reflexivity|]. cbn [repeat mpow]. rewrite mprod_cons, IHn. reflexivity. Qed.
  Lemma map_repeat {X Y} (f : X -> Y) x n : map f (repeat x n) = repeat (f x) n.
  Proof. induction n; cbn [repeat map]; [reflexivity|now rewrite IHn]. Qed.

  Lemma add_scal_sound a c r (x : A I) : means I a x -> p_add K (VOp a) (VNum c) = Ok r ->
    yields r (MOp (aadd x (smul (ev c) a1))).
  Proof.
    intros [La <-] H. cbn [p_add] in H. bstep H c' E. bstep H r' E'. injection H as <-. cbn [AriSpec.yields].
    destruct (s_scal I K HK _ OOne _ Logic.I E) as [Lc Vc]. cbn [value] in Vc.
    destruct (m_plus2 I K HK _ _ _ La Lc E') as [Lr Vr]. split; [exact Lr|]. now rewrite Vr, Vc.
  Qed.
  Lemma add_sound v w m m' r : yields v m -> yields w m' -> operand2 I m m' -> p_add K v w = Ok r ->
    yields r (MOp (aadd (elem m) (elem m'))).
  Proof.
    intros Hv Hw Ho H. destruct v as [a|c], w as [b|d], m as [k|x], m' as [k'|y]; try contradiction; cbn [AriSpec.yields elem] in *.
    - cbn [p_add] in H. bstep H r' E. injection H as <-. destruct Hv as [La <-], Hw as [Lb <-]. exact (m_plus2 I K HK _ _ _ La Lb E).
    - subst k'. exact (add_scal_sound _ _ _ _ Hv H).
    - subst k. rewrite aadd_comm. apply (add_scal_sound b); [exact Hw|]. exact H.
    - inversion Ho.
  Qed.
  Lemma mul_sound v w m m' r : yields v m -> yields w m' -> operand2 I m m' -> p_mul K v w = Ok r ->
    yields r (MOp (amul (elem m) (elem m'))).
  Proof.
    intros Hv Hw Ho H. destruct v as [a|c], w as [b|d], m as [k|x], m' as [k'|y]; try contradiction; cbn [AriSpec.yields elem] in *.
    - cbn [p_mul] in H. bstep H r' E. injection H as <-. destruct Hv as [La <-], Hw as [Lb <-]. exact (m_times2 I K HK _ _ _ La Lb E).
    - cbn [p_mul] in H. bstep H r' E. injection H as <-. subst k'. destruct Hv as [La <-]. rewrite smul_one_r. exact (s_scal I K HK _ _ _ La E).
    - cbn [p_mul] in H. bstep H r' E. injection H as <-. subst k. destruct Hw as [Lb <-]. rewrite smul_one. exact (s_scal I K HK _ _ _ Lb E).
    - inversion Ho.
  Qed.
  Lemma opp_sound b y r : means I b y -> p_mul K (VNum sm1) (VOp b) = Ok r -> yields r (MOp (smul (kopp k1) y)).
  Proof.
    intros [Lb <-] H. cbn [p_mul] in H. bstep H r' E. injection H as <-. cbn [AriSpec.yields]. rewrite <- (ev_sm1 I). exact (s_scal I K HK _ _ _ Lb E).
  Qed.
  Lemma ev_opp c : ev (smult (@sm1 S) c) = kopp (@ev S I c).
  Proof. rewrite ev_mul, (ev_sm1 I). ring. Qed.
  Lemma sub_sound v w m m' r : yields v m -> yields w m' -> operand2 I m m' -> p_sub K v w = Ok r ->
    yields r (MOp (aadd (elem m) (smul (kopp k1) (elem m')))).
  Proof.
    intros Hv Hw Ho H. destruct v as [a|c], w as [b|d], m as [k|x], m' as [k'|y]; try contradiction; cbn [AriSpec.yields] in Hv, Hw.
    - cbn [p_sub] in H. bstep H w' E. pose proof (opp_sound _ _ _ Hw E) as Hw'. apply (add_sound (VOp a) w' (MOp x) (MOp (smul (kopp k1) y)) r); [exact Hv|exact Hw'|constructor|exact H].
    - cbn [p_sub p_mul bind] in H. subst k'.
      replace (smul (kopp k1) (elem (MNum (ev d)))) with (@elem S dim I (MNum (ev (smult sm1 d)))) by (cbn [elem]; rewrite <- smul_mul; f_equal; rewrite ev_opp; ring).
      apply (add_sound (VOp a) (VNum (smult sm1 d)) (MOp x) _ r); [exact Hv|reflexivity|constructor|exact H].
    - cbn [p_sub] in H. bstep H w' E. pose proof (opp_sound _ _ _ Hw E) as Hw'. cbn [elem]. rewrite aadd_comm.
      change (smul k a1) with (@elem S dim I (MNum k)).
      apply (add_sound w' (VNum c) (MOp (smul (kopp k1) y)) (MNum k) r); [exact Hw'|exact Hv|constructor|exact H].
    - inversion Ho.
  Qed.
  Lemma pow_int_sound a x z r : means I a x -> p_pow_int K a z = Ok r -> exists n, z = Z.of_nat n /\ means I r (mpow I x n).
  Proof.
    intros [La <-] H. destruct z as [|p|p]; cbn [p_pow_int] in H.
    - injection H as <-. exists 0. split; [reflexivity|]. now split.
    - assert ((p = 1%positive /\ r = a) \/ k_times K (repeat a (Pos.to_nat p)) = Ok r) as [[-> ->]|G].
      { destruct p; [now right|now right|]. left. split; [reflexivity|]. now injection H as <-. }
      + exists 1. split; [reflexivity|]. split; [exact La|]. cbn [mpow]. now rewrite amul_1r.
      + exists (Pos.to_nat p). split; [now rewrite positive_nat_Z|].
        assert (Forall (legal I) (repeat a (Pos.to_nat p))) as HF by (apply Forall_forall; intros y Hy; apply repeat_spec in Hy; now subst y).
        destruct (s_times I K HK _ _ HF G) as [Lr Vr]. split; [exact Lr|]. now rewrite Vr, map_repeat, mprod_repeat.
    - destruct (p =? 1)%positive; [discriminate H|]. destruct (k_times K (repeat a (Pos.to_nat p))); discriminate H.
  Qed.

  Lemma mul_num_l (x : A I) i (v : A I) : amul (smul i a1) v = smul i v.
  Proof. apply smul_one. Qed.
  Theorem run_sound f : flegal I f -> forall v, run K sinv f = Ok v -> exists m, stands f m /\ yields v m.
  Proof.
    induction f as [a|c|x IHx y IHy|x IHx y IHy|x IHx y IHy|x IHx y IHy|x IHx|x IHx n]; cbn [flegal run]; intros Hl v H.
    - injection H as <-. exists (MOp (value I a)). split; [constructor|now split].
    - injection H as <-. exists (MNum (ev c)). split; [constructor|reflexivity].
    - destruct Hl as [Hx Hy]. bstep H v1 E1. bstep H v2 E2. destruct (IHx Hx _ eq_refl) as [m [Sm Ym]]. destruct (IHy Hy _ eq_refl) as [m' [Sm' Ym']].
      destruct m as [k|u], m' as [k'|u'].
      + destruct v1, v2; try contradiction. cbn [p_add AriSpec.yields] in *. injection H as <-. exists (MNum (kadd k k')). split; [now constructor|]. cbn. rewrite ev_add. congruence.
      + eexists. split; [eapply st_add; [exact Sm|exact Sm'|constructor]|]. now apply (add_sound v1 v2); try constructor.
      + eexists. split; [eapply st_add; [exact Sm|exact Sm'|constructor]|]. now apply (add_sound v1 v2); try constructor.
      + eexists. split; [eapply st_add; [exact Sm|exact Sm'|constructor]|]. now apply (add_sound v1 v2); try constructor.
    - destruct Hl as [Hx Hy]. bstep H v1 E1. bstep H v2 E2. destruct (IHx Hx _ eq_refl) as [m [Sm Ym]]. destruct (IHy Hy _ eq_refl) as [m' [Sm' Ym']].
      destruct m as [k|u], m' as [k'|u'].
      + destruct v1, v2; try contradiction. cbn [p_sub AriSpec.yields] in *. injection H as <-. exists (MNum (kadd k (kopp k'))). split; [now constructor|]. cbn. rewrite ev_sub. congruence.
      + eexists. split; [eapply st_sub; [exact Sm|exact Sm'|constructor]|]. now apply (sub_sound v1 v2); try constructor.
      + eexists. split; [eapply st_sub; [exact Sm|exact Sm'|constructor]|]. now apply (sub_sound v1 v2); try constructor.
      + eexists. split; [eapply st_sub; [exact Sm|exact Sm'|constructor]|]. now apply (sub_sound v1 v2); try constructor.
    - destruct Hl as [Hx Hy]. bstep H v1 E1. bstep H v2 E2. destruct (IHx Hx _ eq_refl) as [m [Sm Ym]]. destruct (IHy Hy _ eq_refl) as [m' [Sm' Ym']].
      destruct m as [k|u], m' as [k'|u'].
      + destruct v1, v2; try contradiction. cbn [p_mul AriSpec.yields] in *. injection H as <-. exists (MNum (kmul k k')). split; [now constructor|]. cbn. rewrite ev_mul. congruence.
      + eexists. split; [eapply st_mul; [exact Sm|exact Sm'|constructor]|]. now apply (mul_sound v1 v2); try constructor.
      + eexists. split; [eapply st_mul; [exact Sm|exact Sm'|constructor]|]. now apply (mul_sound v1 v2); try constructor.
      + eexists. split; [eapply st_mul; [exact Sm|exact Sm'|constructor]|]. now apply (mul_sound v1 v2); try constructor.
    - destruct Hl as [Hx Hy]. bstep H v1 E1. bstep H v2 E2. destruct (IHx Hx _ eq_refl) as [m [Sm Ym]]. destruct (IHy Hy _ eq_refl) as [m' [Sm' Ym']].
      destruct v2 as [b|d]; [destruct v1; discriminate H|]. destruct m' as [k'|u']; [|contradiction]. cbn [AriSpec.yields] in Ym'. subst k'.
      destruct v1 as [a|c]; cbn [p_div] in H; bstep H i Ei; pose proof (Hinv _ _ Ei) as Hi.
      + destruct m as [k|u]; [contradiction|]. eexists. split; [eapply st_div; [exact Sm|exact Sm'|exact Hi]|].
        rewrite <- smul_one_r. change (smul (ev i) a1) with (@elem S dim I (MNum (ev i))). apply (mul_sound (VOp a) (VNum i) (MOp u) (MNum (ev i)) v); [exact Ym|reflexivity|constructor|exact H].
      + destruct m as [k|u]; [|contradiction]. cbn [AriSpec.yields] in Ym. subst k. injection H as <-. eexists. split; [eapply st_div_num; [exact Sm|exact Sm'|exact Hi]|]. cbn. apply ev_mul.
    - bstep H v1 E1. destruct (IHx Hl _ eq_refl) as [m [Sm Ym]]. destruct v1 as [a|c], m as [k|u]; try contradiction.
      + eexists. split; [apply st_neg; exact Sm|]. exact (opp_sound _ _ _ Ym H).
      + cbn [p_neg AriSpec.yields] in *. injection H as <-. eexists. split; [apply st_neg_num; exact Sm|]. cbn. rewrite ev_neg. congruence.
    - bstep H v1 E1. destruct (IHx Hl _ eq_refl) as [m [Sm Ym]]. destruct v1 as [a|c], m as [k|u]; try contradiction; [|discriminate H].
      cbn [p_pow] in H. destruct n as [z|q|]; [| |discriminate H].
      + bstep H r E. injection H as <-. destruct (pow_int_sound a u z r Ym E) as [n [-> Hr]]. eexists. split; [apply st_pow; exact Sm|exact Hr].
      + destruct (Qc_eq_dec q 0) as [->|_]; [injection H as <-; eexists; split; [eapply st_pow_0; exact Sm|now split]|].
        destruct (Qc_eq_dec q 1) as [->|_]; [|discriminate H]. injection H as <-. eexists. split; [apply st_pow_1; exact Sm|exact Ym].
  Qed.

  (** the meaning is unique *)
  Lemma inverse_unique d i j : kmul d i = @k1 I -> kmul d j = k1 -> i = j.
  Proof. intros Hi Hj. transitivity (kmul i (kmul d j)); [rewrite Hj; ring|]. transitivity (kmul (kmul d i) j); [ring|]. rewrite Hi. ring. Qed.
  Theorem stands_fun f m m' : stands f m -> stands f m' -> m = m'.
  Proof.
    intros Hm. revert m'. induction Hm; intros w Hw; inversion Hw; clear Hw; subst; try reflexivity;
      repeat match goal with
      | IH : forall m', AriSpec.stands I ?x m' -> _ = m', H : AriSpec.stands I ?x _ |- _ => apply IH in H
      end;
      repeat match goal with
      | H : MNum _ = MNum _ |- _ => injection H as H
      | H : MOp _ = MOp _ |- _ => injection H as H
      | H : MNum _ = MOp _ |- _ => discriminate H
      | H : MOp _ = MNum _ |- _ => discriminate H
      end; subst; try reflexivity;
      repeat match goal with H : operand2 I (MNum _) (MNum _) |- _ => inversion H end.
    - repeat f_equal. eapply inverse_unique; eassumption.
    - repeat f_equal. eapply inverse_unique; eassumption.
    - match goal with H : Z.of_nat _ = Z.of_nat _ |- _ => apply Nat2Z.inj in H; subst end. reflexivity.
  Qed.
End Sound.

(** ** Less may be defined when factors are checked *)
Section Mono.
  Context {S : scalars} (K K' : ocreators S) (HK : leK K K') (sinv : S -> res S).
  Local Notation up L := (le_ok _ _ _ (L)).
  Lemma p_add_mono v w r : p_add K v w = Ok r -> p_add K' v w = Ok r.
  Proof.
    destruct v as [a|c], w as [b|d]; cbn [p_add]; intros H.
    - bstep H x E. rewrite (le_ok _ _ _ (m_plus _ _ HK _) E). exact H.
    - bstep H x E. bstep H y E'. rewrite (le_ok _ _ _ (m_scal _ _ HK _ _) E). cbn [bind]. rewrite (le_ok _ _ _ (m_plus _ _ HK _) E'). exact H.
    - bstep H x E. bstep H y E'. rewrite (le_ok _ _ _ (m_scal _ _ HK _ _) E). cbn [bind]. rewrite (le_ok _ _ _ (m_plus _ _ HK _) E'). exact H.
    - exact H.
  Qed.
  Lemma p_mul_mono v w r : p_mul K v w = Ok r -> p_mul K' v w = Ok r.
  Proof.
    destruct v as [a|c], w as [b|d]; cbn [p_mul]; intros H; [| | |exact H]; bstep H x E.
    - rewrite (le_ok _ _ _ (m_times _ _ HK _) E). exact H.
    - rewrite (le_ok _ _ _ (m_scal _ _ HK _ _) E). exact H.
    - rewrite (le_ok _ _ _ (m_scal _ _ HK _ _) E). exact H.
  Qed.
  Lemma p_pow_int_mono a z r : p_pow_int K a z = Ok r -> p_pow_int K' a z = Ok r.
  Proof.
    destruct z as [|p|p]; cbn [p_pow_int]; intros H; [exact H| |].
    - destruct p; [| |exact H]; exact (le_ok _ _ _ (m_times _ _ HK _) H).
    - destruct (p =? 1)%positive; [discriminate H|]. destruct (k_times K _); discriminate H.
  Qed.
  Theorem run_mono f : forall v, run K sinv f = Ok v -> run K' sinv f = Ok v.
  Proof.
    induction f as [a|c|x IHx y IHy|x IHx y IHy|x IHx y IHy|x IHx y IHy|x IHx|x IHx n]; cbn [run]; intros v H; try exact H.
    all: bstep H v1 E1; rewrite (IHx _ eq_refl); cbn [bind].
    1-4: bstep H v2 E2; rewrite (IHy _ eq_refl); cbn [bind].
    - now apply p_add_mono.
    - destruct v1 as [a|c], v2 as [b|d]; cbn [p_sub] in H |- *; try exact H; bstep H u E; rewrite (p_mul_mono _ _ _ E); cbn [bind]; now apply p_add_mono.
    - now apply p_mul_mono.
    - destruct v1 as [a|c], v2 as [b|d]; cbn [p_div] in H |- *; try exact H. destruct (sinv d); [|discriminate H]. cbn [bind] in *. now apply p_mul_mono.
    - destruct v1 as [a|c]; cbn [p_neg] in H |- *; [now apply p_mul_mono|exact H].
    - destruct v1 as [a|c]; cbn [p_pow] in H |- *; [|exact H]. destruct n as [z|q|]; try exact H. bstep H r E. now rewrite (p_pow_int_mono _ _ _ E).
  Qed.
End Mono.

(** ** Operators on one local space: nothing needs to be checked *)
Section Local.
  Context {S : scalars} (l : nat) (K K' : ocreators S) (HK : agreeK l K K') (sinv : S -> res S).
  Local Notation loc := (local_to l).
  Definition vloc (v : pval S) : Prop := match v with VOp a => loc a | VNum _ => True end.
  Definition vagree (r r' : res (pval S)) : Prop := r = r' /\ forall v, r = Ok v -> vloc v.
  Lemma va_err x : vagree (Err x) (Err x).
  Proof. split; [reflexivity|discriminate]. Qed.
  Lemma va_ok v : vloc v -> vagree (Ok v) (Ok v).
  Proof. intros H. split; [reflexivity|]. intros w E. now injection E as <-. Qed.
  Lemma va_bind r r' k k' : vagree r r' -> (forall v, vloc v -> vagree (k v) (k' v)) -> vagree (bind r k) (bind r' k').
  Proof. intros [-> H] Hk. destruct r' as [e|x]; [apply Hk, H; reflexivity|apply va_err]. Qed.
  Lemma va_op (r r' : res (op S)) k k' : agree (S:=S) l r r' -> (forall e, loc e -> vagree (k e) (k' e)) -> vagree (bind r k) (bind r' k').
  Proof. intros [-> H] Hk. destruct r' as [e|x]; [apply Hk, H; reflexivity|apply va_err]. Qed.
  Lemma loc_one : loc (@OOne S).
  Proof. exact Logic.I. Qed.
  Ltac va := repeat first [apply va_op; [first [apply (a_scal l K K' HK); (exact loc_one || assumption) | apply (a_plus l K K' HK); repeat constructor; assumption | apply (a_times l K K' HK); repeat constructor; assumption]|intros ? ?] | apply va_ok; assumption || exact Logic.I | apply va_err].
  Lemma p_add_agree v w : vloc v -> vloc w -> vagree (p_add K v w) (p_add K' v w).
  Proof. destruct v as [a|c], w as [b|d]; cbn [vloc p_add]; intros Hv Hw; va. Qed.
  Lemma p_mul_agree v w : vloc v -> vloc w -> vagree (p_mul K v w) (p_mul K' v w).
  Proof. destruct v as [a|c], w as [b|d]; cbn [vloc p_mul]; intros Hv Hw; va. Qed.
  Lemma p_pow_int_agree a z : loc a -> agree l (p_pow_int K a z) (p_pow_int K' a z).
  Proof.
    intros Ha. assert (forall n, Forall loc (repeat a n)) as HF by (intros n; apply Forall_forall; intros x Hx; apply repeat_spec in Hx; now subst x).
    destruct z as [|p|p]; cbn [p_pow_int]; [apply agree_ok; exact loc_one| |].
    - destruct p; [apply (a_times l K K' HK), HF|apply (a_times l K K' HK), HF|now apply agree_ok].
    - apply agree_bind; [destruct (p =? 1)%positive; [now apply agree_ok|apply (a_times l K K' HK), HF]|]. intros e _. apply agree_err.
  Qed.
  Theorem run_agree f : operators_are loc f -> vagree (run K sinv f) (run K' sinv f).
  Proof.
    induction f as [a|c|x IHx y IHy|x IHx y IHy|x IHx y IHy|x IHx y IHy|x IHx|x IHx n]; cbn [operators_are run]; intros H.
    - now apply va_ok.
    - now apply va_ok.
    - destruct H as [Hx Hy]. apply va_bind; [now apply IHx|]. intros v Hv. apply va_bind; [now apply IHy|]. intros w Hw. now apply p_add_agree.
    - destruct H as [Hx Hy]. apply va_bind; [now apply IHx|]. intros v Hv. apply va_bind; [now apply IHy|]. intros w Hw.
      destruct v as [a|c], w as [b|d]; cbn [p_sub]; [| | |now apply va_ok]; (apply va_bind; [now apply p_mul_agree|]; intros u Hu; now apply p_add_agree).
    - destruct H as [Hx Hy]. apply va_bind; [now apply IHx|]. intros v Hv. apply va_bind; [now apply IHy|]. intros w Hw. now apply p_mul_agree.
    - destruct H as [Hx Hy]. apply va_bind; [now apply IHx|]. intros v Hv. apply va_bind; [now apply IHy|]. intros w Hw.
      destruct v as [a|c], w as [b|d]; cbn [p_div]; try apply va_err; destruct (sinv d); cbn [bind]; try apply va_err; [now apply p_mul_agree|now apply va_ok].
    - apply va_bind; [now apply IHx|]. intros v Hv. destruct v as [a|c]; cbn [p_neg]; [now apply p_mul_agree|now apply va_ok].
    - apply va_bind; [now apply IHx|]. intros v Hv. destruct v as [a|c]; cbn [p_pow]; [|apply va_err].
      destruct n as [z|q|]; [|destruct (Qc_eq_dec q 0); [apply va_ok; exact loc_one|]; destruct (Qc_eq_dec q 1); [now apply va_ok|apply va_err]|apply va_err].
      apply va_op; [now apply p_pow_int_agree|]. intros e He. now apply va_ok.
  Qed.
End Local.

(** ** Formulas without products of operators *)
Section Linear.
  Context {S : scalars} (K K' : ocreators S) (sinv : S -> res S).
  Context (Es : forall c a, k_scal K c a = k_scal K' c a) (Ep : forall l, k_plus K l = k_plus K' l).
  Definition is_num (v : pval S) : Prop := match v with VNum _ => True | VOp _ => False end.
  Lemma numeric_num f : numeric f -> forall v, run K sinv f = Ok v -> is_num v.
  Proof.
    induction f as [a|c|x IHx y IHy|x IHx y IHy|x IHx y IHy|x IHx y IHy|x IHx|x IHx n]; cbn [numeric run]; intros Hn v H; try contradiction.
    1: injection H as <-; exact Logic.I.
    1-4: destruct Hn as [Hx Hy]; bstep H v1 E1; bstep H v2 E2; pose proof (IHx Hx _ eq_refl) as N1; pose proof (IHy Hy _ eq_refl) as N2; destruct v1, v2; try contradiction; cbn in H.
    1-3: injection H as <-; exact Logic.I.
    - bstep H i Ei. injection H as <-. exact Logic.I.
    - bstep H v1 E1. pose proof (IHx Hn _ eq_refl) as N1. destruct v1; try contradiction. injection H as <-. exact Logic.I.
    - bstep H v1 E1. pose proof (IHx Hn _ eq_refl) as N1. destruct v1; try contradiction. discriminate H.
  Qed.
  Lemma p_add_same v w : p_add K v w = p_add K' v w.
  Proof. destruct v, w; cbn [p_add]; rewrite ?Ep, ?Es; try reflexivity; destruct (k_scal K' _ _); cbn [bind]; rewrite ?Ep; reflexivity. Qed.
  Lemma p_mul_same v w : is_num v \/ is_num w -> p_mul K v w = p_mul K' v w.
  Proof. destruct v, w; cbn [p_mul is_num]; intros H; rewrite ?Es; try reflexivity. now destruct H. Qed.
  Lemma p_sub_same v w : p_sub K v w = p_sub K' v w.
  Proof.
    destruct v, w; cbn [p_sub]; try reflexivity; rewrite p_mul_same by (left; exact Logic.I); destruct (p_mul K' _ _); cbn [bind]; try reflexivity; apply p_add_same.
  Qed.
  Lemma p_div_same v w : p_div K sinv v w = p_div K' sinv v w.
  Proof. destruct v, w; cbn [p_div]; try reflexivity. destruct (sinv c); cbn [bind]; [|reflexivity]. apply p_mul_same. now right. Qed.
  Theorem run_linear f : linear f -> run K sinv f = run K' sinv f.
  Proof.
    induction f as [a|c|x IHx y IHy|x IHx y IHy|x IHx y IHy|x IHx y IHy|x IHx|x IHx n]; cbn [linear run]; intros Hl; try reflexivity.
    - destruct Hl as [Hx Hy]. rewrite (IHx Hx), (IHy Hy). destruct (run K' sinv x); [cbn [bind]|reflexivity]. destruct (run K' sinv y); [cbn [bind]|reflexivity]. apply p_add_same.
    - destruct Hl as [Hx Hy]. rewrite (IHx Hx), (IHy Hy). destruct (run K' sinv x); [cbn [bind]|reflexivity]. destruct (run K' sinv y); [cbn [bind]|reflexivity]. apply p_sub_same.
    - destruct Hl as [Hx [Hy Hn]]. rewrite <- (IHx Hx), <- (IHy Hy). destruct (run K sinv x) as [v|] eqn:E1; [cbn [bind]|reflexivity]. destruct (run K sinv y) as [w|] eqn:E2; [cbn [bind]|reflexivity].
      apply p_mul_same. destruct Hn as [Hn|Hn]; [left|right]; eapply numeric_num; eassumption.
    - destruct Hl as [Hx Hy]. rewrite (IHx Hx), (IHy Hy). destruct (run K' sinv x); [cbn [bind]|reflexivity]. destruct (run K' sinv y); [cbn [bind]|reflexivity]. apply p_div_same.
    - rewrite (IHx Hl). destruct (run K' sinv x) as [v|]; [cbn [bind]|reflexivity]. destruct v; cbn [p_neg]; [|reflexivity]. apply p_mul_same. left. exact Logic.I.
    - destruct Hl as [Hx Hn]. rewrite (IHx Hx). destruct (run K' sinv x) as [v|]; [cbn [bind]|reflexivity]. destruct v; [|reflexivity]. cbn [p_pow].
      destruct n as [z|q|]; try reflexivity. destruct Hn as [-> | ->]; reflexivity.
  Qed.
End Linear.
