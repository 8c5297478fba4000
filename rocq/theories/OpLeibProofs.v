(** [expand_commutators_leibniz] never changes the operator. *)
From Coq Require Import QArith Qcanon.
From Verif Require Import Prelude ListFacts SortModel BinModel AlgSpec CAlg OpModel OpSpec OpProofs1 OpProofs2 OpProofs3 OpLeibModel OpFuel OpOrder.
Local Open Scope nat_scope.
Ltac step H x E := match type of H with bind ?r _ = _ => destruct r as [x|] eqn:E; [cbn [bind] in H|discriminate H] end.

Section Sound.
  Context {S : scalars} {dim : nat -> option nat} (I : interp S dim) (K : ocreators S) (HK : soundK I K).
  Local Notation op := (op S).
  Local Notation legal := (legal I).
  Local Notation value := (value I).
  Local Notation means := (means I).
  Add Ring Kr4 : (kring I).
  Lemma mcomm_times_r x y z : mcomm I x (amul y z) = aadd (amul (mcomm I x y) z) (amul y (mcomm I x z)).
  Proof.
    unfold mcomm. rewrite amul_addl, amul_addr, smul_amul_l, smul_amul_r, <- !amul_assoc.
    rewrite <- (aadd_assoc _ (amul x (amul y z))). f_equal.
    rewrite (aadd_assoc _ (smul (kopp k1) (amul y (amul x z)))).
    rewrite (aadd_comm _ (smul (kopp k1) (amul y (amul x z)))), aadd_opp. now rewrite aadd_0.
  Qed.
  Lemma mcomm_times_l x y z : mcomm I (amul x y) z = aadd (amul x (mcomm I y z)) (amul (mcomm I x z) y).
  Proof.
    unfold mcomm. rewrite amul_addl, amul_addr, smul_amul_l, smul_amul_r, <- !amul_assoc.
    rewrite <- (aadd_assoc _ (amul x (amul y z))). f_equal.
    rewrite (aadd_assoc _ (smul (kopp k1) (amul x (amul z y)))).
    rewrite (aadd_comm _ (smul (kopp k1) (amul x (amul z y)))), aadd_opp. now rewrite aadd_0.
  Qed.
  Lemma leibniz_right_sound a l e : legal a -> Forall legal l -> leibniz_right K a l = Ok e -> means e (mcomm I (value a) (mprod I (map value l))).
  Proof.
    intros La Ll H. destruct l as [|b rest]; [discriminate|]. unfold leibniz_right in H.
    step H c Ec. step H ab Eab. step H x Ex. step H ac Eac. step H y Ey.
    destruct (s_times I K HK _ _ (Forall_inv_tail Ll) Ec) as [Lc Vc].
    destruct (s_comm I K HK _ _ _ La (Forall_inv Ll) Eab) as [Lab Vab].
    destruct (s_comm I K HK _ _ _ La Lc Eac) as [Lac Vac].
    destruct (m_times2 I K HK _ _ _ Lab Lc Ex) as [Lx Vx].
    destruct (m_times2 I K HK _ _ _ (Forall_inv Ll) Lac Ey) as [Ly Vy].
    destruct (m_plus2 I K HK _ _ _ Lx Ly H) as [Le Ve]. split; [exact Le|].
    rewrite Ve, Vx, Vy, Vab, Vac, Vc. cbn [map]. rewrite mprod_cons. symmetry. apply mcomm_times_r.
  Qed.
  Lemma leibniz_left_sound l c e : legal c -> Forall legal l -> leibniz_left K l c = Ok e -> means e (mcomm I (mprod I (map value l)) (value c)).
  Proof.
    intros Lc Ll H. destruct l as [|a rest]; [discriminate|]. unfold leibniz_left in H.
    destruct (_ <=? 1); [discriminate|].
    step H bc Ebc. step H x Ex. step H ac Eac. step H y Ey.
    assert (legal (OTimes rest)) as Lr by (apply legal_times; exact (Forall_inv_tail Ll)).
    destruct (s_comm I K HK _ _ _ Lr Lc Ebc) as [Lbc Vbc].
    destruct (s_comm I K HK _ _ _ (Forall_inv Ll) Lc Eac) as [Lac Vac].
    destruct (m_times2 I K HK _ _ _ (Forall_inv Ll) Lbc Ex) as [Lx Vx].
    destruct (m_times2 I K HK _ _ _ Lac Lr Ey) as [Ly Vy].
    destruct (m_plus2 I K HK _ _ _ Lx Ly H) as [Le Ve]. split; [exact Le|].
    rewrite Ve, Vx, Vy, Vbc, Vac. cbn [map]. rewrite mprod_cons. symmetry. apply mcomm_times_l.
  Qed.
  Section Rec.
  Context (recurse : op -> res op) (m : nat) (Hrec : forall e e', legal e -> recurse e = Ok e' -> means e' (value e)).
  Lemma try_leibniz_sound r next e v : (forall x, r = Ok x -> means x v) -> (next = Ok e -> means e v) ->
    try_leibniz K recurse m r next = Ok e -> means e v.
  Proof.
    intros Hr Hn H. unfold try_leibniz in H. destruct r as [x|ex]; cbn [bind] in H.
    - destruct (Hr x eq_refl) as [Lx Vx]. destruct (expand K m x) as [x1|ex] eqn:Ex; cbn [bind] in H.
      + destruct (expand_sound I K HK _ _ _ Lx Ex) as [L1 V1]. destruct (recurse x1) as [x2|ex] eqn:E2.
        * injection H as <-. destruct (Hrec _ _ L1 E2) as [L2 V2]. split; [exact L2|]. now rewrite V2, V1.
        * destruct ex; try discriminate. now apply Hn.
      + destruct ex; try discriminate. now apply Hn.
    - destruct ex; try discriminate. now apply Hn.
  Qed.
  Lemma leibniz_rules_sound e e' : legal e -> leibniz_rules K recurse m e = Ok e' -> means e' (value e).
  Proof.
    intros L H.
    assert (forall x, Ok x = Ok e' -> means x (value x) -> means e' (value x)) as Gok by (intros x [= <-]; easy).
    assert (means e (value e)) as Le by now split.
    destruct e as [| |at_|cc tt|ll|ll|a b|aa|aa hh|ss aa]; try exact (Gok _ H Le).
    unfold leibniz_rules in H. destruct L as [La Lb].
    set (second := match a with OTimes ab => try_leibniz K recurse m (leibniz_left K ab b) (Ok (OComm a b)) | _ => Ok (OComm a b) end) in *.
    assert (second = Ok e' -> means e' (value (OComm a b))) as Hs.
    { subst second. clear H. intros H. destruct a as [| |at_|cc tt|ll|l1|a1 b1|aa|aa hh|ss aa]; try exact (Gok _ H Le).
      revert H. apply try_leibniz_sound; [|intros H; exact (Gok _ H Le)].
      intros x Hx. apply legal_times in La. exact (leibniz_left_sound _ _ _ Lb La Hx). }
    destruct b as [| |at_|cc tt|ll|l1|a1 b1|aa|aa hh|ss aa]; try exact (Hs H).
    revert H. apply try_leibniz_sound; [|exact Hs].
    intros x Hx. apply legal_times in Lb. exact (leibniz_right_sound _ _ _ La Lb Hx).
  Qed.
  Lemma leibniz_apply_sound : forall e e', legal e -> leibniz_apply K recurse m e = Ok e' -> means e' (value e).
  Proof.
    induction e as [| |a|c t IH|l IH|l IH|a b IHa IHb|a IH|a h IH|s a IH] using op_ind'; intros e' HL H; cbn [leibniz_apply] in H.
    - injection H as <-. now split.
    - injection H as <-. now split.
    - injection H as <-. now split.
    - step H t' Et. step H r Er. destruct (IH _ HL eq_refl) as [Lt Vt]. destruct (s_scal I K HK _ _ _ Lt Er) as [Lr Vr].
      destruct (leibniz_rules_sound _ _ Lr H) as [Le Ve]. split; [exact Le|]. now rewrite Ve, Vr, Vt.
    - match type of H with bind (?f l) _ = _ => set (go := f) in * end. step H l' El. step H r Er.
      assert (Forall legal l' /\ map value l' = map value l) as [Ll Vl].
      { apply legal_plus in HL. clear H r Er. revert l' El. induction l as [|x l IHl]; cbn; intros l' El; [injection El as <-; split; [constructor|reflexivity]|].
        step El x' Ex. step El l2 El2. injection El as <-. destruct (IHl (Forall_inv_tail IH) (Forall_inv_tail HL) l2 eq_refl) as [L2 V2].
        destruct (Forall_inv IH x' (Forall_inv HL) Ex) as [Lx Vx]. split; [now constructor|]. cbn [map]. now rewrite Vx, V2. }
      destruct (s_plus I K HK _ _ Ll Er) as [Lr Vr]. destruct (leibniz_rules_sound _ _ Lr H) as [Le Ve]. split; [exact Le|]. now rewrite Ve, Vr, Vl.
    - match type of H with bind (?f l) _ = _ => set (go := f) in * end. step H l' El. step H r Er.
      assert (Forall legal l' /\ map value l' = map value l) as [Ll Vl].
      { apply legal_times in HL. clear H r Er. revert l' El. induction l as [|x l IHl]; cbn; intros l' El; [injection El as <-; split; [constructor|reflexivity]|].
        step El x' Ex. step El l2 El2. injection El as <-. destruct (IHl (Forall_inv_tail IH) (Forall_inv_tail HL) l2 eq_refl) as [L2 V2].
        destruct (Forall_inv IH x' (Forall_inv HL) Ex) as [Lx Vx]. split; [now constructor|]. cbn [map]. now rewrite Vx, V2. }
      destruct (s_times I K HK _ _ Ll Er) as [Lr Vr]. destruct (leibniz_rules_sound _ _ Lr H) as [Le Ve]. split; [exact Le|]. now rewrite Ve, Vr, Vl.
    - step H a' Ea. step H b' Eb. step H r Er. destruct HL as [La Lb]. destruct (IHa _ La eq_refl) as [La' Va]. destruct (IHb _ Lb eq_refl) as [Lb' Vb].
      destruct (s_comm I K HK _ _ _ La' Lb' Er) as [Lr Vr]. destruct (leibniz_rules_sound _ _ Lr H) as [Le Ve]. split; [exact Le|]. now rewrite Ve, Vr, Va, Vb.
    - step H a' Ea. step H r Er. destruct (IH _ HL eq_refl) as [La Va]. destruct (oadj_sound I K HK _ _ La Er) as [Lr Vr].
      destruct (leibniz_rules_sound _ _ Lr H) as [Le Ve]. split; [exact Le|]. now rewrite Ve, Vr, Va.
    - discriminate H.
    - step H a' Ea. injection H as <-. destruct (IH a' HL eq_refl) as [La Va]. split; [exact La|]. destruct s; cbn [OpSpec.value]; now rewrite Va.
  Qed.
  End Rec.
  Theorem leibniz_sound n m b : forall e e', legal e -> expand_commutators_leibniz K n m b e = Ok e' -> means e' (value e).
  Proof.
    induction n as [|n IH]; intros e e' L H; [discriminate|]. cbn [expand_commutators_leibniz] in H. destruct b.
    - step H e1 E1. step H e2 E2. destruct (expand_sound I K HK _ _ _ L E1) as [L1 V1].
      destruct (leibniz_apply_sound _ _ IH _ _ L1 E2) as [L2 V2]. destruct (expand_sound I K HK _ _ _ L2 H) as [L3 V3].
      split; [exact L3|]. now rewrite V3, V2, V1.
    - exact (leibniz_apply_sound _ _ IH _ _ L H).
  Qed.
End Sound.

Section Mono.
  Context {S : scalars} (K K' : ocreators S) (HK : leK K K').
  Local Notation op := (op S).
  Ltac mono := repeat first [ apply (m_scal K K' HK) | apply (m_plus K K' HK) | apply (m_times K K' HK) | apply (m_comm K K' HK) | apply le_refl | apply le_bind; [|intros] ].
  Section Rec.
  Context (rc rc' : op -> res op) (m m' : nat) (Hm : m <= m') (Hrc : forall e, le (rc e) (rc' e)).
  Lemma try_mono r r' x x' : le r r' -> le x x' -> le (try_leibniz K rc m r x) (try_leibniz K' rc' m' r' x').
  Proof.
    intros Hr Hx. unfold try_leibniz.
    assert (le (do y <- r; do e <- expand K m y; rc e) (do y <- r'; do e <- expand K' m' y; rc' e)) as H.
    { apply le_bind; [exact Hr|]. intros y. apply le_bind; [now apply expand_mono|]. exact Hrc. }
    destruct H as [[-> | ->] | ->]; [apply le_fuel|left; now right|].
    destruct (do y <- r'; do e <- expand K' m' y; rc' e) as [z|ex]; [apply le_refl|]. destruct ex; first [exact Hx|apply le_refl].
  Qed.
  Lemma rules_mono e : le (leibniz_rules K rc m e) (leibniz_rules K' rc' m' e).
  Proof.
    destruct e as [| |at_|cc tt|ll|ll|a b|aa|aa hh|ss aa]; try apply le_refl. unfold leibniz_rules.
    set (s := match a with OTimes ab => try_leibniz K rc m (leibniz_left K ab b) (Ok (OComm a b)) | _ => Ok (OComm a b) end).
    set (t := match a with OTimes ab => try_leibniz K' rc' m' (leibniz_left K' ab b) (Ok (OComm a b)) | _ => Ok (OComm a b) end).
    assert (le s t) as Hst; [subst s t|clearbody s t].
    { destruct a as [| |at_|cc tt|ll|l1|a1 b1|aa|aa hh|ss aa]; try apply le_refl. apply try_mono; [|apply le_refl].
      unfold leibniz_left. destruct l1; [apply le_refl|]. destruct (_ <=? 1); [apply le_refl|]. mono. }
    destruct b as [| |at_|cc tt|ll|l1|a1 b1|aa|aa hh|ss aa]; try exact Hst. apply try_mono; [|exact Hst].
    unfold leibniz_right. destruct l1; [apply le_refl|]. mono.
  Qed.
  Lemma apply_mono : forall e, le (leibniz_apply K rc m e) (leibniz_apply K' rc' m' e).
  Proof.
    induction e as [| |a|c t IH|l IH|l IH|a b IHa IHb|a IH|a h IH|s a IH] using op_ind'; cbn [leibniz_apply]; try apply le_refl.
    - apply le_bind; [exact IH|]. intros. apply le_bind; [apply (m_scal K K' HK)|]. intros. apply rules_mono.
    - apply le_bind; [|intros; apply le_bind; [apply (m_plus K K' HK)|]; intros; apply rules_mono].
      induction l as [|x l IHl]; [apply le_refl|]. apply le_bind; [exact (Forall_inv IH)|]. intros. apply le_bind; [exact (IHl (Forall_inv_tail IH))|]. intros; apply le_refl.
    - apply le_bind; [|intros; apply le_bind; [apply (m_times K K' HK)|]; intros; apply rules_mono].
      induction l as [|x l IHl]; [apply le_refl|]. apply le_bind; [exact (Forall_inv IH)|]. intros. apply le_bind; [exact (IHl (Forall_inv_tail IH))|]. intros; apply le_refl.
    - apply le_bind; [exact IHa|]. intros. apply le_bind; [exact IHb|]. intros. apply le_bind; [apply (m_comm K K' HK)|]. intros. apply rules_mono.
    - apply le_bind; [exact IH|]. intros. apply le_bind; [now apply oadj_mono|]. intros. apply rules_mono.
    - apply le_bind; [exact IH|]. intros. apply le_refl.
  Qed.
  End Rec.
  Theorem leibniz_mono n : forall n' m m' b e, n <= n' -> m <= m' -> le (expand_commutators_leibniz K n m b e) (expand_commutators_leibniz K' n' m' b e).
  Proof.
    induction n as [|n IH]; intros n' m m' b e Hn Hm; [apply le_fuel|]. destruct n' as [|n']; [lia|]. cbn [expand_commutators_leibniz].
    assert (forall e0, le (leibniz_apply K (expand_commutators_leibniz K n m b) m e0) (leibniz_apply K' (expand_commutators_leibniz K' n' m' b) m' e0)) as G.
    { intros. apply apply_mono; [exact Hm|]. intros. apply IH; [lia|exact Hm]. }
    destruct b; [|apply G]. apply le_bind; [now apply expand_mono|]. intros. apply le_bind; [apply G|]. intros. now apply expand_mono.
  Qed.
End Mono.
