(** Proofs about [doit] and [rewrite_pm]: values. *)
From Coq Require Import QArith Qcanon.
From Verif Require Import Prelude ListFacts SortModel SortProofs BinModel BinSpec BinProofs AlgSpec CAlg OpModel OpSpec OpProofs1 OpProofs2 OpProofs3 OpFuel DoitModel.
Local Open Scope nat_scope.

Local Ltac step H x E := match type of H with bind ?r _ = Ok _ => destruct r as [x|] eqn:E; [cbn [bind] in H|discriminate H] end.

Section Sound.
  Context {S : scalars} {dim : nat -> option nat} (I : interp S dim).
  Local Notation op := (op S).
  Local Notation legal := (legal I).
  Local Notation value := (value I).
  Local Notation means := (means I).
  Add Ring Kdoit : (kring I).

  Section Step.
  Context (K : ocreators S) (HK : soundK I K).
  Context (tr : list nat -> op -> res op) (Htr : forall h e e', legal e -> tr h e = Ok e' -> means e' (itrace h (value e))).

  Lemma atom_create_sound a : legal (OAtom a) -> means (atom_create a) (value (OAtom a)).
  Proof.
    intros H. destruct a; cbn [atom_create]; try (split; [exact H|reflexivity]).
    - exact (m_phase I u ls H).
    - exact (m_disp I u ls H).
  Qed.
  Lemma mapM_values f l l' : Forall legal l -> (forall e e', legal e -> f e = Ok e' -> means e' (value e)) ->
    mapM f l = Ok l' -> Forall legal l' /\ map value l' = map value l.
  Proof.
    intros Hl Hf. revert l' Hl. induction l as [|x l IH]; intros l' Hl H; cbn [mapM] in H; [injection H as <-; now split|].
    step H x' Ex. step H r Er. injection H as <-. destruct (IH r (Forall_inv_tail Hl) eq_refl) as [L V].
    destruct (Hf _ _ (Forall_inv Hl) Ex) as [Lx Vx]. split; [now constructor|]. cbn [map]. now rewrite Vx, V.
  Qed.
  Lemma map_args_sound f e e' : (forall e e', legal e -> f e = Ok e' -> means e' (value e)) ->
    legal e -> map_args K tr f e = Ok e' -> means e' (value e).
  Proof.
    intros Hf HL H. destruct e as [| |a|c t|l|l|a b|a|a h|s a]; cbn [map_args] in H.
    - injection H as <-. now split.
    - injection H as <-. now split.
    - injection H as <-. now apply atom_create_sound.
    - step H t' Et. destruct (Hf t _ HL Et) as [Lt Vt]. destruct (s_scal I K HK _ _ _ Lt H) as [Le Ve]. split; [exact Le|]. rewrite Ve, Vt. reflexivity.
    - step H l' El. apply legal_plus in HL. destruct (mapM_values f l l' HL Hf El) as [Ll Vl]. destruct (s_plus I K HK _ _ Ll H) as [Le Ve].
      split; [exact Le|]. rewrite Ve, Vl. reflexivity.
    - step H l' El. apply legal_times in HL. destruct (mapM_values f l l' HL Hf El) as [Ll Vl]. destruct (s_times I K HK _ _ Ll H) as [Le Ve].
      split; [exact Le|]. rewrite Ve, Vl. reflexivity.
    - destruct HL as [La Lb]. step H a' Ea. step H b' Eb. destruct (Hf _ _ La Ea) as [La' Va]. destruct (Hf _ _ Lb Eb) as [Lb' Vb].
      destruct (s_comm I K HK _ _ _ La' Lb' H) as [Le Ve]. split; [exact Le|]. rewrite Ve, Va, Vb. reflexivity.
    - step H a' Ea. destruct (Hf a _ HL Ea) as [La Va]. destruct (oadj_sound I K HK _ _ La H) as [Le Ve]. split; [exact Le|]. rewrite Ve, Va. reflexivity.
    - step H a' Ea. destruct (Hf a _ HL Ea) as [La Va]. destruct (Htr _ _ _ La H) as [Le Ve]. split; [exact Le|]. rewrite Ve, Va. reflexivity.
    - step H a' Ea. destruct (Hf a _ HL Ea) as [La Va]. injection H as <-. split; [exact La|]. cbn [OpSpec.value]. destruct s; now rewrite Va.
  Qed.
  Lemma doit1_sound cl e e' : legal e -> doit1 K cl e = Ok e' -> means e' (value e).
  Proof.
    intros HL H. destruct e as [| |a|c t|l|l|a b|a|a h|s a]; cbn [doit1] in H; try (injection H as <-; now split).
    - destruct (in_comm cl); [|injection H as <-; now split]. destruct HL as [La Lb]. exact (written_out_sound I K HK a b e' La Lb H).
    - destruct (in_pm cl); [|injection H as <-; now split]. step H a' Ea. destruct (oadj_sound I K HK a _ HL Ea) as [La Va].
      cbn [OpSpec.value]. destruct s; rewrite <- Va; [now apply (m_plus2 I K HK)|now apply (m_sub I K HK)].
  Qed.
  Theorem doit_sound : forall n cl r e e', legal e -> doit K tr n cl r e = Ok e' -> means e' (value e).
  Proof.
    induction n as [|n IH]; intros cl r e e' HL H; [discriminate|]. cbn [doit] in H. step H new En.
    destruct (doit1_sound cl e new HL En) as [Ln Vn]. rewrite <- Vn. destruct (oeqb new e || r); [|injection H as <-; now split].
    step H new' En'. destruct (map_args_sound _ _ _ (IH cl r) Ln En') as [Ln' Vn']. rewrite <- Vn'.
    destruct (negb (oeqb new' e) && r); [now apply (IH cl r)|]. injection H as <-. now split.
  Qed.
  Theorem rebuild_sound : forall n e e', legal e -> rebuild_e K tr n e = Ok e' -> means e' (value e).
  Proof. induction n as [|n IH]; intros e e' HL H; [discriminate|]. exact (map_args_sound _ _ _ IH HL H). Qed.

  Lemma star_flip (x y : A I) : star y = x -> y = star x.
  Proof. intros <-. symmetry. apply star_star. Qed.
  Lemma if_adjoint_inv b a o r : if_adjoint K b a o = Replaces r -> legal b -> o = Replaces r /\ value b = star (value a).
  Proof.
    unfold if_adjoint. intros H Lb. destruct (oadj K b) as [b'|x] eqn:E; [|destruct x; discriminate H]. destruct (oeqb b' a) eqn:Eq0; [|discriminate H].
    split; [exact H|]. apply star_flip. destruct (oadj_sound I K HK _ _ Lb E) as [_ <-]. now apply oeqb_value.
  Qed.
  Lemma pm_rules_sound x y r : legal x -> legal y -> rewrites_to (pm_cls K) x y r -> means r (aadd (value x) (value y)).
  Proof.
    intros Hx Hy (b & q & a & E & _ & H). cbn [pm_cls binary_rules] in E.
    assert (q = pm1 K \/ q = pm2 K \/ q = pm3 K) as Hq.
    { assert (In q [pm1 K; pm2 K; pm3 K]) as Hin by (rewrite E; apply in_or_app; right; now left). destruct Hin as [<-|[<-|[<-|[]]]]; tauto. }
    destruct Hq as [-> |[-> | ->]].
    - unfold pm1 in H. destruct (if_adjoint_inv _ _ _ _ H Hy) as [E1 V]. injection E1 as <-. split; [exact Hx|]. cbn [OpSpec.value]. now rewrite V.
    - unfold pm2 in H. destruct x as [| | |c t| | | | | |]; try discriminate H. destruct (seqb c sm1) eqn:Ec; [|discriminate H].
      destruct (if_adjoint_inv t _ _ _ H Hx) as [E1 V]. injection E1 as <-. split; [exact Hy|]. cbn [OpSpec.value].
      rewrite V, (ev_eq S I _ _ Ec), (ev_sm1 I). apply aadd_comm.
    - unfold pm3 in H. destruct x as [| | |c t| | | | | |]; try discriminate H. destruct y as [| | |d u| | | | | |]; try discriminate H.
      destruct (if_adjoint_inv u _ _ _ H Hy) as [E1 V]. cbn [OpSpec.value]. rewrite V. destruct (seqb c d) eqn:Ecd.
      + apply olift_ok in E1. assert (legal (OPM true t)) as Lp by exact Hx. destruct (s_scal I K HK _ _ _ Lp E1) as [Le Ve]. split; [exact Le|].
        rewrite Ve. cbn [OpSpec.value]. rewrite <- (ev_eq S I _ _ Ecd). apply smul_addr.
      + destruct (seqb c (sneg d)) eqn:Ecn; [|discriminate E1]. apply olift_ok in E1. assert (legal (OPM false t)) as Lp by exact Hx.
        destruct (s_scal I K HK _ _ _ Lp E1) as [Le Ve]. split; [exact Le|]. rewrite Ve. cbn [OpSpec.value].
        assert (ev (r:=I) d = kmul (ev c) (kopp k1)) as ->.
        { rewrite (ev_eq S I _ _ Ecn), (ev_neg S I). ring. }
        rewrite smul_addr, smul_mul. reflexivity.
  Qed.
  Lemma pm_contributes r : legal r ->
    Forall legal (contributes (pm_cls K) r) /\ msum I (map value (contributes (pm_cls K) r)) = value r.
  Proof.
    intros Hr. unfold contributes. cbn [pm_cls is_neutral instance_args]. destruct r; cbn [is_zero map];
      try (split; [now constructor|rewrite msum_cons; apply aadd_0r]); try (split; [constructor|reflexivity]).
    split; [now apply legal_plus|reflexivity].
  Qed.
  Lemma msum_app2 (l m : list (A I)) : msum I (l ++ m) = aadd (msum I l) (msum I m).
  Proof. induction l as [|x l IH]; cbn [app]; [symmetry; apply aadd_0|]. now rewrite !msum_cons, IH, aadd_assoc. Qed.
  Lemma pm_reach l l' : reachable (pm_cls K) l l' -> Forall legal l ->
    Forall legal l' /\ msum I (map value l') = msum I (map value l).
  Proof.
    induction 1 as [a b (pre & x & y & post & r & -> & H & ->)|a|a b c _ IH1 _ IH2]; intros HL.
    - apply Forall_app in HL. destruct HL as [H1 H2]. pose proof (Forall_inv H2) as Hx. pose proof (Forall_inv (Forall_inv_tail H2)) as Hy.
      pose proof (Forall_inv_tail (Forall_inv_tail H2)) as H3. destruct (pm_rules_sound x y r Hx Hy H) as [Lr Vr].
      destruct (pm_contributes r Lr) as [Lc Vc]. split.
      + apply Forall_app. split; [exact H1|]. apply Forall_app. now split.
      + rewrite !map_app, !msum_app2, Vc, Vr. cbn [map]. rewrite !msum_cons, !aadd_assoc. reflexivity.
    - now split.
    - destruct (IH1 HL) as [L1 V1]. destruct (IH2 L1) as [L2 V2]. split; [exact L2|]. congruence.
  Qed.
  Lemma pm_plus_sound olt slt fuel l e : Forall legal l -> pm_plus_step olt slt K fuel l = Ok e -> means e (msum I (map value l)).
  Proof.
    intros HL H. destruct (plus_sound I K HK olt slt l) with (e := match (do fops <- collect_summands K (pysorted (ofull_lt olt slt) (flat_plus l)); Ok (match fops with [] => OZero | [x] => x | _ => OPlus fops end)) with Ok x => x | _ => OZero end) as [L V]; [exact HL| |].
    { unfold plus_step. unfold pm_plus_step in H. step H fops Ef. destruct fops as [|x [|y r]]; reflexivity. }
    unfold pm_plus_step in H. step H fops Ef. rewrite <- V. clear V. destruct fops as [|x [|y r]]; [injection H as <-; now split|injection H as <-; now split|].
    change (means e (msum I (map value (x :: y :: r)))). apply legal_plus in L. step H q Eq0. unfold match_replace_binary in Eq0. step Eq0 fo Efo. apply reduce_reach in Efo.
    destruct (pm_reach _ _ Efo L) as [Lo Vo]. rewrite <- Vo. destruct fo as [|a [|b fo]]; injection Eq0 as <-; injection H as <-.
    - now split.
    - split; [exact (Forall_inv Lo)|]. cbn [map]. rewrite msum_cons. symmetry. apply aadd_0r.
    - split; [now apply legal_plus|reflexivity].
  Qed.
  End Step.

  Theorem pm_creators_sound olt slt ord : order_ok ord -> forall n, soundK I (pm_creators_n dim olt slt ord n).
  Proof.
    intros Ho. induction n as [|n IH]; [constructor; intros; discriminate|]. cbn [pm_creators_n]. constructor; cbn [k_scal k_plus k_times k_comm].
    - intros c a e. exact (scal_sound I _ IH c a e).
    - intros l e. exact (pm_plus_sound _ IH olt slt n l e).
    - intros l e. exact (times_sound I _ IH ord Ho n l e).
    - intros a b e. exact (comm_sound I _ IH olt slt a b e).
  Qed.
End Sound.

(** more fuel, and the code instead of the checked code *)
Section Mono.
  Context {S : scalars} (dim : nat -> option nat) (olt : op S -> op S -> bool) (slt : list nat -> list nat -> bool).
  Local Notation op := (op S).
  Section Step.
  Context (K K' : ocreators S) (HK : leK K K') (tr tr' : list nat -> op -> res op) (Htr : forall h e, le (tr h e) (tr' h e)).
  Lemma map_args_mono f f' e : (forall e, le (f e) (f' e)) -> le (map_args K tr f e) (map_args K' tr' f' e).
  Proof.
    intros Hf. destruct e as [| |a|c t|l|l|a b|a|a h|s a]; cbn [map_args]; try apply le_refl.
    - apply le_bind; [apply Hf|]. intros; apply (m_scal _ _ HK).
    - apply le_bind; [apply le_mapM, Hf|]. intros; apply (m_plus _ _ HK).
    - apply le_bind; [apply le_mapM, Hf|]. intros; apply (m_times _ _ HK).
    - apply le_bind; [apply Hf|]. intros. apply le_bind; [apply Hf|]. intros; apply (m_comm _ _ HK).
    - apply le_bind; [apply Hf|]. intros; now apply oadj_mono.
    - apply le_bind; [apply Hf|]. intros; apply Htr.
    - apply le_bind; [apply Hf|]. intros; apply le_refl.
  Qed.
  Lemma osub_mono a b : le (osub K a b) (osub K' a b).
  Proof. unfold osub. apply le_bind; [apply (m_scal _ _ HK)|]. intros; apply (m_plus _ _ HK). Qed.
  Lemma doit1_mono cl e : le (doit1 K cl e) (doit1 K' cl e).
  Proof.
    destruct e as [| |a|c t|l|l|a b|a|a h|s a]; cbn [doit1]; try apply le_refl.
    - destruct (in_comm cl); [|apply le_refl]. unfold written_out. apply le_bind; [apply (m_times _ _ HK)|]. intros.
      apply le_bind; [apply (m_times _ _ HK)|]. intros. apply osub_mono.
    - destruct (in_pm cl); [|apply le_refl]. apply le_bind; [now apply oadj_mono|]. intros. destruct s; [apply (m_plus _ _ HK)|apply osub_mono].
  Qed.
  Theorem doit_mono : forall n n' cl r e, n <= n' -> le (doit K tr n cl r e) (doit K' tr' n' cl r e).
  Proof.
    induction n as [|n IH]; intros n' cl r e Hn; [apply le_fuel|]. destruct n' as [|n']; [lia|]. assert (n <= n') as Hn' by lia. cbn [doit].
    apply le_bind; [apply doit1_mono|]. intros new. destruct (oeqb new e || r); [|apply le_refl].
    apply le_bind; [apply map_args_mono; intros; now apply IH|]. intros new'. destruct (negb (oeqb new' e) && r); [now apply IH|apply le_refl].
  Qed.
  Theorem rebuild_mono : forall n n' e, n <= n' -> le (rebuild_e K tr n e) (rebuild_e K' tr' n' e).
  Proof.
    induction n as [|n IH]; intros n' e Hn; [apply le_fuel|]. destruct n' as [|n']; [lia|]. cbn [rebuild_e]. apply map_args_mono. intros. apply IH. lia.
  Qed.
  Lemma if_adjoint_mono b a o o' : leo o o' -> leo (if_adjoint K b a o) (if_adjoint K' b a o').
  Proof.
    intros H. unfold if_adjoint. destruct (oadj_mono K K' HK b) as [[E|E]|E]; rewrite E; cbn; [now left|right; now left|].
    destruct (oadj K' b) as [b'|x]; [destruct (oeqb b' a); [exact H|]; apply leo_refl|destruct x; apply leo_refl].
  Qed.
  Lemma pm_plus_mono f f' l : f <= f' -> le (pm_plus_step olt slt K f l) (pm_plus_step olt slt K' f' l).
  Proof.
    intros Hf. unfold pm_plus_step. apply le_bind.
    { unfold collect_summands. apply le_bind; [apply le_mapM; intros [t c]; apply (m_scal _ _ HK)|]. intros; apply le_refl. }
    intros [|x [|y r]]; try apply le_refl. apply le_bind; [|intros; apply le_refl]. apply match_replace_mono; try reflexivity; [|exact Hf].
    cbn [pm_cls binary_rules]. repeat (apply Forall2_cons; [intros a b|]); [| | |apply Forall2_nil].
    - apply if_adjoint_mono, leo_refl.
    - unfold pm2. destruct a as [| | |c t| | | | | |]; try apply leo_refl. destruct (seqb c sm1); [|apply leo_refl]. apply if_adjoint_mono, leo_refl.
    - unfold pm3. destruct a as [| | |c t| | | | | |]; try apply leo_refl. destruct b as [| | |d u| | | | | |]; try apply leo_refl.
      apply if_adjoint_mono. destruct (seqb c d); [apply leo_lift, (m_scal _ _ HK)|]. destruct (seqb c (sneg d)); [apply leo_lift, (m_scal _ _ HK)|apply leo_refl].
  Qed.
  End Step.
  Context (ord ord' : list op -> res (list op)) (Hord : forall l, le (ord l) (ord' l)).
  Theorem pm_creators_mono : forall n n', n <= n' -> leK (pm_creators_n dim olt slt ord n) (pm_creators_n dim olt slt ord' n').
  Proof.
    induction n as [|n IH]; intros n' Hn; [constructor; intros; apply le_fuel|]. destruct n' as [|n']; [lia|]. assert (n <= n') as Hn' by lia.
    pose proof (IH n' Hn') as HK. cbn [pm_creators_n]. constructor; cbn [k_scal k_plus k_times k_comm].
    - intros. now apply scal_mono.
    - intros. now apply pm_plus_mono.
    - intros. now apply times_mono.
    - intros. now apply comm_mono.
  Qed.
End Mono.
