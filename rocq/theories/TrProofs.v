(** Soundness of the partial trace. *)
From Coq Require Import QArith Qcanon.
From Verif Require Import Prelude ListFacts SortModel BinModel AlgSpec CAlg OpModel OpSpec OpProofs1 OpProofs2 OpProofs3 OpForms OpForm OpFuel OpOrder OpLocal TrModel TrSpec.
Local Open Scope nat_scope.

Section Sound.
  Context {S : scalars} {dim : nat -> option nat} (I : interp S dim) (T : trace_laws I).
  Local Notation op := (op S).
  Local Notation value := (OpSpec.value I).
  Local Notation legal := (OpSpec.legal I).
  Local Notation means := (OpSpec.means I).
  Local Notation tr := (itrace (i:=I)).
  Add Ring Kt : (kring I).

  (** many labels *)
  Lemma tr_linear h : forall x y, tr h (aadd x y) = aadd (tr h x) (tr h y).
  Proof. induction h as [|l h IH] using rev_ind; intros x y; [now rewrite !(tr_nil I T)|]. now rewrite !(tr_snoc I T), (tr_add I T), IH. Qed.
  Lemma tr_scal h : forall c x, tr h (smul c x) = smul c (tr h x).
  Proof. induction h as [|l h IH] using rev_ind; intros c x; [now rewrite !(tr_nil I T)|]. now rewrite !(tr_snoc I T), (tr_smul I T), IH. Qed.
  Lemma tr_adj h : forall x, tr h (star x) = star (tr h x).
  Proof. induction h as [|l h IH] using rev_ind; intros x; [now rewrite !(tr_nil I T)|]. now rewrite !(tr_snoc I T), (tr_star I T), IH. Qed.
  Lemma tr_zero h : tr h a0 = a0.
  Proof. rewrite <- (smul_0 I a0) at 1. rewrite tr_scal. apply smul_0. Qed.
  Lemma tr_sum h l : tr h (msum I l) = msum I (map (tr h) l).
  Proof. induction l as [|x l IH]; [apply tr_zero|]. cbn [map]. rewrite !msum_cons, tr_linear, IH. reflexivity. Qed.
  Lemma tr_dim h : forall d, sp_dim dim h = Ok d -> tr h a1 = smul (kQ (qn d)) a1.
  Proof.
    induction h as [|l h IH] using rev_ind; intros d H.
    - injection H as <-. now rewrite (tr_nil I T), qn_1, kQ_1, smul_1.
    - assert (exists n e, dim l = Some n /\ sp_dim dim h = Ok e /\ d = (e * n)%nat) as (n & e & Hn & He & ->).
      { clear IH. revert d H. induction h as [|x h IH]; intros d H; cbn [app sp_dim] in H.
        - destruct (dim l) as [n|]; [|discriminate]. injection H as <-. exists n, 1. repeat split. lia.
        - destruct (dim x) as [m|] eqn:Em; [|discriminate]. step H r Er. injection H as <-. destruct (IH r eq_refl) as (n & e & H1 & H2 & ->).
          exists n, (m * e). split; [exact H1|]. split; [cbn [sp_dim]; now rewrite Em, H2|]. lia. }
      rewrite (tr_snoc I T), (tr_one I T l n Hn), tr_scal, (IH e He), <- smul_mul, <- kQ_mul, <- qn_mul. do 3 f_equal. lia.
  Qed.

  (** products *)
  Lemma prod_lives (l : list op) h : Forall legal l -> (forall o, In o l -> incl (space o) h) -> lives (i:=I) h (mprod I (map value l)).
  Proof.
    intros HL Hi. induction HL as [|x l Hx HL IH]; [apply (lives_incl _ _ I []); [intros y []|apply lives_1]|]. cbn [map]. rewrite mprod_cons. apply lives_mul.
    - apply (lives_incl _ _ I (space x)); [apply Hi; now left|now apply value_lives].
    - apply IH. intros o Ho. apply Hi. now right.
  Qed.
  Lemma commute_past x (l : list op) : legal x -> Forall legal l -> (forall o, In o l -> apart (space x) (space o)) ->
    amul (value x) (mprod I (map value l)) = amul (mprod I (map value l)) (value x).
  Proof.
    intros Hx HL Ha. induction HL as [|y l Hy HL IH]; [cbn; now rewrite amul_1l, amul_1r|]. cbn [map]. rewrite mprod_cons.
    rewrite amul_assoc, (lives_commute _ _ I (space x) (space y) (value x) (value y)); [|now apply value_lives|now apply value_lives|apply Ha; now left].
    rewrite <- amul_assoc, IH by (intros o Ho; apply Ha; now right). apply amul_assoc.
  Qed.
  (** the factors that satisfy [f] first, then the others *)
  Definition separates (f : op -> bool) (l : list op) : Prop :=
    forall pre x post, l = pre ++ x :: post -> f x = false -> forall o, In o post -> f o = true -> apart (space x) (space o).
  Lemma separated f l : Forall legal l -> separates f l ->
    mprod I (map value l) = amul (mprod I (map value (filter f l))) (mprod I (map value (filter (fun o => negb (f o)) l))).
  Proof.
    intros HL. induction HL as [|x l Hx HL IH]; intros Hs; [cbn; now rewrite amul_1l|]. cbn [map filter]. rewrite mprod_cons, IH.
    2:{ intros pre y post E. apply (Hs (x :: pre)). now rewrite E. }
    destruct (f x) eqn:E; cbn [negb map].
    - rewrite mprod_cons. apply amul_assoc.
    - rewrite mprod_cons, !amul_assoc. f_equal. apply commute_past; [exact Hx| |].
      + apply Forall_forall. intros o Ho. apply filter_In in Ho. rewrite Forall_forall in HL. now apply HL.
      + intros o Ho. apply filter_In in Ho. now apply (Hs [] x l eq_refl E o).
  Qed.
  Lemma pulls_separates ls l : pulls ls l = true -> separates (fun o => negb (sp_mem ls (space o))) l.
  Proof.
    induction l as [|x l IH]; intros H pre y post E Hf o Ho Ho'; [now destruct pre|]. cbn [pulls] in H. apply andb_true_iff in H. destruct H as [H1 H2].
    destruct pre as [|z pre]; cbn [app] in E; injection E as -> ->.
    - apply negb_false_iff in Hf. rewrite Hf in H2. rewrite forallb_forall in H2. specialize (H2 o Ho). apply negb_true_iff in Ho'. rewrite Ho' in H2.
      now apply sp_disjoint_apart.
    - exact (IH H1 pre y post eq_refl Hf o Ho Ho').
  Qed.
  Lemma filter_filter_neg (f : op -> bool) l : filter (fun o => negb (negb (f o))) l = filter f l.
  Proof. apply filter_ext. intros o. apply negb_involutive. Qed.

  (** the rotation *)
  Lemma first_sigma_ok (l : list op) j before from : first_sigma (S:=S) l = Some (j, (before, from)) ->
    l = before ++ from /\ exists k ls from', from = OAtom (ASigma j k ls) :: from'.
  Proof.
    revert before. induction l as [|x l IH]; intros before H; [discriminate|]. cbn [first_sigma] in H.
    assert ((exists j' k' ls', x = OAtom (ASigma j' k' ls')) \/ match first_sigma l with Some (j, (b, f)) => Some (j, (x :: b, f)) | None => None end = Some (j, (before, from))) as [(j' & k' & ls' & ->)|G].
    { destruct x as [| |[]| | | | | | |]; try (right; exact H). left. do 3 eexists. reflexivity. }
    - injection H as <- <- <-. split; [reflexivity|]. now exists k', ls', l.
    - destruct (first_sigma l) as [[j' [b f]]|] eqn:E; [|discriminate]. injection G as -> <- ->. destruct (IH b eq_refl) as [-> H2]. split; [reflexivity|exact H2].
  Qed.
  Lemma only_lives ls l : Forall legal l -> only ls l = true -> lives (i:=I) [ls] (mprod I (map value l)).
  Proof.
    intros HL H. apply prod_lives; [exact HL|]. intros o Ho. unfold only in H. rewrite forallb_forall in H. specialize (H o Ho).
    apply eqb_list_nat_spec in H. rewrite H. intros y Hy. exact Hy.
  Qed.
  Lemma rotate_sound ls rest rest' : Forall legal rest -> (forall o, In o rest -> In ls (space o)) -> turns ls rest = true -> rotate ls rest = Ok rest' ->
    Forall legal rest' /\ tr [ls] (mprod I (map value rest')) = tr [ls] (mprod I (map value rest)).
  Proof.
    intros HL Hin Ht H. unfold rotate in H. destruct rest as [|x rest]; [discriminate|]. destruct (_ && _); [injection H as <-; now split|].
    unfold turns in Ht. destruct (first_sigma (x :: rest)) as [[m [before from]]|] eqn:E; [|injection H as <-; now split]. injection H as <-.
    destruct (first_sigma_ok _ _ _ _ E) as [E1 (k & l & from' & Ef)].
    assert (l = ls) as ->.
    { assert (In ls (space (OAtom (ASigma m k l) : op))) as [-> |[]]; [|reflexivity]. apply Hin. rewrite E1, Ef. apply in_or_app. right. now left. }
    rewrite E1 in HL |- *. apply Forall_app in HL. destruct HL as [HB HF]. rewrite Ef in HF. pose proof (Forall_inv HF) as [Lm Lk]. pose proof (Forall_inv_tail HF) as HF'.
    assert (legal (OAtom (ASigma m m ls))) as Lmm by now split. rewrite Ef. split.
    { apply Forall_app. split; [now constructor|]. apply Forall_app. split; [exact HB|]. constructor; [exact Lmm|constructor]. }
    rewrite !map_app. cbn [map]. rewrite !mprod_app. cbn [map]. rewrite mprod_cons, mprod_1. cbn [OpSpec.value atom_val].
    set (B := mprod I (map value before)) in *. set (F := mprod I (map value from')) in *.
    transitivity (tr [ls] (amul (amul B (isigma m m ls)) (amul (isigma m k ls) F))).
    - assert (lives (i:=I) [ls] (amul B (isigma m m ls)) \/ lives (i:=I) [ls] F) as G.
      { apply orb_true_iff in Ht. destruct Ht as [Ht|Ht].
        - left. apply lives_mul; [now apply only_lives|apply lives_sigma].
        - right. apply only_lives; [exact HF'|]. rewrite Ef in Ht. unfold only in *. cbn [forallb] in Ht. now apply andb_true_iff in Ht. }
      rewrite (tr_cyclic I T ls m k _ F Lm Lk G). f_equal. now rewrite !amul_assoc.
    - f_equal. rewrite <- amul_assoc, (amul_assoc I (isigma m m ls)), (sigma_sigma _ _ I), Nat.eqb_refl; [reflexivity|].
      intros n Hn. unfold level in Lm, Lk. rewrite Hn in Lm, Lk. auto.
  Qed.

  Context (K : ocreators S) (HK : soundK I K).
  Section Step.
  Context (rec : list nat -> op -> res op) (Hrec : forall h e e', legal e -> rec h e = Ok e' -> means e' (tr h (value e))).
  Lemma pulled_sound ls pull rest e h : Forall legal pull -> Forall legal rest -> ~ In ls h -> (forall o, In o pull -> incl (space o) h) ->
    pulled K rec ls pull rest = Ok e -> means e (tr [ls] (amul (mprod I (map value pull)) (mprod I (map value rest)))).
  Proof.
    intros HP HR Hn Hi H. unfold pulled in H. step H p Ep. step H r Er. step H t Et.
    destruct (s_times I K HK _ _ HP Ep) as [Lp Vp]. destruct (s_times I K HK _ _ HR Er) as [Lr Vr]. destruct (Hrec _ _ _ Lr Et) as [Lt Vt].
    destruct (m_times2 I K HK _ _ _ Lp Lt H) as [Le Ve]. split; [exact Le|]. rewrite Ve, Vp, Vt, Vr. symmetry. apply (tr_left I T ls h); [exact Hn|]. now apply prod_lives.
  Qed.
  Lemma factor_sound ls e r : legal e -> factor_for_trace dim K monitor rec ls e = Ok (Some r) -> means r (tr [ls] (value e)).
  Proof.
    intros HL H. unfold factor_for_trace in H. destruct (eqb_list_nat (space e) [ls]) eqn:E1.
    - destruct e as [| |a|c t|l|l|a b|a|a h|s a]; try discriminate. apply legal_times in HL.
      set (f := fun o : op => match space o with [] => true | _ :: _ => false end) in *.
      assert (filter (fun o : op => match space o with [] => false | _ :: _ => true end) l = filter (fun o => negb (f o)) l) as Ef.
      { apply filter_ext. intros o. unfold f. now destruct (space o). }
      rewrite Ef in H. cbn [OpSpec.value]. rewrite (separated f l HL).
      2:{ intros pre x post _ _ o _ Ho. unfold f in Ho. destruct (space o); [intros y _ []|discriminate]. }
      destruct (filter f l) as [|p pl] eqn:Ep; [discriminate|].
      destruct (pulled K rec ls (p :: pl) _) as [e'|] eqn:Er; [|discriminate]. injection H as <-. apply (pulled_sound ls _ _ _ []) in Er; [exact Er| | |intros []|].
      + rewrite <- Ep. apply Forall_forall. intros o Ho. apply filter_In in Ho. rewrite Forall_forall in HL. now apply HL.
      + apply Forall_forall. intros o Ho. apply filter_In in Ho. rewrite Forall_forall in HL. now apply HL.
      + intros o Ho. rewrite <- Ep in Ho. apply filter_In in Ho. destruct Ho as [_ Ho]. unfold f in Ho. destruct (space o); [intros y []|discriminate].
    - destruct (sp_mem ls (space e)) eqn:E2; cbn [negb] in H.
      + destruct e as [| |a|c t|l|l|a b|a|a h|s a]; try discriminate. apply legal_times in HL. step H rest' Er.
        set (f := fun o : op => negb (sp_mem ls (space o))) in *.
        destruct (filter f l) as [|p pl] eqn:Ep; [discriminate|].
        destruct (monitor ls l) eqn:Em; [|discriminate]. unfold monitor in Em. apply andb_true_iff in Em. destruct Em as [M1 M2].
        destruct (pulled K rec ls (p :: pl) rest') as [e'|] eqn:Ex; [|discriminate]. injection H as <-.
        assert (Forall legal (filter (fun o => sp_mem ls (space o)) l)) as HR by (apply Forall_forall; intros o Ho; apply filter_In in Ho; rewrite Forall_forall in HL; now apply HL).
        assert (Forall legal (p :: pl)) as HP by (rewrite <- Ep; apply Forall_forall; intros o Ho; apply filter_In in Ho; rewrite Forall_forall in HL; now apply HL).
        destruct (rotate_sound ls _ rest' HR) as [HR' VR]; [intros o Ho; apply filter_In in Ho; now apply sp_mem_In|exact M2|exact Er|].
        set (h := fold_right (fun o h => sp_union (space o) h) [] (p :: pl)).
        assert (forall o, In o (p :: pl) -> incl (space o) h) as Hi.
        { intros o Ho y Hy. subst h. revert Ho. generalize (p :: pl). clear - Hy. intros q Ho. induction q as [|z q IH]; [destruct Ho|]. cbn [fold_right]. apply sp_union_In.
          destruct Ho as [-> |Ho]; [now left|right; now apply IH]. }
        assert (~ In ls h) as Hn.
        { assert (forall o, In o (p :: pl) -> ~ In ls (space o)) as G.
          { intros o Ho Hl. rewrite <- Ep in Ho. apply filter_In in Ho. destruct Ho as [_ Ho]. unfold f in Ho. apply sp_mem_In in Hl. now rewrite Hl in Ho. }
          subst h. revert G. generalize (p :: pl). clear. induction l as [|z q IH]; intros G; [intros []|]. cbn [fold_right]. rewrite sp_union_In. intros [H|H]; [apply (G z); [now left|exact H]|].
          revert H. apply IH. intros o Ho. apply G. now right. }
        destruct (pulled_sound ls _ _ _ h HP HR' Hn Hi Ex) as [Le Ve]. split; [exact Le|]. rewrite Ve. cbn [OpSpec.value].
        rewrite (separated f l HL) by now apply pulls_separates. rewrite Ep. unfold f. rewrite (filter_filter_neg (fun o => sp_mem ls (space o))).
        rewrite !(tr_left I T ls h) by (try exact Hn; now apply prod_lives). now rewrite VR.
      + destruct (dim ls) as [d|] eqn:Ed; [|discriminate]. destruct (k_scal K _ e) as [e'|] eqn:Ek; [|discriminate]. injection H as <-.
        destruct (s_scal I K HK _ _ _ HL Ek) as [Le Ve]. split; [exact Le|]. rewrite Ve, ev_Q.
        assert (~ In ls (space e)) as Hn by (rewrite <- sp_mem_In; congruence).
        rewrite <- (amul_1r I (value e)) at 2. rewrite (tr_left I T ls (space e)) by (try exact Hn; now apply value_lives). rewrite (tr_one I T ls d Ed), smul_amul_r, amul_1r. reflexivity.
  Qed.
  Lemma trace_step_sound h e e' : legal e -> trace_step dim K monitor rec h e = Ok e' -> means e' (tr h (value e)).
  Proof.
    intros HL H. unfold trace_step in H. destruct h as [|l0 h]; [injection H as <-; split; [exact HL|now rewrite (tr_nil I T)]|].
    assert (forall ls, (do r <- factor_for_trace dim K monitor rec ls e; match r with Some x => Ok x | None => Ok (OTr e [ls]) end) = Ok e' -> means e' (tr [ls] (value e))) as Fac.
    { intros ls Hf. step Hf r Er. destruct r as [x|]; injection Hf as <-; [now apply factor_sound|now split]. }
    assert (forall l1 h', h = l1 :: h' -> (do t <- rec [last (l0 :: h) 0] e; rec (removelast (l0 :: h)) t) = Ok e' -> means e' (tr (l0 :: h) (value e))) as Dec.
    { intros l1 h' _ Hd. step Hd t Et. destruct (Hrec _ _ _ HL Et) as [Lt Vt]. destruct (Hrec _ _ _ Lt Hd) as [Le Ve]. split; [exact Le|]. rewrite Ve, Vt, <- (tr_snoc I T).
      rewrite <- app_removelast_last by discriminate. reflexivity. }
    destruct e as [| |a|c t|l|l|a b|a|a h'|s a].
    - injection H as <-. split; [exact Logic.I|]. symmetry. apply tr_zero.
    - step H d Ed. destruct (s_scal I K HK _ OOne _ Logic.I H) as [Le Ve]. split; [exact Le|]. rewrite Ve, ev_Q. symmetry. now apply tr_dim.
    - destruct h as [|l1 h]; [|exact (Dec l1 h eq_refl H)]. destruct a as [n h'|l|l|j k l|u l|u l|u l|l|l|l]; try exact (Fac _ H).
      + destruct (Nat.eqb_spec l l0) as [-> |_]; [|exact (Fac _ H)]. injection H as <-. split; [exact Logic.I|]. symmetry. now apply (tr_create I T).
      + destruct (Nat.eqb_spec l l0) as [-> |_]; [|exact (Fac _ H)]. injection H as <-. split; [exact Logic.I|]. symmetry.
        cbn [OpSpec.value atom_val]. rewrite <- (create_star _ _ I l0 HL), (tr_star I T), (tr_create I T l0 HL). apply star_0.
      + destruct (Nat.eqb_spec l l0) as [-> |_]; [|exact (Fac _ H)]. destruct HL as [Lj Lk]. destruct (s_scal I K HK _ OOne _ Logic.I H) as [Le Ve]. split; [exact Le|].
        rewrite Ve. cbn [OpSpec.value atom_val]. rewrite (tr_sigma I T l0 j k Lj Lk). destruct (j =? k); [rewrite (ev_s1 I); apply smul_1|rewrite (ev_s0 I); apply smul_0].
    - step H t' Et. destruct (Hrec _ t _ HL Et) as [Lt Vt]. destruct (s_scal I K HK _ _ _ Lt H) as [Le Ve]. split; [exact Le|]. rewrite Ve, Vt. cbn [OpSpec.value]. symmetry. apply tr_scal.
    - apply legal_plus in HL. step H l' El. destruct (mapM_sound I (rec (l0 :: h)) legal (fun x => tr (l0 :: h) (value x)) l l' (fun x e Hx => Hrec _ x e Hx) HL El) as [Ll Vl].
      destruct (s_plus I K HK _ _ Ll H) as [Le Ve]. split; [exact Le|]. rewrite Ve, Vl. cbn [OpSpec.value]. rewrite tr_sum. f_equal. now rewrite map_map.
    - destruct h as [|l1 h]; [exact (Fac _ H)|exact (Dec l1 h eq_refl H)].
    - destruct h as [|l1 h]; [exact (Fac _ H)|exact (Dec l1 h eq_refl H)].
    - step H t Et. destruct (Hrec _ a _ HL Et) as [Lt Vt]. destruct (oadj_sound I K HK _ _ Lt H) as [Le Ve]. split; [exact Le|]. rewrite Ve, Vt. cbn [OpSpec.value]. symmetry. apply tr_adj.
    - destruct h as [|l1 h]; [exact (Fac _ H)|exact (Dec l1 h eq_refl H)].
    - destruct h as [|l1 h]; [exact (Fac _ H)|exact (Dec l1 h eq_refl H)].
  Qed.
  End Step.
  Lemma trace_sound : forall n h e e', legal e -> trace_create dim K monitor n h e = Ok e' -> means e' (tr h (value e)).
  Proof.
    induction n as [|n IH]; intros h e e' HL H; [discriminate|]. exact (trace_step_sound (trace_create dim K monitor n) IH h e e' HL H).
  Qed.
End Sound.

(** the monitor never changes a result *)
Section Mono.
  Context {S : scalars} (dim : nat -> option nat) (K K' : ocreators S) (HK : leK K K') (chk : nat -> list (op S) -> bool).
  Section Step.
  Context (rec rec' : list nat -> op S -> res (op S)) (Hrec : forall h e, le (rec h e) (rec' h e)).
  Lemma pulled_mono ls p r : le (pulled K rec ls p r) (pulled K' rec' ls p r).
  Proof.
    unfold pulled. apply le_bind; [apply (m_times K K' HK)|]. intros x. apply le_bind; [apply (m_times K K' HK)|]. intros y.
    apply le_bind; [apply Hrec|]. intros t. apply (m_times K K' HK).
  Qed.
  Lemma le_rmap {A B} (f : A -> B) r r' : le r r' -> le (rmap f r) (rmap f r').
  Proof. intros [[-> | ->] | ->]; [left; now left|left; now right|now right]. Qed.
  Lemma factor_mono ls e : le (factor_for_trace dim K chk rec ls e) (factor_for_trace dim K' no_monitor rec' ls e).
  Proof.
    unfold factor_for_trace. destruct (eqb_list_nat _ _).
    - destruct e; try apply le_refl. destruct (filter _ l); [apply le_refl|]. apply le_rmap, pulled_mono.
    - destruct (negb _).
      + destruct (dim ls); [|apply le_refl]. apply le_rmap, (m_scal K K' HK).
      + destruct e; try apply le_refl. apply le_bind; [apply le_refl|]. intros r. destruct (filter _ l); [apply le_refl|]. cbn [no_monitor].
        destruct (chk ls l); [apply le_rmap, pulled_mono|left; now right].
  Qed.
  Lemma trace_step_mono h e : le (trace_step dim K chk rec h e) (trace_step dim K' no_monitor rec' h e).
  Proof.
    unfold trace_step. destruct h as [|l0 h]; [apply le_refl|].
    assert (le (do t <- rec [last (l0 :: h) 0] e; rec (removelast (l0 :: h)) t) (do t <- rec' [last (l0 :: h) 0] e; rec' (removelast (l0 :: h)) t)) as Dec
      by (apply le_bind; [apply Hrec|intros; apply Hrec]).
    assert (le (do r <- factor_for_trace dim K chk rec l0 e; match r with Some x => Ok x | None => Ok (OTr e [l0]) end)
               (do r <- factor_for_trace dim K' no_monitor rec' l0 e; match r with Some x => Ok x | None => Ok (OTr e [l0]) end)) as Fac
      by (apply le_bind; [apply factor_mono|intros; apply le_refl]).
    destruct e as [| |a|c t|l|l|a b|a|a h'|s a]; try (destruct h as [|l1 h]; [exact Fac|exact Dec]).
    - apply le_refl.
    - apply le_bind; [apply le_refl|]. intros d. apply (m_scal K K' HK).
    - destruct h as [|l1 h]; [|exact Dec]. destruct a; try exact Fac; (destruct (_ =? l0); [|exact Fac]); try apply le_refl. apply (m_scal K K' HK).
    - apply le_bind; [apply Hrec|]. intros t'. apply (m_scal K K' HK).
    - apply le_bind; [apply le_mapM; intros; apply Hrec|]. intros l'. apply (m_plus K K' HK).
    - apply le_bind; [apply Hrec|]. intros t'. now apply oadj_mono.
  Qed.
  End Step.
  Lemma trace_mono : forall n h e, le (trace_create dim K chk n h e) (trace_create dim K' no_monitor n h e).
  Proof. induction n as [|n IH]; intros h e; [apply le_fuel|]. exact (trace_step_mono _ _ IH h e). Qed.
End Mono.

(** on one local space the monitor is never consulted *)
Section TrLocal.
  Context {S : scalars} (l : nat) (dim : nat -> option nat) (K K' : ocreators S) (HK : agreeK l K K').
  Local Notation loc := (local_to (S:=S) l).
  Section Step.
  Context (rec rec' : list nat -> op S -> res (op S)) (Hrec : forall h e, loc e -> agree l (rec h e) (rec' h e)).
  Lemma pulled_agree ls p r : Forall loc p -> Forall loc r -> agree l (pulled K rec ls p r) (pulled K' rec' ls p r).
  Proof.
    intros Hp Hr. unfold pulled. apply agree_bind; [now apply (a_times l K K' HK)|]. intros x Hx. apply agree_bind; [now apply (a_times l K K' HK)|]. intros y Hy.
    apply agree_bind; [now apply Hrec|]. intros t Ht. apply (a_times l K K' HK). constructor; [exact Hx|constructor; [exact Ht|constructor]].
  Qed.
  Lemma trace_step_agree h e : loc e -> agree l (trace_step dim K monitor rec h e) (trace_step dim K' no_monitor rec' h e).
  Proof.
    intros He. unfold trace_step. destruct h as [|l0 h]; [now apply agree_ok|].
    assert (agree l (do t <- rec [last (l0 :: h) 0] e; rec (removelast (l0 :: h)) t) (do t <- rec' [last (l0 :: h) 0] e; rec' (removelast (l0 :: h)) t)) as Dec
      by (apply agree_bind; [now apply Hrec|intros; now apply Hrec]).
    assert (agree l (do r <- factor_for_trace dim K monitor rec l0 e; match r with Some x => Ok x | None => Ok (OTr e [l0]) end)
               (do r <- factor_for_trace dim K' no_monitor rec' l0 e; match r with Some x => Ok x | None => Ok (OTr e [l0]) end)) as Fac.
    { unfold factor_for_trace. pose proof (loc_space l e He) as Hsp. destruct (eqb_list_nat (space e) [l0]) eqn:E1.
      - destruct e as [| |a|c t|es|es|a b|a|a h'|s a]; try (now apply agree_ok). apply loc_times in He. destruct (filter _ es) as [|p pl] eqn:Ep; [apply agree_ok; now apply loc_times|].
        assert (agree l (pulled K rec l0 (p :: pl) (filter (fun o : op S => match space o with [] => false | _ :: _ => true end) es)) (pulled K' rec' l0 (p :: pl) (filter (fun o : op S => match space o with [] => false | _ :: _ => true end) es))) as [EA HA].
        { apply pulled_agree; [rewrite <- Ep|]; now apply filter_loc. }
        rewrite <- EA. destruct (pulled K rec _ _ _) as [x|x]; cbn [rmap bind]; [apply agree_ok; now apply HA|apply agree_err].
      - destruct (sp_mem l0 (space e)) eqn:E2; cbn [negb].
        + exfalso. destruct Hsp as [Hsp|Hsp]; rewrite Hsp in E1, E2; [discriminate|]. cbn in E2. rewrite orb_false_r in E2. apply Nat.eqb_eq in E2. subst l0.
          assert (eqb_list_nat [l] [l] = true) by now apply eqb_list_nat_spec. congruence.
        + destruct (dim l0) as [d|]; [|apply agree_err]. destruct (a_scal l K K' HK (sQ (qn d)) e He) as [EA HA]. rewrite <- EA.
          destruct (k_scal K _ e) as [x|x]; cbn [rmap bind]; [apply agree_ok; now apply HA|apply agree_err]. }
    destruct e as [| |a|c t|es|es|a b|a|a h'|s a]; try (destruct h as [|l1 h]; [exact Fac|exact Dec]).
    - now apply agree_ok.
    - destruct (sp_dim dim (l0 :: h)) as [d|x]; [|apply agree_err]. now apply (a_scal l K K' HK).
    - destruct h as [|l1 h]; [|exact Dec]. destruct a; try exact Fac; (destruct (_ =? l0); [|exact Fac]); try (now apply agree_ok). now apply (a_scal l K K' HK).
    - apply agree_bind; [now apply Hrec|]. intros t' Ht. now apply (a_scal l K K' HK).
    - apply loc_plus in He. apply agrees_bind; [|intros; now apply (a_plus l K K' HK)]. apply agrees_mapM. intros x Hx. apply Hrec. rewrite Forall_forall in He. now apply He.
    - apply agree_bind; [now apply Hrec|]. intros t' Ht. now apply oadj_agree.
  Qed.
  End Step.
  Lemma trace_agree : forall n h e, loc e -> agree l (trace_create dim K monitor n h e) (trace_create dim K' no_monitor n h e).
  Proof. induction n as [|n IH]; intros h e He; [apply agree_err|]. now apply trace_step_agree. Qed.
End TrLocal.
