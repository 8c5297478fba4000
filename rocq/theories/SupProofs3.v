(** Adjoints, expansion and the constructor routines for super-operators. *)
From Coq Require Import QArith Qcanon.
From Verif Require Import Prelude ListFacts SortModel SortProofs BinModel BinSpec BinProofs AlgSpec CAlg CSimpProofs5 OpModel OpSpec OpProofs1 OpProofs2 OpProofs3 SupModel SupSpec SupProofs1 SupProofs2.
Local Open Scope nat_scope.

Lemma F2_rev {X Y} (R : X -> Y -> Prop) l l' : Forall2 R l l' -> Forall2 R (rev l) (rev l').
Proof. induction 1 as [|x y l l' H _ IH]; [constructor|]. cbn [rev]. apply Forall2_app; [exact IH|]. constructor; [exact H|constructor]. Qed.

Section Sound.
  Context {S : scalars} {dim : nat -> option nat} (T : sinterp S dim).
  Local Notation op := (op S).
  Local Notation sop := (sop S).
  Local Notation legal := (legal T).
  Local Notation value := (value T).
  Local Notation means := (means T).
  Local Notation slegal := (slegal T).
  Local Notation svalue := (svalue T).
  Local Notation smeans := (smeans T).
  Add Ring Kr : (kring T).
  Context (solt : sop -> sop -> bool) (slt : list nat -> list nat -> bool).
  Context (K : ocreators S) (HK : soundK T K) (sord : list sop -> res (list sop)) (Hord : sorder_ok sord).

  Lemma slives_common (l : list sop) : Forall slegal l -> exists h, Forall (fun s => slives (s:=T) h (svalue s)) l.
  Proof.
    intros H. exists (fold_right (fun o h => sp_union (sspace o) h) [] l). rewrite Forall_forall in *. intros x Hx.
    apply (slives_incl _ _ T (sspace x)); [intros y Hy; apply sspace_list_In; now exists x|]. apply svalue_lives. auto.
  Qed.
  Section Dual.
  Context (Hd : has_dual T).
  Lemma dual_fsum (l : list sop) x : Forall slegal l -> dual (fsum T (map svalue l)) x = fsum T (map (fun s => dual (svalue s)) l) x.
  Proof.
    intros Hl. destruct (slives_common l Hl) as [h Hh]. clear Hl. induction l as [|s l IH]; cbn [map].
    - apply (dual_0 _ _ T). exact Hd.
    - rewrite fsum_cons, <- (IH (Forall_inv_tail Hh)). apply (dual_add _ _ T h (svalue s) (fsum T (map svalue l))); [exact Hd|exact (Forall_inv Hh)|].
      apply slives_list. exact (Forall_inv_tail Hh).
  Qed.
  Lemma dual_fcomp (l : list sop) x : Forall slegal l -> dual (fcomp T (map svalue l)) x = fcomp T (rev (map (fun s => dual (svalue s)) l)) x.
  Proof.
    intros Hl. destruct (slives_common l Hl) as [h Hh]. clear Hl. revert x. induction l as [|s l IH]; intros x; cbn [map rev].
    - apply (dual_id _ _ T). exact Hd.
    - rewrite fcomp_app, <- (IH (Forall_inv_tail Hh)). apply (dual_comp _ _ T h (svalue s) (fcomp T (map svalue l))); [exact Hd|exact (Forall_inv Hh)|].
      apply slives_list. exact (Forall_inv_tail Hh).
  Qed.
  (** adjoint expressions of a list *)
  Definition adj_of (o : option sop) (s : sop) : Prop := forall s', o = Some s' -> smeans s' (dual (svalue s)).
  Lemma adj_list l ops : Forall2 (fun (s' s : sop) => smeans s' (dual (svalue s))) ops l ->
    Forall slegal ops /\ feqs T (map svalue ops) (map (fun s => dual (svalue s)) l).
  Proof.
    induction 1 as [|s' s ops l [L V] _ IH]; [split; constructor|]. destruct IH as [I1 I2]. split; [now constructor|]. cbn [map]. now constructor.
  Qed.
  Lemma mapM_option {X} e (l : list (option X)) l' : mapM (of_option e) l = Ok l' -> l = map Some l'.
  Proof.
    revert l'. induction l as [|[x|] l IH]; intros l' H; cbn [mapM of_option bind] in H; [injection H as <-; reflexivity| |discriminate].
    step H r Er. injection H as <-. cbn [map]. now rewrite <- (IH r eq_refl).
  Qed.
  Theorem sadj_sound : forall n s r, slegal s -> sadj K sord n s = Ok r -> adj_of r s.
  Proof.
    intros n. induction s as [| |nm h|a|a|c t _|l IH|l IH|t _] using sop_ind'; intros r Hs H s' Es; subst r; cbn [sadj] in H.
    - injection H as <-. split; [exact Logic.I|]. intros x. symmetry. now apply (dual_0 _ _ T).
    - injection H as <-. split; [exact Logic.I|]. intros x. symmetry. now apply (dual_id _ _ T).
    - injection H as <-. split; [split; [exact Hd|exact Logic.I]|]. reflexivity.
    - injection H as <-. split; [exact Hs|]. intros x. symmetry. now apply (dual_pre _ _ T).
    - injection H as <-. split; [exact Hs|]. intros x. symmetry. now apply (dual_post _ _ T).
    - discriminate H.
    - step H l' El. step H ops Eo. injection H as <-. apply slegal_plus in Hs. apply mapM_option in Eo. subst l'.
      assert (Forall2 (fun (s' s : sop) => smeans s' (dual (svalue s))) ops l) as F.
      { revert ops El. induction l as [|s l IHl]; intros ops El; [destruct ops; [constructor|discriminate El]|].
        step El x Ex. step El r2 Er. destruct ops as [|o ops]; [discriminate El|]. cbn [map] in El. injection El as E1 E2.
        constructor; [exact (Forall_inv IH x (Forall_inv Hs) Ex o E1)|]. apply (IHl (Forall_inv_tail IH) (Forall_inv_tail Hs)). now rewrite <- E2. }
      destruct (adj_list l ops F) as [L V]. split; [now apply slegal_plus|]. intros x. cbn [SupSpec.svalue]. rewrite (fsum_eqs T _ _ V).
      symmetry. now apply dual_fsum.
    - step H l' El. apply slegal_times in Hs.
      assert (Forall2 adj_of (rev l') l) as F.
      { clear H. revert l' El. induction l as [|s l IHl]; intros l' El; [injection El as <-; constructor|].
        step El r2 Er. step El x Ex. injection El as <-. rewrite rev_app_distr. cbn [rev app].
        constructor; [exact (Forall_inv IH x (Forall_inv Hs) Ex)|exact (IHl (Forall_inv_tail IH) (Forall_inv_tail Hs) _ eq_refl)]. }
      destruct (existsb _ l') eqn:Ez.
      + injection H as <-. split; [exact Logic.I|]. intros x. symmetry. cbn [SupSpec.svalue]. rewrite (dual_fcomp l x Hs).
        apply existsb_exists in Ez. destruct Ez as [o [Ho Eo]]. destruct o as [[]|]; try discriminate Eo. clear Eo.
        apply in_rev in Ho. rewrite <- (rev_involutive (map _ l)). rewrite rev_involutive. clear El IH.
        assert (forall l2 : list sop, Forall slegal l2 -> fcomp T (rev (map (fun s => dual (svalue s)) l2)) a0 = a0) as Z.
        { clear - Hd. induction l2 as [|s l2 IH2]; intros HL; [reflexivity|]. cbn [map rev]. rewrite fcomp_app. cbn [fcomp fold_right].
          change (fcomp T (rev (map (fun s0 => dual (svalue s0)) l2)) (dual (svalue s) a0) = a0).
          assert (linear_map (dual (s:=T) (svalue s))) as [_ Hl].
          { apply (slives_linear _ _ T (sspace s)). apply (slives_dual _ _ T); [exact Hd|]. apply svalue_lives. exact (Forall_inv HL). }
          rewrite <- (smul_0 T a0) at 1. rewrite Hl, smul_0. apply IH2. exact (Forall_inv_tail HL). }
        revert x. clear - F Ho Hs Z. revert F Ho. generalize (rev l'). intros k F Ho.
        induction F as [|o s k l Hos F IHF]; [destruct Ho|]. intros x. cbn [map rev]. rewrite fcomp_app. cbn [fcomp fold_right].
        change (fcomp T (rev (map (fun s0 => dual (svalue s0)) l)) (dual (svalue s) x) = a0). destruct Ho as [-> |Ho].
        * destruct (Hos SZero eq_refl) as [_ V]. rewrite <- V. cbn [SupSpec.svalue]. apply Z. exact (Forall_inv_tail Hs).
        * apply IHF; [exact (Forall_inv_tail Hs)|exact Ho].
      + clear Ez. step H ops Eo. step H p Ep. injection H as <-. apply mapM_option in Eo. subst l'. rewrite <- map_rev in F.
        assert (Forall2 (fun (s' s : sop) => smeans s' (dual (svalue s))) (rev ops) l) as F'.
        { clear - F. revert F. generalize (rev ops). intros k. revert l. induction k as [|x k IHk]; intros l F; cbn [map] in F; inversion F as [|o s k' l' H1 H2]; subst; constructor.
          - now apply H1. - now apply IHk. }
        destruct (adj_list l (rev ops) F') as [L V]. apply Forall_rev in L. rewrite rev_involutive in L.
        destruct (super_times_sound T K HK sord Hord n ops p L Ep) as [Lp Vp]. split; [exact Lp|]. intros x. rewrite Vp. cbn [SupSpec.svalue].
        rewrite (dual_fcomp l x Hs). apply fcomp_eqs. apply F2_rev in V. rewrite <- map_rev, rev_involutive in V. exact V.
    - injection H as <-. destruct Hs as [_ Hs]. split; [exact Hs|]. intros x. cbn [SupSpec.svalue]. symmetry.
      apply (dual_dual _ _ T (sspace t)); [exact Hd|now apply svalue_lives].
  Qed.
  End Dual.

  (** expansion *)
  Lemma foldM_stimes n x l e : slegal x -> Forall slegal l -> foldM (fun a b => super_times K sord n [a; b]) x l = Ok e ->
    smeans e (fun v => svalue x (fcomp T (map svalue l) v)).
  Proof.
    revert x. induction l as [|y l IH]; intros x Hx Hl H; cbn [foldM] in H.
    - injection H as <-. now split.
    - step H z Ez. destruct (super_times2_sound T K HK sord Hord n _ _ _ Hx (Forall_inv Hl) Ez) as [Lz Vz]. destruct (IH z Lz (Forall_inv_tail Hl) H) as [Le Ve].
      split; [exact Le|]. intros v. rewrite Ve, Vz. reflexivity.
  Qed.
  Lemma fold_splus x l : slegal x -> Forall slegal l ->
    smeans (fold_left (fun a b => super_plus solt slt [a; b]) l x) (fun v => aadd (svalue x v) (fsum T (map svalue l) v)).
  Proof.
    revert x. induction l as [|y l IH]; intros x Hx Hl; cbn [fold_left].
    - split; [exact Hx|]. intros v. symmetry. apply aadd_0r.
    - destruct (super_plus2_sound T solt slt x y Hx (Forall_inv Hl)) as [Lz Vz]. destruct (IH _ Lz (Forall_inv_tail Hl)) as [Le Ve].
      split; [exact Le|]. intros v. rewrite Ve, Vz. cbn [map]. rewrite fsum_cons. symmetry. apply aadd_assoc.
  Qed.
  Lemma sadd_all_sound l e : Forall slegal l -> sadd_all solt slt l = Ok e -> smeans e (fsum T (map svalue l)).
  Proof. destruct l as [|x l]; [discriminate|]. intros H E. injection E as <-. exact (fold_splus x l (Forall_inv H) (Forall_inv_tail H)). Qed.
  Lemma ssum_sound l e : Forall slegal l -> ssum solt slt l = Ok e -> smeans e (fsum T (map svalue l)).
  Proof.
    destruct l as [|x l]; [discriminate|]. intros H E. injection E as <-.
    destruct (super_scal_sound T SOne s0 Logic.I) as [L0 V0]. destruct (super_plus2_sound T solt slt x _ (Forall_inv H) L0) as [L1 V1].
    destruct (fold_splus _ l L1 (Forall_inv_tail H)) as [L V]. split; [exact L|]. intros v. rewrite V, V1, V0, (ev_s0 T), smul_0, aadd_0r. reflexivity.
  Qed.
  Lemma smul_combo_sound n l e : Forall slegal l -> smul_combo K sord n l = Ok e -> smeans e (fcomp T (map svalue l)).
  Proof. destruct l as [|x l]; [discriminate|]. intros H E. exact (foldM_stimes n x l e (Forall_inv H) (Forall_inv_tail H) E). Qed.
  Lemma ssummands_sound s : slegal s -> Forall slegal (ssummands s) /\ forall x, fsum T (map svalue (ssummands s)) x = svalue s x.
  Proof.
    intros H. destruct s; cbn [ssummands]; try (split; [constructor; [exact H|constructor]|intros x; apply fsum_1]). split; [now apply slegal_plus|reflexivity].
  Qed.
  Lemma smapM_sound {X} (f : X -> res sop) (P : X -> Prop) (v : X -> A T -> A T) l l' :
    (forall x e, P x -> f x = Ok e -> smeans e (v x)) -> Forall P l -> mapM f l = Ok l' ->
    Forall slegal l' /\ feqs T (map svalue l') (map v l).
  Proof.
    intros Hf. revert l'. induction l as [|x l IH]; cbn [mapM]; intros l' HP E; [injection E as <-; split; constructor|].
    step E x' Ex. step E l2 El2. injection E as <-. destruct (IH l2 (Forall_inv_tail HP) eq_refl) as [L2 V2].
    destruct (Hf x x' (Forall_inv HP) Ex) as [Lx Vx]. split; [now constructor|]. cbn [map]. now constructor.
  Qed.
  Lemma scartesian_sum ls x : Forall (Forall slegal) ls ->
    fsum T (map (fun c => fcomp T (map svalue c)) (cartesian ls)) x = fcomp T (map (fun l => fsum T (map svalue l)) ls) x.
  Proof.
    intros H. induction ls as [|l ls IH]; [apply fsum_1|]. cbn [cartesian map]. rewrite fcomp_cons, <- (IH (Forall_inv_tail H)). clear IH.
    pose proof (Forall_inv H) as Hl. clear H. unfold fsum. rewrite !map_map, !msum_map, asum_flat_map.
    apply asum_ext. intros s Hs. rewrite asum_map. rewrite Forall_forall in Hl. specialize (Hl s Hs).
    transitivity (asum (fun c => svalue s (fcomp T (map svalue c) x)) (cartesian ls)); [reflexivity|].
    rewrite <- !msum_map. rewrite (svalue_msum T s _ Hl), map_map. reflexivity.
  Qed.
  Theorem sexpand_sound : forall n s s', slegal s -> sexpand solt slt K sord n s = Ok s' -> smeans s' (svalue s).
  Proof.
    induction n as [|n IH]; intros s s' HL H; [discriminate|]. cbn [sexpand] in H.
    assert (forall ret v, smeans ret v -> match ret with SPlus _ => sexpand solt slt K sord n ret | _ => Ok ret end = Ok s' -> smeans s' v) as Fin.
    { intros ret v [Lr Vr] Hr. destruct ret; try (injection Hr as <-; now split). destruct (IH _ _ Lr Hr) as [L V]. split; [exact L|]. intros x. now rewrite V, Vr. }
    destruct s as [| |nm h|a|a|c t|l|l|t]; try (injection H as <-; now split).
    - step H a' Ea. destruct (expand_sound T K HK n a a' HL Ea) as [La Va]. cbn [SupSpec.svalue]. rewrite <- Va.
      pose proof (pre_create_sound T a' La) as G.
      destruct a' as [| |b|c t|l|l|b c|b|b h|sg b]; try (injection H as <-; exact G). clear G.
      apply legal_plus in La. destruct (ssum_sound (map pre_create l) s') as [L V]; [|exact H|].
      { apply Forall_map. apply (Forall_impl _ (fun b Hb => proj1 (pre_create_sound T b Hb)) La). }
      split; [exact L|]. intros x. rewrite V. unfold fsum. rewrite !map_map, msum_map. cbn [OpSpec.value]. rewrite msum_map, <- asum_mul_r. apply asum_ext.
      intros b Hb. rewrite Forall_forall in La. apply pre_create_sound. now apply La.
    - step H a' Ea. destruct (expand_sound T K HK n a a' HL Ea) as [La Va]. cbn [SupSpec.svalue]. rewrite <- Va.
      pose proof (post_create_sound T a' La) as G.
      destruct a' as [| |b|c t|l|l|b c|b|b h|sg b]; try (injection H as <-; exact G). clear G.
      apply legal_plus in La. destruct (ssum_sound (map post_create l) s') as [L V]; [|exact H|].
      { apply Forall_map. apply (Forall_impl _ (fun b Hb => proj1 (post_create_sound T b Hb)) La). }
      split; [exact L|]. intros x. rewrite V. unfold fsum. rewrite !map_map, msum_map. cbn [OpSpec.value]. rewrite msum_map, <- asum_mul_l. apply asum_ext.
      intros b Hb. rewrite Forall_forall in La. apply post_create_sound. now apply La.
    - step H t' Et. step H ret Eret. destruct (IH t t' HL Et) as [Lt Vt]. destruct (ssummands_sound t' Lt) as [Ls Vs].
      apply (Fin ret); [|exact H]. destruct (sadd_all_sound (map (super_scal c) (ssummands t')) ret) as [Lr Vr]; [|exact Eret|].
      { apply Forall_map. apply (Forall_impl _ (fun b Hb => proj1 (super_scal_sound T b c Hb)) Ls). }
      split; [exact Lr|]. intros x. rewrite Vr. cbn [SupSpec.svalue]. rewrite <- Vt, <- Vs. unfold fsum. rewrite !map_map, !msum_map, <- asum_smul. apply asum_ext.
      intros b Hb. rewrite Forall_forall in Ls. apply super_scal_sound. now apply Ls.
    - step H l' El. injection H as <-. apply slegal_plus in HL.
      destruct (smapM_sound (sexpand solt slt K sord n) slegal svalue l l' (fun x e0 => IH x e0) HL El) as [Ll Vl].
      destruct (super_plus_sound T solt slt l' Ll) as [L V]. split; [exact L|]. intros x. rewrite V. cbn [SupSpec.svalue]. now apply fsum_eqs.
    - step H eops Ee. step H sm Es. step H ret Eret. apply slegal_times in HL.
      destruct (smapM_sound (sexpand solt slt K sord n) slegal svalue l eops (fun x e0 => IH x e0) HL Ee) as [Lo Vo].
      assert (Forall (Forall slegal) (map ssummands eops)) as Ls.
      { apply Forall_map. apply (Forall_impl _ (fun a Ha => proj1 (ssummands_sound a Ha)) Lo). }
      destruct (smapM_sound (smul_combo K sord n) (Forall slegal) (fun c => fcomp T (map svalue c)) _ _ (fun x e0 => smul_combo_sound n x e0) (cartesian_forall _ _ Ls) Es) as [Lm Vm].
      apply (Fin ret); [|exact H]. destruct (sadd_all_sound sm ret Lm Eret) as [Lr Vr]. split; [exact Lr|]. intros x.
      rewrite Vr, (fsum_eqs T _ _ Vm), (scartesian_sum _ x Ls), map_map. cbn [SupSpec.svalue]. transitivity (fcomp T (map svalue eops) x); [|now apply fcomp_eqs].
      apply fcomp_eqs. clear - Lo. induction eops as [|e eops IHe]; [constructor|]. cbn [map]. constructor; [apply ssummands_sound; exact (Forall_inv Lo)|].
      exact (IHe (Forall_inv_tail Lo)).
    - destruct HL as [Hd HL]. step H t' Et. destruct (IH t t' HL Et) as [Lt Vt].
      assert (forall r, sadj K sord n t' = Ok (Some r) -> smeans r (svalue (SAdj t))) as G.
      { intros r Hr. destruct (sadj_sound Hd n t' _ Lt Hr r eq_refl) as [L V]. split; [exact L|]. intros x. rewrite V. cbn [SupSpec.svalue]. now apply (dual_ext _ _ T). }
      destruct t'; try discriminate H; (step H r Er; destruct r as [r|]; [|discriminate H]; injection H as <-; apply G; first [reflexivity|exact Er]).
  Qed.
End Sound.
