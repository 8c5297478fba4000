(** Soundness of liouvillian_normal_form. *)
From Coq Require Import QArith Qcanon.
From Verif Require Import Prelude ListFacts SortModel BinModel BinSpec AlgSpec CAlg CSimpProofs5 OpModel OpSpec OpProofs1 OpProofs2 OpProofs3 OpFuel SupModel SupSpec SupProofs1 SupProofs2 SupProofs3 SupProofs4 SupOrder NfModel NfSpec.
Local Open Scope nat_scope.

Section Alg.
  Context {M : calgebra}.
  Add Ring Kn : (kring M).
  Implicit Types (p q a x : A M).
  (** completing the square *)
  Lemma balance_generator p q a k r x : kmul r (kconj r) = k ->
    aadd (aadd p (smul khalf (smul k (amul (star a) a)))) (aadd q (smul khalf (smul k (amul (star a) a)))) = a0 ->
    aadd (aadd (amul p x) (amul x q)) (smul k (amul (amul a x) (star a)))
    = generator (smul iu (aadd p (smul khalf (smul k (amul (star a) a))))) [smul r a] x.
  Proof.
    intros Hr H. set (n := amul (star a) a) in *. set (sd := smul khalf (smul k n)) in *. set (X := aadd p sd) in *.
    assert (p = aadd X (aopp sd)) as Ep by (unfold X; rewrite <- aadd_assoc, aopp_r, aadd_0r; reflexivity).
    assert (q = aadd (aopp X) (aopp sd)) as Eq.
    { assert (aadd q sd = aopp X) as E.
      { transitivity (aadd (aopp X) (aadd X (aadd q sd))); [now rewrite aadd_assoc, aopp_l, aadd_0|]. rewrite H. apply aadd_0r. }
      rewrite <- E, <- aadd_assoc, aopp_r, aadd_0r. reflexivity. }
    clearbody X. rewrite Ep, Eq. clear Ep Eq H. unfold generator, dissipator. cbn [fold_right]. rewrite aadd_0r.
    assert (forall y z, amul (smul r y) z = smul r (amul y z)) as E1 by (intros; apply smul_amul_l).
    rewrite star_smul. repeat rewrite ?smul_amul_l, ?smul_amul_r. fold n. repeat rewrite ?smul_addr, <- ?smul_mul.
    rewrite !amul_addl, !amul_addr, !aopp_mul_l, !aopp_mul_r. unfold sd. rewrite !smul_amul_l, !smul_amul_r.
    unfold aopp. rewrite <- !smul_mul.
    replace (kmul (kopp iu) iu) with (@k1 M) by (pose proof (iu_sq M) as E; transitivity (kopp (kmul (@iu M) iu)); [rewrite E; ring|ring]).
    replace (kmul (kmul (kopp iu) (kopp k1)) iu) with (@kopp M k1) by (pose proof (iu_sq M) as E; transitivity (kmul (@iu M) iu); [rewrite E; ring|ring]).
    rewrite <- Hr. replace (kmul (kmul (kmul (kopp k1) khalf) (kconj r)) r) with (kmul (kmul (kopp k1) khalf) (kmul r (kconj r))) by ring.
    generalize (kmul r (kconj r)). intros t. rewrite smul_1.
    rewrite aadd_perm4, <- aadd_assoc. f_equal. apply aadd_comm.
  Qed.
End Alg.

Section Sound.
  Context {S : scalars} {dim : nat -> option nat} (T : sinterp S dim).
  Local Notation op := (op S). Local Notation sop := (sop S).
  Local Notation legal := (legal T). Local Notation value := (value T). Local Notation means := (means T).
  Local Notation slegal := (slegal T). Local Notation svalue := (svalue T).
  Add Ring Kn2 : (kring T).
  Context (solt : sop -> sop -> bool) (slt : list nat -> list nat -> bool).
  Context (K : ocreators S) (HK : soundK T K) (sord : list sop -> res (list sop)) (Hord : sorder_ok sord) (F : coeff_ops (S:=S)).
  (** what is assumed of simplify_scalar and of the square roots *)
  Record coeff_laws : Prop := {
    csimp_ok : forall c, ev (r:=T) (csimp F c) = ev c;
    root_ok : forall c r, root F c = Ok r -> kmul (ev (r:=T) r) (kconj (ev r)) = ev c;
    nroot_ok : forall c r, nroot F c = Ok r -> kmul (ev (r:=T) r) (kconj (ev r)) = ev c
  }.
  Context (HF : coeff_laws).

  Lemma times_coeff_sound c a e : legal a -> times_coeff K c a = Ok e -> means e (smul (ev (written c)) (value a)).
  Proof.
    intros Ha H. destruct c as [c|]; cbn [times_coeff written] in *.
    - exact (OpProofs2.s_scal T K HK c a e Ha H).
    - injection H as <-. split; [exact Ha|]. now rewrite (ev_s1 T), smul_1.
  Qed.
  Lemma written_value s c t x : multiple_of s c t -> svalue s x = smul (ev (written c)) (svalue t x).
  Proof. destruct c as [c|]; cbn [multiple_of written]; [intros ->; reflexivity|intros [-> _]]. now rewrite (ev_s1 T), smul_1. Qed.
  Lemma multiple_legal s c t : multiple_of s c t -> slegal s -> slegal t.
  Proof. destruct c as [c|]; cbn [multiple_of]; [now intros ->|now intros [-> _]]. Qed.
  Lemma split_multiple (s : sop) c t : multiple_of s c t -> split_coeff (S:=S) s = (c, t).
  Proof. destruct c as [c|]; cbn [multiple_of]; [now intros ->|]. intros [-> N]. destruct t; try reflexivity. now elim (N c t). Qed.

  Lemma classify_plain l : forall f f', no_cross l -> Forall slegal l -> foldM (classify K F) f l = Ok f' ->
    cross f' = cross f /\ symb f' = symb f /\ exists ps qs, spres f' = spres f ++ ps /\ sposts f' = sposts f ++ qs /\ Forall legal ps /\ Forall legal qs
    /\ forall x, fsum T (map svalue l) x = aadd (amul (msum T (map value ps)) x) (amul x (msum T (map value qs))).
  Proof.
    induction l as [|s l IH]; intros f f' Hc Hl H; cbn [foldM] in H.
    - injection H as <-. do 2 (split; [reflexivity|]). exists [], []. rewrite !app_nil_r. do 4 (split; [reflexivity || constructor|]).
      intros x. cbn [map]. rewrite fsum_nil. cbn [msum fold_right]. now rewrite amul_0l, amul_0r, aadd_0.
    - step H g Eg. destruct (IH g f' (Forall_inv_tail Hc) (Forall_inv_tail Hl) H) as (C & Y & ps & qs & Ep & Eq & Lp & Lq & V).
      pose proof (Forall_inv Hl) as Ls. destruct (Forall_inv Hc) as [(c & a & Hm)|(c & a & Hm)]; unfold classify in Eg; rewrite (split_multiple _ _ _ Hm) in Eg;
        step Eg e Ee; injection Eg as <-; cbn [cross symb spres sposts] in *; pose proof (multiple_legal _ _ _ Hm Ls) as La; cbn [SupSpec.slegal] in La;
        destruct (times_coeff_sound c a e La Ee) as [Le Ve]; (split; [exact C|]); (split; [exact Y|]).
      + exists (e :: ps), qs. rewrite Ep, <- app_assoc. do 2 (split; [reflexivity || exact Eq|]). split; [now constructor|]. split; [exact Lq|]. intros x.
        cbn [map]. rewrite fsum_cons, V, msum_cons, amul_addl, <- aadd_assoc. f_equal. rewrite (written_value _ _ _ _ Hm), Ve. cbn [SupSpec.svalue].
        now rewrite smul_amul_l.
      + exists ps, (e :: qs). rewrite Eq, <- app_assoc. do 2 (split; [reflexivity || exact Ep|]). split; [exact Lp|]. split; [now constructor|]. intros x.
        cbn [map]. rewrite fsum_cons, V, msum_cons, amul_addr, (written_value _ _ _ _ Hm), Ve. cbn [SupSpec.svalue]. rewrite smul_amul_r.
        rewrite !aadd_assoc. f_equal. apply aadd_comm.
  Qed.
  (** the coefficient as it is stored *)
  Definition stored (c c' : coeff) : Prop := match c, c' with None, None => True | Some k, Some k' => ev (r:=T) k' = ev k | _, _ => False end.
  Lemma classify_cross s c a b f f' : cross_term s c a b -> classify K F f s = Ok f' ->
    spres f' = spres f /\ sposts f' = sposts f /\ exists c', stored c c' /\ cross f' = outer_set a b c' (cross f) /\ (symb f = true -> symb f' = true).
  Proof.
    intros Hm H. unfold classify in H. rewrite (split_multiple _ _ _ Hm) in H. step H cs Ec. injection H as <-. cbn [spres sposts cross symb].
    do 2 (split; [reflexivity|]). exists (fst cs). destruct c as [k|].
    - destruct (to_complex F k) as [u|[]]; try discriminate; injection Ec as <-; cbn [fst snd stored]; (split; [|now split]); try reflexivity; apply (csimp_ok HF).
    - injection Ec as <-. now split.
  Qed.
  Lemma foldM_app {X Y} (f : X -> Y -> res X) l l' a r : foldM f a (l ++ l') = Ok r -> exists b, foldM f a l = Ok b /\ foldM f b l' = Ok r.
  Proof.
    revert a. induction l as [|y l IH]; intros a H; [now exists a|]. cbn [app foldM] in *. destruct (f a y) as [z|e]; [|discriminate]. cbn [bind] in *. now apply IH.
  Qed.
  (** all summands *)
  Lemma classify_one l c a b sym f : one_cross l c a b -> Forall slegal l -> foldM (classify K F) (Form [] [] [] sym) l = Ok f ->
    Forall legal (spres f) /\ Forall legal (sposts f) /\ legal a /\ legal b /\ (sym = true -> symb f = true)
    /\ (exists c', stored c c' /\ cross f = [(a, [(b, c')])])
    /\ forall x, fsum T (map svalue l) x = aadd (aadd (amul (msum T (map value (spres f))) x) (amul x (msum T (map value (sposts f)))))
                                                (smul (ev (written c)) (amul (amul (value a) x) (value b))).
  Proof.
    intros (l1 & s & l2 & -> & N1 & N2 & Hs) Hl H. apply Forall_app in Hl. destruct Hl as [H1 H2]. pose proof (Forall_inv H2) as Ls. apply Forall_inv_tail in H2.
    apply foldM_app in H. destruct H as [f1 [E1 H]]. cbn [foldM] in H. step H f2 E2.
    destruct (classify_plain l1 _ _ N1 H1 E1) as (C1 & Y1 & ps1 & qs1 & Ep1 & Eq1 & Lp1 & Lq1 & V1).
    destruct (classify_cross s c a b f1 f2 Hs E2) as (P2 & Q2 & c' & Hst & C2 & Y2).
    destruct (classify_plain l2 _ _ N2 H2 H) as (C3 & Y3 & ps2 & qs2 & Ep2 & Eq2 & Lp2 & Lq2 & V2).
    cbn [spres sposts cross symb app] in *. rewrite P2, Ep1 in Ep2. rewrite Q2, Eq1 in Eq2. rewrite Ep2, Eq2.
    split; [apply Forall_app; now split|]. split; [apply Forall_app; now split|].
    pose proof (multiple_legal _ _ _ Hs Ls) as L. cbn in L. destruct L as [La [Lb _]]. split; [exact La|]. split; [exact Lb|].
    split; [intros ->; rewrite Y3; now apply Y2|]. split; [exists c'; split; [exact Hst|]; now rewrite C3, C2, C1|].
    intros x. rewrite map_app. cbn [map]. rewrite fsum_app, fsum_cons, V1, V2, !map_app, !msum_app, amul_addl, amul_addr, (written_value _ _ _ _ Hs).
    cbn [SupSpec.svalue]. unfold fcomp. cbn [map fold_right]. cbn [SupSpec.svalue]. rewrite amul_assoc.
    rewrite (aadd_comm _ (smul _ _)), aadd_assoc. f_equal. apply aadd_perm4.
  Qed.
  Lemma classify_none l sym f : no_cross l -> Forall slegal l -> foldM (classify K F) (Form [] [] [] sym) l = Ok f ->
    Forall legal (spres f) /\ Forall legal (sposts f) /\ symb f = sym /\ cross f = []
    /\ forall x, fsum T (map svalue l) x = aadd (amul (msum T (map value (spres f))) x) (amul x (msum T (map value (sposts f)))).
  Proof.
    intros N Hl H. destruct (classify_plain l _ _ N Hl H) as (C & Y & ps & qs & Ep & Eq & Lp & Lq & V). cbn [spres sposts cross symb app] in *.
    rewrite Ep, Eq. now repeat split.
  Qed.

  Lemma osum_sound l p : Forall legal l -> osum K l = Ok p -> arg_legal T p /\ arg_value T p = msum T (map value l).
  Proof.
    intros Hl H. destruct l as [|x l]; cbn [osum] in H.
    - injection H as <-. split; [exact Logic.I|]. cbn [arg_value]. now rewrite (ev_s0 T), smul_0.
    - step H y Ey. step H r Er. injection H as <-. destruct (m_addscal T K HK x s0 y (Forall_inv Hl) Ey) as [Ly Vy].
      destruct (foldM_plus T K HK y l r Ly (Forall_inv_tail Hl) Er) as [Lr Vr]. split; [exact Lr|]. cbn [arg_value map]. rewrite Vr, Vy, (ev_s0 T), smul_0, aadd_0r.
      now rewrite msum_cons.
  Qed.
  Lemma add_args_sound p q s : arg_legal T p -> arg_legal T q -> add_args K p q = Ok s -> arg_legal T s /\ arg_value T s = aadd (arg_value T p) (arg_value T q).
  Proof.
    intros Hp Hq H. destruct p as [x|c], q as [y|d]; cbn [add_args arg_legal arg_value] in *.
    - destruct (k_plus K [x; y]) as [e|] eqn:E; [|discriminate]. injection H as <-. exact (m_plus2 T K HK x y e Hp Hq E).
    - destruct (add_scalar K x d) as [e|] eqn:E; [|discriminate]. injection H as <-. exact (m_addscal T K HK x d e Hp E).
    - destruct (add_scalar K y c) as [e|] eqn:E; [|discriminate]. injection H as <-. destruct (m_addscal T K HK y c e Hq E) as [L V]. split; [exact L|].
      cbn [arg_value]. rewrite V. apply aadd_comm.
    - injection H as <-. split; [exact Logic.I|]. cbn [arg_value]. now rewrite (ev_add _ T), smul_addl.
  Qed.
  (** what no warning means *)
  Lemma no_warning p q : arg_legal T p -> arg_legal T q -> warns K p q = Ok false ->
    aadd (arg_value T p) (arg_value T q) = a0 /\ star (arg_value T p) = aopp (arg_value T p).
  Proof.
    intros Hp Hq H. unfold warns in H. step H s Es. destruct (add_args_sound p q s Hp Hq Es) as [Ls Vs].
    destruct s as [s|c]; cbn [is_zero_arg negb] in H; [|discriminate]. destruct s; cbn [is_zero_arg negb] in H; try discriminate.
    destruct p as [x|c]; [|discriminate]. cbn [arg_value arg_legal] in *. step H ad Ea. step H t Et. destruct (oadj_sound T K HK x ad Hp Ea) as [La Va].
    destruct (m_plus2 T K HK ad x t La Hp Et) as [Lt Vt]. destruct t; cbn [is_zero_arg negb] in H; try discriminate.
    split; [now rewrite <- Vs|]. cbn in Vt. rewrite Va in Vt.
    transitivity (aadd (aadd (star (value x)) (value x)) (aopp (value x))); [now rewrite <- aadd_assoc, aopp_r, aadd_0r|]. rewrite <- Vt. apply aadd_0.
  Qed.
  Lemma symbolic_one_sound l k x sd : legal l -> symbolic_one K F l k = Ok (x, sd) ->
    legal x /\ legal sd /\ value sd = smul khalf (smul (ev k) (amul (star (value l)) (value l)))
    /\ exists r, value x = smul r (value l) /\ kmul r (kconj r) = ev k.
  Proof.
    intros Hl H. unfold symbolic_one in H. step H r Er. step H x' Ex. step H ad Ea. step H p Ep. step H q Eq0. step H s Es. injection H as <- <-.
    destruct (OpProofs2.s_scal T K HK r l x' Hl Ex) as [Lx Vx]. destruct (oadj_sound T K HK l ad Hl Ea) as [La Va]. destruct (m_times2 T K HK ad l p La Hl Ep) as [Lp Vp].
    destruct (OpProofs2.s_scal T K HK k p q Lp Eq0) as [Lq Vq]. destruct (OpProofs2.s_scal T K HK half q s Lq Es) as [Ls Vs].
    split; [exact Lx|]. split; [exact Ls|]. split; [now rewrite Vs, Vq, Vp, Va, (ev_half T)|]. exists (ev r). split; [exact Vx|]. now apply (root_ok HF).
  Qed.
  Lemma numeric_one_sound n l z x sd : legal l -> numeric_one K F n l z = Ok (x, sd) ->
    legal x /\ legal sd /\ value sd = smul khalf (smul (ev (re z)) (amul (star (value l)) (value l)))
    /\ exists r, value x = smul r (value l) /\ kmul r (kconj r) = ev (re z).
  Proof.
    intros Hl H. unfold numeric_one in H. step H r Er. step H x' Ex. step H nl En. step H ad Ea. step H h Eh. step H p Ep. step H s Es. injection H as <- <-.
    destruct (OpProofs2.s_scal T K HK r l x' Hl Ex) as [Lx Vx]. destruct (m_addscal T K HK x' s0 nl Lx En) as [Ln Vn].
    rewrite (ev_s0 T), smul_0, aadd_0r, Vx in Vn.
    destruct (oadj_sound T K HK nl ad Ln Ea) as [La Va]. destruct (OpProofs2.s_scal T K HK half ad h La Eh) as [Lh Vh].
    destruct (m_times2 T K HK h nl p Lh Ln Ep) as [Lp Vp]. destruct (expand_sound T K HK n p s Lp Es) as [Ls Vs].
    split; [exact Ln|]. split; [exact Ls|]. pose proof (nroot_ok HF _ _ Er) as Hr. split; [|now exists (ev r)].
    rewrite Vs, Vp, Vh, Va, Vn, (ev_half T), star_smul, !smul_amul_l, smul_amul_r, <- !smul_mul, <- Hr. f_equal.
    generalize (ev (r:=T) r). intros y. ring.
  Qed.
  Lemma re_value z : kconj (ev (r:=T) z) = ev z -> ev (r:=T) (re z) = ev z.
  Proof.
    intros H. unfold re. rewrite (ev_div2 _ T), (ev_add _ T), (ev_conj _ T), H.
    generalize (ev (r:=T) z). intros y. transitivity (kmul (kadd (@khalf T) khalf) y); [ring|rewrite khalf_2; ring].
  Qed.

  Lemma oeqb_lookup a b c ad : oeqb a a = true -> oeqb b ad = true -> outer_get (S:=S) a ad [(a, [(b, c)])] = Some c.
  Proof. intros Ha Hb. unfold outer_get, inner_get. cbn [find fst]. rewrite Ha. cbn [find fst]. now rewrite Hb. Qed.
  (** the result in terms of the parts of the expanded Liouvillian *)
  Lemma nf_parts n L sym l c a b ad r : slegal L -> sexpand solt slt K sord n L = Ok (SPlus l) ->
    one_cross l c a b -> oeqb a a = true -> oadj K a = Ok ad -> oeqb b ad = true ->
    sym = true \/ c <> None -> kconj (ev (r:=T) (written c)) = ev (written c) ->
    liouvillian_normal_form solt slt K sord F n L sym = Ok r ->
    exists x p q k y, nf_Ls r = [x] /\ legal x /\ arg_legal T (nf_H r)
    /\ value x = smul y (value a) /\ kmul y (kconj y) = k
    /\ arg_value T (nf_H r) = smul iu (aadd p (smul khalf (smul k (amul (star (value a)) (value a)))))
    /\ (forall rho, svalue L rho = aadd (aadd (amul p rho) (amul rho q)) (smul k (amul (amul (value a) rho) (star (value a)))))
    /\ (nf_warned r = false ->
        aadd (aadd p (smul khalf (smul k (amul (star (value a)) (value a))))) (aadd q (smul khalf (smul k (amul (star (value a)) (value a))))) = a0
        /\ star (arg_value T (nf_H r)) = arg_value T (nf_H r)).
  Proof.
    intros HL HE Hc Haa Had Hb Hsym Hreal H. unfold liouvillian_normal_form in H. rewrite HE in H. cbn [bind] in H. step H f Ef.
    destruct (sexpand_sound T solt slt K HK sord Hord n L _ HL HE) as [Ll Vl]. apply slegal_plus in Ll.
    destruct (classify_one l c a b sym f Hc Ll Ef) as (Lp & Lq & La & Lb & Hsy & (c' & Hst & Hcr) & V).
    destruct (oadj_sound T K HK a ad La Had) as [Lad Vad].
    assert (value b = star (value a)) as Vb by (rewrite (oeqb_value T b ad Hb); exact Vad).
    unfold finish in H. rewrite Hcr in H. step H cs Ecs. step Ecs ad' Ead. replace ad' with ad in * by (rewrite Had in Ead; congruence). clear Ead.
    rewrite (oeqb_lookup a b c' ad Haa Hb) in Ecs. step Ecs sy Esy. step Ecs xs Exs. injection Ecs as <-. cbn [fst snd] in H.
    set (k := ev (r:=T) (written c)) in *.
    assert (legal (fst xs) /\ legal (snd xs) /\ value (snd xs) = smul khalf (smul k (amul (star (value a)) (value a)))
            /\ exists y, value (fst xs) = smul y (value a) /\ kmul y (kconj y) = k) as (Lx & Lsd & Vsd & y & Vx & Hy).
    { destruct xs as [x sd]. destruct sy.
      - destruct (symbolic_one_sound a _ x sd La Exs) as (Lx & Lsd & Vsd & y & Vx & Hy).
        assert (ev (r:=T) (coeff_val (Some c')) = k) as Ek.
        { unfold k. destruct c as [c|], c' as [c'|]; cbn [stored coeff_val written] in *; try easy. }
        rewrite Ek in *. cbn [fst snd]. repeat split; try assumption. now exists y.
      - destruct (numeric_one_sound n a _ x sd La Exs) as (Lx & Lsd & Vsd & y & Vx & Hy).
        assert (ev (r:=T) (re (coeff_complex (Some c'))) = k) as Ek.
        { destruct c as [c|], c' as [c'|]; cbn [stored coeff_complex written] in *; try easy.
          - unfold k. rewrite <- Hst. apply re_value. rewrite Hst. exact Hreal.
          - destruct Hsym as [-> |N]; [|now elim N]. exfalso. cbn [check_real] in Esy. rewrite (Hsy eq_refl) in Esy. discriminate. }
        rewrite Ek in *. cbn [fst snd]. repeat split; try assumption. now exists y. }
    step H p Ep. step H q Eq0. step H w Ew. step H h Eh. injection H as <-. cbn [nf_Ls nf_H nf_warned].
    destruct (osum_sound (spres f ++ [snd xs]) p) as [Lpp Vpp]; [apply Forall_app; split; [exact Lp|now constructor]|exact Ep|].
    destruct (osum_sound (sposts f ++ [snd xs]) q) as [Lqq Vqq]; [apply Forall_app; split; [exact Lq|now constructor]|exact Eq0|].
    rewrite map_app, msum_app in Vpp, Vqq. cbn [map] in Vpp, Vqq. rewrite msum_1, Vsd in Vpp, Vqq.
    assert (arg_legal T h /\ arg_value T h = smul iu (arg_value T p)) as [Lh Vh].
    { destruct p as [x|z].
      - step Eh x' Ex. step Eh h' Eh'. injection Eh as <-. destruct (OpProofs2.s_scal T K HK sI x x' Lpp Ex) as [L1 V1].
        destruct (expand_sound T K HK n x' h' L1 Eh') as [L2 V2]. split; [exact L2|]. cbn [arg_value]. now rewrite V2, V1, (ev_I _ T).
      - exfalso. clear - Ep. destruct (spres f ++ [snd xs]) as [|u v] eqn:E; [now destruct (spres f)|]. cbn [osum] in Ep. step Ep y Ey. step Ep r Er. discriminate. }
    exists (fst xs), (msum T (map value (spres f))), (msum T (map value (sposts f))), k, y.
    split; [reflexivity|]. split; [exact Lx|]. split; [exact Lh|]. split; [exact Vx|]. split; [exact Hy|]. split; [now rewrite Vh, Vpp|].
    split; [intros rho; rewrite <- (Vl rho); cbn [SupSpec.svalue]; rewrite V, Vb; reflexivity|].
    intros ->. destruct (no_warning p q Lpp Lqq Ew) as [B1 B2]. rewrite Vpp, Vqq in B1. split; [exact B1|].
    rewrite Vh, star_smul, iu_conj, B2. unfold aopp. rewrite <- smul_mul. f_equal. ring.
  Qed.

  (** the trace determines the correction *)
  Lemma trace_balance (W : tracing T) (p q a : A T) k : (forall rho, tr W (aadd (aadd (amul p rho) (amul rho q)) (smul k (amul (amul a rho) (star a)))) = k0) ->
    aadd (aadd p (smul khalf (smul k (amul (star a) a)))) (aadd q (smul khalf (smul k (amul (star a) a)))) = a0.
  Proof.
    intros H. rewrite aadd_perm4, <- smul_addl, khalf_2, smul_1. apply (tr_faithful T W). intros m. rewrite <- (H m), !(tr_add T W), (tr_smul T W).
    rewrite !amul_addr, !(tr_add T W), smul_amul_r, (tr_smul T W), (tr_cyclic T W m p). do 2 f_equal.
    rewrite (tr_cyclic T W (amul a m) (star a)), (tr_cyclic T W m (amul (star a) a)), (amul_assoc _ (star a)). reflexivity.
  Qed.
End Sound.

(** ** more recursion depth and more careful sorting *)
Section Mono.
  Context {S : scalars} (solt : sop S -> sop S -> bool) (slt : list nat -> list nat -> bool).
  Context (K K' : ocreators S) (HK : leK K K').
  Context (sord sord' : list (sop S) -> res (list (sop S))) (Hord : forall l, le (sord l) (sord' l)) (F : coeff_ops (S:=S)).
  Lemma addscal_mono a u : le (add_scalar K a u) (add_scalar K' a u).
  Proof. unfold add_scalar. apply le_bind; [apply (m_scal _ _ HK)|]. intros x. apply (m_plus _ _ HK). Qed.
  Lemma classify_mono f s : le (classify K F f s) (classify K' F f s).
  Proof.
    unfold classify. destruct (split_coeff s) as [c t]. assert (forall a, le (times_coeff K c a) (times_coeff K' c a)) as Hc.
    { intros a. destruct c; [apply (m_scal _ _ HK)|apply le_refl]. }
    destruct t; try apply le_refl; (apply le_bind; [apply Hc|]; intros x; apply le_refl).
  Qed.
  Lemma osum_mono l : le (osum K l) (osum K' l).
  Proof.
    destruct l as [|x l]; [apply le_refl|]. cbn [osum]. apply le_bind; [apply addscal_mono|]. intros y. apply le_bind; [|intros; apply le_refl].
    apply le_foldM. intros. apply (m_plus _ _ HK).
  Qed.
  Lemma le_rmap {X Y} (g : X -> Y) r r' : le r r' -> le (rmap g r) (rmap g r').
  Proof. intros [[-> | ->] | ->]; [apply le_fuel|left; now right|apply le_refl]. Qed.
  Lemma warns_mono p q : le (warns K p q) (warns K' p q).
  Proof.
    unfold warns. apply le_bind.
    - destruct p, q; cbn [add_args]; try apply le_refl; apply le_rmap; [apply (m_plus _ _ HK)|apply addscal_mono|apply addscal_mono].
    - intros s. destruct (negb _); [apply le_refl|]. destruct p as [x|c]; [|apply le_refl]. apply le_bind; [apply (oadj_mono K K' HK)|]. intros ad.
      apply le_bind; [apply (m_plus _ _ HK)|]. intros; apply le_refl.
  Qed.
  Lemma finish_mono n f : le (finish K F n f) (finish K' F n f).
  Proof.
    unfold finish. apply le_bind.
    - destruct (cross f) as [|[l i] [|]]; try apply le_refl. apply le_bind; [apply (oadj_mono K K' HK)|]. intros ad. apply le_bind; [apply le_refl|]. intros sy.
      apply le_bind; [|intros; apply le_refl]. destruct sy.
      + unfold symbolic_one. apply le_bind; [apply le_refl|]. intros r. apply le_bind; [apply (m_scal _ _ HK)|]. intros x. apply le_bind; [apply (oadj_mono K K' HK)|].
        intros a. apply le_bind; [apply (m_times _ _ HK)|]. intros p. apply le_bind; [apply (m_scal _ _ HK)|]. intros q. apply le_bind; [apply (m_scal _ _ HK)|]. intros; apply le_refl.
      + unfold numeric_one. apply le_bind; [apply le_refl|]. intros r. apply le_bind; [apply (m_scal _ _ HK)|]. intros x. apply le_bind; [apply addscal_mono|]. intros nl.
        apply le_bind; [apply (oadj_mono K K' HK)|]. intros a. apply le_bind; [apply (m_scal _ _ HK)|]. intros h. apply le_bind; [apply (m_times _ _ HK)|]. intros p.
        apply le_bind; [apply (expand_mono K K' HK); reflexivity|]. intros; apply le_refl.
    - intros cs. apply le_bind; [apply osum_mono|]. intros p. apply le_bind; [apply osum_mono|]. intros q. apply le_bind; [apply warns_mono|]. intros w.
      apply le_bind; [|intros; apply le_refl]. destruct p as [x|c]; [|apply le_refl]. apply le_bind; [apply (m_scal _ _ HK)|]. intros y.
      apply le_bind; [apply (expand_mono K K' HK); reflexivity|]. intros; apply le_refl.
  Qed.
  Lemma nf_mono n L sym : le (liouvillian_normal_form solt slt K sord F n L sym) (liouvillian_normal_form solt slt K' sord' F n L sym).
  Proof.
    unfold liouvillian_normal_form. apply le_bind; [apply sexpand_mono; [exact HK|exact Hord|reflexivity]|]. intros L'. destruct L'; try apply le_refl.
    apply le_bind; [apply le_foldM; intros; apply classify_mono|]. intros f. apply finish_mono.
  Qed.
End Mono.
