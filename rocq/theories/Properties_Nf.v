(** C39 liouvillian_normal_form. [generator h cs rho] is
    -i[h, rho] + sum over c in cs of c rho c* - (c*c rho + rho c*c)/2 (SupSpec); the
    returned Hamiltonian may be the number 0. [one_cross l c a b]: exactly one summand is
    a multiple c of SPre(a)*SPost(b), the others are multiples of SPre(x) and SPost(x)
    (NfSpec). *)
From Coq Require Import QArith Qcanon.
From Verif Require Import Prelude ListFacts SortModel SortProofs BinModel AlgSpec CAlg CInst CSimpProofs5 OpModel OpSpec OpForms OpProofs1 OpProofs2 OpProofs3 OpFuel OpOrder OpLocal OpSx OpRun.
From Verif Require Import SupModel SupSpec SupProofs1 SupProofs2 SupProofs3 SupOrder SupProofs4 SupProofs5 SupLocal SupInst Properties_Op1 Properties_Sup1 Properties_Sup2 NfModel NfSpec NfProofs NfLocal.
Local Open Scope nat_scope.

Section Nf.
  Context {S : scalars} {dim : nat -> option nat} (T : sinterp S dim).
  Context (olt : op S -> op S -> bool) (slt : list nat -> list nat -> bool) (solt : sop S -> sop S -> bool) (F : coeff_ops (S:=S)).
  Local Notation code := (code dim olt slt).
  Local Notation checked := (checked dim olt slt).
  Local Notation real := (real_sorder solt slt).
  Local Notation careful := (careful_sorder solt slt).
  Local Notation legal := (legal T).
  Local Notation value := (value T).
  Local Notation slegal := (slegal T).
  Local Notation svalue := (svalue T).
  Local Notation arg := (arg (S:=S)).
  Local Notation nf := (liouvillian_normal_form solt slt).
  Local Notation sexpand := (sexpand solt slt).
  Add Ring Kp : (kring T).

  (** what has to hold of the summands of the expanded Liouvillian: one term
      c SPre(a)*SPost(b) with b the adjoint of a and c real. The coefficient must be
      written unless the caller asks for a symbolic result, see below. *)
  Definition one_channel (K : ocreators S) (l : list (sop S)) (sym : bool) : Prop :=
    exists c a b ad, one_cross l c a b /\ oeqb a a = true /\ oadj K a = Ok ad /\ oeqb b ad = true
      /\ (sym = true \/ c <> None) /\ kconj (ev (r:=T) (written c)) = ev (written c).

  (** ** The same dynamics *)
  (** If no warning is printed, the Hamiltonian is self-adjoint and generates, with the one
      collapse operator, the given Liouvillian *)
  Theorem C39_no_warning_value n m L sym l r : coeff_laws T F -> slegal L -> sexpand (checked n) careful m L = Ok (SPlus l) ->
    one_channel (checked n) l sym -> nf (checked n) careful F m L sym = Ok r -> nf_warned r = false ->
    nf (code n) real F m L sym = Ok r
    /\ exists x, nf_Ls r = [x] /\ legal x /\ arg_legal T (nf_H r) /\ star (arg_value T (nf_H r)) = arg_value T (nf_H r)
       /\ forall rho, svalue L rho = generator (arg_value T (nf_H r)) [value x] rho.
  Proof.
    intros HF HL HE (c & a & b & ad & Hc & Ha & Had & Hb & Hs & Hr) H Hw. split.
    { exact (le_ok _ _ _ (nf_mono solt slt _ _ (checked_le (dim:=dim) olt slt n) _ _ (careful_le slt solt) F m L sym) H). }
    destruct (nf_parts T solt slt _ (checked_sound T olt slt n) _ (careful_sorder_ok solt slt) F HF m L sym l c a b ad r HL HE Hc Ha Had Hb Hs Hr H)
      as (x & p & q & k & y & El & Lx & Lh & Vx & Hy & Vh & V & W). destruct (W Hw) as [B Hst].
    exists x. split; [exact El|]. split; [exact Lx|]. split; [exact Lh|]. split; [exact Hst|]. intros rho. rewrite V, Vh, Vx. now apply balance_generator.
  Qed.
  (** With or without a warning: if the trace of L rho vanishes for all rho, then L is
      reproduced *)
  Theorem C39_trace_free_value (W : tracing T) n m L sym l r : coeff_laws T F -> slegal L -> trace_free W (svalue L) ->
    sexpand (checked n) careful m L = Ok (SPlus l) -> one_channel (checked n) l sym -> nf (checked n) careful F m L sym = Ok r ->
    nf (code n) real F m L sym = Ok r
    /\ exists x, nf_Ls r = [x] /\ legal x /\ arg_legal T (nf_H r) /\ forall rho, svalue L rho = generator (arg_value T (nf_H r)) [value x] rho.
  Proof.
    intros HF HL Ht HE (c & a & b & ad & Hc & Ha & Had & Hb & Hs & Hr) H. split.
    { exact (le_ok _ _ _ (nf_mono solt slt _ _ (checked_le (dim:=dim) olt slt n) _ _ (careful_le slt solt) F m L sym) H). }
    destruct (nf_parts T solt slt _ (checked_sound T olt slt n) _ (careful_sorder_ok solt slt) F HF m L sym l c a b ad r HL HE Hc Ha Had Hb Hs Hr H)
      as (x & p & q & k & y & El & Lx & Lh & Vx & Hy & Vh & V & _).
    exists x. split; [exact El|]. split; [exact Lx|]. split; [exact Lh|]. intros rho. rewrite V, Vh, Vx. apply balance_generator; [exact Hy|].
    apply (trace_balance T W). intros rho'. rewrite <- V. apply Ht.
  Qed.
  (** the zero map *)
  Theorem C39_zero_value n m L sym : slegal L -> sexpand (checked n) careful m L = Ok SZero ->
    nf (code n) real F m L sym = Ok (NF (AOp OZero) [] false) /\ forall rho, svalue L rho = generator (arg_value T (AOp OZero)) [] rho.
  Proof.
    intros HL HE. split.
    - unfold liouvillian_normal_form. destruct (C40_expand_value T olt slt solt n m L SZero HL HE) as [-> _]. reflexivity.
    - intros rho. destruct (C40_expand_value T olt slt solt n m L SZero HL HE) as [_ [_ V]]. rewrite <- V. cbn. unfold generator. cbn [fold_right].
      rewrite (amul_0l T rho), (amul_0r T rho). repeat rewrite ?smul_zero, ?aadd_0r. reflexivity.
  Qed.
  (** no collapse operators, if the caller asks for a symbolic result *)
  Theorem C39_hamiltonian_value n m L l r : coeff_laws T F -> slegal L -> sexpand (checked n) careful m L = Ok (SPlus l) -> no_cross l ->
    nf (checked n) careful F m L true = Ok r -> nf_warned r = false ->
    nf (code n) real F m L true = Ok r
    /\ nf_Ls r = [] /\ arg_legal T (nf_H r) /\ star (arg_value T (nf_H r)) = arg_value T (nf_H r)
    /\ forall rho, svalue L rho = generator (arg_value T (nf_H r)) [] rho.
  Proof.
    intros HF HL HE Hc H Hw. pose proof (checked_sound T olt slt n) as HK. split.
    { exact (le_ok _ _ _ (nf_mono solt slt _ _ (checked_le (dim:=dim) olt slt n) _ _ (careful_le slt solt) F m L true) H). }
    destruct (sexpand_sound T solt slt _ HK _ (careful_sorder_ok solt slt) m L _ HL HE) as [Ll Vl]. apply slegal_plus in Ll.
    unfold liouvillian_normal_form in H. rewrite HE in H. cbn [bind] in H. step H f Ef.
    destruct (classify_none T _ HK F l true f Hc Ll Ef) as (Lp & Lq & Hy & Hcr & V).
    unfold finish in H. rewrite Hcr, Hy in H. cbn [bind fst snd] in H. rewrite !app_nil_r in H. step H p Ep. step H q Eq0. step H w Ew. step H h Eh. injection H as <-.
    cbn [nf_Ls nf_H nf_warned] in *. subst w. split; [reflexivity|].
    destruct (osum_sound T _ HK _ p Lp Ep) as [Lpp Vpp]. destruct (osum_sound T _ HK _ q Lq Eq0) as [Lqq Vqq].
    destruct (no_warning T _ HK p q Lpp Lqq Ew) as [B1 B2].
    assert (arg_legal T h /\ arg_value T h = smul iu (arg_value T p)) as [Lh Vh].
    { destruct p as [x|z].
      - step Eh x' Ex. step Eh h' Eh'. injection Eh as <-. destruct (OpProofs2.s_scal T _ HK sI x x' Lpp Ex) as [L1 V1].
        destruct (expand_sound T _ HK m x' h' L1 Eh') as [L2 V2]. split; [exact L2|]. cbn [arg_value]. now rewrite V2, V1, (ev_I _ T).
      - exfalso. clear - Ew. unfold warns in Ew. step Ew s Es. destruct (negb (is_zero_arg s)); discriminate. }
    split; [exact Lh|]. split; [rewrite Vh, star_smul, iu_conj, B2; unfold aopp; rewrite <- smul_mul; f_equal; ring|].
    intros rho. rewrite <- Vl. cbn [SupSpec.svalue]. rewrite V, <- Vpp, <- Vqq, Vh. unfold generator. cbn [fold_right]. rewrite aadd_0r.
    assert (arg_value T q = aopp (arg_value T p)) as ->.
    { transitivity (aadd (aopp (arg_value T p)) (aadd (arg_value T p) (arg_value T q))); [now rewrite aadd_assoc, aopp_l, aadd_0|]. rewrite B1. apply aadd_0r. }
    rewrite smul_amul_l, smul_amul_r, smul_addr, <- !smul_mul, aopp_mul_r. unfold aopp. f_equal.
    - transitivity (smul k1 (amul (arg_value T p) rho)); [symmetry; apply smul_1|]. f_equal. pose proof (iu_sq T) as E. transitivity (kopp (kmul (@iu T) iu)); [rewrite E; ring|ring].
    - f_equal. pose proof (iu_sq T) as E. transitivity (kmul (@iu T) iu); [now rewrite E|ring].
  Qed.

  (** ** Systems on one local space: the code as it is *)
  Theorem C39_local_value l0 n m L sym l r : good_orders olt slt -> two_sided (local_to l0) L -> coeff_laws T F -> slegal L ->
    sexpand (code n) real m L = Ok (SPlus l) -> one_channel (code n) l sym -> nf (code n) real F m L sym = Ok r -> nf_warned r = false ->
    exists x, nf_Ls r = [x] /\ legal x /\ arg_legal T (nf_H r) /\ star (arg_value T (nf_H r)) = arg_value T (nf_H r)
      /\ forall rho, svalue L rho = generator (arg_value T (nf_H r)) [value x] rho.
  Proof.
    intros Ho Hts HF HL HE Hc H Hw. pose proof (local_agree l0 dim olt slt Ho n) as HA. destruct (sexpand_agree l0 solt slt _ _ HA m L Hts) as [EE GE].
    pose proof (nf_agree l0 solt slt _ _ HA F m L sym Hts) as EN.
    assert (one_channel (checked n) l sym) as Hc'.
    { destruct Hc as (c & a & b & ad & Hc & Ha & Had & Hb & Hs & Hr). exists c, a, b, ad. repeat split; try assumption.
      fold (code n) (checked n) in *. rewrite HE in EE. specialize (GE _ EE).
      assert (local_to l0 a) as Hl.
      { destruct Hc as (l1 & s & l2 & -> & _ & _ & Hm). inversion GE as [| | | | |l' Hl'|]; subst. specialize (Hl' s (in_elt s l1 l2)).
        destruct c as [c|]; cbn in Hm; [subst s|destruct Hm as [-> _]]; [inversion Hl' as [| | | |c' t' Ht'| |]; subst; now inversion Ht'|now inversion Hl']. }
      destruct (oadj_agree l0 _ _ HA a Hl) as [-> _]. exact Had. }
    fold (checked n) (code n) in *. rewrite <- EN in H. rewrite <- EE in HE.
    destruct (C39_no_warning_value n m L sym l r HF HL HE Hc' H Hw) as [_ G]. exact G.
  Qed.
  (** The Liouvillian of a system on one local space with any number of collapse
      operators, brought to normal form: the same dynamics with one collapse operator *)
  Theorem C39_equivalent_system (W : tracing T) l0 n m h (cs : list arg) L sym l r : good_orders olt slt -> coeff_laws T F ->
    local_to l0 h -> Forall (fun c => match c with AOp c => local_to l0 c | ANum _ => True end) cs -> legal h -> Forall (arg_legal T) cs ->
    liouvillian solt slt (code n) real (2 + m) h cs = Ok L -> sexpand (code n) real (2 + m) L = Ok (SPlus l) -> one_channel (code n) l sym ->
    nf (code n) real F (2 + m) L sym = Ok r ->
    exists x, nf_Ls r = [x] /\ legal x /\ arg_legal T (nf_H r)
      /\ forall rho, generator (arg_value T (nf_H r)) [value x] rho = generator (value h) (map (arg_value T) cs) rho.
  Proof.
    intros Ho HF Hlh Hlc Hh Hcs HLi HE Hc H. pose proof (local_agree l0 dim olt slt Ho n) as HA.
    destruct (C37_local_collapse_value T olt slt solt n m h cs L Ho) as [LL VL]; try assumption.
    { apply (Forall_impl _ (P:=fun c => match c with AOp c => local_to l0 c | ANum _ => True end)); [|exact Hlc]. intros [c|c]; [|trivial]. intros G. now exists l0. }
    assert (two_sided (local_to l0) L) as Hts.
    { apply (ts_liouvillian (local_to l0) solt slt (code n) m h cs); try assumption.
      - intros x Hx y Hy. destruct (oadj_agree l0 _ _ HA x Hx) as [Ex Gx]. apply Gx. rewrite Ex. exact Hy.
      - intros x y z Hx Hy Hz. destruct (a_times l0 _ _ HA [x; y]) as [Ex Gx]; [constructor; [exact Hx|constructor; [exact Hy|constructor]]|]. apply Gx. rewrite Ex. exact Hz. }
    destruct (sexpand_agree l0 solt slt _ _ HA (2 + m) L Hts) as [EE GE]. pose proof (nf_agree l0 solt slt _ _ HA F (2 + m) L sym Hts) as EN.
    fold (checked n) (code n) in *.
    assert (one_channel (checked n) l sym) as Hc'.
    { destruct Hc as (c & a & b & ad & Hc & Ha & Had & Hb & Hs & Hr). exists c, a, b, ad. repeat split; try assumption.
      rewrite HE in EE. specialize (GE _ EE).
      assert (local_to l0 a) as Hl.
      { destruct Hc as (l1 & s & l2 & -> & _ & _ & Hm). inversion GE as [| | | | |l' Hl'|]; subst. specialize (Hl' s (in_elt s l1 l2)).
        destruct c as [c|]; cbn in Hm; [subst s|destruct Hm as [-> _]]; [inversion Hl' as [| | | |c' t' Ht'| |]; subst; now inversion Ht'|now inversion Hl']. }
      destruct (oadj_agree l0 _ _ HA a Hl) as [E _]. fold (checked n) (code n) in E. now rewrite E. }
    rewrite <- EN in H. rewrite <- EE in HE.
    assert (trace_free W (svalue L)) as Ht. { intros rho. rewrite VL. apply generator_trace; [apply (tr_add T W)|apply (tr_smul T W)|apply (tr_cyclic T W)]. }
    destruct (C39_trace_free_value W n (2 + m) L sym l r HF LL Ht HE Hc' H) as [_ (x & El & Lx & Lh & V)].
    exists x. repeat split; try assumption. intros rho. now rewrite <- V, VL.
  Qed.

  (** ** What fails *)
  (** Two terms SPre(a)*SPost(b) with different a: never a result (the operators are to be
      sorted, but cannot be compared) *)
  Lemma outer_values a b c (d : list (op S * list (op S * coeff (S:=S)))) v : (exists p, In p d /\ value (fst p) = v) \/ value a = v ->
    exists p, In p (outer_set a b c d) /\ value (fst p) = v.
  Proof.
    induction d as [|[a' i] d IH]; cbn [outer_set].
    - intros [(p & [] & _)|E]. exists (a, [(b, c)]). split; [now left|exact E].
    - intros H. destruct (oeqb a' a) eqn:E.
      + destruct H as [(p & [<- |Hp] & Hv)|Hv]; [exists (a', inner_set b c i); split; [now left|exact Hv]|exists p; split; [now right|exact Hv]|].
        exists (a', inner_set b c i). split; [now left|]. cbn [fst]. now rewrite (oeqb_value T _ _ E).
      + destruct H as [(p & [<- |Hp] & Hv)|Hv].
        * exists (a', i). split; [now left|exact Hv].
        * destruct IH as (p' & Hp' & Hv'); [left; now exists p|]. exists p'. split; [now right|exact Hv'].
        * destruct IH as (p' & Hp' & Hv'); [now right|]. exists p'. split; [now right|exact Hv'].
  Qed.
  Lemma classify_keys K f f' s v : classify K F f s = Ok f' -> (exists p, In p (cross f) /\ value (fst p) = v) \/ (exists c a b, cross_term s c a b /\ value a = v) ->
    exists p, In p (cross f') /\ value (fst p) = v.
  Proof.
    intros H G. unfold classify in H. destruct (split_coeff s) as [c t] eqn:Es.
    assert (forall c' a b, cross_term s c' a b -> t = STimes [SPre a; SPost b]) as Hct.
    { intros c' a b Hm. apply split_multiple in Hm. rewrite Es in Hm. now injection Hm. }
    destruct t as [| | |a|a| |l|l|t]; try discriminate.
    - step H x Ex. injection H as <-. destruct G as [G|(c' & a' & b' & Hm & _)]; [exact G|now specialize (Hct _ _ _ Hm)].
    - step H x Ex. injection H as <-. destruct G as [G|(c' & a' & b' & Hm & _)]; [exact G|now specialize (Hct _ _ _ Hm)].
    - destruct l as [|[] [|[] [|]]]; try discriminate. step H cs Ec. injection H as <-. cbn [cross]. apply outer_values.
      destruct G as [G|(c' & a' & b' & Hm & Hv)]; [now left|right]. specialize (Hct _ _ _ Hm). injection Hct as -> ->. exact Hv.
  Qed.
  Lemma fold_keys K l : forall f f' v, foldM (classify K F) f l = Ok f' ->
    (exists p, In p (cross f) /\ value (fst p) = v) \/ (exists s c a b, In s l /\ cross_term s c a b /\ value a = v) ->
    exists p, In p (cross f') /\ value (fst p) = v.
  Proof.
    induction l as [|s l IH]; intros f f' v H G; cbn [foldM] in H.
    - injection H as <-. destruct G as [G|(s & c & a & b & [] & _)]. exact G.
    - step H g Eg. apply (IH g f' v H). destruct G as [G|(s' & c & a & b & [<- |Hs] & Hm & Hv)].
      + left. apply (classify_keys K f g s v Eg). now left.
      + left. apply (classify_keys K f g s v Eg). right. now exists c, a, b.
      + right. now exists s', c, a, b.
  Qed.
  Theorem C39_two_channels_refuted n m L sym l s c a b s' c' a' b' : sexpand (code n) real m L = Ok (SPlus l) ->
    In s l -> cross_term s c a b -> In s' l -> cross_term s' c' a' b' -> value a <> value a' ->
    forall r, nf (code n) real F m L sym <> Ok r.
  Proof.
    intros HE Hs Hm Hs' Hm' Hne r H. unfold liouvillian_normal_form in H. rewrite HE in H. cbn [bind] in H. step H f Ef.
    destruct (fold_keys _ l _ f (value a) Ef) as (p & Hp & Vp); [right; now exists s, c, a, b|].
    destruct (fold_keys _ l _ f (value a') Ef) as (q & Hq & Vq); [right; now exists s', c', a', b'|].
    unfold finish in H. destruct (cross f) as [|[u i] [|v d]]; [destruct Hp| |discriminate H].
    destruct Hp as [<- |[]], Hq as [<- |[]]. apply Hne. now rewrite <- Vp, <- Vq.
  Qed.
  (** No collapse operator, and no symbolic result asked for: never a result (numpy
      cannot diagonalise the empty matrix) *)
  Theorem C39_hamiltonian_refuted n m L l : slegal L -> sexpand (code n) real m L = Ok (SPlus l) -> no_cross l ->
    forall r, nf (code n) real F m L false <> Ok r.
  Proof.
    intros HL HE Hc r H. unfold liouvillian_normal_form in H. rewrite HE in H. cbn [bind] in H. step H f Ef.
    assert (forall l f f', no_cross l -> foldM (classify (code n) F) f l = Ok f' -> cross f' = cross f /\ symb f' = symb f) as G.
    { clear. induction l as [|s l IH]; intros f f' Hc H; cbn [foldM] in H; [injection H as <-; now split|]. step H g Eg.
      destruct (IH g f' (Forall_inv_tail Hc) H) as [-> ->]. destruct (Forall_inv Hc) as [(c & a & Hm)|(c & a & Hm)]; unfold classify in Eg;
        rewrite (split_multiple _ _ _ Hm) in Eg; step Eg e Ee; injection Eg as <-; now split. }
    destruct (G l _ f Hc Ef) as [E1 E2]. unfold finish in H. rewrite E1, E2 in H. discriminate H.
  Qed.
  (** A coefficient 1 that is not written counts as the imaginary unit in the
      numerical routine: the collapse operator that is returned does nothing *)
  Theorem C39_unit_rate_refuted n m L l a b ad r : coeff_laws T F -> slegal L -> sexpand (checked n) careful m L = Ok (SPlus l) ->
    one_cross l None a b -> oeqb a a = true -> oadj (checked n) a = Ok ad -> oeqb b ad = true ->
    nf (checked n) careful F m L false = Ok r ->
    nf (code n) real F m L false = Ok r
    /\ exists x, nf_Ls r = [x] /\ legal x /\ (forall rho, dissipator (M:=T) (value x) rho = a0)
       /\ forall rho, generator (arg_value T (nf_H r)) (map value (nf_Ls r)) rho = generator (arg_value T (nf_H r)) [] rho.
  Proof.
    intros HF HL HE Hc Haa Had Hb H. pose proof (checked_sound T olt slt n) as HK. split.
    { exact (le_ok _ _ _ (nf_mono solt slt _ _ (checked_le (dim:=dim) olt slt n) _ _ (careful_le slt solt) F m L false) H). }
    destruct (sexpand_sound T solt slt _ HK _ (careful_sorder_ok solt slt) m L _ HL HE) as [Ll Vl]. apply slegal_plus in Ll.
    unfold liouvillian_normal_form in H. rewrite HE in H. cbn [bind] in H. step H f Ef.
    destruct (classify_one T _ HK F HF l None a b false f Hc Ll Ef) as (Lp & Lq & La & Lb & _ & (c' & Hst & Hcr) & V).
    assert (symb f = false) as Hsy.
    { destruct Hc as (l1 & s & l2 & -> & N1 & N2 & Hm). apply foldM_app in Ef. destruct Ef as [f1 [E1 Ef]]. cbn [foldM] in Ef. step Ef f2 E2.
      apply Forall_app in Ll. destruct Ll as [L1 L2]. destruct (classify_plain T _ HK F l1 _ _ N1 L1 E1) as (_ & Y1 & _).
      destruct (classify_plain T _ HK F l2 _ _ N2 (Forall_inv_tail L2) Ef) as (_ & Y3 & _). rewrite Y3. unfold classify in E2. rewrite (split_multiple _ _ _ Hm) in E2. injection E2 as <-. exact Y1. }
    destruct c' as [c'|]; [destruct Hst|]. unfold finish in H. rewrite Hcr, Hsy in H. step H cs Ecs. step Ecs ad' Ead.
    replace ad' with ad in * by (rewrite Had in Ead; congruence). clear Ead. rewrite (oeqb_lookup a b None ad Haa Hb) in Ecs. cbn [check_real bind coeff_complex] in Ecs.
    step Ecs xs Exs. injection Ecs as <-. cbn [fst snd] in H. step H p Ep. step H q Eq0. step H w Ew. step H h Eh. injection H as <-. cbn [nf_Ls nf_H].
    destruct xs as [x sd]. destruct (numeric_one_sound T _ HK F HF m a _ x sd La Exs) as (Lx & Lsd & Vsd & y & Vx & Hy). cbn [fst].
    assert (ev (r:=T) (re (S:=S) sI) = k0) as E0.
    { unfold re. rewrite (ev_div2 _ T), (ev_add _ T), (ev_conj _ T), (ev_I _ T), iu_conj. ring. }
    rewrite E0 in Hy.
    assert (forall rho, dissipator (M:=T) (value x) rho = a0) as D.
    { intros rho. unfold dissipator. rewrite Vx, star_smul. repeat rewrite ?smul_amul_l, ?smul_amul_r. rewrite <- !smul_mul.
      replace (kmul (kconj y) y) with (kmul y (kconj y)) by ring. rewrite Hy, !smul_0. repeat rewrite ?smul_zero, ?aadd_0r. reflexivity. }
    exists x. split; [reflexivity|]. split; [exact Lx|]. split; [exact D|]. intros rho. unfold generator. cbn [map fold_right]. now rewrite D, aadd_0.
  Qed.
  (** Anything that does not expand to a sum or to zero is refused, also a single term *)
  Theorem C39_single_term n m L L' sym : sexpand (code n) real m L = Ok L' -> (forall l, L' <> SPlus l) -> L' <> SZero ->
    nf (code n) real F m L sym = Err BadLiouvillianError.
  Proof. intros HE N1 N2. unfold liouvillian_normal_form. rewrite HE. cbn [bind]. destruct L'; try reflexivity; [now elim N2|now elim (N1 l)]. Qed.
  (** so is a sum with a term of another form *)
  Theorem C39_other_terms n m L l sym s : sexpand (code n) real m L = Ok (SPlus l) -> In s l -> ~ pre_term s -> ~ post_term s ->
    (forall c a b, ~ cross_term s c a b) -> forall r, nf (code n) real F m L sym <> Ok r.
  Proof.
    intros HE Hs N1 N2 N3 r H. unfold liouvillian_normal_form in H. rewrite HE in H. cbn [bind] in H. step H f Ef.
    apply in_split in Hs. destruct Hs as (l1 & l2 & ->). apply foldM_app in Ef. destruct Ef as [f1 [_ Ef]]. cbn [foldM] in Ef. step Ef f2 E2. unfold classify in E2.
    destruct (split_coeff s) as [c t] eqn:Es.
    assert (multiple_of s c t) as Hm.
    { destruct s; cbn in Es; injection Es as <- <-; try (split; [reflexivity|discriminate]). reflexivity. }
    destruct t as [| | |a|a| |l|l|t]; try discriminate; [apply N1; now exists c, a|apply N2; now exists c, a|].
    destruct l as [|[] [|[] [|]]]; try discriminate. exact (N3 _ _ _ Hm).
  Qed.
End Nf.

(** ** Examples: a two-level system *)
Definition gF : coeff_ops (S:=Gs) :=
  let table := fun c : Gs => if gq_eqb c (gnum 4) then Ok (gnum 2) else if gq_eqb c (gnum 1) then Ok (gnum 1) else if gq_eqb c (gnum 0) then Ok (gnum 0) else Err Unmodelled in
  {| to_complex := fun _ => Ok tt; csimp := fun c => c; root := table; nroot := table |}.
Lemma gF_laws : coeff_laws qubit_s gF.
Proof.
  assert (forall (c r : gq), (if gq_eqb c (gnum 4) then Ok (gnum 2) else if gq_eqb c (gnum 1) then Ok (gnum 1) else if gq_eqb c (gnum 0) then Ok (gnum 0) else Err Unmodelled) = Ok r ->
    qmul r (qconj r) = c) as G.
  { intros c r H. destruct (gq_eqb c (gnum 4)) eqn:E4; [apply gq_eqb_eq in E4; subst c; injection H as <-; apply gq_eqb_eq; vm_compute; reflexivity|].
    destruct (gq_eqb c (gnum 1)) eqn:E1; [apply gq_eqb_eq in E1; subst c; injection H as <-; apply gq_eqb_eq; vm_compute; reflexivity|].
    destruct (gq_eqb c (gnum 0)) eqn:E0; [apply gq_eqb_eq in E0; subst c; injection H as <-; apply gq_eqb_eq; vm_compute; reflexivity|discriminate]. }
  constructor; [reflexivity|exact G|exact G].
Qed.
Definition ex_H : op Gs := OScal (gnum 3) (gsig 1 1).
(** a decaying level with a coherent drive: the collapse operator is 2 |0><1| + 5 *)
Definition ex_drive : list (arg (S:=Gs)) := [AOp (OPlus [OScal (gnum 5) OOne; OScal (gnum 2) (gsig 0 1)])].
Definition ex_L (cs : list (arg (S:=Gs))) : res (sop Gs) := liouvillian gsolt xslt (gcode 12) (real_sorder gsolt xslt) 12 ex_H cs.
Definition ex_exp (cs : list (arg (S:=Gs))) : res (sop Gs) := do L <- ex_L cs; sexpand gsolt xslt (gcode 12) (real_sorder gsolt xslt) 12 L.
Definition ex_nf (cs : list (arg (S:=Gs))) (sym : bool) : res (normal_form (S:=Gs)) :=
  do L <- ex_L cs; liouvillian_normal_form gsolt xslt (gcode 12) (real_sorder gsolt xslt) gF 12 L sym.
Definition ghalf (z : Z) : Gs := Gq (qz z / qn 2)%Qc 0.
Definition gi (z : Z) : Gs := Gq 0 (qz z).
Definition is_nf (r : res (normal_form (S:=Gs))) (h : op Gs) (ls : list (op Gs)) (w : bool) : bool :=
  match r with
  | Ok (NF (AOp h') ls' w') => oeqb h' h && (length ls =? length ls')%nat && forallb (fun p => oeqb (fst p) (snd p)) (combine ls' ls) && Bool.eqb w w'
  | _ => false
  end.
(** the drive goes into the Hamiltonian, the collapse operator becomes 2 |0><1| *)
Example C39_ex_drive :
  is_nf (ex_nf ex_drive false) (OPlus [OScal (gnum 3) (gsig 1 1); OScal (gi 5) (gsig 0 1); OScal (gi (-5)) (gsig 1 0)]) [OScal (gnum 2) (gsig 0 1)] false = true
  /\ is_nf (ex_nf ex_drive true) (OPlus [OScal (gnum 3) (gsig 1 1); OScal (gi 5) (gsig 0 1); OScal (gi (-5)) (gsig 1 0)]) [OScal (gnum 2) (gsig 0 1)] false = true.
Proof. split; vm_compute; reflexivity. Qed.
(** the hypotheses of C39_equivalent_system *)
Example C39_ex_hypotheses : exists L l,
  good_orders (fun _ _ : op Gs => false) xslt /\ local_to (S:=Gs) 0 ex_H
  /\ Forall (fun c => match c with AOp c => local_to (S:=Gs) 0 c | ANum _ => True end) ex_drive /\ legal qubit_s ex_H /\ Forall (arg_legal qubit_s) ex_drive
  /\ liouvillian gsolt xslt (gcode 12) (real_sorder gsolt xslt) 12 ex_H ex_drive = Ok L
  /\ sexpand gsolt xslt (gcode 12) (real_sorder gsolt xslt) 12 L = Ok (SPlus l)
  /\ one_channel qubit_s (gcode 12) l false /\ inhabited (tracing qubit_s).
Proof.
  destruct (ex_L ex_drive) as [L|] eqn:E; [|vm_compute in E; discriminate].
  assert (ex_exp ex_drive = sexpand gsolt xslt (gcode 12) (real_sorder gsolt xslt) 12 L) as E' by (unfold ex_exp; now rewrite E).
  destruct (ex_exp ex_drive) as [L'|] eqn:E2; [|vm_compute in E2; discriminate].
  assert (exists s1 s2 s3 s4 c s5 s6, L' = SPlus [s1; s2; s3; s4; SScal c (STimes [SPre (gsig 0 1); SPost (gsig 1 0)]); s5; s6]
    /\ Forall (fun s => pre_term s \/ post_term s) [s1; s2; s3; s4; s5; s6] /\ c = gnum 4) as (s1 & s2 & s3 & s4 & c & s5 & s6 & EL & HN & Ec).
  { vm_compute in E2. injection E2 as <-. do 7 eexists. split; [reflexivity|]. split.
    - repeat (constructor; [first [left; eexists (Some _), _; reflexivity|right; eexists (Some _), _; reflexivity]|]). constructor.
    - apply gq_eqb_eq. vm_compute. reflexivity. }
  subst L'. exists L, [s1; s2; s3; s4; SScal c (STimes [SPre (gsig 0 1); SPost (gsig 1 0)]); s5; s6].
  split; [exact good_g|]. split; [cbn; auto|]. split; [constructor; [cbn; auto|constructor]|]. split; [cbn; auto|].
  split; [constructor; [cbn; repeat split; auto|constructor]|]. split; [exact E|]. split; [now rewrite <- E'|]. split; [|exact (inhabits qubit_tr)].
  exists (Some c), (gsig 0 1), (gsig 1 0), (gsig 1 0). split.
  { exists [s1; s2; s3; s4], (SScal c (STimes [SPre (gsig 0 1); SPost (gsig 1 0)])), [s5; s6]. split; [reflexivity|].
    rewrite !Forall_cons_iff in HN. destruct HN as (N1 & N2 & N3 & N4 & N5 & N6 & _).
    split; [repeat (constructor; [assumption|]); constructor|]. split; [repeat (constructor; [assumption|]); constructor|reflexivity]. }
  split; [reflexivity|]. split; [reflexivity|]. split; [reflexivity|]. split; [right; discriminate|]. subst c. apply gq_eqb_eq. vm_compute. reflexivity.
Qed.
(** the trivial cases *)
Example C39_ex_zero : exists L, sexpand gsolt xslt (gchecked 9) (careful_sorder gsolt xslt) 9 L = Ok (@SZero Gs).
Proof. exists SZero. reflexivity. Qed.
Example C39_ex_hamiltonian :
  is_nf (liouvillian_normal_form gsolt xslt (gchecked 12) (careful_sorder gsolt xslt) gF 12
           (SPlus [SScal (gi (-3)) (SPre (gsig 1 1)); SScal (gi 3) (SPost (gsig 1 1))]) true) (OScal (gnum 3) (gsig 1 1)) [] false = true
  /\ no_cross (S:=Gs) [SScal (gi (-3)) (SPre (gsig 1 1)); SScal (gi 3) (SPost (gsig 1 1))].
Proof.
  split; [vm_compute; reflexivity|]. constructor; [left; exists (Some (gi (-3))), (gsig 1 1); reflexivity|].
  constructor; [right; exists (Some (gi 3)), (gsig 1 1); reflexivity|constructor].
Qed.
(** the failures, on Liouvillians made by [liouvillian] *)
Example C39_ex_failures :
  ex_nf [AOp (gsig 0 1); AOp (gsig 1 0)] true = Err TypeError
  /\ ex_nf [] false = Err PlainException
  /\ is_nf (ex_nf [] true) (OScal (gnum 3) (gsig 1 1)) [] false = true.
Proof. repeat split; vm_compute; reflexivity. Qed.
(** the decay at unit rate: the Hamiltonian comes out as (3 - i/2) |1><1| and the
    collapse operator as zero; with symbolic=True the result is right *)
Example C39_ex_unit_rate :
  is_nf (ex_nf [AOp (gsig 0 1)] false) (OScal (Gq (qz 3) (- (1) / qn 2))%Qc (gsig 1 1)) [OZero] true = true
  /\ is_nf (ex_nf [AOp (gsig 0 1)] true) (OScal (gnum 3) (gsig 1 1)) [gsig 0 1] false = true.
Proof. split; vm_compute; reflexivity. Qed.
(** Terms SPre(a)*SPost(b) with the same a and another b are dropped without a warning *)
Definition ex_dropped : sop Gs := SPlus [STimes [SPre (gsig 0 1); SPost (gsig 0 1)]; SScal (gi (-3)) (SPre (gsig 1 1)); SScal (gi 3) (SPost (gsig 1 1))].
Theorem C39_dropped_terms_refuted :
  exists r, liouvillian_normal_form gsolt xslt (gcode 12) (real_sorder gsolt xslt) gF 12 ex_dropped true = Ok r
    /\ nf_warned r = false /\ exists rho : q2, svalue qubit_s ex_dropped rho <> generator (M:=qubit_s) (arg_value qubit_s (nf_H r)) (map (value qubit_s) (nf_Ls r)) rho.
Proof.
  assert (is_nf (liouvillian_normal_form gsolt xslt (gcode 12) (real_sorder gsolt xslt) gF 12 ex_dropped true) (OScal (gnum 3) (gsig 1 1)) [OZero] false = true) as H by (vm_compute; reflexivity).
  destruct (liouvillian_normal_form _ _ _ _ _ _ _ _) as [[[h|] ls w]|]; try discriminate. cbn [is_nf] in H.
  rewrite !andb_true_iff in H. destruct H as [[[H1 H2] H3] H4]. apply eqb_prop in H4. subst w. exists (NF (AOp h) ls false). split; [reflexivity|]. split; [reflexivity|].
  destruct ls as [|x [|]]; try discriminate. cbn [combine forallb fst snd] in H3. rewrite andb_true_r in H3.
  exists (q2star (unit2 0 1)). cbn [nf_H nf_Ls arg_value map]. rewrite (oeqb_value qubit_s _ _ H1), (oeqb_value qubit_s _ _ H3). intros G.
  assert (q2_eqb (svalue qubit_s ex_dropped (q2star (unit2 0 1))) (generator (M:=qubit_s) (value qubit_s (OScal (gnum 3) (gsig 1 1))) [value qubit_s OZero] (q2star (unit2 0 1))) = false) as N
    by (vm_compute; reflexivity).
  rewrite G in N. assert (forall x, q2_eqb x x = true) as R.
  { intros z. unfold q2_eqb, gq_eqb. repeat match goal with |- context [Qc_eq_dec ?a ?a] => destruct (Qc_eq_dec a a) as [_|Fa]; [|now elim Fa] end. reflexivity. }
  rewrite R in N. discriminate N.
Qed.

Print Assumptions C39_no_warning_value.
Print Assumptions C39_trace_free_value.
Print Assumptions C39_zero_value.
Print Assumptions C39_hamiltonian_value.
Print Assumptions C39_local_value.
Print Assumptions C39_equivalent_system.
Print Assumptions C39_two_channels_refuted.
Print Assumptions C39_hamiltonian_refuted.
Print Assumptions C39_unit_rate_refuted.
Print Assumptions C39_single_term.
Print Assumptions C39_other_terms.
Print Assumptions C39_dropped_terms_refuted.
