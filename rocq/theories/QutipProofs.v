(** The conversion to QuTiP is right. *)
From Coq Require Import QArith Qcanon.
From Verif Require Import Prelude ListFacts CSimpProofs5 AlgSpec CAlg OpModel OpSpec OpProofs1 ConvModel ConvSpec QutipModel QutipSpec ConvProofs1 ConvProofs2 ConvProofs3.
Local Open Scope nat_scope.

Section Qutip.
Context {S : scalars} (r : reading S) (dim : nat -> option nat) (desc : bool).
Add Ring Kr : (kring r).
Local Notation op := (op S).
Local Notation mat := (mat r).
Local Notation meye := (meye r). Local Notation mzero := (mzero r).
Local Notation madd := (madd r). Local Notation mscale := (mscale r). Local Notation mmul := (mmul r).
Local Notation mherm := (mherm r). Local Notation meq := (meq r).
Local Notation levels := (levels dim). Local Notation size := (size dim).
Local Notation at_site := (at_site r dim). Local Notation mat_of := (mat_of r dim desc).
Local Notation smat := (smat r). Local Notation SMat := (SMat r). Local Notation SZero := (SZero r).
Local Notation stands := (stands r).

(** the spin operators of QuTiP need the decreasing order; QuTiP takes square roots of real numbers *)
Definition desc_or_nospin (a : atom S) : Prop := match a with AJz _ | AJp _ => desc = true | AJm _ => desc = true /\ (forall q, kconj (ksqrt (r:=r) q) = ksqrt q) | _ => True end.
Lemma q_element_ok a n M : q_local r a n = Ok M -> desc_or_nospin a -> meq n M (element r desc a n).
Proof.
  destruct a; cbn [q_local desc_or_nospin]; intros H Hs; try discriminate.
  - injection H as <-. intros i j Hi Hj. unfold q_create, ConvModel.mherm, q_destroy. cbn [element]. destruct (i =? j + 1) eqn:E; [|apply (kconj_0 r)]. apply Nat.eqb_eq in E. subst i. apply ksqrt_real.
  - injection H as <-. intros i j Hi Hj. reflexivity.
  - destruct ((j <? n) && (k <? n)); [|discriminate]. injection H as <-. intros p q Hp Hq. unfold ket_bra, basis_state. cbn [element].
    destruct (p =? j), (q =? k); cbn [andb]; rewrite ?kconj_1, ?(kconj_0 r); ring.
  - injection H as <-. intros i j Hi Hj. unfold q_jp, q_m. cbn [element]. unfold next_up, spin_m, spin_s. rewrite Hs. destruct (j =? i + 1); reflexivity.
  - injection H as <-. intros i j Hi Hj. destruct Hs as [Hs sqrt_real]. unfold q_jm, ConvModel.mherm, q_jp, q_m. cbn [element]. unfold next_up, spin_m, spin_s. rewrite Hs. destruct (i =? j + 1) eqn:E; [|apply (kconj_0 r)].
    apply Nat.eqb_eq in E. subst i. rewrite sqrt_real. f_equal. set (s := ((qn n - 1) / qn 2)%Qc).
    rewrite qn_add, qn_1.
    ring.
  - injection H as <-. intros i j Hi Hj. unfold q_jz, q_m. cbn [element]. unfold spin_m, spin_s. now rewrite Hs.
Qed.
Lemma q_plus_stands n v w F G u : stands n v F -> stands n w G -> q_plus r v w = Ok u -> stands n u (madd F G).
Proof.
  destruct v as [|a A], w as [|b B]; cbn [q_plus ConvProofs2.stands]; intros H1 H2 E.
  - injection E as <-. cbn [ConvProofs2.stands]. intros i j Hi Hj. unfold ConvModel.madd. rewrite <- (H1 i j Hi Hj), <- (H2 i j Hi Hj). unfold ConvModel.mzero. ring.
  - injection E as <-. destruct H2 as [-> H2]. split; [reflexivity|]. intros i j Hi Hj. unfold ConvModel.madd. rewrite <- (H1 i j Hi Hj), <- (H2 i j Hi Hj). unfold ConvModel.mzero. ring.
  - injection E as <-. destruct H1 as [-> H1]. split; [reflexivity|]. intros i j Hi Hj. unfold ConvModel.madd. rewrite <- (H1 i j Hi Hj), <- (H2 i j Hi Hj). unfold ConvModel.mzero. ring.
  - destruct H1 as [-> H1], H2 as [-> H2]. rewrite Nat.eqb_refl in E. injection E as <-. split; [reflexivity|]. now apply madd_eq.
Qed.
Lemma all_tensor h (M : mat) vs v : mapM (fun s => do d <- dimension1 dim s; Ok (SMat d M)) h = Ok vs -> s_tensor r vs = Ok v -> stands (size h) v (chain r dim h (fun _ => M)).
Proof.
  intros H E. eapply s_tensor_stands; [|exact E]. apply mapM_F2 in H. eapply F2_impl_in; [|exact H]. cbn beta. intros s w Hsw Ew. step Ew d Ed. injection Ew as <-.
  apply dimension1_levels in Ed. subst d. split; [reflexivity|apply meq_refl].
Qed.
Lemma chain_zero h : h <> [] -> meq (size h) (chain r dim h (fun _ => mzero)) mzero.
Proof. destruct h as [|s h]; [contradiction|]. intros _ i j _ _. rewrite chain_cons. unfold mkron, ConvModel.mzero. ring. Qed.

Context (is_num : S -> bool) (expand : op -> res op) (good : op -> Prop).
Context (g_atom : forall a, good (OAtom a) -> desc_or_nospin a)
  (g_scal : forall c t, good (OScal c t) -> good t)
  (g_plus : forall l, good (OPlus l) -> Forall good l) (g_times : forall l, good (OTimes l) -> existsb (fun o => 1 <? length (space o)) l = false -> Forall good l)
  (g_expand : forall l se, good (OTimes l) -> existsb (fun o => 1 <? length (space o)) l = true -> expand (OTimes l) = Ok se ->
     good se /\ forall h, NoDup h -> incl (space (OTimes l)) h -> meq (size h) (mat_of h se) (mat_of h (OTimes l))).
Local Notation convq := (conv_q r dim is_num (fun _ => None) expand).

Theorem convq_good : forall n e h v, convq n e h = Ok v -> NoDup h -> good e -> stands (size h) v (mat_of h e).
Proof.
  induction n as [|n IH]; intros e h v H Hn Hg; [discriminate|]. cbn [conv_q] in H.
  destruct (forallb (fun x => sp_mem x h) (space e)) eqn:Hin; [|discriminate]. cbn [negb] in H.
  assert (incl (space e) h) as Hinc by (intros x Hx; rewrite forallb_forall in Hin; apply sp_mem_In; now apply Hin). clear Hin.
  assert (h <> []) as Hne by (intros ->; discriminate).
  assert (forall X : res smat, (if match h with [] => true | _ => false end then Err AlgebraError else X) = X) as EX by (destruct h; [contradiction|reflexivity]).
  rewrite EX in H. clear EX.
  destruct e as [| |a|c t|l|l|a b|a|a h'|s a]; try discriminate.
  - step H vs E. eapply stands_eq; [exact (all_tensor _ _ _ _ E H)|]. now apply chain_zero.
  - step H vs E. eapply stands_eq; [exact (all_tensor _ _ _ _ E H)|]. apply chain_eye.
  - (* local operators *)
    pose proof (g_atom a Hg) as Hs.
    assert (forall nm hh, a <> ASym nm hh) as Ha by (intros nm hh ->; discriminate).
    assert (exists x, atom_space a = [x]) as [x Ex] by (destruct a; try (eexists; reflexivity); exfalso; eapply Ha; reflexivity).
    assert ((do n0 <- dimension dim h;
      if eqb_list_nat h (space (OAtom a)) then do M <- q_local r a n0; Ok (SMat n0 M)
      else do i <- of_option ValueError (index_of (hd 0 (space (OAtom a))) h);
           do pre <- mapM (fun s => do d <- dimension1 dim s; Ok (SMat d meye)) (firstn i h);
           do own <- convq n (OAtom a) (space (OAtom a));
           do post <- mapM (fun s => do d <- dimension1 dim s; Ok (SMat d meye)) (skipn (Datatypes.S i) h);
           s_tensor r (pre ++ own :: post)) = Ok v) as H' by (destruct a; first [exact H|discriminate H]).
    clear H Ha. cbn [space] in H', Hinc. rewrite Ex in H', Hinc. cbn [ConvSpec.mat_of]. rewrite Ex. cbn [hd] in *. assert (In x h) as Hx by (apply Hinc; now left).
    step H' d Ed. apply dimension_size in Ed. subst d. destruct (eqb_list_nat h [x]) eqn:Eh.
    + apply eqb_list_nat_spec in Eh. subst h. step H' M EM. injection H' as <-. apply q_element_ok in EM; [|exact Hs].
      assert (size [x] = levels x) as E1 by (cbn [ConvSpec.size fold_right]; lia). rewrite E1 in *. split; [lia|]. eapply meq_trans; [exact EM|]. apply meq_sym, site_only.
    + destruct (index_of x h) as [i|] eqn:Ei; [|discriminate]. cbn [of_option bind] in H'. step H' pre Ep. step H' own Eo. step H' post Eq'.
      apply index_of_Some in Ei. destruct Ei as [Ei1 [Ei2 _]].
      apply (IH (OAtom a) [x]) in Eo; [|repeat constructor; now intros []|exact Hg].
      assert (size [x] = levels x) as E1 by (cbn [ConvSpec.size fold_right]; lia). rewrite E1 in Eo.
      eapply site_stands; try eassumption. eapply stands_eq; [exact Eo|]. cbn [ConvSpec.mat_of]. rewrite Ex. cbn [hd]. apply site_only.
  - destruct (is_num c); [|discriminate]. step H w E. apply IH in E; [|exact Hn|now apply g_scal in Hg]. cbn [ConvSpec.mat_of]. destruct w as [|d M]; injection H as <-.
    + cbn [ConvProofs2.stands] in *. intros i j Hi Hj. unfold ConvModel.mscale. rewrite <- (E i j Hi Hj). unfold ConvModel.mzero. ring.
    + destruct E as [-> E]. split; [reflexivity|]. now apply mscale_eq.
  - (* sums *)
    apply g_plus in Hg.
    assert (forall l w F v, Forall good l -> foldM (fun s o => do v <- convq n o h; q_plus r s v) w l = Ok v -> stands (size h) w F ->
      stands (size h) v (madd F (fold_right (fun x M => madd (mat_of h x) M) mzero l))) as G.
    { clear - IH Hn. induction l as [|y l IHl]; intros w F v Hl H HF.
      - cbn [foldM] in H. injection H as <-. cbn [fold_right]. eapply stands_eq; [exact HF|]. intros i j _ _. unfold ConvModel.madd, ConvModel.mzero. ring.
      - cbn [foldM] in H. step H w2 E. step E u Eu. apply IH in Eu; [|exact Hn|exact (Forall_inv Hl)]. pose proof (q_plus_stands _ _ _ _ _ _ HF Eu E) as Hw.
        eapply stands_eq; [exact (IHl _ _ _ (Forall_inv_tail Hl) H Hw)|]. cbn [fold_right]. intros i j _ _. unfold ConvModel.madd. ring. }
    eapply stands_eq; [exact (G l SZero mzero v Hg H (meq_refl r _ _))|]. cbn [ConvSpec.mat_of]. intros i j _ _. unfold ConvModel.madd at 1, ConvModel.mzero at 1. ring.
  - (* products *)
    destruct (existsb (fun o => 1 <? length (space o)) l) eqn:Ex.
    + step H se E. destruct (oeqb se (OTimes l)); [discriminate|]. destruct (g_expand l se Hg Ex E) as [G1 G2]. apply IH in H; [|exact Hn|exact G1].
      eapply stands_eq; [exact H|]. now apply G2.
    + apply g_times in Hg; [|exact Ex]. step H bs E. destruct (Nat.eqb_spec (sum (map fst bs)) (length l)) as [Ec|]; [|discriminate]. cbn [negb] in H.
      eapply (times_stands r dim desc (convq n)); [|exact Hn|exact E|exact Ec|exact H]. intros o s w Ho Es Hw. apply IH in Hw; [exact Hw| |].
      * repeat constructor. now intros [].
      * rewrite Forall_forall in Hg. now apply Hg.
Qed.

(** *** the nested lists *)
Context (has_t : op -> bool).
Context (settled : op -> Prop) (s_good : forall e, settled e -> good e)
  (s_plus : forall l, settled (OPlus l) -> Forall settled l)
  (s_td : forall e e', settled e -> has_t e = true -> expand e = Ok e' -> settled e' /\ incl (space e') (space e) /\ forall h, NoDup h -> incl (space e) h -> meq (size h) (mat_of h e') (mat_of h e)).
Local Notation tdq := (td r dim is_num (fun _ => None) expand has_t).
Local Notation nested_is := (nested_is r dim).

Lemma nested_list_eq h l F G : nested_list_is r dim h l F -> meq (size h) F G -> nested_list_is r dim h l G.
Proof.
  destruct l as [|y l]; cbn [nested_list_is]; intros H E; [eapply meq_trans; eassumption|].
  destruct H as [F1 [F2 [H1 [H2 H3]]]]. exists F1, F2. split; [exact H1|]. split; [exact H2|]. eapply meq_trans; eassumption.
Qed.
Lemma nested_eq h x F G : nested_is h x F -> meq (size h) F G -> nested_is h x G.
Proof.
  destruct x as [v|v c|l]; cbn [QutipSpec.nested_is]; intros H E.
  - apply stands_for_stands in H. apply stands_for_stands. eapply stands_eq; eassumption.
  - destruct H as [F' [H1 H2]]. exists F'. split; [exact H1|]. eapply meq_trans; eassumption.
  - now apply (nested_list_eq h l F).
Qed.
Lemma sum_split (h : list nat) (f : op -> bool) l : meq (size h) (fold_right (fun x M => madd (mat_of h x) M) mzero l)
  (madd (fold_right (fun x M => madd (mat_of h x) M) mzero (filter (fun o => negb (f o)) l)) (fold_right (fun x M => madd (mat_of h x) M) mzero (filter f l))).
Proof.
  intros i j Hi Hj. induction l as [|o l IH]; [unfold ConvModel.madd, ConvModel.mzero; cbn; ring|]. cbn [fold_right filter]. unfold ConvModel.madd at 1. rewrite IH.
  destruct (f o); cbn [negb fold_right]; unfold ConvModel.madd; ring.
Qed.
Lemma consts_sum h cs vs F v : forall w, Forall2 (fun o v => stands (size h) v (mat_of h o)) cs vs -> stands (size h) w F -> foldM (q_plus r) w vs = Ok v ->
  stands (size h) v (madd F (fold_right (fun x M => madd (mat_of h x) M) mzero cs)).
Proof.
  intros w H. revert w F. induction H as [|o u cs vs Hu _ IH]; intros w F HF E; cbn [foldM] in E.
  - injection E as <-. eapply stands_eq; [exact HF|]. intros i j _ _. cbn [fold_right]. unfold ConvModel.madd, ConvModel.mzero. ring.
  - step E w2 E2. pose proof (q_plus_stands _ _ _ _ _ _ HF Hu E2) as Hw. eapply stands_eq; [exact (IH _ _ Hw E)|]. cbn [fold_right]. intros i j _ _. unfold ConvModel.madd. ring.
Qed.
Theorem td_good : forall n m e h x, tdq n m e h = Ok x -> NoDup h -> incl (space e) h -> settled e -> nested_is h x (mat_of h e).
Proof.
  induction n as [|n IH]; intros m e h x H Hn Hi Hg; [discriminate|]. cbn [td] in H. destruct (has_t e) eqn:Et.
  - step H e' E. destruct (s_td e e' Hg Et E) as [G1 [G2 G3]]. eapply nested_eq; [|exact (G3 h Hn Hi)]. assert (incl (space e') h) as Hi' by (eapply incl_tran; eassumption).
    clear G3 G2 Hi Et E Hg e. destruct e' as [| |a|c t|l|l|a b|a|a h'|s a]; try discriminate.
    + step H v E. injection H as <-. apply convq_good in E; [|exact Hn|now apply s_good, g_scal in G1]. cbn [ConvSpec.mat_of]. exists (mat_of h t). split; [now apply stands_for_stands|apply meq_refl].
    + apply s_plus in G1. step H cs E. step H c Ec. step H ts Et. injection H as <-. cbn [ConvSpec.mat_of].
      assert (forall o, In o l -> settled o /\ incl (space o) h) as Hl.
      { intros o Ho. rewrite Forall_forall in G1. split; [now apply G1|]. eapply incl_tran; [|exact Hi']. intros y Hy. cbn [space]. clear - Ho Hy.
        induction l as [|z l IHl]; [destruct Ho|]. cbn [fold_right]. apply sp_union_In. destruct Ho as [-> |Ho]; [now left|right; now apply IHl]. }
      eapply nested_eq; [|apply meq_sym, (sum_split h has_t l)].
      assert (Forall2 (fun o v => stands (size h) v (mat_of h o)) (filter (fun o => negb (has_t o)) l) cs) as HC.
      { apply mapM_F2 in E. eapply F2_impl_in; [|exact E]. cbn beta. intros o v Ho Hv. apply filter_In in Ho. destruct Ho as [Ho _]. apply convq_good in Hv; [exact Hv|exact Hn|]. now apply s_good, Hl. }
      assert (exists F, nested_list_is r dim h c F /\ meq (size h) F (fold_right (fun x M => madd (mat_of h x) M) mzero (filter (fun o => negb (has_t o)) l))) as [F [HF EF]].
      { inversion HC as [|o v os vs Ho Hos E1 E2]; subst.
        - injection Ec as <-. exists mzero. split; [apply meq_refl|apply meq_refl].
        - step Ec s Es. injection Ec as <-. pose proof (consts_sum h os vs _ s v Hos Ho Es) as HS. eexists. split; [|apply meq_refl].
          exists (madd (mat_of h o) (fold_right (fun x M => madd (mat_of h x) M) mzero os)), mzero. split; [now apply stands_for_stands|]. split; [apply meq_refl|].
          intros i j _ _. cbn [fold_right]. unfold ConvModel.madd at 1, ConvModel.mzero at 2. ring. }
      assert (Forall2 (fun o y => nested_is h y (mat_of h o)) (filter has_t l) ts) as HT.
      { apply mapM_F2 in Et. eapply F2_impl_in; [|exact Et]. cbn beta. intros o y Ho Hy. apply filter_In in Ho. destruct Ho as [Ho _]. apply IH in Hy; [exact Hy|exact Hn| |]; now apply Hl. }
      cbn [QutipSpec.nested_is].
      assert (nested_list_is r dim h ts (fold_right (fun x M => madd (mat_of h x) M) mzero (filter has_t l))) as HT'.
      { clear - HT. induction HT as [|o y os ys Ho _ IHt]; [apply meq_refl|]. cbn [fold_right]. exists (mat_of h o), (fold_right (fun x M => madd (mat_of h x) M) mzero os).
        split; [exact Ho|]. split; [exact IHt|]. apply meq_refl. }
      change (nested_list_is r dim h (c ++ ts) (madd (fold_right (fun x M => madd (mat_of h x) M) mzero (filter (fun o => negb (has_t o)) l)) (fold_right (fun x M => madd (mat_of h x) M) mzero (filter has_t l)))).
      destruct c as [|c1 [|]]; cbn [app].
      * eapply nested_list_eq; [exact HT'|]. cbn [nested_list_is] in HF. intros i j Hi Hj. unfold ConvModel.madd at 2. rewrite <- (EF i j Hi Hj), <- (HF i j Hi Hj). unfold ConvModel.mzero. ring.
      * destruct HF as [F1 [F2 [H1 [H2 H3]]]]. exists F1. eexists. split; [exact H1|]. split; [exact HT'|]. cbn [nested_list_is] in H2.
        intros i j Hi Hj. unfold ConvModel.madd at 1 3. rewrite <- (EF i j Hi Hj), <- (H3 i j Hi Hj). unfold ConvModel.madd. rewrite <- (H2 i j Hi Hj). unfold ConvModel.mzero. ring.
      * exfalso. destruct cs as [|c0 cs]; [discriminate|]. step Ec s Es. discriminate.
  - step H v E. injection H as <-. apply convq_good in E; [|exact Hn|now apply s_good]. cbn [QutipSpec.nested_is]. now apply stands_for_stands.
Qed.
End Qutip.
