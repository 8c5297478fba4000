(** C50 convert_to_qutip and SLH_to_qutip for operators. The matrices are as for C49;
    [nested_is h x F] (QutipSpec): the nested list x stands for the matrix F at the instant
    at which the scalars have the values the reading gives them. *)
From Coq Require Import Reals QArith Qcanon Lra.
From Verif Require Import Prelude ListFacts CSimpProofs5 AlgSpec CAlg Cplx OpModel OpSpec OpProofs1 OpSx OpSites OpRun ConvModel ConvSpec QutipModel QutipSpec ConvProofs1 ConvProofs2 ConvProofs3 QutipProofs Properties_Conv.
Local Open Scope nat_scope.

Section Qutip.
Context {S : scalars} (r : reading S) (dim : nat -> option nat) (is_num : S -> bool) (expand : op S -> res (op S)).
Local Notation convert := (conv_q r dim is_num (fun _ => None) expand).
Local Notation mat_of := (mat_of r dim).
Local Notation stands_for := (stands_for r dim).

Lemma value_aux desc n e h v : (spinless e \/ desc = true /\ (forall q, kconj (ksqrt (r:=r) q) = ksqrt q)) -> NoDup h -> one_site_factors e -> convert n e h = Ok v -> stands_for h v (mat_of desc h e).
Proof.
  intros Hs Hn Ho H. apply stands_for_stands.
  refine (convq_good r dim desc is_num expand (fun e => (spinless e \/ desc = true /\ (forall q, kconj (ksqrt (r:=r) q) = ksqrt q)) /\ one_site_factors e) _ _ _ _ _ n e h v H Hn (conj Hs Ho)).
  - intros a [[Ha|[Ha Hq]] _]; destruct a; cbn [desc_or_nospin spinless] in *; first [exact Logic.I|contradiction|exact Ha|split; assumption].
  - intros c t Hg. exact Hg.
  - intros l [[G1|G1] G2].
    + apply fold_Forall in G1, G2. rewrite Forall_forall in *. intros x Hx. split; [left; exact (G1 x Hx)|exact (G2 x Hx)].
    + apply fold_Forall in G2. rewrite Forall_forall in *. intros x Hx. split; [now right|exact (G2 x Hx)].
  - intros l [[G1|G1] G2] _; destruct (one_site_good l G2) as [G3 _].
    + apply fold_Forall in G1. rewrite Forall_forall in *. intros x Hx. split; [left; exact (G1 x Hx)|exact (G3 x Hx)].
    + rewrite Forall_forall in *. intros x Hx. split; [now right|exact (G3 x Hx)].
  - intros l se [_ G2] Hx _. destruct (one_site_good l G2) as [_ G3]. congruence.
Qed.

(** The Qobj returned is the matrix of the expression, when no factor of a product acts on
    several local spaces and no spin operator occurs. *)
Theorem C50_convert_value n e h v : NoDup h -> spinless e -> one_site_factors e -> convert n e h = Ok v -> stands_for h v (mat_of false h e).
Proof. intros Hn Hs Ho H. apply (value_aux false n e h v (or_introl Hs) Hn Ho H). Qed.
(** With spin operators, and without transition operators between numbered levels, it is the
    matrix in the basis ordered by decreasing magnetic quantum number. *)
Theorem C50_spin_value n e h v : (forall q, kconj (ksqrt (r:=r) q) = ksqrt q) -> NoDup h -> sigmaless e -> one_site_factors e -> convert n e h = Ok v -> stands_for h v (mat_of true h e).
Proof. intros Hq Hn _ Ho H. apply (value_aux true n e h v (or_intror (conj eq_refl Hq)) Hn Ho H). Qed.
(** A product with a factor on several spaces is converted as its expansion. *)
Theorem C50_convert_expanded n l se h v : NoDup h -> Exists (fun o => 1 < length (space o)) l -> expand (OTimes l) = Ok se -> spinless se -> one_site_factors se ->
  convert n (OTimes l) h = Ok v -> stands_for h v (mat_of false h se).
Proof.
  intros Hn Hx E Hs Ho H. destruct n as [|n]; [discriminate|]. cbn [conv_q] in H. destruct (forallb (fun x => sp_mem x h) (space (OTimes l))); [|discriminate]. cbn [negb] in H.
  assert (existsb (fun o => 1 <? length (space o)) l = true) as Ex.
  { apply existsb_exists. apply Exists_exists in Hx. destruct Hx as [o [G1 G2]]. exists o. split; [exact G1|]. now apply Nat.ltb_lt. }
  destruct h as [|x h]; [discriminate|]. rewrite Ex, E in H. cbn [bind] in H. destruct (oeqb se (OTimes l)); [discriminate|]. now apply (C50_convert_value n se (x :: h) v).
Qed.
(** Both conversions agree. *)
Theorem C50_agrees_with_sympy n m e h v w : NoDup h -> spinless e -> one_site_factors e -> convert n e h = Ok v -> conv r dim expand m e h = Ok w ->
  exists F, stands_for h v F /\ stands_for h w F.
Proof. intros Hn Hs Ho H1 H2. exists (mat_of false h e). split; [now apply (C50_convert_value n)|now apply (C49_convert_value r dim expand m)]. Qed.
Theorem C50_convert_outside mapping n e h x : In x (space e) -> ~ In x h -> conv_q r dim is_num mapping expand (Datatypes.S n) e h = Err ValueError.
Proof.
  intros H1 H2. cbn [conv_q]. destruct (forallb (fun x => sp_mem x h) (space e)) eqn:E; [|reflexivity]. rewrite forallb_forall in E. specialize (E x H1). apply sp_mem_In in E. contradiction.
Qed.
(** a coefficient that is not a number is refused *)
Theorem C50_symbolic_refused n c t h : is_num c = false -> (forall x, In x (space t) -> In x h) -> h <> [] -> convert (Datatypes.S n) (OScal c t) h = Err TypeError.
Proof.
  intros Hc Hi Hh. cbn [conv_q space]. assert (forallb (fun x => sp_mem x h) (space t) = true) as -> by (apply forallb_forall; intros x Hx; apply sp_mem_In; auto).
  destruct h; [contradiction|]. cbn [negb]. now rewrite Hc.
Qed.

(** The nested list for a time-dependent operator: if the expansion of the operator is a sum
    (or a multiple) whose terms are not changed by expanding them again, the list stands,
    at every instant, for the matrix of that sum. *)
Context (has_t : op S -> bool).
Local Notation to_list := (td r dim is_num (fun _ => None) expand has_t).
Theorem C50_time_dependent_value n m e e' h x : NoDup h -> has_t e = true -> has_t e' = true -> expand e = Ok e' -> expand e' = Ok e' ->
  spinless e' -> one_site_factors e' -> incl (space e') h ->
  (forall l o, e' = OPlus l -> In o l -> (forall l', o <> OPlus l') /\ (has_t o = true -> expand o = Ok o)) ->
  to_list n m e h = Ok x -> nested_is r dim h x (mat_of false h e').
Proof.
  intros Hn Ht Ht' E E' Hs Ho Hi Hl H.
  assert (to_list n m e' h = Ok x) as H' by (destruct n as [|n]; [discriminate|]; cbn [td] in *; rewrite Ht, E in H; rewrite Ht', E'; exact H).
  refine (td_good r dim false is_num expand (fun e => spinless e /\ one_site_factors e) _ _ _ _ _ has_t
    (fun e => (spinless e /\ one_site_factors e) /\ (has_t e = true -> expand e = Ok e) /\
       forall l o, e = OPlus l -> In o l -> (forall l', o <> OPlus l') /\ (has_t o = true -> expand o = Ok o)) _ _ _ n m e' h x H' Hn Hi (conj (conj Hs Ho) (conj (fun _ => E') Hl))).
  - intros a [Ha _]. destruct a; cbn [desc_or_nospin spinless] in *; first [exact Logic.I|contradiction].
  - intros c t Hg. exact Hg.
  - intros l [G1 G2]. apply fold_Forall in G1, G2. rewrite Forall_forall in *. intros y Hy. split; [exact (G1 y Hy)|exact (G2 y Hy)].
  - intros l [G1 G2] _. destruct (one_site_good l G2) as [G3 _]. apply fold_Forall in G1. rewrite Forall_forall in *. intros y Hy. split; [exact (G1 y Hy)|exact (G3 y Hy)].
  - intros l se [_ G2] Hx _. destruct (one_site_good l G2) as [_ G3]. congruence.
  - intros y [G _]. exact G.
  - intros l [[G1 G2] [_ G4]]. apply fold_Forall in G1, G2. rewrite Forall_forall in *. intros y Hy. destruct (G4 l y eq_refl Hy) as [G5 G6].
    split; [split; [exact (G1 y Hy)|exact (G2 y Hy)]|]. split; [exact G6|]. intros l' o -> _. exfalso. now apply (G5 l').
  - intros y y' [G1 [G2 G3]] Hy Ey. rewrite (G2 Hy) in Ey. injection Ey as <-. split; [now split|]. split; [apply incl_refl|]. intros h' _ _. apply meq_refl.
Qed.

(** SLH_to_qutip (without drives and time): the Hamiltonian is the matrix of H; the list of
    collapse operators are, in order, the matrices of the Lindblad operators that are not
    null, so that any sum over all Lindblad operators of terms that vanish for the null
    operator can be taken over the list. *)
Theorem C50_slh_value is_null n H Ls h Hm out : NoDup h -> spinless H -> one_site_factors H -> Forall (fun L => spinless L /\ one_site_factors L) Ls ->
  slh_to_qutip r dim is_num (fun _ => None) expand is_null n H Ls h = Ok (Hm, out) ->
  stands_for h Hm (mat_of false h H) /\
  exists vs, Forall2 (fun L v => stands_for h v (mat_of false h L)) Ls vs /\ out = filter (fun v => negb (is_null v)) vs.
Proof.
  intros Hn H1 H2 H3 HH. unfold slh_to_qutip in HH. destruct h as [|x h]; [discriminate|]. step HH hm Ehm. step HH vs E2. injection HH as <- <-. split; [now apply (C50_convert_value n)|].
  exists vs. split; [|reflexivity]. apply mapM_F2 in E2. eapply F2_impl_in; [|exact E2]. cbn beta. intros L v HL Hv. rewrite Forall_forall in H3. destruct (H3 L HL).
  now apply (C50_convert_value n).
Qed.
Definition entries (v : smat r) : ConvModel.mat r := match v with SZero _ => mzero r | SMat _ _ M => M end.
Theorem C50_slh_total is_null n H Ls h Hm out (D : ConvModel.mat r -> K r) : NoDup h -> spinless H -> one_site_factors H -> Forall (fun L => spinless L /\ one_site_factors L) Ls ->
  (forall m M, is_null (SMat r m M) = true -> meq r m M (mzero r)) ->
  (forall F G, meq r (size dim h) F G -> D F = D G) -> D (mzero r) = k0 ->
  slh_to_qutip r dim is_num (fun _ => None) expand is_null n H Ls h = Ok (Hm, out) ->
  fold_right (fun v s => kadd (D (entries v)) s) k0 out = fold_right (fun L s => kadd (D (mat_of false h L)) s) k0 Ls.
Proof.
  intros Hn H1 H2 H3 H0 HD D0 E. destruct (C50_slh_value is_null n H Ls h Hm out Hn H1 H2 H3 E) as [_ [vs [HF ->]]]. clear E H3.
  assert (forall v F, stands_for h v F -> D (entries v) = D F) as Hv.
  { intros [|m M] F; cbn [ConvSpec.stands_for entries]; [apply HD|]. intros [-> HM]. now apply HD. }
  induction HF as [|L v Ls vs HL _ IH]; [reflexivity|]. cbn [filter fold_right]. destruct (is_null v) eqn:En; cbn [negb].
  - rewrite IH. rewrite <- (Hv _ _ HL). assert (D (entries v) = k0) as ->; [|symmetry; apply (Radd_0_l (kring r))].
    destruct v as [|m M]; cbn [entries]; [exact D0|]. rewrite <- D0. apply HD. destruct HL as [<- _]. now apply H0.
  - cbn [fold_right]. now rewrite IH, (Hv _ _ HL).
Qed.

(** Phase, displacement and squeezing operators and adjoints are never converted. *)
Theorem C50_phase_refuted n u x : dim x <> None -> convert (Datatypes.S n) (OAtom (APhase u x)) [x] = Err AttributeError
  /\ convert (Datatypes.S n) (OAtom (ADisp u x)) [x] = Err AttributeError /\ convert (Datatypes.S n) (OAtom (ASqueeze u x)) [x] = Err AttributeError.
Proof.
  intros Hd. assert (eqb_list_nat [x] [x] = true) as E1 by now apply eqb_list_nat_spec. assert (sp_mem x [x] = true) as E2 by (apply sp_mem_In; now left).
  repeat split; cbn [conv_q space atom_space forallb]; rewrite E2; cbn [andb negb dimension]; unfold dimension1; destruct (dim x); try contradiction; cbn [of_option bind]; now rewrite E1.
Qed.
Theorem C50_adjoint_refuted n a h : h <> [] -> incl (space a) h -> convert (Datatypes.S n) (OAdj a) h = Err TypeError.
Proof.
  intros Hh Hi. cbn [conv_q space]. assert (forallb (fun x => sp_mem x h) (space a) = true) as -> by (apply forallb_forall; intros x Hx; apply sp_mem_In; auto). now destruct h.
Qed.
(** A Qobj given in [mapping] is returned as it is, also where the space asked for is larger. *)
Theorem C50_mapping mapping n e h m M : h <> [] -> incl (space e) h -> mapping e = Some (m, M) -> conv_q r dim is_num mapping expand (Datatypes.S n) e h = Ok (SMat r m M).
Proof.
  intros Hh Hi E. cbn [conv_q]. assert (forallb (fun x => sp_mem x h) (space e) = true) as -> by (apply forallb_forall; intros x Hx; apply sp_mem_In; auto). destruct h; [contradiction|]. cbn [negb]. now rewrite E.
Qed.
(** A single time-dependent term gives the pair, not a list containing it. *)
Theorem C50_single_term n m e c t h x : has_t e = true -> expand e = Ok (OScal c t) -> to_list (Datatypes.S n) m e h = Ok x -> exists v, x = NPair r v c.
Proof. intros Ht E H. cbn [td] in H. rewrite Ht, E in H. cbn [bind] in H. step H v Ev. injection H as <-. now exists v. Qed.
End Qutip.

(** The matrices of QuTiP's spin operators and of the transition operators refer to opposite
    orders of the basis: on a spin-1/2, where level 0 is m = -1/2, Jz |0><0| = -1/2 |0><0|
    becomes +1/2 |0><0|. *)
Definition all_num (c : Sx) : bool := true.
Theorem C50_spin_order_refuted : exists e h v, NoDup h /\ one_site_factors e /\ conv_q xr cdim all_num (fun _ => None) no_expand 4 e h = Ok v
  /\ ~ stands_for xr cdim h v (mat_of xr cdim false h e).
Proof.
  exists (OTimes [OAtom (AJz 0); OAtom (ASigma 0 0 0)]), [0], (SMat xr 2 (mmul xr 2 (q_jz xr 2) (ket_bra xr 0 0))).
  split; [repeat constructor; intros []|]. split; [cbn; lia|]. split; [reflexivity|].
  intros [_ H]. specialize (H 0 0 ltac:(lia) ltac:(lia)). cbn in H.
  apply (f_equal cre) in H. cbn in H. unfold Q2R in H. cbn in H. revert H.
  lra.
Qed.
(** A symbol given as a 2 x 2 matrix stays one on a space of 6 dimensions. *)
Theorem C50_mapping_refuted : exists mapping e h m M, mapping e = Some (m, M) /\ m = size cdim (space e) /\ incl (space e) h /\
  conv_q xr cdim all_num mapping no_expand 4 e h = Ok (SMat xr m M) /\ m <> size cdim h.
Proof.
  exists (fun e => if oeqb e (sym 7 [0]) then Some (2, meye xr) else None), (sym 7 [0]), [0; 1], 2, (meye xr).
  split; [vm_compute; reflexivity|]. split; [reflexivity|]. split; [intros y; cbn; tauto|]. split; [|cbn; lia].
  apply (C50_mapping xr cdim all_num no_expand _ 3); [discriminate|intros y; cbn; tauto|vm_compute; reflexivity].
Qed.

(** ** Non-trivial cases *)
(** 2 a^dagger a sigma_{1,0} + a, on spaces of 2 and 3 levels *)
Definition qv_e : op Sx := OPlus [OScal (num 2) (OTimes [x_ad 0; x_a 0; OAtom (ASigma 1 0 1)]); x_a 0].
Example C50_ex_defined : exists M, conv_q xr cdim all_num (fun _ => None) no_expand 6 qv_e [0; 1] = Ok (SMat xr 6 M) /\ meq xr 6 M (mat_of xr cdim false [0; 1] qv_e).
Proof.
  eexists. split; [reflexivity|].
  match goal with |- meq _ _ ?M _ => apply (C50_convert_value xr cdim all_num no_expand 6 qv_e [0; 1] (SMat xr 6 M)) end;
    [repeat constructor; cbn; intuition discriminate|cbn; tauto|cbn; repeat split; lia|reflexivity].
Qed.
(** J+ J- + Jz on a spin 1, in the decreasing order *)
Definition qv_s : op Sx := OPlus [OTimes [OAtom (AJp 1); OAtom (AJm 1)]; OAtom (AJz 1)].
Example C50_ex_spin : exists M, conv_q xr cdim all_num (fun _ => None) no_expand 6 qv_s [1] = Ok (SMat xr 3 M) /\ meq xr 3 M (mat_of xr cdim true [1] qv_s).
Proof.
  eexists. split; [reflexivity|].
  match goal with |- meq _ _ ?M _ => apply (C50_spin_value xr cdim all_num no_expand 6 qv_s [1] (SMat xr 3 M)) end;
    [intros q; apply cconj_real|repeat constructor; cbn; intuition discriminate|cbn; tauto|cbn; repeat split; lia|reflexivity].
Qed.
(** a^dagger a + f(t) (a + ...): the variable XVar 0 is the time *)
Fixpoint sx_has_t (c : sx) : bool :=
  match c with XVar n => n =? 0 | XAdd a b | XMul a b => sx_has_t a || sx_has_t b | XConj a | XExp a => sx_has_t a | _ => false end.
Fixpoint op_has_t (e : op Sx) : bool :=
  match e with OScal c t => sx_has_t c || op_has_t t | OPlus l | OTimes l => existsb op_has_t l | OAdj a => op_has_t a | _ => false end.
Definition qv_t : op Sx := OPlus [OTimes [x_ad 0; x_a 0]; x_a 0; OScal (XVar 0) (x_ad 0)].
Example C50_ex_time : exists v w, td xr cdim all_num (fun _ => None) no_expand op_has_t 3 6 qv_t [0; 1] = Ok (NList xr [NQ xr v; NPair xr w (XVar 0)])
  /\ nested_is xr cdim [0; 1] (NList xr [NQ xr v; NPair xr w (XVar 0)]) (mat_of xr cdim false [0; 1] qv_t).
Proof.
  eexists. eexists. split; [reflexivity|].
  apply (C50_time_dependent_value xr cdim all_num no_expand op_has_t 3 6 qv_t); try reflexivity.
  - repeat constructor; cbn; intuition discriminate.
  - cbn; tauto.
  - cbn; repeat split; lia.
  - intros y; cbn; tauto.
  - intros l o E Ho. injection E as <-. split; [|intros _; reflexivity]. intros l' ->. cbn in Ho. intuition discriminate.
Qed.
Example C50_ex_slh : exists Hm L, slh_to_qutip xr cdim all_num (fun _ => None) no_expand (fun v => match v with SMat _ _ M => false | _ => false end) 5 (OTimes [x_ad 0; x_a 0]) [x_a 0] [0] = Ok (Hm, [L]).
Proof. eexists. eexists. reflexivity. Qed.
Example C50_ex_symbolic : conv_q xr cdim (fun c => negb (sx_has_t c)) (fun _ => None) no_expand 4 (OScal (XVar 0) (x_a 0)) [0] = Err TypeError.
Proof. reflexivity. Qed.

Print Assumptions C50_convert_value.
Print Assumptions C50_spin_value.
Print Assumptions C50_convert_expanded.
Print Assumptions C50_agrees_with_sympy.
Print Assumptions C50_convert_outside.
Print Assumptions C50_symbolic_refused.
Print Assumptions C50_time_dependent_value.
Print Assumptions C50_slh_value.
Print Assumptions C50_slh_total.
Print Assumptions C50_phase_refuted.
Print Assumptions C50_adjoint_refuted.
Print Assumptions C50_mapping.
Print Assumptions C50_single_term.
Print Assumptions C50_spin_order_refuted.
Print Assumptions C50_mapping_refuted.
