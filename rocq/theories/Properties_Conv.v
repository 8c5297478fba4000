(** C49 convert_to_sympy_matrix. [mat_of h e] (ConvSpec) is the matrix the expression
    stands for on the product space h; [stands_for h v F]: the object returned is
    that matrix (or the number 0, if it is null). [expand] is the method the conversion
    calls for products with a factor on several local spaces; the theorems hold for
    any. Properties C30 - C34 say what it does. *)
From Coq Require Import Reals QArith Qcanon Lra.
From Verif Require Import Prelude ListFacts CSimpProofs5 AlgSpec CAlg Cplx OpModel OpSpec OpProofs1 OpSx OpSites OpRun ConvModel ConvSpec ConvProofs1 ConvProofs2 ConvProofs3 ConvProofs4.
Local Open Scope nat_scope.

Section Conv.
Context {S : scalars} (r : reading S) (dim : nat -> option nat) (expand : op S -> res (op S)).
Local Notation convert := (conv r dim expand).
Local Notation mat_of := (mat_of r dim false).
Local Notation stands_for := (stands_for r dim).

Lemma one_site_good l : one_site_factors (OTimes l) -> Forall (one_site_factors (S:=S)) l /\ existsb (fun o => 1 <? length (space o)) l = false.
Proof.
  cbn [one_site_factors]. induction l as [|x l IH]; [split; [constructor|reflexivity]|]. cbn [fold_right existsb]. intros [[H1 H2] H3]. destruct (IH H3) as [G1 G2]. split; [now constructor|].
  rewrite G2. apply Bool.orb_false_iff. split; [|reflexivity]. apply Nat.ltb_ge. exact H1.
Qed.
Lemma fold_Forall (P : op S -> Prop) l : fold_right (fun x Q => P x /\ Q) True l -> Forall P l.
Proof. induction l as [|x l IH]; intros H; constructor; [apply H|apply IH, H]. Qed.

(** The matrix returned is the matrix of the expression, when no factor of a product
    acts on several local spaces and no spin operator occurs. *)
Theorem C49_convert_value n e h v : NoDup h -> spinless e -> one_site_factors e -> convert n e h = Ok v -> stands_for h v (mat_of h e).
Proof.
  intros Hn Hs Ho H. apply stands_for_stands.
  refine (conv_good r dim false expand (fun e => spinless e /\ one_site_factors e) _ _ _ _ _ _ n e h v H Hn (conj Hs Ho)).
  - intros a [Ha _]. destruct a; exact Ha || exact Logic.I.
  - intros c t Hg. exact Hg.
  - intros t Hg. exact Hg.
  - intros l [G1 G2]. apply fold_Forall in G1, G2. rewrite Forall_forall in *. intros x Hx. split; [exact (G1 x Hx)|exact (G2 x Hx)].
  - intros l [G1 G2] _. apply fold_Forall in G1. destruct (one_site_good l G2) as [G3 _]. rewrite Forall_forall in *. intros x Hx. split; [exact (G1 x Hx)|exact (G3 x Hx)].
  - intros l se [_ G2] Hx _. destruct (one_site_good l G2) as [_ G3]. congruence.
Qed.
(** It is returned: for sums, products of local factors, multiples and adjoints of creation
    and annihilation operators, transition operators and phases, on a space whose factors
    have a dimension. *)
Theorem C49_convert_defined n e h : NoDup h -> (forall x, In x h -> dim x <> None) -> incl (space e) h -> convertible dim e -> height e <= n ->
  exists M, convert n e h = Ok (SMat r (size dim h) M).
Proof.
  intros Hn Hd Hi Hc Hh. destruct (conv_ok r dim expand n e h Hh Hc Hn Hd Hi) as [v [E [M ->]]]. now exists M.
Qed.
(** A product with a factor on several spaces is converted as its expansion. *)
Theorem C49_convert_expanded n l se h v : NoDup h -> Exists (fun o => 1 < length (space o)) l -> expand (OTimes l) = Ok se -> spinless se -> one_site_factors se ->
  convert n (OTimes l) h = Ok v -> stands_for h v (mat_of h se).
Proof.
  intros Hn Hx E Hs Ho H. destruct n as [|n]; [discriminate|]. cbn [conv] in H. destruct (forallb (fun x => sp_mem x h) (space (OTimes l))); [|discriminate]. cbn [negb] in H.
  assert (existsb (fun o => 1 <? length (space o)) l = true) as Ex.
  { apply existsb_exists. apply Exists_exists in Hx. destruct Hx as [o [G1 G2]]. exists o. split; [exact G1|]. now apply Nat.ltb_lt. }
  rewrite Ex, E in H. cbn [bind] in H. destruct (oeqb se (OTimes l)); [discriminate|]. now apply (C49_convert_value n se h v).
Qed.
(** Converting a local expression in a larger space gives its matrix on its own factor
    and the identity on the other factors. *)
Theorem C49_convert_embedded n n' e x h a A m M : NoDup h -> spinless e -> one_site_factors e -> space e = [x] -> In x h ->
  convert n e [x] = Ok (SMat r a A) -> convert n' e h = Ok (SMat r m M) -> meq r (size dim h) M (at_site r dim h x A).
Proof.
  intros Hn Hs Ho Ex Hx H1 H2. apply C49_convert_value in H1; [|repeat constructor; intros []|exact Hs|exact Ho]. apply C49_convert_value in H2; [|exact Hn|exact Hs|exact Ho].
  destruct H1 as [E1 H1], H2 as [-> H2]. eapply meq_trans; [exact H2|]. eapply meq_trans; [apply mat_of_site; [exact Hn|exact Hx|rewrite Ex; apply incl_refl]|].
  apply site_eq; [|exact Hx]. apply meq_sym. subst a. cbn [ConvSpec.size fold_right] in H1. now rewrite Nat.mul_1_r in H1.
Qed.
(** Sums go to sums and products to products of matrices. *)
Theorem C49_convert_sum n n' x y h a A b B c C : NoDup h -> spinless x -> spinless y -> one_site_factors x -> one_site_factors y ->
  convert n x h = Ok (SMat r a A) -> convert n y h = Ok (SMat r b B) -> convert n' (OPlus [x; y]) h = Ok (SMat r c C) -> meq r (size dim h) C (madd r A B).
Proof.
  intros Hn S1 S2 O1 O2 H1 H2 H3. apply C49_convert_value in H1; try assumption. apply C49_convert_value in H2; try assumption.
  apply C49_convert_value in H3; [|exact Hn|cbn; tauto|cbn; tauto]. destruct H1 as [-> H1], H2 as [-> H2], H3 as [-> H3].
  eapply meq_trans; [exact H3|]. cbn [ConvSpec.mat_of fold_right]. apply madd_eq; [apply meq_sym; exact H1|]. intros i j Hi Hj. rewrite (H2 i j Hi Hj).
  unfold madd, mzero. pose proof (Radd_0_l (kring r)) as R0. pose proof (Radd_comm (kring r)) as R1. now rewrite R1, R0.
Qed.
Theorem C49_convert_product n n' x y h a A b B c C : NoDup h -> spinless x -> spinless y -> one_site_factors x -> one_site_factors y ->
  length (space x) <= 1 -> length (space y) <= 1 ->
  convert n x h = Ok (SMat r a A) -> convert n y h = Ok (SMat r b B) -> convert n' (OTimes [x; y]) h = Ok (SMat r c C) -> meq r (size dim h) C (mmul r (size dim h) A B).
Proof.
  intros Hn S1 S2 O1 O2 L1 L2 H1 H2 H3. apply C49_convert_value in H1; try assumption. apply C49_convert_value in H2; try assumption.
  apply C49_convert_value in H3; [|exact Hn|cbn; tauto|cbn; tauto]. destruct H1 as [-> H1], H2 as [-> H2], H3 as [-> H3].
  eapply meq_trans; [exact H3|]. cbn [ConvSpec.mat_of fold_right]. apply mmul_eq; [apply meq_sym; exact H1|]. eapply meq_trans; [apply mmul_1r|]. now apply meq_sym.
Qed.
Theorem C49_convert_adjoint n n' x h a A c C : NoDup h -> spinless x -> one_site_factors x ->
  convert n x h = Ok (SMat r a A) -> convert n' (OAdj x) h = Ok (SMat r c C) -> meq r (size dim h) C (mherm r A).
Proof.
  intros Hn S1 O1 H1 H2. apply C49_convert_value in H1; try assumption. apply C49_convert_value in H2; try assumption.
  destruct H1 as [-> H1], H2 as [-> H2]. eapply meq_trans; [exact H2|]. cbn [ConvSpec.mat_of]. apply mherm_eq. now apply meq_sym.
Qed.
(** An expression that is not in the space given is refused. *)
Theorem C49_convert_outside n e h x : In x (space e) -> ~ In x h -> convert (Datatypes.S n) e h = Err ValueError.
Proof.
  intros H1 H2. cbn [conv]. destruct (forallb (fun x => sp_mem x h) (space e)) eqn:E; [|reflexivity]. rewrite forallb_forall in E. specialize (E x H1). apply sp_mem_In in E. contradiction.
Qed.
(** Displacements and squeezing operators are never converted: AttributeError. *)
Theorem C49_displace_refuted n u x : dim x <> None -> convert (Datatypes.S n) (OAtom (ADisp u x)) [x] = Err AttributeError /\ convert (Datatypes.S n) (OAtom (ASqueeze u x)) [x] = Err AttributeError.
Proof.
  intros Hd. assert (eqb_list_nat [x] [x] = true) as E1 by now apply eqb_list_nat_spec. assert (sp_mem x [x] = true) as E2 by (apply sp_mem_In; now left).
  split; cbn [conv space atom_space forallb]; rewrite E2; cbn [andb negb dimension]; unfold dimension1; destruct (dim x); try contradiction; cbn [of_option bind]; now rewrite E1.
Qed.
End Conv.

(** The spin operators are converted to the matrix of a creation operator: on a spin-1/2,
    Jz gets the matrix [[0, 0], [1, 0]], which is not diag(-1/2, 1/2). *)
Definition xr : reading Sx := site_reading (sx_reading xv) unit.
Definition cdim (l : nat) : option nat := Some (l + 2).
Definition no_expand (e : op Sx) : res (op Sx) := Ok e.
Lemma c1_c0 : c1 <> c0.
Proof. intros H. apply (f_equal cre) in H. cbn in H. lra. Qed.
Lemma cQ_n0 q : ~ (q == 0)%Q -> cQ (Q2Qc q) <> c0.
Proof.
  intros H E. assert (cmul (cQ (Q2Qc q)) (cQ (/ Q2Qc q)%Qc) = c1) as E1.
  { rewrite <- cQ_mul. rewrite Qcmult_inv_r; [apply cQ_1|]. intros E2. apply H. apply (f_equal this) in E2. cbn in E2. rewrite <- (Qred_correct q). now rewrite E2. }
  rewrite E in E1. apply c1_c0. rewrite <- E1. apply cx_eq; cbn; ring.
Qed.
Theorem C49_spin_refuted : exists e h v, NoDup h /\ one_site_factors e /\ conv xr cdim no_expand 3 e h = Ok v /\ ~ stands_for xr cdim h v (mat_of xr cdim false h e).
Proof.
  exists (OAtom (AJz 0)), [0], (SMat xr 2 (SympyCreate xr 2)). split; [repeat constructor; intros []|]. split; [exact Logic.I|]. split; [reflexivity|].
  intros [_ H]. specialize (H 0 0 ltac:(lia) ltac:(lia)). rewrite create_entries in H. cbn in H. revert H. apply not_eq_sym.
  change (cQ (qn 0 - spin_s 2)%Qc <> c0). replace (qn 0 - spin_s 2)%Qc with (Q2Qc (-1 # 2)) by (apply Qc_is_canon; vm_compute; reflexivity). apply cQ_n0. intros E. discriminate E.
Qed.
(** With finitely many levels the conversion is not multiplicative across the rules of the
    algebra: a * a^dagger is simplified to 1 + a^dagger a, whose matrix differs from
    the product of the matrices of a and a^dagger in the last level. *)
Theorem C49_truncation_refuted : exists a b c h A B C,
  k_times (xcode 6) [a; b] = Ok c /\ conv xr cdim no_expand 5 a h = Ok (SMat xr 2 A) /\ conv xr cdim no_expand 5 b h = Ok (SMat xr 2 B) /\
  conv xr cdim no_expand 5 c h = Ok (SMat xr 2 C) /\ ~ meq xr 2 C (mmul xr 2 A B).
Proof.
  destruct (C49_convert_defined xr cdim no_expand 5 (OPlus [OOne; OTimes [x_ad 0; x_a 0]]) [0]) as [C EC].
  { repeat constructor; intros []. } { intros; discriminate. } { intros y; cbn; tauto. } { cbn. repeat split; discriminate. } { cbn. lia. }
  pose proof (C49_convert_value xr cdim no_expand 5 (OPlus [OOne; OTimes [x_ad 0; x_a 0]]) [0] _ ltac:(repeat constructor; intros []) ltac:(cbn; tauto) ltac:(cbn; repeat split; lia) EC) as [_ HC].
  exists (x_a 0), (x_ad 0), (OPlus [OOne; OTimes [x_ad 0; x_a 0]]), [0], (mherm xr (SympyCreate xr 2)), (SympyCreate xr 2), C.
  split; [vm_compute; reflexivity|]. split; [reflexivity|]. split; [reflexivity|]. split; [exact EC|].
  intros H. specialize (H 1 1 ltac:(lia) ltac:(lia)). specialize (HC 1 1 ltac:(cbn; lia) ltac:(cbn; lia)). change (size cdim [0]) with 2 in HC.
  assert (mmul xr 2 (mherm xr (SympyCreate xr 2)) (SympyCreate xr 2) 1 1 = c0) as E0.
  { unfold mmul, nsum, mherm. cbn [seq fold_right]. rewrite !create_entries. cbn. apply cx_eq; cbn; ring. }
  rewrite E0 in H. clear E0. rewrite H in HC. cbn in HC.
  apply (f_equal cre) in HC. cbn in HC. revert HC. generalize (sqrt (Q2R 1)). intros x Hx. assert (0 = 1 + x * x)%R as E by (rewrite Hx at 1; ring).
  pose proof (Rle_0_sqr x) as Hq. unfold Rsqr in Hq. lra.
Qed.

(** ** Non-trivial cases *)
(** 2 a_0^dagger sigma_{1,0}^{(1)} a_0 + the adjoint of a_0, on spaces of 2 and 3 levels *)
Definition cv_e : op Sx := OPlus [OScal (num 2) (OTimes [x_ad 0; x_a 0; OAtom (ASigma 1 0 1)]); OAdj (x_a 0)].
Example C49_ex_defined : exists M, conv xr cdim no_expand 5 cv_e [0; 1] = Ok (SMat xr 6 M) /\ meq xr 6 M (mat_of xr cdim false [0; 1] cv_e) /\ M 4 3 = cQ (qn 2) /\ M 5 0 = c0.
Proof.
  destruct (C49_convert_defined xr cdim no_expand 5 cv_e [0; 1]) as [M EM].
  { repeat constructor; cbn; intuition discriminate. } { intros; discriminate. } { intros y; cbn; tauto. } { cbn. repeat split; try discriminate; lia. } { cbn. lia. }
  exists M. split; [exact EM|]. apply C49_convert_value in EM; [|repeat constructor; cbn; intuition discriminate|cbn; tauto|cbn; repeat split; lia].
  destruct EM as [_ H]. split; [exact H|]. rewrite (H 4 3), (H 5 0) by (cbn; lia).
  assert (csqrt (qn 1) = c1) as Es.
  { apply cx_eq; [|reflexivity]. cbn [cre csqrt creal]. replace (Q2R (qn 1)) with 1%R by (unfold Q2R; cbn; field). apply sqrt_1. }
  split; cbn [mat_of cv_e fold_right]; unfold madd, mscale, mmul, nsum; cbn; fold (qn 1) (qn 2); try rewrite ?Es; apply cx_eq; cbn; try ring.
Qed.
Example C49_ex_outside : conv xr cdim no_expand 5 cv_e [0; 2] = Err ValueError.
Proof. apply (C49_convert_outside xr cdim no_expand 4 cv_e [0; 2] 1); [cbn; tauto|cbn; intuition discriminate]. Qed.

Print Assumptions C49_convert_value.
Print Assumptions C49_convert_defined.
Print Assumptions C49_convert_expanded.
Print Assumptions C49_convert_embedded.
Print Assumptions C49_convert_sum.
Print Assumptions C49_convert_product.
Print Assumptions C49_convert_adjoint.
Print Assumptions C49_convert_outside.
Print Assumptions C49_displace_refuted.
Print Assumptions C49_spin_refuted.
Print Assumptions C49_truncation_refuted.
