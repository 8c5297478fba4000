(** C30 sums of operators, C31 expansion, C32 adjoints. [code] is the simplifier as
    it is; [checked] the same, undefined where the sorting of the factors of a
    product moves an operator past one that shares a local space with it. *)
From Coq Require Import QArith Qcanon Permutation.
From Verif Require Import Prelude ListFacts SortModel SortSpec SortProofs BinModel AlgSpec CAlg OpModel OpSpec OpForms OpProofs1 OpProofs2 OpProofs3 OpFuel OpOrder OpForm OpForm2 OpLocal OpSx OpRun.
Local Open Scope nat_scope.

Section Op.
  Context {S : scalars} {dim : nat -> option nat} (I : interp S dim).
  Context (olt : op S -> op S -> bool) (slt : list nat -> list nat -> bool).
  Local Notation code := (code dim olt slt).
  Local Notation checked := (checked dim olt slt).

  Lemma checked_sound n : soundK I (checked n).
  Proof. apply creators_sound, careful_order_ok. Qed.
  Lemma checked_le n : leK (checked n) (code n).
  Proof. apply creators_mono; [apply careful_real|apply Nat.le_refl]. Qed.

  (** ** C30 *)
  (** the sum has the value of the sum, in every interpretation *)
  Theorem C30_sum_value n l e :
    Forall (legal I) l -> k_plus (code n) l = Ok e ->
    legal I e /\ value I e = msum I (map (value I) l).
  Proof.
    intros Hl H. unfold OpRun.code in H. rewrite (proj2 (plus_order_free dim olt slt _ (careful_order olt slt) n)) in H.
    exact (s_plus I _ (checked_sound n) l e Hl H).
  Qed.
  Theorem C30_multiple_value n c a e :
    legal I a -> k_scal (code n) c a = Ok e ->
    legal I e /\ value I e = smul (ev c) (value I a).
  Proof.
    intros Hl H. unfold OpRun.code in H. rewrite (proj1 (plus_order_free dim olt slt _ (careful_order olt slt) n)) in H.
    exact (s_scal I _ (checked_sound n) c a e Hl H).
  Qed.
  Theorem C30_difference_value n a b e :
    legal I a -> legal I b -> osub (code n) a b = Ok e ->
    legal I e /\ value I e = aadd (value I a) (smul (kopp k1) (value I b)).
  Proof.
    intros Ha Hb H. unfold osub in H. destruct (k_scal (code n) sm1 b) as [b'|] eqn:Eb; [|discriminate]. cbn [bind] in H.
    destruct (C30_multiple_value _ _ _ _ Hb Eb) as [Lb Vb]. assert (Forall (legal I) [a; b']) as HF by (repeat constructor; assumption).
    destruct (C30_sum_value _ _ _ HF H) as [Le Ve]. split; [exact Le|]. rewrite Ve. cbn [map]. rewrite msum_2, Vb. f_equal. f_equal. apply (ev_sm1 I).
  Qed.
  (** no two summands share a term, no coefficient is zero; the sum of at most one
      summand is that summand *)
  Theorem C30_collected_form n l e :
    seqb (@s1 S) s0 = false -> Forall (fun x => plain (term x)) (flat_plus l) ->
    k_plus (code (Datatypes.S (Datatypes.S n))) l = Ok e ->
    match e with
    | OZero => True
    | OPlus l' => 2 <= length l' /\ collected l'
    | _ => plain (term e) /\ seqb (coeff e) s0 = false
    end.
  Proof. apply plus_collected. Qed.
  (** creating a sum of plain summands always succeeds *)
  Theorem C30_sum_defined n l :
    Forall (fun x => plain (term x)) (flat_plus l) -> exists e, k_plus (code (Datatypes.S (Datatypes.S n))) l = Ok e.
  Proof.
    intros Hl. change (exists e, plus_step olt slt (code (Datatypes.S n)) l = Ok e). unfold plus_step.
    assert (Forall (fun x => plain (term x)) (pysorted (ofull_lt olt slt) (flat_plus l))) as Hl'.
    { rewrite Forall_forall in *. intros x Hx. apply Hl. now apply pysorted_In in Hx. }
    unfold OpRun.code. rewrite (collect_summands_eq dim olt slt (real_order olt slt) n _ Hl'). cbn [bind].
    destruct (flat_map rebuild _) as [|x [|y r]]; eexists; reflexivity.
  Qed.
  Theorem C30_empty_sum n : k_plus (code (Datatypes.S n)) [] = Ok OZero.
  Proof. reflexivity. Qed.
  (** reordering the operands does not change the result, provided the order is a
      strict weak order that tells different summands apart *)
  Theorem C30_reorder n l l' :
    Permutation l l' -> consistent (ofull_lt olt slt) (flat_plus l) ->
    (forall x y, In x (flat_plus l) -> In y (flat_plus l) -> tied (ofull_lt olt slt) x y = true -> x = y) ->
    k_plus (code (Datatypes.S n)) l = k_plus (code (Datatypes.S n)) l'.
  Proof. apply plus_reorder. Qed.

  (** ** C31 *)
  Theorem C31_expand_value n m e e' :
    legal I e -> expand (checked n) m e = Ok e' ->
    expand (code n) m e = Ok e' /\ legal I e' /\ value I e' = value I e.
  Proof.
    intros Hl H. split; [|exact (expand_sound I _ (checked_sound n) m e e' Hl H)].
    exact (le_ok _ _ _ (expand_mono _ _ (checked_le n) m m e (Nat.le_refl m)) H).
  Qed.
  (** on one local space, whatever the operators, nothing needs to be checked *)
  Theorem C31_local_expand_value l n m e e' :
    good_orders olt slt -> local_to l e -> legal I e -> expand (code n) m e = Ok e' ->
    local_to l e' /\ legal I e' /\ value I e' = value I e.
  Proof.
    intros Ho Hloc Hl H. destruct (expand_agree l _ _ (local_agree l dim olt slt Ho n) m e Hloc) as [E G].
    unfold OpRun.code in H. rewrite <- E in H. split; [apply G; rewrite <- H; now symmetry|].
    exact (expand_sound I _ (checked_sound n) m e e' Hl H).
  Qed.
  (** sums, multiples and products of symbols, transition, phase, displacement and
      squeezing operators: no sum remains inside a product. Missing: ladder operators
      (see C31_sum_factor_refuted), commutators. *)
  Theorem C31_expanded_form_partial n m e e' :
    tame_expr e -> expand (code n) m e = Ok e' -> no_sum_factor e' = true.
  Proof.
    apply (expand_no_sum_factor dim olt slt (real_order olt slt)). intros l. cbn. intros x Hx. now apply pysorted_In in Hx.
  Qed.

  (** ** C32 *)
  Theorem C32_adjoint_value n e e' :
    legal I e -> oadj (checked n) e = Ok e' ->
    oadj (code n) e = Ok e' /\ legal I e' /\ value I e' = star (value I e).
  Proof.
    intros Hl H. split; [|exact (oadj_sound I _ (checked_sound n) e e' Hl H)].
    exact (le_ok _ _ _ (oadj_mono _ _ (checked_le n) e) H).
  Qed.
  Theorem C32_local_adjoint_value l n e e' :
    good_orders olt slt -> local_to l e -> legal I e -> oadj (code n) e = Ok e' ->
    local_to l e' /\ legal I e' /\ value I e' = star (value I e).
  Proof.
    intros Ho Hloc Hl H. destruct (oadj_agree l _ _ (local_agree l dim olt slt Ho n) e Hloc) as [E G].
    unfold OpRun.code in H. rewrite <- E in H. split; [apply G; rewrite <- H; now symmetry|].
    exact (oadj_sound I _ (checked_sound n) e e' Hl H).
  Qed.
  (** adjoint twice: the original operator *)
  Theorem C32_adjoint_twice n e e' e'' :
    legal I e -> oadj (checked n) e = Ok e' -> oadj (checked n) e' = Ok e'' ->
    oadj (code n) e = Ok e' /\ oadj (code n) e' = Ok e'' /\ value I e'' = value I e.
  Proof.
    intros Hl H H2. destruct (C32_adjoint_value _ _ _ Hl H) as [E1 [L1 V1]]. destruct (C32_adjoint_value _ _ _ L1 H2) as [E2 [L2 V2]].
    split; [exact E1|]. split; [exact E2|]. now rewrite V2, V1, star_star.
  Qed.
  (** the laws, as they appear in the result *)
  Theorem C32_sum n l l' : mapM (oadj (code n)) l = Ok l' -> oadj (code n) (OPlus l) = Ok (OPlus l').
  Proof.
    intros H. cbn [oadj]. match goal with |- bind (?f l) _ = _ => set (go := f) end. assert (go l = Ok l') as ->; [|reflexivity].
    revert l' H. induction l as [|x l IH]; cbn [mapM]; intros l' H; [exact H|]. cbn. destruct (oadj (code n) x); [|discriminate]. cbn [bind] in *.
    destruct (mapM (oadj (code n)) l); [|discriminate]. cbn [bind] in *. now rewrite (IH _ eq_refl).
  Qed.
  Theorem C32_multiple n c t t' : oadj (code n) t = Ok t' -> oadj (code n) (OScal c t) = Ok (OScal (sconj c) t').
  Proof. intros H. cbn [oadj]. now rewrite H. Qed.
  Theorem C32_product n l l' : mapM (oadj (code n)) l = Ok l' -> oadj (code n) (OTimes l) = k_times (code n) (rev l').
  Proof.
    intros H. cbn [oadj]. match goal with |- bind (?f l) _ = _ => set (go := f) end. assert (go l = Ok l') as ->; [|reflexivity].
    revert l' H. induction l as [|x l IH]; cbn [mapM]; intros l' H; [exact H|]. cbn. destruct (oadj (code n) x); [|discriminate]. cbn [bind] in *.
    destruct (mapM (oadj (code n)) l); [|discriminate]. cbn [bind] in *. now rewrite (IH _ eq_refl).
  Qed.
  Theorem C32_commutator n a b a' b' :
    oadj (code n) a = Ok a' -> oadj (code n) b = Ok b' -> oadj (code n) (OComm a b) = Ok (OComm b' a').
  Proof. intros H1 H2. cbn [oadj]. now rewrite H1, H2. Qed.
  Theorem C32_of_adjoint n a : oadj (code n) (OAdj a) = Ok a.
  Proof. reflexivity. Qed.
End Op.

(** ** Examples, and what fails *)
Definition eA : op Sx := sym 1 [0].
Definition eB : op Sx := sym 2 [0].
(** 2 A + B + 3 A + 4 - B - 4 is 5 A; in any order *)
Definition ex_summands : list (op Sx) := [OScal (num 2) eA; eB; OScal (num 3) eA; OScal (num 4) OOne; OScal (num (-1)) eB; OScal (num (-4)) OOne].
Example C30_ex_summands :
  Forall (legal xfock) ex_summands /\ Forall (fun x => plain (term x)) (flat_plus ex_summands) /\ seqb (s:=Sx) s1 s0 = false
  /\ is_ok (k_plus (xcode 3) ex_summands) (OScal (num 5) eA) = true /\ is_ok (k_plus (xcode 3) (rev ex_summands)) (OScal (num 5) eA) = true.
Proof. repeat split; try (vm_compute; reflexivity); repeat constructor. Qed.
(** A - A is zero *)
Example C30_ex_cancel : is_ok (osub (xcode 3) eA eA) OZero = true.
Proof. vm_compute. reflexivity. Qed.
(** an order that satisfies the hypotheses of [C30_reorder] on two summands *)
Example C30_ex_reorder :
  consistent (ofull_lt xolt xslt) (flat_plus [eB; eA])
  /\ (forall x y, In x [eB; eA] -> In y [eB; eA] -> tied (ofull_lt xolt xslt) x y = true -> x = y).
Proof.
  split.
  - split; [intros x y Hx Hy; cbn in Hx, Hy|intros x y z Hx Hy Hz; cbn in Hx, Hy, Hz];
      repeat match goal with H : _ \/ _ |- _ => destruct H | H : False |- _ => contradiction end; subst; vm_compute; congruence.
  - intros x y Hx Hy. cbn in Hx, Hy. repeat match goal with H : _ \/ _ |- _ => destruct H | H : False |- _ => contradiction end; subst; vm_compute; congruence.
Qed.
(** Terms that are themselves sums: A + 2 (A + B) - 3 (A + B) gives the sum of A and
    the sum -A - B; the summand A and the summand -A are not collected. *)
Theorem C30_nested_sum_refuted :
  exists s t u e, k_plus (xcode 6) [eA; eB] = Ok s /\ k_scal (xcode 6) (num 2) s = Ok t /\ k_scal (xcode 6) (num (-3)) s = Ok u
    /\ k_plus (xcode 6) [eA; t; u] = Ok e
    /\ match e with OPlus [x; OPlus [OScal c y; _]] => oeqb x eA && oeqb y eA && seqb c (num (-1)) | _ => false end = true.
Proof.
  pose (s := OPlus [eA; eB]). exists s, (OScal (num 2) s), (OScal (num (-3)) s).
  exists (OPlus [eA; OPlus [OScal (num (-1)) eA; OScal (num (-1)) eB]]). repeat split; try (vm_compute; reflexivity).
Qed.

(** expansion: (A + B) (A - B) *)
Definition ex_product : op Sx := OTimes [OPlus [eA; eB]; OPlus [eA; OScal (num (-1)) eB]].
Example C31_ex : tame_expr ex_product /\ legal xfock ex_product /\ local_to 0 ex_product
  /\ is_ok (expand (xchecked 6) 6 ex_product)
       (OPlus [OScal (num (-1)) (OTimes [eA; eB]); OScal (num (-1)) (OTimes [eB; eB]); OTimes [eA; eA]; OTimes [eB; eA]]) = true.
Proof.
  repeat split; try (vm_compute; reflexivity).
  - apply (te_times (S:=Sx)). intros x Hx. cbn in Hx. destruct Hx as [<- |[<- |[]]]; apply (te_plus (S:=Sx)); intros y Hy; cbn in Hy; destruct Hy as [<- |[<- |[]]];
      try apply (te_scal (S:=Sx)); apply (te_atom (S:=Sx)); exact Logic.I.
  - cbn. auto.
  - cbn. auto.
  - cbn. auto.
  - cbn. auto.
Qed.
(** Operators on different spaces: ((a_0 + X_1) (b_1 + Y_0)).expand() needs sorting *)
Example C31_ex_two_modes :
  exists e, expand (xchecked 7) 7 (OTimes [OPlus [x_a 0; sym 1 [1]]; OPlus [x_ad 1; sym 2 [0]]]) = Ok e
    /\ no_sum_factor e = true /\ match e with OPlus [_; _; _; _] => true | _ => false end = true.
Proof. eexists. split; [vm_compute; reflexivity|]. split; vm_compute; reflexivity. Qed.
(** A sum can remain inside a product: ((a + |0><0|) (a^* X)).expand() is
    (1 + a^* a) X *)
Theorem C31_sum_factor_refuted :
  exists s t p e, k_plus (xcode 8) [x_a 0; OAtom (ASigma 0 0 0)] = Ok s /\ k_times (xcode 8) [x_ad 0; eA] = Ok t
    /\ k_times (xcode 8) [s; t] = Ok p /\ expand (xcode 8) 8 p = Ok e /\ no_sum_factor e = false.
Proof.
  exists (OPlus [x_a 0; OAtom (ASigma 0 0 0)]), (OTimes [x_ad 0; eA]).
  exists (OTimes [OPlus [x_a 0; OAtom (ASigma 0 0 0)]; x_ad 0; eA]), (OTimes [OPlus [OOne; OTimes [x_ad 0; x_a 0]]; eA]).
  repeat split; vm_compute; reflexivity.
Qed.
(** Expanding the adjoint of a symbol's sum, Adjoint(A + B), calls a method that does
    not exist *)
Theorem C31_adjoint_refuted :
  expand (xcode 8) 8 (OAdj (OPlus [eA; eB])) = Err AttributeError.
Proof. vm_compute. reflexivity. Qed.

(** adjoints: (2i A B^* + a)^* *)
Example C32_ex :
  let e := OPlus [OScal (XMul (num 2) XI) (OTimes [eA; OAdj eB]); x_a 0] in
  legal xfock e /\ local_to (S:=Sx) 0 e
  /\ is_ok (oadj (xchecked 6) e) (OPlus [OScal (x_mul (num 2) (x_neg XI)) (OTimes [eB; OAdj eA]); x_ad 0]) = true.
Proof. cbn zeta. repeat split; try (vm_compute; reflexivity); cbn; auto. Qed.
(** The adjoint of a + a^* is the sum a + a^* with the summands in the order a, a^*,
    which is not equal to the sum created from them *)
Theorem C32_sum_order_refuted :
  exists s s', k_plus (xcode 6) [x_a 0; x_ad 0] = Ok s /\ oadj (xcode 6) s = Ok s' /\ oeqb s s' = false
    /\ k_plus (xcode 6) (summands_of s') = Ok s.
Proof. exists (OPlus [x_ad 0; x_a 0]), (OPlus [x_a 0; x_ad 0]). repeat split; vm_compute; reflexivity. Qed.

Print Assumptions C30_sum_value.
Print Assumptions C30_multiple_value.
Print Assumptions C30_difference_value.
Print Assumptions C30_collected_form.
Print Assumptions C30_sum_defined.
Print Assumptions C30_empty_sum.
Print Assumptions C30_reorder.
Print Assumptions C30_nested_sum_refuted.
Print Assumptions C31_expand_value.
Print Assumptions C31_local_expand_value.
Print Assumptions C31_expanded_form_partial.
Print Assumptions C31_sum_factor_refuted.
Print Assumptions C31_adjoint_refuted.
Print Assumptions C32_adjoint_value.
Print Assumptions C32_local_adjoint_value.
Print Assumptions C32_adjoint_twice.
Print Assumptions C32_sum.
Print Assumptions C32_multiple.
Print Assumptions C32_product.
Print Assumptions C32_commutator.
Print Assumptions C32_of_adjoint.
Print Assumptions C32_sum_order_refuted.
