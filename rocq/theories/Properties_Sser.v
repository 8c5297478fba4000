(** C69 Power series of scalar expressions. *)
From Coq Require Import ZArith Ring_theory Ring.
From Verif Require Import Prelude ListFacts SortModel BinModel OpModel ScalarModel ScalarSpec ScalarProofs OpSeriesModel SserModel SserSpec SserProofs.
Local Open Scope nat_scope.

Section Sser.
  Context {V : pyvals} {M : smeaning V} (P : sparam M) (slt : scal V -> scal V -> bool) (m : nat).
  Context (vsympy : V -> bool) (terms : V -> nat -> list (V * option Z)) (vint : V -> res Z) (aseries : nat -> res (list (scal V))) (order : nat).
  Add Ring SserR : (qring V M).
  Local Notation K := (sk slt m).
  Local Notation sseries := (sseries K vsympy terms vint aseries order).
  Local Notation expander := (expander P vsympy terms aseries order).
  Local Notation sden := (sden M). Local Notation slegal := (slegal M).

  Lemma one_term (v z : sK M) : v = qadd (qadd (qmul q1 v) q0) (qmul z q0).
  Proof. ring. Qed.
  (** the entries are legal, there are order + 1 of them, and they are the coefficients of
      the expansion of the value *)
  Theorem C69_series_value n e l : expander -> slegal e -> sproper e -> sseries n e = Ok l ->
    length l = order + 1 /\ Forall slegal l /\ expands P (sden e) (map sden l).
  Proof. intros X L Pr H. rewrite Nat.add_1_r. exact (series_good P K (sk_sound M slt m) vsympy terms vint aseries order X n e l L Pr H). Qed.
  (** a value has only one expansion of a given order *)
  Theorem C69_unique v cs ds : expands P v cs -> expands P v ds -> length cs = length ds -> cs = ds.
  Proof. intros. eapply exp_unique; eassumption. Qed.
  (** hence the result is determined by the value, not by the form of the expression *)
  Theorem C69_form_irrelevant n k e e' l l' : expander -> slegal e -> sproper e -> slegal e' -> sproper e' ->
    sseries n e = Ok l -> sseries k e' = Ok l' -> sden e = sden e' -> map sden l = map sden l'.
  Proof.
    intros X A B A' B' H H' E. destruct (C69_series_value n e l X A B H) as [N [_ G]]. destruct (C69_series_value k e' l' X A' B' H') as [N' [_ G']].
    rewrite E in G. eapply C69_unique; [exact G|exact G'|]. now rewrite !map_length, N, N'.
  Qed.
  Theorem C69_constant n e l : expander -> slegal e -> sproper e -> scst P (sden e) -> sseries n e = Ok l -> map sden l = sden e :: repeat q0 order.
  Proof.
    intros X A B C H. destruct (C69_series_value n e l X A B H) as [N [_ G]]. eapply C69_unique; [exact G|now apply exp_const|]. rewrite map_length, N. cbn [length]. rewrite repeat_length. lia.
  Qed.
  Theorem C69_sum n k h a b e la lb l : expander -> Forall (fun x => slegal x /\ sproper x) [a; b; e] -> sden e = qadd (sden a) (sden b) ->
    sseries n a = Ok la -> sseries k b = Ok lb -> sseries h e = Ok l -> map sden l = map (fun xy => qadd (sden (fst xy)) (sden (snd xy))) (combine la lb).
  Proof.
    intros X F E Ha Hb He. pose proof (Forall_inv F) as [A1 A2]. pose proof (Forall_inv (Forall_inv_tail F)) as [B1 B2]. pose proof (Forall_inv (Forall_inv_tail (Forall_inv_tail F))) as [E1 E2].
    destruct (C69_series_value _ _ _ X A1 A2 Ha) as [Na [_ Ga]]. destruct (C69_series_value _ _ _ X B1 B2 Hb) as [Nb [_ Gb]]. destruct (C69_series_value _ _ _ X E1 E2 He) as [Ne [_ Ge]].
    rewrite E in Ge. assert (length (map sden la) = length (map sden lb)) as Eab by (now rewrite !map_length, Na, Nb). pose proof (exp_add P _ _ _ _ Ga Gb Eab) as G.
    assert (map (fun p : sK M * sK M => qadd (fst p) (snd p)) (combine (map sden la) (map sden lb)) = map (fun xy => qadd (sden (fst xy)) (sden (snd xy))) (combine la lb)) as EE.
    { clear. revert lb. induction la as [|x la IH]; intros [|y lb]; cbn [map combine fst snd]; try reflexivity. f_equal. apply IH. }
    rewrite EE in G. eapply C69_unique; [exact Ge|exact G|]. rewrite !map_length, combine_length. lia.
  Qed.
  (** the Cauchy product *)
  Theorem C69_product n k h a b e la lb l : expander -> Forall (fun x => slegal x /\ sproper x) [a; b; e] -> sden e = qmul (sden a) (sden b) ->
    sseries n a = Ok la -> sseries k b = Ok lb -> sseries h e = Ok l ->
    map sden l = map (fun i => ssum M (map (fun j => qmul (nth j (map sden la) q0) (nth (i - j) (map sden lb) q0)) (seq 0 (i + 1)))) (seq 0 (order + 1)).
  Proof.
    intros X F E Ha Hb He. pose proof (Forall_inv F) as [A1 A2]. pose proof (Forall_inv (Forall_inv_tail F)) as [B1 B2]. pose proof (Forall_inv (Forall_inv_tail (Forall_inv_tail F))) as [E1 E2].
    destruct (C69_series_value _ _ _ X A1 A2 Ha) as [Na [_ Ga]]. destruct (C69_series_value _ _ _ X B1 B2 Hb) as [Nb [_ Gb]]. destruct (C69_series_value _ _ _ X E1 E2 He) as [Ne [_ Ge]].
    rewrite E in Ge. assert (length (map sden la) = length (map sden lb)) as Eab by (now rewrite !map_length, Na, Nb). pose proof (exp_mul P _ _ _ _ Ga Gb Eab) as G. rewrite map_length, Na in G.
    transitivity (map (cauchy (map sden la) (map sden lb)) (seq 0 (order + 1))).
    - eapply C69_unique; [exact Ge|exact G|]. now rewrite !map_length, seq_length.
    - apply map_ext. intros i. unfold cauchy. now rewrite Nat.add_1_r.
  Qed.
  (** b ** n for a natural number n > 1 expands like the product of n factors b *)
  Theorem C69_power n k b z x l l' : expander -> slegal (SPow b x) -> sproper (SPow b x) -> s_is (Z.of_nat z) x = true ->
    sseries n (SPow b x) = Ok l -> sseries k (STimes (repeat b z)) = Ok l' -> map sden l = map sden l'.
  Proof.
    intros X L Pr Hx H H'. pose proof L as [Lb _]. pose proof Pr as [Pb _].
    apply (C69_form_irrelevant n k (SPow b x) (STimes (repeat b z)) l l' X L Pr (legal_repeat b z Lb) (proper_repeat b z Pb) H H').
    rewrite den_repeat. cbn [ScalarSpec.sden]. rewrite (is_den _ _ Hx), (x_nat _ _ _ _ _ X), (x_pow _ _ _ _ _ X). reflexivity.
  Qed.
  (** zero and one are returned as Zero and One *)
  Theorem C69_type_stable n e l : sseries n e = Ok l -> Forall (fun v => (s_is 0 v = true -> v = SZero) /\ (s_is 1 v = true -> s_is 0 v = false -> v = SOne)) l.
  Proof.
    intros H. destruct n as [|n]; [discriminate H|]. cbn [SserModel.sseries] in H. match type of H with bind ?r _ = _ => destruct r as [l1|]; [cbn [bind] in H; injection H as <-|discriminate H] end.
    rewrite Forall_forall. intros v Hv. apply in_map_iff in Hv. destruct Hv as [w [<- _]]. unfold fix_entry. destruct (s_is 0 w) eqn:E0; [split; [reflexivity|intros _ F; discriminate F]|].
    destruct (s_is 1 w) eqn:E1; [split; [intros F; discriminate F|reflexivity]|]. split; [intros F; congruence|intros F; congruence].
  Qed.
  (** ** What is refused *)
  (** terms with negative or fractional powers of the parameter *)
  Theorem C69_singular n v before t after : vsympy v = true -> terms v order = before ++ t :: after ->
    Forall (fun u => exists o, snd u = Some o /\ (0 <= o <= Z.of_nat order)%Z) before -> (snd t = None \/ exists o, snd t = Some o /\ (o < 0)%Z) ->
    sseries (S n) (SVal v) = Err ValueError.
  Proof.
    intros Hv E HF Ht. cbn [SserModel.sseries]. unfold value_series. rewrite Hv, E. clear E.
    assert (forall next, term_loop order next (before ++ t :: after) = Err ValueError) as G; [|now rewrite G].
    induction HF as [|[c1 o1] before [o [Ho Hr]] _ IH]; intros next; cbn [app term_loop].
    - destruct t as [c2 o2]. cbn [snd] in Ht. destruct Ht as [-> | [o [-> Ho]]]; [reflexivity|]. destruct (Z.ltb_spec o 0); [reflexivity|lia].
    - cbn [snd] in Ho. subst o1. destruct (Z.ltb_spec o 0); [lia|]. destruct (Z.ltb_spec (Z.of_nat order) o); [lia|]. now rewrite IH.
  Qed.
  (** powers with an exponent that is no positive integer *)
  Theorem C69_negative_power n b v z : vint v = Ok z -> (z <= 0)%Z \/ veqb v (vZ z) = false -> sseries (S n) (SPow b (SVal v)) = Err ValueError.
  Proof.
    intros Hv Hz. cbn [SserModel.sseries s_int s_is]. rewrite Hv. cbn [bind]. destruct Hz as [Hz|Hz]; [|now rewrite Hz].
    destruct (Z.ltb_spec 0 z); [lia|]. now rewrite andb_false_r.
  Qed.
  (** an exponent that Python cannot convert to an integer gives the error of [int], and not
      the ValueError that the code means to raise *)
  Theorem C69_symbolic_power n b e : match e with SAtom _ | SPlus _ | STimes _ | SPow _ _ => True | SVal v => vint v = Err TypeError | _ => False end ->
    sseries (S n) (SPow b e) = Err TypeError.
  Proof. intros H. cbn [SserModel.sseries]. destruct e; try contradiction; cbn [s_int]; try reflexivity. now rewrite H. Qed.
End Sser.

From Coq Require Import QArith Qcanon.
From Verif Require Import CInst ScalarInst SserInst ScalarSpec SserSpec.
Local Open Scope nat_scope.
(** ** A concrete case: functions of an integer x, atom 0 is x *)
Lemma fm_nat n : vden Fm (@vZ Gv (Z.of_nat n)) = qnat n.
Proof.
  induction n as [|n IH]; [apply (vden_0 Gv Fm)|]. cbn [qnat]. rewrite <- IH. rewrite Nat2Z.inj_succ, <- Z.add_1_l.
  apply FunctionalExtensionality.functional_extensionality. intros x. change (gZ (1 + Z.of_nat n) = CInst.qadd (Gq 1 0) (gZ (Z.of_nat n))). now rewrite gZ_add, gZ_1.
Qed.
Lemma zpow_nat x n : zpow x (Z.of_nat n) = npow x n.
Proof. unfold zpow. rewrite (proj2 (Z.leb_le 0 (Z.of_nat n))) by lia. now rewrite Nat2Z.id. Qed.
Example fm_expander order : expander Fp isympy iterms (iseries order) order.
Proof.
  constructor.
  - intros v Hv l _. assert (l = [(v, Some 0%Z)]) as ->.
    { unfold l, iterms. cbn [low_terms]. now rewrite (proj2 (Z.leb_le 0 (Z.of_nat order))) by lia. }
    split; [split; [lia|exact Logic.I]|]. split; [constructor; [now exists v|constructor]|]. exists q0. split; [apply s_reg, s_0|].
    unfold term_value. cbn [map snd fst Z.to_nat qtimes ssum fold_right]. set (z := qtimes (spt Fp) (S order)). clearbody z.
    apply one_term.
  - intros v _. now exists v.
  - apply fm_nat.
  - intros x n. rewrite <- fm_nat. apply FunctionalExtensionality.functional_extensionality. intros y. change (qpow_g (x y) (gZ (Z.of_nat n)) = qtimes x n y). rewrite qpow_gZ, zpow_nat.
    induction n as [|n IH]; [reflexivity|]. cbn [npow qtimes]. now rewrite IH.
  - intros k l H. unfold iseries in H. destruct (Nat.eqb_spec k 0) as [->|Hk].
    + assert (expands Fp (aden Fm 0) (q0 :: map (sden Fm) (match order with 0 => [] | S h => SOne :: repeat SZero h end))) as G.
      { replace (aden Fm 0) with (qadd q0 (qmul (spt Fp) q1) : sK Fm).
        - apply exp_cons; [apply s_0|]. destruct order as [|h]; [apply exp_nil, s_reg, s_1|]. cbn [map sden]. rewrite map_repeat'. apply exp_const, s_1.
        - apply FunctionalExtensionality.functional_extensionality. intros x. change (CInst.qadd (Gq 0 0) (CInst.qmul (gZ x) (Gq 1 0)) = gZ x). apply gq_eq; cbn [gre gim CInst.qmul CInst.qadd]; ring. }
      destruct order as [|h]; injection H as <-.
      * split; [reflexivity|]. split; [repeat constructor|exact G].
      * split; [cbn [length]; now rewrite repeat_length|]. split; [|exact G]. constructor; [exact Logic.I|]. constructor; [exact Logic.I|].
        rewrite Forall_forall. intros x Hx. apply repeat_spec in Hx. now subst x.
    + injection H as <-. split; [cbn [length]; now rewrite repeat_length|]. split; [constructor; [exact Logic.I|]; rewrite Forall_forall; intros x Hx; apply repeat_spec in Hx; now subst x|].
      cbn [map]. rewrite map_repeat'. apply exp_const. exists (gatom k). intros x. change (fatom k x = gatom k). unfold fatom. now rewrite (proj2 (Nat.eqb_neq k 0) Hk).
Qed.
(** (i + x) * (3 + x) ** 2 *)
Definition ser_expr : scal Gv := STimes [SPlus [SVal (Gq 0 1 : pv Gv); SAtom 0]; SPow (SPlus [SVal (gZ 3 : pv Gv); SAtom 0]) (SVal (gZ 2 : pv Gv))].
Definition ser_run : res (list (scal Gv)) := sseries (sk (fun _ _ => false) 6) isympy iterms iint (iseries 2) 2 6 ser_expr.
Definition sers_eqb (l : list (scal Gv)) (l' : list gq) : bool := forallb (fun p : scal Gv * gq => gq_eqb (sden Fm (fst p) 0%Z) (snd p)) (combine l l').
(** 9 i + (9 + 6 i) x + (6 + i) x^2 + ... *)
Example C69_nonvacuous : slegal Fm ser_expr /\ sproper ser_expr /\
  match ser_run with Ok l => (length l =? 3) && sers_eqb l [Gq 0 (zq 9); Gq (zq 9) (zq 6); Gq (zq 6) 1] | Err _ => false end = true.
Proof.
  split; [|split; [|vm_compute; reflexivity]].
  - cbn [slegal ser_expr fold_right]. split; [split; [exact Logic.I|split; exact Logic.I]|]. split; [|exact Logic.I].
    split; [split; [exact Logic.I|split; exact Logic.I]|]. split; [exact Logic.I|]. split; [|split].
    + intros x. exists 2%Z. split; [reflexivity|]. left. lia.
    + intros F. discriminate F.
    + reflexivity.
  - cbn [sproper ser_expr fold_right]. repeat split; discriminate.
Qed.

Print Assumptions C69_series_value.
Print Assumptions C69_unique.
Print Assumptions C69_form_irrelevant.
Print Assumptions C69_constant.
Print Assumptions C69_sum.
Print Assumptions C69_product.
Print Assumptions C69_power.
Print Assumptions C69_type_stable.
Print Assumptions C69_singular.
Print Assumptions C69_negative_power.
Print Assumptions C69_symbolic_power.
Print Assumptions C69_nonvacuous.
