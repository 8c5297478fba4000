(** C33: the power series of an operator. [series terms free K order e] is
    [e.series_expand(param, about, order)], with the simplifier [K]; [code] is the
    simplifier as it is, [checked] the same, undefined where the sorting of the factors
    of a product moves an operator past one that shares a local space with it. *)
From Coq Require Import Reals QArith Qcanon Ring Lra.
From Verif Require Import Prelude ListFacts BinModel AlgSpec CAlg Cplx OpModel OpSpec OpForms OpProofs1 OpProofs2 OpProofs3 OpFuel OpOrder OpLocal OpSites OpFock OpSx OpRun OpPi OpSeriesModel OpSeriesSpec OpSeriesProofs OpSeriesInst Properties_Op1.
Local Open Scope nat_scope.
Add Ring Crps : cring.

Section Series.
  Context {S : scalars} {dim : nat -> option nat} {I : interp S dim} (P : param I).
  Context (olt : op S -> op S -> bool) (slt : list nat -> list nat -> bool).
  Local Notation code := (code dim olt slt).
  Local Notation checked := (checked dim olt slt).
  Context (terms : S -> nat -> list (S * option Z)) (free : S -> bool) (order : nat).
  Context (Hterms : forall c, sympy_ok P terms order c) (Hfree : atoms_ok P free).

  (** the result has order + 1 entries, which do not depend on the parameter, and the
      operator is their power series up to a multiple of the (order+1)-st power *)
  Theorem C33_series_value n e l :
    legal I e -> no_minus_cc e -> proper e -> series terms free (checked n) order e = Ok l ->
    series terms free (code n) order e = Ok l
    /\ length l = order + 1 /\ Forall (legal I) l /\ expands P (value I e) (map (value I) l).
  Proof.
    intros Hl Hm Hp H. split.
    - exact (le_ok _ _ _ (series_mono terms free order _ _ (checked_le olt slt n) e) H).
    - rewrite Nat.add_1_r. exact (series_sound P terms free _ (checked_sound I olt slt n) order Hterms Hfree e l Hl Hm Hp H).
  Qed.
  (** operators on one local space: nothing needs to be checked *)
  Theorem C33_local_series_value s n e l :
    good_orders olt slt -> local_to s e ->
    legal I e -> no_minus_cc e -> proper e -> series terms free (code n) order e = Ok l ->
    length l = order + 1 /\ Forall (local_to s) l /\ Forall (legal I) l /\ expands P (value I e) (map (value I) l).
  Proof.
    intros Ho Hloc Hl Hm Hp H. destruct (series_agree s terms free order _ _ (local_agree s dim olt slt Ho n) e Hloc) as [E G].
    assert (series terms free (checked n) order e = Ok l) as H' by (rewrite <- H; exact E). pose proof (G l H') as HL.
    destruct (C33_series_value n e l Hl Hm Hp H') as [_ [N [L X]]]. auto.
  Qed.
  (** there is only one such list of coefficients *)
  Theorem C33_unique v cs ds : expands P v cs -> expands P v ds -> length cs = length ds -> cs = ds.
  Proof. intros. eapply exp_unique; eassumption. Qed.
  (** hence the result is determined by the operator, not by its form *)
  Theorem C33_form_irrelevant n m e e' l l' :
    legal I e -> no_minus_cc e -> proper e -> legal I e' -> no_minus_cc e' -> proper e' ->
    series terms free (checked n) order e = Ok l -> series terms free (checked m) order e' = Ok l' ->
    value I e = value I e' -> map (value I) l = map (value I) l'.
  Proof.
    intros A1 A2 A3 B1 B2 B3 H H' E. destruct (C33_series_value n e l A1 A2 A3 H) as [_ [N [_ X]]].
    destruct (C33_series_value m e' l' B1 B2 B3 H') as [_ [N' [_ X']]]. rewrite <- E in X'.
    apply (C33_unique _ _ _ X X'). rewrite !map_length. congruence.
  Qed.
  (** an operator that does not depend on the parameter *)
  Theorem C33_constant n e l :
    legal I e -> no_minus_cc e -> proper e -> cst P (value I e) -> series terms free (checked n) order e = Ok l ->
    map (value I) l = value I e :: repeat a0 order.
  Proof.
    intros A1 A2 A3 Hc H. destruct (C33_series_value n e l A1 A2 A3 H) as [_ [N [_ X]]].
    apply (C33_unique _ _ _ X (exp_const P _ order Hc)). rewrite map_length. cbn [length]. rewrite repeat_length. lia.
  Qed.
  (** the coefficients of a product are the Cauchy sums of those of its factors *)
  Theorem C33_product n m k a b la lb l e :
    Forall (fun x => legal I x /\ no_minus_cc x /\ proper x) [a; b; e] -> value I e = amul (value I a) (value I b) ->
    series terms free (checked n) order a = Ok la -> series terms free (checked m) order b = Ok lb ->
    series terms free (checked k) order e = Ok l ->
    map (value I) l = map (fun i => msum I (map (fun j => amul (nth j (map (value I) la) a0) (nth (i - j) (map (value I) lb) a0)) (seq 0 (i + 1)))) (seq 0 (order + 1)).
  Proof.
    intros HF E Ha Hb H. pose proof (Forall_inv HF) as [A1 [A2 A3]]. pose proof (Forall_inv (Forall_inv_tail HF)) as [B1 [B2 B3]].
    pose proof (Forall_inv (Forall_inv_tail (Forall_inv_tail HF))) as [L1 [L2 L3]].
    destruct (C33_series_value n a la A1 A2 A3 Ha) as [_ [Na [_ Xa]]]. destruct (C33_series_value m b lb B1 B2 B3 Hb) as [_ [Nb [_ Xb]]].
    destruct (C33_series_value k e l L1 L2 L3 H) as [_ [N [_ X]]].
    assert (length (map (value I) la) = length (map (value I) lb)) as El by (rewrite !map_length; congruence).
    pose proof (exp_mul P _ _ _ _ Xa Xb El) as Xp. rewrite E in X. rewrite map_length, Na in Xp.
    etransitivity; [apply (C33_unique _ _ _ X Xp); rewrite !map_length, seq_length; exact N|].
    apply map_ext. intros i. unfold cauchy. now rewrite Nat.add_1_r.
  Qed.
  Theorem C33_commutator n m k a b la lb l e :
    Forall (fun x => legal I x /\ no_minus_cc x /\ proper x) [a; b; e] -> value I e = mcomm I (value I a) (value I b) ->
    series terms free (checked n) order a = Ok la -> series terms free (checked m) order b = Ok lb ->
    series terms free (checked k) order e = Ok l ->
    map (value I) l = map (fun i => msum I (map (fun j => mcomm I (nth j (map (value I) la) a0) (nth (i - j) (map (value I) lb) a0)) (seq 0 (i + 1)))) (seq 0 (order + 1)).
  Proof.
    intros HF E Ha Hb H. pose proof (Forall_inv HF) as [A1 [A2 A3]]. pose proof (Forall_inv (Forall_inv_tail HF)) as [B1 [B2 B3]].
    pose proof (Forall_inv (Forall_inv_tail (Forall_inv_tail HF))) as [L1 [L2 L3]].
    destruct (C33_series_value n a la A1 A2 A3 Ha) as [_ [Na [_ Xa]]]. destruct (C33_series_value m b lb B1 B2 B3 Hb) as [_ [Nb [_ Xb]]].
    destruct (C33_series_value k e l L1 L2 L3 H) as [_ [N [_ X]]].
    assert (length (map (value I) la) = length (map (value I) lb)) as El by (rewrite !map_length; congruence).
    pose proof (exp_comm P _ _ _ _ Xa Xb El) as Xp. rewrite E in X. rewrite map_length, Na in Xp.
    etransitivity; [apply (C33_unique _ _ _ X Xp); rewrite !map_length, seq_length; exact N|].
    apply map_ext. intros i. now rewrite Nat.add_1_r.
  Qed.
  (** entry by entry: sums and adjoints *)
  Theorem C33_sum n m k a b la lb l e :
    Forall (fun x => legal I x /\ no_minus_cc x /\ proper x) [a; b; e] -> value I e = aadd (value I a) (value I b) ->
    series terms free (checked n) order a = Ok la -> series terms free (checked m) order b = Ok lb ->
    series terms free (checked k) order e = Ok l ->
    map (value I) l = map (fun xy => aadd (value I (fst xy)) (value I (snd xy))) (combine la lb).
  Proof.
    intros HF E Ha Hb H. pose proof (Forall_inv HF) as [A1 [A2 A3]]. pose proof (Forall_inv (Forall_inv_tail HF)) as [B1 [B2 B3]].
    pose proof (Forall_inv (Forall_inv_tail (Forall_inv_tail HF))) as [L1 [L2 L3]].
    destruct (C33_series_value n a la A1 A2 A3 Ha) as [_ [Na [_ Xa]]]. destruct (C33_series_value m b lb B1 B2 B3 Hb) as [_ [Nb [_ Xb]]].
    destruct (C33_series_value k e l L1 L2 L3 H) as [_ [N [_ X]]].
    assert (length (map (value I) la) = length (map (value I) lb)) as El by (rewrite !map_length; congruence).
    pose proof (exp_add P _ _ _ _ Xa Xb El) as Xp. rewrite E in X.
    etransitivity; [apply (C33_unique _ _ _ X Xp); rewrite !map_length, combine_length, !map_length, Na, Nb, N; lia|].
    clear. revert lb. induction la as [|x la IH]; intros [|y lb]; cbn [map combine]; try reflexivity. now rewrite IH.
  Qed.
  Theorem C33_adjoint n m a la l e :
    Forall (fun x => legal I x /\ no_minus_cc x /\ proper x) [a; e] -> value I e = star (value I a) ->
    series terms free (checked n) order a = Ok la -> series terms free (checked m) order e = Ok l ->
    map (value I) l = map (fun x => star (value I x)) la.
  Proof.
    intros HF E Ha H. pose proof (Forall_inv HF) as [A1 [A2 A3]]. pose proof (Forall_inv (Forall_inv_tail HF)) as [L1 [L2 L3]].
    destruct (C33_series_value n a la A1 A2 A3 Ha) as [_ [Na [_ Xa]]]. destruct (C33_series_value m e l L1 L2 L3 H) as [_ [N [_ X]]].
    pose proof (exp_star P _ _ Xa) as Xp. rewrite map_map in Xp. rewrite E in X.
    apply (C33_unique _ _ _ X Xp). rewrite !map_length. congruence.
  Qed.
  (** coefficients: the loop over the terms that SymPy delivers *)
  Theorem C33_scalar c l :
    scalar_series terms order c = Ok l ->
    length l = order + 1 /\ expands P (smul (ev c) a1) (map (fun x => smul (ev x) a1) l).
  Proof. rewrite Nat.add_1_r. exact (scalar_series_sound P terms order Hterms c l). Qed.
End Series.

(** singular terms (negative or fractional powers) up to the order are refused *)
Theorem C33_singular {S : scalars} (terms : S -> nat -> list (S * option Z)) order c before t after :
  terms c order = before ++ t :: after ->
  Forall (fun u => exists o, snd u = Some o /\ (0 <= o <= Z.of_nat order)%Z) before ->
  (snd t = None \/ exists o, snd t = Some o /\ (o < 0)%Z) ->
  scalar_series terms order c = Err ValueError.
Proof.
  intros E HF Ht. unfold scalar_series. rewrite E. clear E. assert (forall next, scalar_loop order next (before ++ t :: after) = Err ValueError) as G; [|now rewrite G].
  induction HF as [|[c1 o1] before [o [Ho Hr]] _ IH]; intros next; cbn [app scalar_loop].
  - destruct t as [c2 o2]. cbn [snd] in Ht. destruct Ht as [-> | [o [-> Ho]]]; [reflexivity|]. destruct (Z.ltb_spec o 0); [reflexivity|lia].
  - cbn [snd] in Ho. subst o1. destruct (Z.ltb_spec o 0); [lia|]. destruct (Z.ltb_spec (Z.of_nat order) o); [lia|]. now rewrite IH.
Qed.

(** ** The representation by operators on Fock spaces that depend on a real number x:
    for coefficients that are polynomials in x, the operator at x is the sum of the
    results times powers of x, up to x^(order+1) times a polynomial *)
Theorem C33_at_every_point (olt : op Sx -> op Sx -> bool) slt order n e l :
  legal Px e -> no_minus_cc e -> proper e -> series x_terms x_free (checked xdim olt slt n) order e = Ok l ->
  exists cs : list (A opn), forall x : R,
    value (Fx x) e = aadd (a:=opn)
      (fold_right (aadd (a:=opn)) a0 (map (fun kc => smul (a:=opn) (cpow (creal x) (fst kc) : K opn) (value (Fx 0%R) (snd kc))) (combine (seq 0 (order + 1)) l)))
      (smul (a:=opn) (cpow (creal x) (order + 1) : K opn) (evalo cs x)).
Proof.
  intros H1 H2 H3 H. destruct (C33_series_value Paramx olt slt x_terms x_free order (sympy_x order) atoms_x n e l H1 H2 H3 H) as [_ [N [_ [Hc [r [[cs Hr] E]]]]]].
  exists cs. intros x. rewrite <- (pi_value 0%R Fx e x), <- Hr. change (pi_interp 0%R Fx) with Px. rewrite E, map_length, N.
  change (aadd (a:=opn) (polynomial Paramx (map (value Px) l) x) (smul (a:=opn) (kpow (pt Paramx) (order + 1) x : K opn) (r x)) =
    aadd (a:=opn) (fold_right (aadd (a:=opn)) a0 (map (fun kc => smul (a:=opn) (cpow (creal x) (fst kc) : K opn) (value (Fx 0%R) (snd kc))) (combine (seq 0 (order + 1)) l)))
      (smul (a:=opn) (cpow (creal x) (order + 1) : K opn) (r x))).
  rewrite kpow_at. f_equal. unfold polynomial. rewrite map_length, N. clear - Hc. generalize (seq 0 (order + 1)). revert Hc.
  induction l as [|y l IH]; intros Hc [|k ks]; try reflexivity. cbn [map combine fold_right fst snd].
  change (aadd (a:=opn) (smul (a:=opn) (kpow (pt Paramx) k x : K opn) (value Px y x)) (msum Px (map (fun nc => smul (kpow (pt Paramx) (fst nc)) (snd nc)) (combine ks (map (value Px) l))) x) =
    aadd (a:=opn) (smul (a:=opn) (cpow (creal x) k : K opn) (value (Fx 0%R) y)) (fold_right (aadd (a:=opn)) a0 (map (fun kc => smul (a:=opn) (cpow (creal x) (fst kc) : K opn) (value (Fx 0%R) (snd kc))) (combine ks l)))).
  rewrite (IH (Forall_inv_tail Hc) ks). f_equal. rewrite kpow_at. f_equal. destruct (Forall_inv Hc) as [c Hy].
  rewrite (Hy x), <- (Hy 0%R). exact (pi_value 0%R Fx y 0%R).
Qed.

(** ** Examples *)
Definition x_p : Sx := XVar 0.
(** (x a + A)(x b + a), with a and b the annihilator and its adjoint *)
Definition ex_series : op Sx :=
  OTimes [OPlus [sym 1 [0]; OScal x_p (x_a 0)]; OPlus [OScal x_p (x_ad 0); x_a 0]].
Example C33_ex_legal : legal Px ex_series /\ no_minus_cc ex_series /\ proper ex_series /\ local_to 0 ex_series.
Proof. repeat split; cbn; try lia; intros; try reflexivity; now right. Qed.
Example C33_ex :
  match series x_terms x_free (xchecked 9) 2 ex_series with
  | Ok [u; v; w] => oeqb (S:=Sx) u (OTimes [sym 1 [0]; x_a 0])
      && oeqb (S:=Sx) v (OPlus [OTimes [sym 1 [0]; x_ad 0]; OTimes [x_a 0; x_a 0]])
      && oeqb (S:=Sx) w (OPlus [OOne; OTimes [x_ad 0; x_a 0]])
  | _ => false
  end = true.
Proof. vm_compute. reflexivity. Qed.
Example C33_ex_commutator :
  match series x_terms x_free (xchecked 9) 1 (OComm (OScal x_p (sym 1 [0])) (OPlus [sym 2 [0]; OScal x_p (sym 3 [0])])) with
  | Ok [u; v] => oeqb (S:=Sx) u OZero && oeqb (S:=Sx) v (OComm (sym 1 [0]) (sym 2 [0]))
  | _ => false
  end = true.
Proof. vm_compute. reflexivity. Qed.
Example C33_ex_singular : scalar_series x_terms 3 (XExp x_p : Sx) = Err ValueError.
Proof. reflexivity. Qed.

(** An OperatorPlusMinusCC with a minus sign loses it: the series of A - A^dagger is
    that of A + A^dagger *)
Theorem C33_minus_cc_refuted :
  exists e l, legal Px e /\ proper e /\ series x_terms x_free (xcode 5) 0 e = Ok l /\ length l = 1
    /\ ~ expands Paramx (value Px e) (map (value Px) l).
Proof.
  exists (OPM false (x_a 0)), [OPM true (x_a 0)]. split; [cbn; intros; reflexivity|]. split; [exact Logic.I|]. split; [reflexivity|]. split; [reflexivity|].
  intros H. assert (cst Paramx (value Px (OPM false (x_a 0)))) as Hc by (exists (value (Fx 0%R) (OPM false (x_a 0))); intros x; exact (pi_value 0%R Fx _ x)).
  pose proof (exp_const Paramx _ 0 Hc) as H2. pose proof (exp_unique Paramx _ _ _ H H2 eq_refl) as E. injection E as E.
  apply (f_equal (fun g : A Px => ap nat (fst (g 0%R)) (fun _ => c1) (fun l => 1))) in E.
  assert (csqrt (qn 1) = copp (csqrt (qn 1))) as G.
  { match type of E with ?a = ?b =>
      assert (a = cadd (csqrt (qn 2)) (csqrt (qn 1))) as E1 by (cbn -[cmul cadd csqrt qn]; ring);
      assert (b = cadd (csqrt (qn 2)) (copp (csqrt (qn 1)))) as E2 by (cbn -[cmul cadd csqrt qn copp]; ring) end.
    rewrite E1, E2 in E. replace (csqrt (qn 1)) with (cadd (copp (csqrt (qn 2))) (cadd (csqrt (qn 2)) (csqrt (qn 1)))) at 1 by ring. rewrite E. ring. }
  apply (f_equal cre) in G. cbn [cre csqrt creal copp] in G. rewrite Q2R_qn in G. cbn [INR] in G. rewrite sqrt_1 in G. lra.
Qed.

Print Assumptions C33_series_value.
Print Assumptions C33_local_series_value.
Print Assumptions C33_unique.
Print Assumptions C33_form_irrelevant.
Print Assumptions C33_constant.
Print Assumptions C33_product.
Print Assumptions C33_commutator.
Print Assumptions C33_sum.
Print Assumptions C33_adjoint.
Print Assumptions C33_scalar.
Print Assumptions C33_singular.
Print Assumptions C33_at_every_point.
Print Assumptions C33_minus_cc_refuted.
