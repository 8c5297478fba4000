(** C70 Powers of indexed scalar sums. *)
From Coq Require Import List ZArith Lia Ring.
From Verif Require Import Prelude ListFacts SortModel SortProofs HilbertModel BasisModel BasisSpec BasisProofs AlgSpec AlgInst IdxModel IdxSpec IdxProofs1 IdxProofs2 IdxProofs3 IdxProofs4 IdxPowModel.
Import ListNotations.
Local Open Scope nat_scope.

(** the product of n factors *)
Fixpoint times {M : algebra} (a : A M) (n : nat) : A M := match n with 0 => a1 | S k => amul (times a k) a end.

(** no summation index has a primed copy, neither among the indices nor in the summand, and
    none is bound in the summand *)
Definition plain_sum (t : term) (rs : list irange_of) : Prop :=
  wf t /\ NoDup (syms rs) /\ forall x, In x (syms rs) -> primes_fresh x t /\ forall y, primed_copy x y -> ~ In y (syms rs).

(** what the partial products look like *)
Record partial_power (t : term) (rs : list irange_of) (u : term) (us : list irange_of) : Prop := {
  pp_nodup : NoDup (syms us);
  pp_has : forall z, In z (syms rs) -> In z (syms us);
  pp_from : forall z, In z (syms us) -> In z (syms rs) \/ exists x, In x (syms rs) /\ primed_copy x z;
  pp_free : forall z, In z (tfree u) -> In z (tfree t) \/ In z (syms us)
}.
Lemma tfree_sum t rs z : In z (tfree (TSum t rs)) <-> In z (tfree t) /\ ~ In z (syms rs).
Proof. cbn [tfree]. rewrite filter_In, negb_true_iff, imem_false. reflexivity. Qed.
Lemma step_total t rs u us : plain_sum t rs -> partial_power t rs u us ->
  exists v vs, mul_sums u us t rs = Ok (TSum v vs) /\ partial_power t rs v vs /\ map snd vs = map snd us ++ map snd rs /\
    forall M symI atomI e, tden M symI atomI e (TSum v vs) = amul (tden M symI atomI e (TSum u us)) (tden M symI atomI e (TSum t rs)).
Proof.
  intros [Hw [Hn Hp]] [P1 P2 P3 P4].
  assert (Hf : forall x, In x (syms rs) -> In x (syms us) -> primes_fresh x t) by (intros x X _; now apply Hp).
  destruct (disjunct_loop_total (syms us) rs rs t rs Hw Hn Hn) as [[w ws] E]; auto.
  { intros x X1 _. destruct (Hp x X1) as [[F _] G]. now split. }
  pose proof (make_disjunct_ok Zalg (fun _ _ => 0%Z) (fun _ _ => 0%Z) (syms us) t rs (w, ws) Hw Hn Hf E) as [R1 [R2 [R3 [R4 [R5 [R6 [_ R8]]]]]]]. cbn [fst snd] in *.
  assert (Hnd : NoDup (syms (us ++ ws))).
  { unfold syms in *. rewrite map_app. apply NoDup_app_intro; [exact P1|exact R2|]. intros z Z1 Z2. now apply (R5 z). }
  assert (Em : mul_sums u us t rs = Ok (TSum (TMul u w) (us ++ ws))).
  { unfold mul_sums, make_disjunct. rewrite E. cbn [bind fst snd]. now apply sum_init_ok. }
  assert (Eapp : forall z, In z (syms (us ++ ws)) <-> In z (syms us) \/ In z (syms ws)) by (intros z; unfold syms; rewrite map_app; apply in_app_iff).
  exists (TMul u w), (us ++ ws). split; [exact Em|]. split; [|split].
  - constructor.
    + exact Hnd.
    + intros z Hz. apply Eapp. left. now apply P2.
    + intros z Hz. apply Eapp in Hz. destruct Hz as [Hz|Hz]; [now apply P3|]. destruct (R6 z Hz) as [F|[x [F1 [_ F3]]]]; [now left|right; exists x; now split].
    + intros z Hz. cbn [tfree] in Hz. apply in_app_iff in Hz. destruct Hz as [Hz|Hz].
      * destruct (P4 z Hz) as [F|F]; [now left|right; apply Eapp; now left].
      * destruct (R4 z Hz) as [F|F]; [now left|right; apply Eapp; now right].
  - now rewrite map_app, R8.
  - intros M symI atomI. apply (mul_sums_ok M symI atomI u us t rs _ Hw Hn Hf); [| | |exact Em].
    + intros x X F. apply tfree_sum in F. destruct F as [_ F]. apply F. now apply P2.
    + intros x y X _ Hy F. apply tfree_sum in F. destruct F as [F1 F2]. destruct (P4 y F1) as [G|G]; [|contradiction]. destruct (Hp x X) as [[_ Q] _]. exact (proj1 (Q y Hy) G).
    + intros x X F. apply tfree_sum in F. destruct F as [F1 F2]. destruct (P3 x X) as [G|[x0 [G1 G2]]]; [contradiction|]. destruct (Hp x0 G1) as [[_ Q] _]. exact (proj1 (Q x G2) F1).
Qed.
Lemma loop_total t rs k : plain_sum t rs -> forall u us, partial_power t rs u us ->
  exists v vs, pow_loop t rs k (TSum u us) = Ok (TSum v vs) /\ NoDup (syms vs) /\ map snd vs = map snd us ++ concat (repeat (map snd rs) k) /\
    forall M symI atomI e, tden M symI atomI e (TSum v vs) = amul (tden M symI atomI e (TSum u us)) (times (tden M symI atomI e (TSum t rs)) k).
Proof.
  intros Hp. induction k as [|k IH]; intros u us Hu.
  - exists u, us. split; [reflexivity|]. split; [exact (pp_nodup _ _ _ _ Hu)|]. cbn [repeat concat]. split; [now rewrite app_nil_r|]. intros. cbn [times]. now rewrite amul_1r.
  - destruct (step_total t rs u us Hp Hu) as [v [vs [E [Hv [Hm Hd]]]]]. destruct (IH v vs Hv) as [w [ws [E' [Hn [Hm' Hd']]]]].
    exists w, ws. cbn [pow_loop]. rewrite E. cbn [bind]. split; [exact E'|]. split; [exact Hn|]. split; [cbn [repeat concat]; rewrite Hm', Hm; now rewrite app_assoc|].
    intros M symI atomI e. rewrite Hd', Hd. cbn [times]. rewrite <- amul_assoc. f_equal. clear. induction k as [|k IHk]; cbn [times]; [now rewrite amul_1l, amul_1r|]. rewrite amul_assoc, IHk. reflexivity.
Qed.

(** S ** n for n > 0 is a single sum, over n copies of the ranges of S with distinct indices,
    and its value is the product of n factors, whatever the values of the free indices *)
Theorem C70_power t rs n : plain_sum t rs ->
  exists v vs, sum_pow t rs (Z.of_nat (S n)) = Ok (Some (TSum v vs)) /\ NoDup (syms vs) /\ map snd vs = concat (repeat (map snd rs) (S n)) /\
    forall M symI atomI e, tden M symI atomI e (TSum v vs) = times (tden M symI atomI e (TSum t rs)) (S n).
Proof.
  intros Hp. assert (partial_power t rs t rs) as H0 by (constructor; [apply Hp|auto|auto|auto]).
  destruct (loop_total t rs n Hp t rs H0) as [v [vs [E [Hn [Hm Hd]]]]]. exists v, vs. split; [|split; [exact Hn|split; [exact Hm|]]].
  - unfold sum_pow. destruct (Z.eqb_spec (Z.of_nat (S n)) 0); [lia|]. destruct (Z.eqb_spec (Z.of_nat (S n)) 1) as [F|F].
    + assert (n = 0) as -> by lia. cbn [pow_loop] in E. injection E as <- <-. reflexivity.
    + destruct (Z.ltb_spec 1 (Z.of_nat (S n))); [|lia]. replace (Z.to_nat (Z.of_nat (S n) - 1)) with n by lia. now rewrite E.
  - intros M symI atomI e. rewrite Hd. clear. cbn [times]. induction n as [|n IH]; cbn [times]; [now rewrite amul_1l, amul_1r|]. now rewrite amul_assoc, IH.
Qed.
Theorem C70_zero t rs : sum_pow t rs 0 = Ok None /\ sum_pow t rs 1 = Ok (Some (TSum t rs)).
Proof. split; reflexivity. Qed.
(** the exponents add *)
Theorem C70_exponents_add t rs m n : plain_sum t rs ->
  exists a b c, sum_pow t rs (Z.of_nat (S m)) = Ok (Some a) /\ sum_pow t rs (Z.of_nat (S n)) = Ok (Some b) /\ sum_pow t rs (Z.of_nat (S m + S n)) = Ok (Some c) /\
    forall M symI atomI e, tden M symI atomI e c = amul (tden M symI atomI e a) (tden M symI atomI e b).
Proof.
  intros Hp. destruct (C70_power t rs m Hp) as [a [x [Ea [_ [_ Va]]]]]. destruct (C70_power t rs n Hp) as [b [y [Eb [_ [_ Vb]]]]]. destruct (C70_power t rs (m + S n) Hp) as [c [z [Ec [_ [_ Vc]]]]].
  exists (TSum a x), (TSum b y), (TSum c z). split; [exact Ea|]. split; [exact Eb|]. split; [exact Ec|]. intros M symI atomI e. rewrite Va, Vb, Vc.
  change (S (m + S n)) with (S m + S n). generalize (S m). intros p. generalize (S n). intros q. clear. induction q as [|q IH]; cbn [times]; [now rewrite Nat.add_0_r, amul_1r|].
  rewrite Nat.add_succ_r. cbn [times]. rewrite IH. symmetry. apply amul_assoc.
Qed.

Local Notation lastv := (fun (_ : nat) (l : list Z) => last l 1%Z).
Definition i_ : idx := (0, 0). Definition i' : idx := (0, 1).
(** (Σ_{i=0..1} A_{i i'}) ** 2: the renamed index captures the free index i' of the summand *)
Theorem C70_capture_refuted : exists t rs r e, sum_pow t rs 2 = Ok (Some r) /\ wf t /\ NoDup (syms rs) /\
  tden Zalg lastv lastv e r <> times (tden Zalg lastv lastv e (TSum t rs)) 2.
Proof.
  exists (TAtom 0 [IVar i_; IVar i']), [(i_, OverRange 0 1 1)]. eexists _, (fun _ => 5%Z). split; [reflexivity|]. split; [exact I|].
  split; [constructor; [intros []|constructor]|]. vm_compute. discriminate.
Qed.
(** (Σ_{i=0..2} i) ** 3 = 27 *)
Example C70_nonvacuous : plain_sum (TAtom 0 [IVar i_]) [(i_, OverRange 0 2 1)] /\
  match sum_pow (TAtom 0 [IVar i_]) [(i_, OverRange 0 2 1)] 3 with Ok (Some r) => (tden Zalg lastv lastv (fun _ => 0%Z) r =? 27)%Z | _ => false end = true.
Proof.
  split; [|vm_compute; reflexivity]. split; [exact I|]. split; [constructor; [intros []|constructor]|]. intros x [<-|[]]. split.
  - split; [intros []|]. intros y [Y1 Y2]. split; [|intros []]. cbn. intros [<-|[]]. cbn in Y2. lia.
  - intros y [Y1 Y2] [<-|[]]. cbn in Y2. lia.
Qed.
Print Assumptions C70_power.
Print Assumptions C70_zero.
Print Assumptions C70_exponents_add.
Print Assumptions C70_capture_refuted.
Print Assumptions C70_nonvacuous.
