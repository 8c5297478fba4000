(** Interpretations of super-operators: two-sided multiplications over any
    interpretation of the operators, and all linear maps on the operators of a
    two-level system, with the trace. *)
From Coq Require Import QArith Qcanon Ring_theory Ring.
From Verif Require Import Prelude ListFacts AlgSpec CAlg CInst OpModel OpSpec OpProofs1 SupModel SupSpec.
Local Open Scope nat_scope.

(** ** Sums of maps x -> a x b *)
Section Elem.
  Context {S : scalars} {dim : nat -> option nat} (I : interp S dim).
  Definition pairs := list (A I * A I).
  Definition elem (l : pairs) (x : A I) : A I := asum (fun p => amul (amul (fst p) x) (snd p)) l.
  Definition elives (h : list nat) (l : pairs) : Prop := Forall (fun p => lives h (fst p) /\ lives h (snd p)) l.
  Definition eslives (h : list nat) (f : A I -> A I) : Prop := exists l, elives h l /\ forall x, f x = elem l x.
  Context (F : nat -> list nat -> pairs) (HF : forall n h, elives h (F n h)).
  Lemma elem_app l l' x : elem (l ++ l') x = aadd (elem l x) (elem l' x).
  Proof. unfold elem. apply asum_app. Qed.
  Lemma elem_add l x y : elem l (aadd x y) = aadd (elem l x) (elem l y).
  Proof. unfold elem. rewrite <- asum_add. apply asum_ext. intros p _. now rewrite amul_addr, amul_addl. Qed.
  Lemma elem_smul l c x : elem l (smul c x) = smul c (elem l x).
  Proof. unfold elem. rewrite <- asum_smul. apply asum_ext. intros p _. now rewrite smul_amul_r, smul_amul_l. Qed.
  Lemma elem_comp l l' x : elem l (elem l' x) = elem (flat_map (fun p => map (fun q => (amul (fst p) (fst q), amul (snd q) (snd p))) l') l) x.
  Proof.
    unfold elem. rewrite asum_flat_map. apply asum_ext. intros p _. rewrite asum_map, <- asum_mul_l, <- asum_mul_r. apply asum_ext. intros q _. cbn [fst snd].
    now rewrite !amul_assoc.
  Qed.
  Definition elementary : sinterp S dim.
  Proof.
    refine {| si := I; ssym := fun n h => elem (F n h); has_dual := False; dual := fun f => f; slives := eslives |}; try (intros; contradiction).
    - intros h f g E [l [L V]]. exists l. split; [exact L|]. intros x. now rewrite <- E.
    - intros h f [l [L V]]. split; intros; rewrite !V; [apply elem_add|apply elem_smul].
    - intros h h' f Hi [l [L V]]. exists l. split; [|exact V]. apply (Forall_impl _ (P:=fun p => lives h (fst p) /\ lives h (snd p))); [|exact L].
      intros p [H1 H2]. split; now apply (lives_incl _ _ I h h').
    - exists []. split; [constructor|reflexivity].
    - exists [(a1, a1)]. split; [constructor; [split; apply lives_1|constructor]|]. intros x. unfold elem, asum. cbn [fold_right fst snd]. now rewrite amul_1l, amul_1r, aadd_0r.
    - intros h f g [l [L V]] [l' [L' V']]. exists (l ++ l'). split; [now apply Forall_app|]. intros x. now rewrite V, V', elem_app.
    - intros h c f [l [L V]]. exists (map (fun p => (smul c (fst p), snd p)) l). split.
      + apply Forall_map. apply (Forall_impl _ (P:=fun p => lives h (fst p) /\ lives h (snd p))); [|exact L]. intros p [H1 H2]. split; [now apply lives_smul|exact H2].
      + intros x. rewrite V. unfold elem. rewrite asum_map, <- asum_smul. apply asum_ext. intros p _. cbn [fst snd]. now rewrite !smul_amul_l.
    - intros h f g [l [L V]] [l' [L' V']]. exists (flat_map (fun p => map (fun q => (amul (fst p) (fst q), amul (snd q) (snd p))) l') l). split.
      + apply Forall_flat_map. apply Forall_forall. intros p Hp. apply Forall_map. apply Forall_forall. intros q Hq.
        unfold elives in L, L'. rewrite Forall_forall in L, L'. destruct (L p Hp), (L' q Hq). split; now apply lives_mul.
      + intros x. now rewrite V, V', elem_comp.
    - intros h a Ha. exists [(a, a1)]. split; [constructor; [split; [exact Ha|]|constructor]|].
      + apply (lives_incl _ _ I [] h); [intros y []|apply lives_1].
      + intros x. unfold elem, asum. cbn [fold_right fst snd]. now rewrite amul_1r, aadd_0r.
    - intros h a Ha. exists [(a1, a)]. split; [constructor; [split; [|exact Ha]|constructor]|].
      + apply (lives_incl _ _ I [] h); [intros y []|apply lives_1].
      + intros x. unfold elem, asum. cbn [fold_right fst snd]. now rewrite amul_1l, aadd_0r.
    - intros n h. exists (F n h). split; [apply HF|reflexivity].
    - intros h h' f g x [l [L V]] [l' [L' V']] Hap. rewrite V, V', V, V', !elem_comp. unfold elem. rewrite !asum_flat_map.
      transitivity (asum (fun p => asum (fun q => amul (amul (amul (fst p) (fst q)) x) (amul (snd q) (snd p))) l') l).
      { apply asum_ext. intros p _. now rewrite asum_map. }
      transitivity (asum (fun q => asum (fun p => amul (amul (amul (fst q) (fst p)) x) (amul (snd p) (snd q))) l) l').
      2:{ apply asum_ext. intros q _. now rewrite asum_map. }
      rewrite asum_swap. apply asum_ext. intros q Hq. apply asum_ext. intros p Hp. unfold elives in L, L'. rewrite Forall_forall in L, L'.
      destruct (L p Hp) as [P1 P2], (L' q Hq) as [Q1 Q2].
      now rewrite (lives_commute _ _ I h h' _ _ P1 Q1 Hap), (lives_commute _ _ I h h' _ _ P2 Q2 Hap).
    - intros f g E x. apply E.
  Defined.
End Elem.

(** ** A two-level system (label 0); the other labels are trivial spaces *)
Add Ring GQ : CInst.qring.
Definition Gs : scalars :=
  {| sc := gq; seqb := gq_eqb; sQ := fun q => Gq q 0; sadd := qadd; ssub := fun a b => qadd a (qopp b); smult := qmul; sneg := qopp;
     sdiv2 := qmul (Gq CInst.half 0); sconj := qconj; sI := Gq 0 1; sexp := fun _ => g1; ssqrt := fun _ => g1 |}.
Definition Gr : reading Gs.
Proof.
  refine {| cal := CM; kQ := fun q => (Gq q 0 : K CM); kexp := fun _ => (g1 : K CM); ksqrt := fun _ => (g1 : K CM); ev := fun c : Gs => (c : K CM) |};
    try reflexivity; try (intros; apply gq_eq; cbn; ring).
  intros a b H. now apply gq_eqb_eq.
Defined.
Definition gdim (l : nat) : option nat := Some (if l =? 0 then 2 else 1).
Definition has0 (h : list nat) : bool := existsb (Nat.eqb 0) h.
Lemma has0_In h : has0 h = true <-> In 0 h.
Proof.
  unfold has0. rewrite existsb_exists. split; [intros [x [H E]]; apply Nat.eqb_eq in E; now subst|]. intros H. exists 0. now split.
Qed.
Definition unit2 (j k : nat) : q2 :=
  match j, k with 0, 0 => Q2 g1 g0 g0 g0 | 0, 1 => Q2 g0 g1 g0 g0 | 1, 0 => Q2 g0 g0 g1 g0 | 1, 1 => Q2 g0 g0 g0 g1 | _, _ => zero2 end.
Definition trace2 (x : q2) : gq := qadd (q00 x) (q11 x).
Definition qlives (h : list nat) (x : q2) : Prop := has0 h = true \/ exists c, x = q2smul c one2.
Ltac q2ring := apply q2_eq; apply gq_eq; cbn [Gr cal CMat2 CMat2s CM sal alg K A kadd kmul kopp kconj aadd amul smul star k0 k1 a0 a1 q00 q01 q10 q11 q2add q2mul q2smul q2star gre gim qadd qmul qopp qconj one2 zero2 g0 g1 unit2 trace2]; ring.
Definition qsym (n : nat) (h : list nat) : q2 :=
  if has0 h then match n with 0 => raise | 1 => lower | 2 => paulix | 4 => q2mul (q2mul lower pauliz) raise | _ => pauliz end else one2.
Definition qsigma (j k l : nat) : q2 := if l =? 0 then unit2 j k else match j, k with 0, 0 => one2 | _, _ => zero2 end.
Definition qtrace (h : list nat) (x : q2) : q2 := if has0 h then q2smul (trace2 x) one2 else x.
Lemma unit2_mul a b c d : a < 2 -> b < 2 -> c < 2 -> d < 2 -> q2mul (unit2 a b) (unit2 c d) = if b =? c then unit2 a d else zero2.
Proof.
  intros Ha Hb Hc Hd. destruct a as [|[|a]], b as [|[|b]], c as [|[|c]], d as [|[|d]]; try lia; cbn [Nat.eqb unit2]; q2ring.
Qed.
Lemma unit2_star j k : q2star (unit2 j k) = unit2 k j.
Proof. destruct j as [|[|j]], k as [|[|k]]; cbn [unit2]; q2ring. Qed.
Lemma qlives_commute h h' x y : qlives h x -> qlives h' y -> apart h h' -> q2mul x y = q2mul y x.
Proof.
  intros Hx Hy Hap. assert (forall c z, q2mul (q2smul c one2) z = q2mul z (q2smul c one2)) as G by (intros c z; q2ring).
  destruct Hx as [Hx|[c ->]]; [|apply G]. destruct Hy as [Hy|[c ->]]; [|now rewrite G]. apply has0_In in Hx, Hy. now elim (Hap 0 Hx).
Qed.
Definition qubit : interp Gs gdim.
Proof.
  refine {| rd := Gr; boson := fun _ => False; displ := fun _ => False; spin := fun _ => False;
    lives := fun h (x : A Gr) => qlives h x; isym := fun n h => (qsym n h : A Gr); icreate := fun _ => (zero2 : A Gr); idestroy := fun _ => (zero2 : A Gr);
    isigma := fun j k l => (qsigma j k l : A Gr); iphase := fun _ _ => (one2 : A Gr); idisp := fun _ _ => (one2 : A Gr); isqueeze := fun _ _ => (one2 : A Gr);
    ijp := fun _ => (zero2 : A Gr); ijm := fun _ => (zero2 : A Gr); ijz := fun _ => (zero2 : A Gr); itrace := fun h (x : A Gr) => (qtrace h x : A Gr) |};
    try (intros; contradiction).
  - intros h h' x Hi [H|H]; [left|right; exact H]. apply has0_In. apply Hi. now apply has0_In.
  - right. exists g0. q2ring.
  - right. exists g1. q2ring.
  - intros h x y [H|[c Hx]] [H'|[c' Hy]]; try (left; assumption). right. exists (qadd c c'). rewrite Hx, Hy. q2ring.
  - intros h x y [H|[c Hx]] [H'|[c' Hy]]; try (left; assumption). right. exists (qmul c c'). rewrite Hx, Hy. q2ring.
  - intros h c x [H|[c' Hx]]; [left; exact H|right]. exists (qmul c c'). rewrite Hx. q2ring.
  - intros h x [H|[c' Hx]]; [left; exact H|right]. exists (qconj c'). rewrite Hx. q2ring.
  - intros h h' x Hx. unfold qtrace. destruct (has0 h') eqn:E; [right; now exists (trace2 x)|]. destruct Hx as [H|H]; [left|right; exact H].
    apply has0_In. apply has0_In in H. apply sp_diff_In. split; [exact H|]. intros G. apply has0_In in G. congruence.
  - exact qlives_commute.
  - intros n h. unfold qsym, qlives. destruct (has0 h); [now left|right]. exists g1. q2ring.
  - intros j k l. unfold qsigma, qlives. destruct l as [|l]; [now left|right]. cbn [Nat.eqb]. destruct j as [|j], k as [|k]; [exists g1|exists g0|exists g0|exists g0]; q2ring.
  - intros j k l. unfold qsigma. destruct (l =? 0); [apply unit2_star|]. destruct j as [|j], k as [|k]; q2ring.
  - intros a b c d l H. specialize (H _ eq_refl). unfold qsigma. destruct (l =? 0); [apply unit2_mul; tauto|]. destruct a, b, c, d; try lia. cbn [Nat.eqb]. q2ring.
Defined.

(** the trace of a 2x2 matrix; the adjoint of a linear map *)
Ltac q2ring_ := apply q2_eq; apply gq_eq; cbn [qubit rd Gr cal CMat2 CMat2s CM sal alg K A kadd kmul kopp kconj aadd amul smul star k0 k1 a0 a1 q00 q01 q10 q11 q2add q2mul q2smul q2star gre gim qadd qmul qopp qconj one2 zero2 g0 g1 unit2 trace2 lower raise]; ring.
Definition transpose2 (x : q2) : q2 := Q2 (q00 x) (q10 x) (q01 x) (q11 x).
Definition dual2 (f : q2 -> q2) (m : q2) : q2 :=
  Q2 (trace2 (q2mul m (f (unit2 0 0)))) (trace2 (q2mul m (f (unit2 1 0)))) (trace2 (q2mul m (f (unit2 0 1)))) (trace2 (q2mul m (f (unit2 1 1)))).
Lemma trace2_add x y : trace2 (q2add x y) = qadd (trace2 x) (trace2 y).
Proof. unfold trace2. cbn [q2add q00 q11]. ring. Qed.
Lemma trace2_smul c x : trace2 (q2smul c x) = qmul c (trace2 x).
Proof. unfold trace2. cbn [q2smul q00 q11]. ring. Qed.
Lemma trace2_cyclic x y : trace2 (q2mul x y) = trace2 (q2mul y x).
Proof. unfold trace2. cbn [q2mul q00 q11]. ring. Qed.
Lemma trace2_faithful x : (forall m, trace2 (q2mul m x) = g0) -> x = zero2.
Proof.
  intros H. pose proof (H (unit2 0 0)) as H1. pose proof (H (unit2 0 1)) as H2. pose proof (H (unit2 1 0)) as H3. pose proof (H (unit2 1 1)) as H4.
  unfold trace2 in *. cbn [q2mul q00 q01 q10 q11 unit2] in *. destruct x as [a b c d]. cbn [q00 q01 q10 q11] in *. unfold zero2.
  f_equal; [rewrite <- H1|rewrite <- H3|rewrite <- H2|rewrite <- H4]; unfold g0, g1; ring.
Qed.
Lemma trace2_unique x y : (forall m, trace2 (q2mul m x) = trace2 (q2mul m y)) -> x = y.
Proof.
  intros H. assert (q2add x (q2smul (qopp g1) y) = zero2) as E.
  { apply trace2_faithful. intros m. assert (q2mul m (q2add x (q2smul (qopp g1) y)) = q2add (q2mul m x) (q2smul (qopp g1) (q2mul m y))) as -> by q2ring.
    rewrite trace2_add, trace2_smul, H. unfold g0, g1. ring. }
  transitivity (q2add (q2add x (q2smul (qopp g1) y)) y); [q2ring|rewrite E; q2ring].
Qed.
Definition lin2 (f : q2 -> q2) : Prop := (forall x y, f (q2add x y) = q2add (f x) (f y)) /\ (forall c x, f (q2smul c x) = q2smul c (f x)).
Lemma dual2_trace f m n : lin2 f -> trace2 (q2mul m (f n)) = trace2 (q2mul (dual2 f m) n).
Proof.
  intros [Fa Fs].
  assert (n = q2add (q2add (q2smul (q00 n) (unit2 0 0)) (q2smul (q01 n) (unit2 0 1))) (q2add (q2smul (q10 n) (unit2 1 0)) (q2smul (q11 n) (unit2 1 1)))) as En by q2ring.
  assert (f n = q2add (q2add (q2smul (q00 n) (f (unit2 0 0))) (q2smul (q01 n) (f (unit2 0 1)))) (q2add (q2smul (q10 n) (f (unit2 1 0))) (q2smul (q11 n) (f (unit2 1 1))))) as -> by (rewrite En at 1; now rewrite !Fa, !Fs).
  unfold dual2, trace2. cbn [q2mul q2add q2smul q00 q01 q10 q11]. ring.
Qed.
Lemma dual2_unique f g : lin2 f -> (forall m n, trace2 (q2mul m (f n)) = trace2 (q2mul (g m) n)) -> forall m, dual2 f m = g m.
Proof.
  intros Hf H m. apply trace2_unique. intros n. rewrite (trace2_cyclic n), <- (dual2_trace f m n Hf), H. apply trace2_cyclic.
Qed.
Lemma dual2_lin f : lin2 (dual2 f).
Proof.
  split; intros; unfold dual2, trace2; cbn [q2mul q2add q2smul q00 q01 q10 q11]; apply q2_eq; cbn [q2mul q2add q2smul q00 q01 q10 q11]; ring.
Qed.
Definition qslives (h : list nat) (f : q2 -> q2) : Prop := lin2 f /\ (has0 h = true \/ exists c, forall x, f x = q2smul c x).
Definition qssym (n : nat) (h : list nat) (x : q2) : q2 :=
  if has0 h then match n with 0 => transpose2 x | 1 => q2mul (q2mul lower x) raise | _ => dual2 transpose2 x end else x.
Definition qubit_s : sinterp Gs gdim.
Proof.
  refine {| si := qubit; ssym := fun n h (x : A qubit) => (qssym n h x : A qubit); has_dual := True; dual := fun (f : A qubit -> A qubit) x => (dual2 f x : A qubit);
    slives := fun h (f : A qubit -> A qubit) => qslives h f |}.
  - intros h f g E [[F1 F2] H]. split; [split; intros; rewrite <- !E; [apply F1|apply F2]|]. destruct H as [H|[c H]]; [now left|right]. exists c. intros x. now rewrite <- E.
  - intros h f [H _]. exact H.
  - intros h h' f Hi [Hl [H|H]]; split; try exact Hl; [left|right; exact H]. apply has0_In. apply Hi. now apply has0_In.
  - split; [split; intros; q2ring_|]. right. exists g0. intros x. q2ring_.
  - split; [split; intros; q2ring_|]. right. exists g1. intros x. q2ring_.
  - intros h f g [[F1 F2] HF] [[G1 G2] HG]. change (qslives h (fun x => q2add (f x) (g x))). split; [split; intros; [rewrite (F1 : forall x y : q2, f (q2add x y) = q2add (f x) (f y)), (G1 : forall x y : q2, g (q2add x y) = q2add (g x) (g y))|rewrite F2, G2]; q2ring_|].
    destruct HF as [H|[c H]]; [now left|]. destruct HG as [H'|[c' H']]; [now left|]. right. exists (qadd c c'). intros x. rewrite H, H'. q2ring_.
  - intros h c f [[F1 F2] HF]. change (qslives h (fun x => q2smul c (f x))). split; [split; intros; [rewrite F1|rewrite F2]; q2ring_|].
    destruct HF as [H|[c' H]]; [now left|]. right. exists (qmul c c'). intros x. rewrite H. q2ring_.
  - intros h f g [[F1 F2] HF] [[G1 G2] HG]. change (qslives h (fun x => f (g x))). split; [split; intros; [now rewrite G1, F1|now rewrite G2, F2]|].
    destruct HF as [H|[c H]]; [now left|]. destruct HG as [H'|[c' H']]; [now left|]. right. exists (qmul c c'). intros x. rewrite H, H'. q2ring_.
  - intros h a Ha. change (qslives h (fun x => q2mul a x)). split; [split; intros; q2ring_|]. destruct Ha as [H|[c H]]; [now left|right]. exists c. intros x. rewrite H. q2ring_.
  - intros h a Ha. change (qslives h (fun x => q2mul x a)). split; [split; intros; q2ring_|]. destruct Ha as [H|[c H]]; [now left|right]. exists c. intros x. rewrite H. q2ring_.
  - intros n h. change (qslives h (qssym n h)). unfold qssym. destruct (has0 h) eqn:E.
    + split; [|now left]. destruct n as [|[|n]]; [split; intros; reflexivity|split; intros; q2ring_|apply dual2_lin].
    + split; [split; reflexivity|right]. exists g1. intros x. q2ring_.
  - intros h h' f g x [Hf HF] [Hg HG] Hap. destruct HF as [H|[c H]]; [|rewrite (H (g x)), (H x); symmetry; apply (proj2 Hg)].
    destruct HG as [H'|[c H']]; [|rewrite (H' (f x)), (H' x); apply (proj2 Hf)]. apply has0_In in H, H'. now elim (Hap 0 H).
  - intros f g E x. change (dual2 f x = dual2 g x). unfold dual2. now rewrite !E.
  - intros h f _ [Hf HF]. change (qslives h (dual2 f)). split; [apply dual2_lin|]. destruct HF as [H|[c H]]; [now left|right]. exists c. apply dual2_unique; [exact Hf|].
    intros m n. rewrite H. unfold trace2. cbn [q2mul q2smul q00 q01 q10 q11]. ring.
  - intros x _. apply (dual2_unique (fun _ => zero2) (fun _ => zero2)); [split; intros; q2ring_|]. intros m n. unfold trace2. cbn [q2mul zero2 q00 q01 q10 q11]. unfold g0. ring.
  - intros x _. apply (dual2_unique (fun y => y) (fun y => y)); [split; reflexivity|]. reflexivity.
  - intros a x _. apply (dual2_unique (fun y => q2mul a y) (fun y => q2mul y a)); [split; intros; q2ring_|]. intros m n. unfold trace2. cbn [q2mul q00 q01 q10 q11]. ring.
  - intros a x _. apply (dual2_unique (fun y => q2mul y a) (fun y => q2mul a y)); [split; intros; q2ring_|]. intros m n. unfold trace2. cbn [q2mul q00 q01 q10 q11]. ring.
  - intros h f g x _ _ _. change (dual2 (fun y => q2add (f y) (g y)) x = q2add (dual2 f x) (dual2 g x)). unfold dual2, trace2. cbn [q2mul q2add q00 q01 q10 q11]. apply q2_eq; cbn [q2mul q2add q00 q01 q10 q11]; ring.
  - intros h f g x _ [[F1 F2] _] [[G1 G2] _]. change (dual2 (fun y => f (g y)) x = dual2 g (dual2 f x)). apply (dual2_unique (fun y => f (g y)) (fun y => dual2 g (dual2 f y))).
    + split; intros; [now rewrite G1, F1|now rewrite G2, F2].
    + intros m n. rewrite (dual2_trace f m (g n) (conj F1 F2)). apply (dual2_trace g (dual2 f m) n (conj G1 G2)).
  - intros h f x _ [Hf _]. change (dual2 (dual2 f) x = f x). apply (dual2_unique (dual2 f) f); [apply dual2_lin|]. intros m n.
    rewrite (trace2_cyclic m), <- (dual2_trace f n m Hf). apply trace2_cyclic.
Defined.
Definition qubit_tr : tracing qubit_s.
Proof.
  refine {| tr := (trace2 : A qubit_s -> K qubit_s) |}.
  - exact trace2_add.
  - exact trace2_smul.
  - exact trace2_cyclic.
  - exact trace2_faithful.
  - exact Logic.I.
  - intros h f m n [Hf _]. exact (dual2_trace f m n Hf).
Defined.
