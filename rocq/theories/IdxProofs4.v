From Verif Require Import Prelude ListFacts SortModel SortProofs HilbertModel BasisModel BasisSpec BasisProofs AlgSpec IdxModel IdxSpec IdxProofs1 IdxProofs2 IdxProofs3.

Section Den.
  Context (M : algebra) (symI : nat -> list Z -> K M) (atomI : nat -> list Z -> A M).
  Add Ring KrM : (kring M).
  Notation sd := (sden M symI). Notation td := (tden M symI atomI).

  (** ** products *)
  (** every symbol of the renamed ranges that is also in a set [F] comes from outside [others] *)
  Lemma renamed_fresh others rs F :
    forall rs', (forall z, In z (syms rs') -> In z (syms rs) \/ exists x, In x (syms rs) /\ In x others /\ primed_copy x z) ->
    (forall z, In z (syms rs') -> ~ In z others) ->
    (forall x, In x (syms rs) -> ~ In x others -> ~ In x F) ->
    (forall x y, In x (syms rs) -> In x others -> primed_copy x y -> ~ In y others -> ~ In y F) ->
    forall z, In z (syms rs') -> ~ In z F.
  Proof.
    intros rs' H1 H2 H3 H4 z Hz. destruct (H1 z Hz) as [F1|[x [F1 [F2 F3]]]].
    - apply H3; auto.
    - apply (H4 x); auto.
  Qed.
  Lemma mul_sums_ok t rs t' rs' r : wf t' -> NoDup (syms rs') ->
    (forall x, In x (syms rs') -> In x (syms rs) -> primes_fresh x t') ->
    (forall x, In x (syms rs') -> ~ In x (tfree (TSum t rs))) ->
    (forall x y, In x (syms rs') -> In x (syms rs) -> primed_copy x y -> ~ In y (tfree (TSum t rs))) ->
    (forall x, In x (syms rs) -> ~ In x (tfree (TSum t' rs'))) ->
    mul_sums t rs t' rs' = Ok r -> forall e, td e r = amul (td e (TSum t rs)) (td e (TSum t' rs')).
  Proof.
    intros Hw Hn Hp H1 H2 H3 H e. unfold mul_sums in H.
    destruct (make_disjunct (syms rs) t' rs') as [[u us]|] eqn:E; [|discriminate]. cbn [bind fst snd] in H.
    destruct (make_disjunct_ok M symI atomI _ _ _ _ Hw Hn Hp E) as [R1 [R2 [R3 [R4 [R5 [R6 [R7 R8]]]]]]]. cbn [fst snd] in *.
    apply sum_init_ok in H. destruct H as [-> Hnn]. cbn [tden]. rewrite sum_ranges_app.
    assert (Hu : forall z, In z (syms us) -> ~ In z (tfree t)).
    { intros z Hz F. destruct (in_dec idx_dec z (syms rs)) as [G|G]; [now apply (R5 z)|].
      assert (In z (tfree (TSum t rs))).
      { cbn [tfree]. apply filter_In. split; [exact F|]. now rewrite negb_true_iff, imem_false. }
      destruct (R6 z Hz) as [F1|[x [F1 [F2 F3]]]]; [now apply (H1 z)|now apply (H2 x z)]. }
    rewrite <- sum_ranges_mul_r. apply sum_ranges_ext. intros e1 He1.
    transitivity (amul (td e1 t) (td e1 (TSum t' rs'))).
    - rewrite <- R7. cbn [tden]. rewrite <- sum_ranges_mul_l. apply sum_ranges_ext. intros e2 He2.
      f_equal. apply tden_ext. intros x Hx. apply He2. intros F. now apply (Hu x).
    - f_equal. apply (tden_ext M symI atomI (TSum t' rs')). intros x Hx. apply He1. intros F. now apply (H3 x).
  Qed.
  Lemma mul_other_ok t rs other r : wf t -> NoDup (syms rs) ->
    (forall x, In x (syms rs) -> In x (bound_symbols other) -> primes_fresh x t) ->
    (forall x, In x (syms rs) -> ~ In x (bound_symbols other) -> ~ In x (tfree other)) ->
    (forall x y, In x (syms rs) -> In x (bound_symbols other) -> primed_copy x y -> ~ In y (bound_symbols other) -> ~ In y (tfree other)) ->
    mul_other t rs other = Ok r -> forall e, td e r = amul (td e (TSum t rs)) (td e other).
  Proof.
    intros Hw Hn Hp H1 H2 H e. unfold mul_other in H.
    destruct (make_disjunct _ t rs) as [[u us]|] eqn:E; [|discriminate]. cbn [bind fst snd] in H.
    destruct (make_disjunct_ok M symI atomI _ _ _ _ Hw Hn Hp E) as [R1 [R2 [R3 [R4 [R5 [R6 [R7 R8]]]]]]]. cbn [fst snd] in *.
    pose proof (renamed_fresh _ rs (tfree other) us R6 R5 H1 H2) as Hu.
    apply sum_init_ok in H. destruct H as [-> Hnn]. rewrite <- R7. cbn [tden].
    rewrite <- sum_ranges_mul_r. apply sum_ranges_ext. intros e1 He1. f_equal. apply tden_ext.
    intros x Hx. apply He1. intros F. now apply (Hu x).
  Qed.
  Lemma rmul_other_ok t rs other r : wf t -> NoDup (syms rs) ->
    (forall x, In x (syms rs) -> In x (bound_symbols other) -> primes_fresh x t) ->
    (forall x, In x (syms rs) -> ~ In x (bound_symbols other) -> ~ In x (tfree other)) ->
    (forall x y, In x (syms rs) -> In x (bound_symbols other) -> primed_copy x y -> ~ In y (bound_symbols other) -> ~ In y (tfree other)) ->
    rmul_other t rs other = Ok r -> forall e, td e r = amul (td e other) (td e (TSum t rs)).
  Proof.
    intros Hw Hn Hp H1 H2 H e. unfold rmul_other in H.
    destruct (make_disjunct _ t rs) as [[u us]|] eqn:E; [|discriminate]. cbn [bind fst snd] in H.
    destruct (make_disjunct_ok M symI atomI _ _ _ _ Hw Hn Hp E) as [R1 [R2 [R3 [R4 [R5 [R6 [R7 R8]]]]]]]. cbn [fst snd] in *.
    pose proof (renamed_fresh _ rs (tfree other) us R6 R5 H1 H2) as Hu.
    apply sum_init_ok in H. destruct H as [-> Hnn]. rewrite <- R7. cbn [tden].
    rewrite <- sum_ranges_mul_l. apply sum_ranges_ext. intros e1 He1. f_equal. apply tden_ext.
    intros x Hx. apply He1. intros F. now apply (Hu x).
  Qed.

  (** ** assoc_indexed *)
  Lemma assoc_plain t rs u us r : wf u -> NoDup (syms us) ->
    (forall x, In x (syms us) -> In x (syms rs) -> primes_fresh x u) ->
    t = TSum u us -> assoc_indexed t rs = Ok r -> forall e, simp_den M symI atomI e r = td e (TSum t rs).
  Proof.
    intros Hw Hn Hp -> H e. cbn [assoc_indexed] in H.
    destruct (make_disjunct (syms rs) u us) as [[v vs]|] eqn:E; [|discriminate]. cbn [bind fst snd] in H.
    destruct (make_disjunct_ok M symI atomI _ _ _ _ Hw Hn Hp E) as [R1 [R2 [R3 [R4 [R5 [R6 [R7 R8]]]]]]]. cbn [fst snd] in *.
    destruct (sum_init v (rs ++ vs)) as [q|] eqn:Eq; [|discriminate]. injection H as <-. apply sum_init_ok in Eq.
    destruct Eq as [-> _]. cbn [simp_den tden]. rewrite sum_ranges_app. apply sum_ranges_ext. intros e1 _. exact (R7 e1).
  Qed.
  Lemma assoc_coeff t rs c u us r : wf u -> NoDup (syms us) ->
    (forall x, In x (syms us) -> In x (syms rs) -> primes_fresh x u) ->
    (forall x, In x (syms us) -> ~ In x (syms rs) -> ~ In x (sfree c)) ->
    (forall x y, In x (syms us) -> In x (syms rs) -> primed_copy x y -> ~ In y (syms rs) -> ~ In y (sfree c)) ->
    t = TScale c (TSum u us) -> assoc_indexed t rs = Ok r ->
    forall e, simp_den M symI atomI e r = td e (TSum t rs).
  Proof.
    intros Hw Hn Hp H1 H2 -> H e. cbn [assoc_indexed] in H.
    destruct (make_disjunct (syms rs) u us) as [[v vs]|] eqn:E; [|discriminate]. cbn [bind fst snd] in H.
    destruct (make_disjunct_ok M symI atomI _ _ _ _ Hw Hn Hp E) as [R1 [R2 [R3 [R4 [R5 [R6 [R7 R8]]]]]]]. cbn [fst snd] in *.
    pose proof (renamed_fresh _ us (sfree c) vs R6 R5 H1 H2) as Hu.
    destruct (existsb _ (sfree c)) eqn:Ex.
    - destruct (sum_init (TScale c v) (rs ++ vs)) as [q|] eqn:Eq; [|discriminate]. injection H as <-. apply sum_init_ok in Eq.
      destruct Eq as [-> _]. cbn [simp_den tden]. rewrite sum_ranges_app. apply sum_ranges_ext. intros e1 _.
      transitivity (smul (sd e1 c) (td e1 (TSum v vs))); [|rewrite R7; reflexivity].
      cbn [tden]. rewrite <- sum_ranges_smul. apply sum_ranges_ext. intros e2 He2.
      rewrite (sden_ext M symI e2 e1); [reflexivity|]. intros x Hx. apply He2. intros F. now apply (Hu x).
    - destruct (sum_init v (rs ++ vs)) as [q|] eqn:Eq; [|discriminate]. injection H as <-. apply sum_init_ok in Eq.
      destruct Eq as [-> _]. cbn [simp_den tden]. rewrite sum_ranges_app. rewrite <- sum_ranges_smul.
      apply sum_ranges_ext. intros e1 He1.
      transitivity (smul (sd e1 c) (td e1 (TSum v vs))); [|rewrite R7; reflexivity]. cbn [tden]. f_equal.
      apply sden_ext. intros x Hx. symmetry. apply He1. intros F.
      assert (existsb (fun x => imem x (syms (rs ++ vs))) (sfree c) = true); [|congruence].
      apply existsb_exists. exists x. split; [exact Hx|]. apply imem_spec. unfold syms. rewrite map_app. apply in_or_app. now left.
  Qed.

  (** ** constant terms *)
  Lemma sum_ranges_drop r rs f e : (forall a v, f (upd a (fst r) v) = f a) -> extf M f -> ~ In (fst r) (syms rs) ->
    sum_ranges M (r :: rs) f e = sum_ranges M rs (fun a => smul (kZ (Z.of_nat (length (vals (snd r))))) (f a)) e.
  Proof.
    intros Hf Hx Hn. cbn [sum_ranges]. rewrite sum_ranges_smul, <- asum_const. apply asum_ext. intros v _.
    apply (sum_ranges_sim M (fun a b => forall z, z <> fst r -> a z = b z)).
    - intros a b x w _ R z Hz. unfold upd. destruct (idx_eqb z x); auto.
    - intros a b R. rewrite <- (Hf b (a (fst r))). apply Hx. intros z. unfold upd.
      destruct (idx_eqb z (fst r)) eqn:E; [apply idx_eqb_spec in E; now subst|]. apply R. intros ->. now rewrite idx_eqb_refl in E.
    - intros z Hz. now apply upd_other.
  Qed.
  Lemma const_loop_ok t rs : forall nt s, NoDup (syms rs) -> finite_ranges rs ->
    (forall x, In x (tfree nt) -> In x (tfree t)) -> const_loop t nt rs = Ok s ->
    forall e, sum_ranges M rs (fun a => td a nt) e = sum_ranges M (snd s) (fun a => td a (fst s)) e.
  Proof.
    induction rs as [|r rs IH]; intros nt s Hn Hf Hnt H e; cbn [const_loop] in H.
    - injection H as <-. reflexivity.
    - cbn [syms map] in Hn. inversion Hn as [|? ? N1 N2]; subst. pose proof (Forall_inv Hf) as F1. pose proof (Forall_inv_tail Hf) as F2.
      cbn beta in F1.
      destruct (imem (fst r) (tfree t)) eqn:E.
      + destruct (const_loop t nt rs) as [s1|] eqn:Es; [|discriminate]. cbn [bind] in H. injection H as <-.
        cbn [fst snd sum_ranges]. apply asum_ext. intros v _. now apply IH.
      + apply imem_false in E. rewrite (finite_len _ F1) in H.
        rewrite sum_ranges_drop; [| |apply tden_extf|exact N1].
        * apply (IH (TScale (SConst (Z.of_nat (length (vals (snd r))))) nt) s N2 F2); [|exact H].
          intros x Hx. cbn [tfree sfree app] in Hx. auto.
        * intros a v. apply tden_ext. intros x Hx. apply upd_other. intros ->. apply E. now apply Hnt.
  Qed.
  Lemma sum_over_const_ok t rs s : NoDup (syms rs) -> finite_ranges rs -> sum_over_const t rs = Ok s ->
    forall e, simp_den M symI atomI e s = td e (TSum t rs).
  Proof.
    intros Hn Hf H e. unfold sum_over_const in H. destruct (const_loop t t rs) as [[u us]|] eqn:E; [|discriminate].
    cbn [bind fst snd] in H. injection H as <-. cbn [tden].
    rewrite (const_loop_ok t rs t (u, us) Hn Hf (fun x Hx => Hx) E e). cbn [fst snd]. destruct us; reflexivity.
  Qed.
  Lemma const_loop_shape t rs : forall nt s, finite_ranges rs -> const_loop t nt rs = Ok s ->
    snd s = filter (fun r => imem (fst r) (tfree t)) rs.
  Proof.
    induction rs as [|r rs IH]; intros nt s Hf H; cbn [const_loop filter] in *.
    - injection H as <-. reflexivity.
    - pose proof (Forall_inv Hf) as F1. pose proof (Forall_inv_tail Hf) as F2. cbn beta in F1.
      destruct (imem (fst r) (tfree t)) eqn:E.
      + destruct (const_loop t nt rs) as [s1|] eqn:Es; [|discriminate]. cbn [bind] in H. injection H as <-. cbn [snd].
        f_equal. now apply (IH nt).
      + rewrite (finite_len _ F1) in H. now apply IH in H.
  Qed.
  Lemma const_loop_total t rs : forall nt, finite_ranges rs -> exists s, const_loop t nt rs = Ok s.
  Proof.
    induction rs as [|r rs IH]; intros nt Hf; cbn [const_loop]; [eexists; reflexivity|].
    pose proof (Forall_inv Hf) as F1. pose proof (Forall_inv_tail Hf) as F2. cbn beta in F1.
    destruct (imem (fst r) (tfree t)).
    - destruct (IH nt F2) as [s Hs]. rewrite Hs. eexists. reflexivity.
    - rewrite (finite_len _ F1). now apply IH.
  Qed.
  Lemma pull_constfactor_ok c t rs r : pull_constfactor c t rs = Ok (Some r) ->
    forall e, td e r = td e (TSum (TScale c t) rs).
  Proof.
    intros H e. unfold pull_constfactor in H. destruct (existsb _ (sfree c)) eqn:Ex; [discriminate|].
    destruct (sum_init t rs) as [q|] eqn:Eq; [|discriminate]. cbn [bind] in H. injection H as <-. apply sum_init_ok in Eq.
    destruct Eq as [-> _]. cbn [tden]. rewrite <- sum_ranges_smul. apply sum_ranges_ext. intros e1 He1. f_equal.
    apply sden_ext. intros x Hx. symmetry. apply He1. intros F.
    assert (existsb (fun x => imem x (syms rs)) (sfree c) = true); [|congruence].
    apply existsb_exists. exists x. split; [exact Hx|]. now apply imem_spec.
  Qed.

  (** ** Kronecker deltas *)
  Definition sprod (e : env) (fs : list scal) : K M := fold_right (fun s k => kmul (sd e s) k) k1 fs.
  Lemma sprod_nil e : sprod e [] = k1. Proof. reflexivity. Qed.
  Lemma sprod_cons e f fs : sprod e (f :: fs) = kmul (sd e f) (sprod e fs). Proof. reflexivity. Qed.
  Lemma sprod_app e a b : sprod e (a ++ b) = kmul (sprod e a) (sprod e b).
  Proof. induction a as [|s a IH]; cbn [app]; [rewrite sprod_nil; ring|]. rewrite !sprod_cons, IH. ring. Qed.
  Lemma mul_args_den e c : sprod e (mul_args c) = sd e c.
  Proof. destruct c; cbn [mul_args]; try reflexivity; rewrite sprod_cons, sprod_nil; ring. Qed.
  Lemma factors_den e t : td e t = smul (sprod e (fst (factors_of t))) (td e (snd (factors_of t))).
  Proof.
    destruct t; cbn [factors_of fst snd]; try (now rewrite sprod_nil, smul_1).
    rewrite mul_args_den. reflexivity.
  Qed.
  Definition ksum (e : env) (ss : list (list scal)) : K M := fold_right (fun s k => kadd (sprod e s) k) k0 ss.
  Lemma ksum_nil e : ksum e [] = k0. Proof. reflexivity. Qed.
  Lemma ksum_cons e s ss : ksum e (s :: ss) = kadd (sprod e s) (ksum e ss). Proof. reflexivity. Qed.
  Lemma ksum_app1 e f ss : ksum e (map (fun s => s ++ [f]) ss) = kmul (ksum e ss) (sd e f).
  Proof.
    induction ss as [|s ss IH]; cbn [map]; [rewrite ksum_nil; ring|].
    rewrite !ksum_cons, IH, sprod_app, sprod_cons, sprod_nil. ring.
  Qed.
  Lemma ksum_args e h l : ksum e (map (fun a => h ++ mul_args a) l) = kmul (sprod e h) (sd e (SAdd l)).
  Proof.
    induction l as [|a l IH]; cbn [map].
    - change (sd e (SAdd [])) with (@k0 M). rewrite ksum_nil. ring.
    - change (sd e (SAdd (a :: l))) with (kadd (sd e a) (sd e (SAdd l))). rewrite ksum_cons, IH, sprod_app, mul_args_den. ring.
  Qed.
  Lemma expand_loop_den e x fs : forall found ss, (found = false -> exists s, ss = [s]) ->
    ksum e (expand_loop x found fs ss) = kmul (ksum e ss) (sprod e fs).
  Proof.
    induction fs as [|f fs IH]; intros found ss Hs; cbn [expand_loop].
    - rewrite sprod_nil. ring.
    - assert (Hstep : ksum e (expand_loop x found fs (map (fun s => s ++ [f]) ss)) = kmul (ksum e ss) (sprod e (f :: fs))).
      { rewrite IH; [rewrite ksum_app1, sprod_cons; ring|].
        intros E. destruct (Hs E) as [s ->]. eexists. reflexivity. }
      destruct f as [| | | | |l|]; try exact Hstep.
      destruct (negb found && has_simple_delta x (SAdd l)) eqn:E; [|exact Hstep].
      apply andb_true_iff in E. destruct E as [E _]. apply negb_true_iff in E. destruct (Hs E) as [s ->]. cbn [hd].
      rewrite IH by discriminate. rewrite ksum_args, ksum_cons, ksum_nil, sprod_cons. ring.
  Qed.
  Lemma expand_delta_den e x t : asum (td e) (expand_delta x t) = td e t.
  Proof.
    unfold expand_delta. pose proof (factors_den e t) as Hf. destruct (factors_of t) as [fs q]. cbn [fst snd] in Hf.
    rewrite Hf, asum_map. pose proof (expand_loop_den e x fs false [[]] (fun _ => ex_intro _ [] eq_refl)) as H.
    transitivity (smul (ksum e (expand_loop x false fs [[]])) (td e q)).
    - generalize (expand_loop x false fs [[]]). intros ss. induction ss as [|s ss IH].
      + cbn. symmetry. apply smul_0.
      + rewrite asum_cons, IH, ksum_cons, smul_addl. reflexivity.
    - rewrite H, ksum_cons, ksum_nil, sprod_nil. f_equal. ring.
  Qed.
  Definition kdelta (b : bool) : K M := if b then k1 else k0.
  Lemma extract_den x fs a b rest : extract_loop x fs = Some (a, b, rest) ->
    is_simple_delta x (SDelta a b) = true
    /\ (forall e, sprod e fs = kmul (kdelta (iden e a =? iden e b)%Z) (sprod e rest))
    /\ (forall z, In z (sfree (SDelta a b)) -> In z (flat_map sfree fs))
    /\ incl rest fs /\ In (SDelta a b) fs /\ length rest < length fs.
  Proof.
    revert rest. induction fs as [|f fs IH]; intros rest H; cbn [extract_loop] in H; [discriminate|].
    assert (Hstep : option_map (fun p => (fst p, f :: snd p)) (extract_loop x fs) = Some (a, b, rest) ->
      is_simple_delta x (SDelta a b) = true
      /\ (forall e, sprod e (f :: fs) = kmul (kdelta (iden e a =? iden e b)%Z) (sprod e rest))
      /\ (forall z, In z (sfree (SDelta a b)) -> In z (flat_map sfree (f :: fs)))
      /\ incl rest (f :: fs) /\ In (SDelta a b) (f :: fs) /\ length rest < length (f :: fs)).
    { intros H'. destruct (extract_loop x fs) as [[[a1 b1] rest1]|]; [|discriminate]. cbn in H'. injection H' as -> -> <-.
      destruct (IH rest1 eq_refl) as [H1 [H2 [H3 [H4 [H5 H6]]]]]. split; [exact H1|]. split; [|split; [|split; [|split]]].
      - intros e. rewrite !sprod_cons, H2. ring.
      - intros z Hz. cbn [flat_map]. apply in_or_app. right. now apply H3.
      - intros z [<-|Hz]; [now left|right; now apply H4].
      - now right.
      - cbn [length]. lia. }
    destruct f as [| | |a1 b1| | |]; try (exact (Hstep H)).
    destruct (is_simple_delta x (SDelta a1 b1)) eqn:E; [|exact (Hstep H)]. injection H as -> -> <-.
    split; [exact E|]. split; [intros e; reflexivity|]. split; [|split; [|split]].
    - intros z Hz. cbn [flat_map]. apply in_or_app. now left.
    - intros z Hz. now right.
    - now left.
    - cbn [length]. lia.
  Qed.
  Lemma coeff_den e x a : iden e a = (coeff_of x a * e x + iden e (at_zero x a))%Z.
  Proof.
    unfold at_zero. induction a as [y|z|a IHa b IHb|c a IH]; cbn [iden coeff_of isubst lookup].
    - destruct (idx_eqb x y) eqn:E.
      + apply idx_eqb_spec in E. subst y. rewrite idx_eqb_refl. cbn [iden]. lia.
      + rewrite idx_eqb_neq; [cbn [iden]; lia|]. intros ->. now rewrite idx_eqb_refl in E.
    - lia.
    - rewrite IHa, IHb. lia.
    - rewrite IH. lia.
  Qed.
  Lemma at_zero_free x a z : In z (ifree (at_zero x a)) -> In z (ifree a) /\ z <> x.
  Proof.
    intros H. apply ifree_subst in H. destruct H as [[H1 H2]|[w [v [H1 [H2 H3]]]]].
    - split; [exact H1|]. intros ->. cbn in H2. now rewrite idx_eqb_refl in H2.
    - cbn in H2. destruct (idx_eqb w x); [|discriminate]. injection H2 as <-. destruct H3.
  Qed.
  Lemma solve_ok x a b v : solve x a b = Ok v ->
    (forall e, iden e a = iden e b <-> e x = iden e v)
    /\ (forall z, In z (ifree v) -> z <> x /\ (In z (ifree a) \/ In z (ifree b))).
  Proof.
    unfold solve. intros H.
    set (d := IAdd (at_zero x a) (IMul (-1) (at_zero x b))) in *.
    assert (Hd : forall z, In z (ifree d) -> z <> x /\ (In z (ifree a) \/ In z (ifree b))).
    { intros z Hz. cbn in Hz. apply in_app_or in Hz. destruct Hz as [Hz|Hz]; apply at_zero_free in Hz; tauto. }
    destruct (Z.eqb_spec (coeff_of x a - coeff_of x b) 1) as [Ec|Ec]; [|destruct (Z.eqb_spec (coeff_of x a - coeff_of x b) (-1)) as [Ed|Ed]; [|discriminate]].
    - injection H as <-. split; [|exact Hd]. intros e. rewrite (coeff_den e x a), (coeff_den e x b). unfold d. cbn [iden].
      replace (coeff_of x a) with (coeff_of x b + 1)%Z by lia. lia.
    - injection H as <-. split; [|exact Hd]. intros e. rewrite (coeff_den e x a), (coeff_den e x b). unfold d. cbn [iden].
      replace (coeff_of x a) with (coeff_of x b - 1)%Z by lia. lia.
  Qed.

  (** a sum against a delta *)
  Lemma asum_delta (l : list Z) (w : Z) (f : Z -> A M) : NoDup l ->
    (forall v, In v l -> v <> w -> f v = a0) -> asum f l = if existsb (Z.eqb w) l then f w else a0.
  Proof.
    induction l as [|v l IH]; intros Hn H; [reflexivity|]. inversion Hn as [|? ? N1 N2]; subst. rewrite asum_cons.
    cbn [existsb]. destruct (Z.eqb_spec w v) as [->|Hv]; cbn [orb].
    - rewrite (asum_ext M f (fun _ => a0) l); [rewrite asum_zero; apply aadd_0r|].
      intros u Hu. apply H; [now right|]. intros ->. contradiction.
    - rewrite (H v) by (auto with datatypes; congruence). rewrite aadd_0. apply IH; [exact N2|]. intros u Hu. apply H. now right.
  Qed.
  Lemma remove_nth_perm {X} i (l : list X) r : nth_error l i = Some r -> Permutation l (remove_nth i l ++ [r]).
  Proof.
    revert i. induction l as [|y l IH]; intros [|i] H; cbn in H; try discriminate.
    - injection H as ->. cbn. apply Permutation_cons_append.
    - unfold remove_nth in *. cbn [firstn skipn app]. constructor. now apply IH.
  Qed.
  Lemma remove_nth_incl {X} i (l : list X) : incl (remove_nth i l) l.
  Proof.
    intros z Hz. unfold remove_nth in Hz. apply in_app_or in Hz. destruct Hz as [Hz|Hz].
    - rewrite <- (firstn_skipn i l). apply in_or_app. now left.
    - rewrite <- (firstn_skipn (S i) l). apply in_or_app. now right.
  Qed.

  (** one elimination: the sum over [r] of a delta times [u] *)
  Lemma eliminate i rs r x a b v rest q nt e :
    nth_error rs i = Some r -> fst r = x -> NoDup (syms rs) -> NoDup (vals (snd r)) ->
    solve x a b = Ok v ->
    (forall z, In z (tbound q) -> z <> x /\ ~ In z (ifree v)) ->
    tsubst [(x, v)] (TScale (SMul rest) q) = Ok nt ->
    sum_ranges M rs (fun e => smul (kmul (kdelta (iden e a =? iden e b)%Z) (sprod e rest)) (td e q)) e
    = sum_ranges M (remove_nth i rs)
        (fun e => if existsb (Z.eqb (iden e v)) (vals (snd r)) then td e nt else a0) e.
  Proof.
    intros Hi Hx Hn Hv Hs Hb Hnt. subst x. destruct (solve_ok _ _ _ _ Hs) as [S1 S2].
    pose proof (remove_nth_perm i rs r Hi) as Hp.
    rewrite (sum_ranges_perm M _ _ _ e Hp Hn).
    2:{ intros e1 e2 He. rewrite (iden_ext e1 e2 a), (iden_ext e1 e2 b) by auto. rewrite (tden_ext M symI atomI q e1 e2) by auto.
        f_equal. f_equal. apply (sden_ext M symI e1 e2 (SMul rest)). auto. }
    rewrite sum_ranges_app. apply sum_ranges_ext. intros e1 _. cbn [sum_ranges].
    assert (Hvn : forall w, iden (upd e1 (fst r) w) v = iden e1 v).
    { intros w. apply iden_ext. intros z Hz. apply upd_other. now apply S2. }
    rewrite (asum_delta _ (iden e1 v)); [|exact Hv|].
    - destruct (existsb _ _); [|reflexivity].
      assert (E : (iden (upd e1 (fst r) (iden e1 v)) a =? iden (upd e1 (fst r) (iden e1 v)) b)%Z = true).
      { apply Z.eqb_eq. apply S1. rewrite upd_same. symmetry. apply Hvn. }
      rewrite E. cbn [kdelta].
      rewrite (tden_subst M symI atomI _ _ _ e1) with (2 := Hnt).
      + assert (Em : forall z, msub e1 [(fst r, v)] z = upd e1 (fst r) (iden e1 v) z).
        { intros z. unfold msub, upd. cbn. destruct (idx_eqb z (fst r)); reflexivity. }
        rewrite (tden_ext M symI atomI _ (msub e1 [(fst r, v)]) _ (fun z _ => Em z)). cbn [tden sden].
        fold (sprod (upd e1 (fst r) (iden e1 v)) rest). f_equal. ring.
      + intros z Hz. cbn [tbound] in Hz. destruct (Hb z Hz) as [B1 B2]. split.
        * cbn. now rewrite idx_eqb_neq.
        * intros y w F. cbn in F. destruct (idx_eqb y (fst r)); [|discriminate]. injection F as <-. exact B2.
    - intros w _ Hw. destruct (Z.eqb_spec (iden (upd e1 (fst r) w) a) (iden (upd e1 (fst r) w) b)) as [E|E].
      + exfalso. apply S1 in E. rewrite upd_same, Hvn in E. contradiction.
      + cbn [kdelta]. replace (kmul k0 (sprod (upd e1 (fst r) w) rest)) with (@k0 M) by ring. apply smul_0.
  Qed.
End Den.
