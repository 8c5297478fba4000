(** C62 PauliX, PauliY, PauliZ. [sx], [sy], [sz], [two_levels], [two_by_two]: see PauliSpec.
    [code n]: the operator algebra with recursion depth at most n (OpRun). *)
From Coq Require Import Bool ZArith QArith Qcanon.
From Verif Require Import Prelude ListFacts SortModel SortProofs BinModel AlgSpec CAlg NcRing OpModel OpSpec OpForms OpProofs1 OpProofs2 OpProofs3 OpOrder OpFuel OpLocal OpClosed OpSx OpSites OpRun.
From Verif Require Import HilbertModel BasisModel BasisProofs PauliModel PauliSpec PauliProofs ConvModel ConvSpec ConvProofs1 ConvProofs2 LvlInst LvlSpec LvlProofs Properties_Op1 Properties_Op2 Properties_Lvl.
Local Open Scope nat_scope.

Section Pauli.
  Context {S : scalars} {dim : nat -> option nat} (olt : op S -> op S -> bool) (slt : list nat -> list nat -> bool).
  Local Notation code := (code dim olt slt).
  Local Notation PauliX n := (pauli_x (code n)). Local Notation PauliY n := (pauli_y (code n)). Local Notation PauliZ n := (pauli_z (code n)).

  (** ** they are returned, for every space and every two of its levels *)
  Theorem C62_defined n s ls st g e : two_levels s st g e ->
    (exists x, PauliX (3 + n) s ls st = Ok x) /\ (exists y, PauliY (3 + n) s ls st = Ok y) /\ (exists z, PauliZ (3 + n) s ls st = Ok z).
  Proof.
    intros H. destruct (args_levels s st g e H) as [a [b [E [Ha Hb]]]]. unfold pauli_x, pauli_y, pauli_z, local_projector, osub. rewrite E. cbn [bind].
    rewrite !(sigma_level s ls a b g e Ha Hb), !(sigma_level s ls b a e g Hb Ha), (sigma_level s ls a a g g Ha Ha), (sigma_level s ls b b e e Hb Hb). cbn [bind].
    assert (forall c : atom S, simple (OAtom c)) as HS by (intros c; right; eauto).
    repeat split.
    - destruct (plus_atoms (dim:=dim) olt slt (1 + n) [OAtom (ASigma g e ls); OAtom (ASigma e g ls)]) as [p [E1 _]]; [do 2 (constructor; [apply HS|]); constructor|]. now exists p.
    - destruct (scal_atom (dim:=dim) olt slt (2 + n) sm1 (ASigma g e ls)) as [t [E1 Ht]].
      change (k_scal (code (3 + n)) sm1 (OAtom (ASigma g e ls)) = Ok t) in E1. rewrite E1. cbn [bind].
      destruct (plus_atoms (dim:=dim) olt slt (1 + n) [t; OAtom (ASigma e g ls)]) as [p [E2 Hp]]; [constructor; [exact Ht|constructor; [apply HS|constructor]]|].
      change (k_plus (code (3 + n)) [t; OAtom (ASigma e g ls)] = Ok p) in E2. rewrite E2. cbn [bind]. now apply scal_sum.
    - destruct (scal_atom (dim:=dim) olt slt (2 + n) sm1 (ASigma e e ls)) as [t [E1 Ht]].
      change (k_scal (code (3 + n)) sm1 (OAtom (ASigma e e ls)) = Ok t) in E1. rewrite E1. cbn [bind].
      destruct (plus_atoms (dim:=dim) olt slt (1 + n) [OAtom (ASigma g g ls); t]) as [p [E2 _]]; [constructor; [apply HS|constructor; [exact Ht|constructor]]|]. now exists p.
  Qed.
  (** ** they fail on everything else: on a space without two levels, on labels that
      are not in the basis, and when not given exactly two labels *)
  Lemma unpack_name s a x z : unpack s a = Ok (x, z) -> names_level s a (Z.to_nat z) /\ (0 <= z)%Z.
  Proof.
    unfold names_level, unpack, local_labels. destruct a as [i|y], (l_basis s) as [b|]; cbn [of_option bind]; try discriminate.
    - destruct (Z.ltb_spec i 0); [discriminate|]. destruct (Z.leb_spec (Z.of_nat (length b)) i); [discriminate|].
      destruct (nth_error b (Z.to_nat i)); [|discriminate]. intros E. injection E as <- <-. lia.
    - destruct (Z.ltb_spec i 0); [discriminate|]. intros E. injection E as <- <-. lia.
    - destruct (str_index y b) as [k|] eqn:Ek; [|discriminate]. cbn [of_option bind]. intros E. injection E as <- <-. rewrite Nat2Z.id. split; [|lia]. now apply str_index_Some.
  Qed.
  Theorem C62_only n s ls st r : (forall b, l_basis s = Some b -> NoDup b) ->
    PauliX n s ls st = Ok r \/ PauliY n s ls st = Ok r \/ PauliZ n s ls st = Ok r -> exists g e, two_levels s st g e.
  Proof.
    intros Hd H.
    assert (exists a b g e, pauli_args s st = Ok (a, b) /\ names_level s a g /\ names_level s b e) as [a [b [g [e [E [Ha Hb]]]]]].
    { unfold pauli_x, pauli_y, pauli_z, local_projector, local_sigma in H.
      destruct (pauli_args s st) as [[a b]|] eqn:E; [|destruct H as [H | [H | H]]; discriminate]. cbn [bind] in H.
      destruct (unpack s a) as [[x zx]|] eqn:Ea; [|destruct H as [H | [H | H]]; discriminate]. cbn [bind] in H.
      destruct (unpack s b) as [[y zy]|] eqn:Eb; [|destruct H as [H | [H | H]]; discriminate].
      exists a, b, (Z.to_nat zx), (Z.to_nat zy). repeat split; [eapply unpack_name, Ea|eapply unpack_name, Eb]. }
    unfold pauli_args in E. destruct st as [l|]; [destruct l as [|u [|v [|w l]]]; try discriminate; injection E as -> ->; now exists g, e|].
    exists 0, 1. cbn [two_levels]. split; [reflexivity|split; [reflexivity|]]. destruct (l_basis s) as [bs|] eqn:Eb; [|exact Logic.I].
    destruct bs as [|x [|y bs]]; try discriminate. exists x, y, bs. split; [reflexivity|]. intros ->. specialize (Hd _ eq_refl). inversion Hd as [|? ? N]; subst. apply N. now left.
  Qed.
  Theorem C62_number_of_states n s ls st l : st = Some l -> length l <> 2 ->
    PauliX n s ls st = Err ValueError /\ PauliY n s ls st = Err ValueError /\ PauliZ n s ls st = Err ValueError.
  Proof. intros -> H. unfold pauli_x, pauli_y, pauli_z, pauli_args. destruct l as [|a [|b [|c l]]]; try now repeat split. Qed.
  Theorem C62_one_level n s ls b : l_basis s = Some b -> length b < 2 ->
    PauliX n s ls None = Err ValueError /\ PauliY n s ls None = Err ValueError /\ PauliZ n s ls None = Err ValueError.
  Proof. intros Eb H. unfold pauli_x, pauli_y, pauli_z, pauli_args. rewrite Eb. destruct b as [|x [|y b]]; try now repeat split. cbn in H. lia. Qed.
  (** labels and the integers they stand for are interchangeable; no [states] means (0, 1) *)
  Theorem C62_labels n s ls st st' g e : two_levels s st g e -> two_levels s st' g e ->
    PauliX n s ls st = PauliX n s ls st' /\ PauliY n s ls st = PauliY n s ls st' /\ PauliZ n s ls st = PauliZ n s ls st'.
  Proof.
    intros H H'. destruct (args_levels s st g e H) as [a [b [E [Ha Hb]]]]. destruct (args_levels s st' g e H') as [a' [b' [E' [Ha' Hb']]]].
    unfold pauli_x, pauli_y, pauli_z, local_projector. rewrite E, E'. cbn [bind].
    rewrite !(sigma_level s ls a b g e Ha Hb), !(sigma_level s ls b a e g Hb Ha), (sigma_level s ls a a g g Ha Ha), (sigma_level s ls b b e e Hb Hb).
    rewrite !(sigma_level s ls a' b' g e Ha' Hb'), !(sigma_level s ls b' a' e g Hb' Ha'), (sigma_level s ls a' a' g g Ha' Ha'), (sigma_level s ls b' b' e e Hb' Hb').
    now repeat split.
  Qed.

  (** ** what they are *)
  Theorem C62_local n s ls st g e x y z : good_orders olt slt -> two_levels s st g e ->
    PauliX n s ls st = Ok x -> PauliY n s ls st = Ok y -> PauliZ n s ls st = Ok z ->
    local_to ls x /\ local_to ls y /\ local_to ls z.
  Proof.
    intros Ho H Ex Ey Ez. destruct (args_levels s st g e H) as [a [b [Ea [Ha Hb]]]]. pose proof (local_agree ls dim olt slt Ho n) as HK.
    assert (forall l p, Forall (local_to ls) l -> k_plus (code n) l = Ok p -> local_to ls p) as GP.
    { intros l p Hl Hp. destruct (a_plus ls _ _ HK l Hl) as [E G]. apply G. unfold OpRun.code in Hp. rewrite E. exact Hp. }
    assert (forall c t p, local_to ls t -> k_scal (code n) c t = Ok p -> local_to ls p) as GS.
    { intros c t p Ht Hp. destruct (a_scal ls _ _ HK c t Ht) as [E G]. apply G. unfold OpRun.code in Hp. rewrite E. exact Hp. }
    assert (forall j k, local_to (S:=S) ls (OAtom (ASigma j k ls))) as GA by (intros; right; reflexivity).
    unfold pauli_x in Ex. unfold pauli_y in Ey. unfold pauli_z, local_projector, osub in Ez. rewrite Ea in Ex, Ey, Ez. cbn [bind] in Ex, Ey, Ez.
    rewrite (sigma_level s ls a b g e Ha Hb), (sigma_level s ls b a e g Hb Ha) in Ex, Ey. rewrite (sigma_level s ls a a g g Ha Ha), (sigma_level s ls b b e e Hb Hb) in Ez. cbn [bind] in Ex, Ey, Ez.
    assert (forall u v : op S, local_to ls u -> local_to ls v -> Forall (local_to ls) [u; v]) as GF by (intros; repeat (constructor; [assumption|]); constructor).
    repeat split.
    - eapply GP; [apply GF; apply GA|exact Ex].
    - clear Ex Ez. destruct (k_scal (code n) sm1 _) as [t|] eqn:Et; [|discriminate]. cbn [bind] in Ey. destruct (k_plus (code n) _) as [p|] eqn:Ep; [|discriminate]. cbn [bind] in Ey.
      eapply GS; [|exact Ey]. eapply GP; [|exact Ep]. apply GF; [|apply GA]. eapply GS; [apply GA|exact Et].
    - clear Ex Ey. destruct (k_scal (code n) sm1 _) as [t|] eqn:Et; [|discriminate]. cbn [bind] in Ez. eapply GP; [|exact Ez]. apply GF; [apply GA|]. eapply GS; [apply GA|exact Et].
  Qed.
  Lemma two_levels_levels s ls st g e : space_of dim s ls -> two_levels s st g e -> level (dim:=dim) ls g /\ level (dim:=dim) ls e.
  Proof. intros Hs H. destruct (args_levels s st g e H) as [a [b [_ [Ha Hb]]]]. split; [exact (names_levels dim s ls a g Hs Ha)|exact (names_levels dim s ls b e Hs Hb)]. Qed.
  Section Values.
    Context (I : interp S dim).
    Lemma sigma_legal j k l : level (dim:=dim) l j -> level (dim:=dim) l k -> legal I (OAtom (ASigma j k l)).
    Proof. intros H1 H2. split; assumption. Qed.
    Lemma two_legal (u v : op S) : legal I u -> legal I v -> Forall (legal I) [u; v].
    Proof. intros H1 H2. constructor; [exact H1|constructor; [exact H2|constructor]]. Qed.
    Theorem C62_x_value n s ls st g e x : space_of dim s ls -> two_levels s st g e ->
      PauliX n s ls st = Ok x -> legal I x /\ value I x = sx I ls g e.
    Proof.
      intros Hs H E. destruct (args_levels s st g e H) as [a [b [Ea [Ha Hb]]]]. unfold pauli_x in E. rewrite Ea in E. cbn [bind] in E.
      rewrite (sigma_level s ls a b g e Ha Hb), (sigma_level s ls b a e g Hb Ha) in E. cbn [bind] in E.
      pose proof (names_levels dim s ls a g Hs Ha) as Lg. pose proof (names_levels dim s ls b e Hs Hb) as Le.
      destruct (C30_sum_value I olt slt n [OAtom (ASigma g e ls); OAtom (ASigma e g ls)] x (two_legal _ _ (sigma_legal g e ls Lg Le) (sigma_legal e g ls Le Lg)) E) as [L V]. split; [exact L|]. rewrite V. cbn [map]. rewrite msum_2. reflexivity.
    Qed.
    Theorem C62_y_value n s ls st g e y : space_of dim s ls -> two_levels s st g e ->
      PauliY n s ls st = Ok y -> legal I y /\ value I y = sy I ls g e.
    Proof.
      intros Hs H E. destruct (args_levels s st g e H) as [a [b [Ea [Ha Hb]]]]. unfold pauli_y in E. rewrite Ea in E. cbn [bind] in E.
      rewrite (sigma_level s ls a b g e Ha Hb), (sigma_level s ls b a e g Hb Ha) in E. cbn [bind] in E.
      pose proof (names_levels dim s ls a g Hs Ha) as Lg. pose proof (names_levels dim s ls b e Hs Hb) as Le.
      destruct (k_scal (code n) sm1 _) as [t|] eqn:Et; [|discriminate]. cbn [bind] in E.
      destruct (C30_multiple_value I olt slt n _ _ t (sigma_legal g e ls Lg Le) Et) as [Lt Vt].
      destruct (k_plus (code n) _) as [p|] eqn:Ep; [|discriminate]. cbn [bind] in E.
      destruct (C30_sum_value I olt slt n [t; OAtom (ASigma e g ls)] p (two_legal _ _ Lt (sigma_legal e g ls Le Lg)) Ep) as [Lp Vp].
      destruct (C30_multiple_value I olt slt n _ _ y Lp E) as [Ly Vy]. split; [exact Ly|]. rewrite Vy, Vp. cbn [map]. rewrite msum_2, Vt, ev_I, (ev_sm1 I), sy_form. reflexivity.
    Qed.
    Theorem C62_z_value n s ls st g e z : space_of dim s ls -> two_levels s st g e ->
      PauliZ n s ls st = Ok z -> legal I z /\ value I z = sz I ls g e.
    Proof.
      intros Hs H E. destruct (args_levels s st g e H) as [a [b [Ea [Ha Hb]]]]. unfold pauli_z, local_projector in E. rewrite Ea in E. cbn [bind] in E.
      rewrite (sigma_level s ls a a g g Ha Ha), (sigma_level s ls b b e e Hb Hb) in E. cbn [bind] in E.
      pose proof (names_levels dim s ls a g Hs Ha) as Lg. pose proof (names_levels dim s ls b e Hs Hb) as Le.
      destruct (C30_difference_value I olt slt n _ _ z (sigma_legal g g ls Lg Lg) (sigma_legal e e ls Le Le) E) as [L V]. split; [exact L|]. rewrite V. reflexivity.
    Qed.

    (** the squares are the projector on the two levels; the products of two different ones are
        the third times i or -i. In the algebra of the interpretation: *)
    Theorem C62_table ls g e : g <> e -> level (dim:=dim) ls g -> level (dim:=dim) ls e ->
      let X := sx I ls g e in let Y := sy I ls g e in let Z := sz I ls g e in let P := s_id I ls g e in
      amul X X = P /\ amul Y Y = P /\ amul Z Z = P /\
      amul X Y = smul iu Z /\ amul Y X = smul (kopp iu) Z /\
      amul Y Z = smul iu X /\ amul Z Y = smul (kopp iu) X /\
      amul Z X = smul iu Y /\ amul X Z = smul (kopp iu) Y.
    Proof. intros H Lg Le. exact (pauli_table I ls g e H Lg Le). Qed.
    (** the same for the products that the code computes *)
    Definition times_gives n (u v : op S) (w : A I) : Prop := forall p, k_times (code n) [u; v] = Ok p -> legal I p /\ value I p = w.
    Theorem C62_products n m s ls st g e x y z : good_orders olt slt -> space_of dim s ls -> two_levels s st g e -> g <> e ->
      PauliX n s ls st = Ok x -> PauliY n s ls st = Ok y -> PauliZ n s ls st = Ok z ->
      times_gives m x x (s_id I ls g e) /\ times_gives m y y (s_id I ls g e) /\ times_gives m z z (s_id I ls g e) /\
      times_gives m x y (smul iu (value I z)) /\ times_gives m y x (smul (kopp iu) (value I z)) /\
      times_gives m y z (smul iu (value I x)) /\ times_gives m z y (smul (kopp iu) (value I x)) /\
      times_gives m z x (smul iu (value I y)) /\ times_gives m x z (smul (kopp iu) (value I y)).
    Proof.
      intros Ho Hs H Hge Ex Ey Ez. destruct (C62_x_value n s ls st g e x Hs H Ex) as [Lx Vx]. destruct (C62_y_value n s ls st g e y Hs H Ey) as [Ly Vy].
      destruct (C62_z_value n s ls st g e z Hs H Ez) as [Lz Vz]. destruct (C62_local n s ls st g e x y z Ho H Ex Ey Ez) as [Ox [Oy Oz]].
      destruct (two_levels_levels s ls st g e Hs H) as [Lg Le].
      rewrite Vx, Vy, Vz. destruct (C62_table ls g e Hge Lg Le) as (T1 & T2 & T3 & T4 & T5 & T6 & T7 & T8 & T9). cbv zeta in *.
      assert (forall u v w, local_to ls u -> local_to ls v -> legal I u -> legal I v -> amul (value I u) (value I v) = w -> times_gives m u v w) as G.
      { intros u v w O1 O2 L1 L2 Hw p Hp. assert (Forall (local_to ls) [u; v]) as F1 by (repeat (constructor; [assumption|]); constructor).
        assert (Forall (legal I) [u; v]) as F2 by (repeat (constructor; [assumption|]); constructor).
        destruct (C34_local_product_value I olt slt ls m [u; v] p Ho F1 F2 Hp) as [_ [L V]]. split; [exact L|]. rewrite V. cbn [map]. rewrite mprod_2. exact Hw. }
      refine (conj _ (conj _ (conj _ (conj _ (conj _ (conj _ (conj _ (conj _ _)))))))); (apply G; [assumption..|rewrite ?Vx, ?Vy, ?Vz; assumption]).
    Qed.
    (** they are their own adjoints *)
    Theorem C62_hermitian n m s ls st g e x y z x' y' z' : good_orders olt slt -> space_of dim s ls -> two_levels s st g e ->
      PauliX n s ls st = Ok x -> PauliY n s ls st = Ok y -> PauliZ n s ls st = Ok z ->
      oadj (code m) x = Ok x' -> oadj (code m) y = Ok y' -> oadj (code m) z = Ok z' ->
      value I x' = value I x /\ value I y' = value I y /\ value I z' = value I z.
    Proof.
      intros Ho Hs H Ex Ey Ez Ax Ay Az. destruct (C62_x_value n s ls st g e x Hs H Ex) as [Lx Vx]. destruct (C62_y_value n s ls st g e y Hs H Ey) as [Ly Vy].
      destruct (C62_z_value n s ls st g e z Hs H Ez) as [Lz Vz]. destruct (C62_local n s ls st g e x y z Ho H Ex Ey Ez) as [Ox [Oy Oz]].
      destruct (C32_local_adjoint_value I olt slt ls m x x' Ho Ox Lx Ax) as [_ [_ ->]]. destruct (C32_local_adjoint_value I olt slt ls m y y' Ho Oy Ly Ay) as [_ [_ ->]].
      destruct (C32_local_adjoint_value I olt slt ls m z z' Ho Oz Lz Az) as [_ [_ ->]]. rewrite Vx, Vy, Vz. apply pauli_herm.
    Qed.
    (** called with the same level twice they give 2 |g><g|, 0 and 0: no error *)
    Theorem C62_same_level n s ls st g x y z : space_of dim s ls -> two_levels s st g g ->
      PauliX n s ls st = Ok x -> PauliY n s ls st = Ok y -> PauliZ n s ls st = Ok z ->
      value I x = aadd (isigma (i:=I) g g ls) (isigma g g ls) /\ value I y = a0 /\ value I z = a0.
    Proof.
      intros Hs H Ex Ey Ez. rewrite (proj2 (C62_x_value n s ls st g g x Hs H Ex)), (proj2 (C62_y_value n s ls st g g y Hs H Ey)), (proj2 (C62_z_value n s ls st g g z Hs H Ez)).
      split; [reflexivity|]. split; [rewrite sy_form, aadd_comm; unfold aopp; rewrite aadd_opp; apply smul_zero|unfold sz; apply aadd_opp].
    Qed.
    (** On a spin 1/2 the levels are ordered by increasing magnetic quantum number: PauliZ without
        [states] is -2 Jz, not 2 Jz, on the span of the two levels *)
    Theorem C62_spin_half n s ls z : space_of dim s ls -> dim ls = Some 2 -> spin (i:=I) ls -> (exists x y, l_basis s = Some [x; y] /\ x <> y) ->
      PauliZ n s ls None = Ok z -> value I z = smul (kQ (qz (-2))) (amul (ijz ls) (s_id I ls 0 1)).
    Proof.
      intros Hs Hd Hsp [a [b [Eb Hab]]] Ez.
      assert (two_levels s None 0 1) as H. { cbn [two_levels]. rewrite Eb. repeat split. now exists a, b, []. }
      rewrite (proj2 (C62_z_value n s ls None 0 1 z Hs H Ez)). unfold sz, s_id. rewrite amul_addr.
      rewrite !(jz_sigma _ _ I 2) by (first [assumption | lia]). rewrite smul_addr, <- !smul_mul, <- !kQ_mul.
      replace (qz (-2) * (qn 0 - (qn 2 - 1) / qn 2))%Qc with 1%Qc by (apply Qc_is_canon; reflexivity).
      replace (qz (-2) * (qn 1 - (qn 2 - 1) / qn 2))%Qc with (- (1))%Qc by (apply Qc_is_canon; reflexivity).
      rewrite kQ_opp, kQ_1, smul_1. reflexivity.
    Qed.
  End Values.

  (** ** the matrices of the documentation: on any product space, the 2x2 matrix with rows and
      columns g, e at the place of the local space and the identity elsewhere *)
  Lemma fill_x (M : calgebra) (a b p q : A M) : aadd a b = aadd (aadd (smul k0 p) (smul k1 a)) (aadd (smul k1 b) (smul k0 q)).
  Proof. rewrite !smul_1, !smul_0, aadd_0, aadd_0r. reflexivity. Qed.
  Lemma fill_y (M : calgebra) c d (a b p q : A M) : aadd (smul c a) (smul d b) = aadd (aadd (smul k0 p) (smul c a)) (aadd (smul d b) (smul k0 q)).
  Proof. rewrite !smul_0, aadd_0, aadd_0r. reflexivity. Qed.
  Lemma fill_z (M : calgebra) c (a b p q : A M) : aadd a (smul c b) = aadd (aadd (smul k1 a) (smul k0 p)) (aadd (smul k0 q) (smul c b)).
  Proof. rewrite smul_1, !smul_0, aadd_0, aadd_0r. reflexivity. Qed.
  Section Mats.
    Context (r : reading S) (h : list nat) (Hn : NoDup h).
    Add Ring Kmats : (kring r).
    Local Notation I := (lvl_interp r dim h Hn).
    Local Notation N := (size dim h).
    Local Notation at_ls := (at_site r dim h).
    Lemma sigma_at j k ls : In ls h -> isigma (i:=I) j k ls = of_mat r dim h (at_ls ls (element r false (ASigma j k ls) (levels dim ls))).
    Proof. intros Hl. cbn [isigma lvl_interp]. unfold lsigma. apply sp_mem_In in Hl. now rewrite Hl. Qed.
    Lemma two_ent g e ls a b c d : g <> e -> In ls h ->
      aadd (aadd (smul a (isigma (i:=I) g g ls)) (smul b (isigma g e ls))) (aadd (smul c (isigma e g ls)) (smul d (isigma e e ls)))
      = of_mat r dim h (at_ls ls (two_by_two r g e a b c d)).
    Proof.
      intros Hge Hl. rewrite !(sigma_at _ _ ls Hl). cbn [aadd smul lvl_interp rd lvl_reading cal lvl_calg sal lvl_star alg lvl_alg].
      rewrite !(smul_of r dim h), !(add_of r dim h). apply of_mat_eq. intros i j _ _. unfold madd, mscale, at_site, element, two_by_two.
      destruct (forallb _ h); [|ring]. set (p := digit _ _ _ i). set (q := digit _ _ _ j). clearbody p q.
      destruct (Nat.eqb_spec p g), (Nat.eqb_spec q g), (Nat.eqb_spec p e), (Nat.eqb_spec q e); subst; try contradiction; cbn [andb]; ring.
    Qed.
    Lemma pauli_space n s ls st g e x y z : In ls h -> two_levels s st g e ->
      (PauliX n s ls st = Ok x -> incl (space x) h) /\ (PauliY n s ls st = Ok y -> incl (space y) h) /\ (PauliZ n s ls st = Ok z -> incl (space z) h).
    Proof.
      intros Hl H. destruct (args_levels s st g e H) as [a [b [Ea [Ha Hb]]]].
      assert (forall j k, incl (space (S:=S) (OAtom (ASigma j k ls))) h) as GA by (intros j k w [<-|[]]; exact Hl).
      unfold pauli_x, pauli_y, pauli_z, local_projector, osub. rewrite Ea. cbn [bind].
      rewrite !(sigma_level s ls a b g e Ha Hb), !(sigma_level s ls b a e g Hb Ha), (sigma_level s ls a a g g Ha Ha), (sigma_level s ls b b e e Hb Hb). cbn [bind].
      split; [|split]; intros E.
      - exact (plus_space dim olt slt h n _ _ x (GA _ _) (GA _ _) E).
      - destruct (k_scal (code n) sm1 _) as [t|] eqn:Et; [|discriminate]. cbn [bind] in E. destruct (k_plus (code n) _) as [p|] eqn:Ep; [|discriminate]. cbn [bind] in E.
        exact (scal_space dim olt slt h n _ p y (plus_space dim olt slt h n _ _ p (scal_space dim olt slt h n _ _ t (GA _ _) Et) (GA _ _) Ep) E).
      - destruct (k_scal (code n) sm1 _) as [t|] eqn:Et; [|discriminate]. cbn [bind] in E.
        exact (plus_space dim olt slt h n _ _ z (GA _ _) (scal_space dim olt slt h n _ _ t (GA _ _) Et) E).
    Qed.
    Theorem C62_x_matrix n s ls st g e x : In ls h -> space_of dim s ls -> two_levels s st g e -> g <> e -> PauliX n s ls st = Ok x ->
      meq r N (mat_of r dim false h x) (at_ls ls (two_by_two r g e k0 k1 k1 k0)).
    Proof.
      intros Hl Hs H Hge E. destruct (C62_x_value I n s ls st g e x Hs H E) as [L V]. apply (of_mat_inj r dim).
      rewrite <- (value_mat r dim h Hn x (proj1 (pauli_space n s ls st g e x x x Hl H) E) L), V, <- (two_ent g e ls _ _ _ _ Hge Hl). unfold sx. apply (fill_x I).
    Qed.
    Theorem C62_y_matrix n s ls st g e y : In ls h -> space_of dim s ls -> two_levels s st g e -> g <> e -> PauliY n s ls st = Ok y ->
      meq r N (mat_of r dim false h y) (at_ls ls (two_by_two r g e k0 (kopp iu) iu k0)).
    Proof.
      intros Hl Hs H Hge E. destruct (C62_y_value I n s ls st g e y Hs H E) as [L V]. apply (of_mat_inj r dim).
      rewrite <- (value_mat r dim h Hn y (proj1 (proj2 (pauli_space n s ls st g e y y y Hl H)) E) L), V, <- (two_ent g e ls _ _ _ _ Hge Hl). unfold sy. apply (fill_y I).
    Qed.
    Theorem C62_z_matrix n s ls st g e z : In ls h -> space_of dim s ls -> two_levels s st g e -> g <> e -> PauliZ n s ls st = Ok z ->
      meq r N (mat_of r dim false h z) (at_ls ls (two_by_two r g e k1 k0 k0 (kopp k1))).
    Proof.
      intros Hl Hs H Hge E. destruct (C62_z_value I n s ls st g e z Hs H E) as [L V]. apply (of_mat_inj r dim).
      rewrite <- (value_mat r dim h Hn z (proj2 (proj2 (pauli_space n s ls st g e z z z Hl H)) E) L), V, <- (two_ent g e ls _ _ _ _ Hge Hl). unfold sz. apply (fill_z I).
    Qed.
  End Mats.
End Pauli.

(** ** a two-level atom with levels g, e, a three-level atom a, b, c and a space without a basis *)
Definition pl_tls : local := mk_local None (Lit [48]) (Some [[103]; [101]]) [].
Definition pl_three : local := mk_local None (Lit [49]) (Some [[97]; [98]; [99]]) [].
Definition pl_bare : local := mk_local None (Lit [50]) None [].
Definition pl_one : local := mk_local None (Lit [51]) (Some [[97]]) [].
Definition pdim (l : nat) : option nat := match l with 0 => Some 2 | 1 => Some 3 | 3 => Some 1 | _ => None end.
Definition pcode (n : nat) : ocreators Sx := code pdim xolt xslt n.
Definition pg (j k l : nat) : op Sx := OAtom (ASigma j k l).
Example C62_ex_spaces : space_of pdim pl_tls 0 /\ space_of pdim pl_three 1 /\ space_of pdim pl_bare 2 /\ space_of pdim pl_one 3.
Proof. repeat split. Qed.
Example C62_ex_levels : two_levels pl_tls None 0 1 /\ two_levels pl_tls (Some [Lab [103]; Lab [101]]) 0 1
  /\ two_levels pl_three (Some [Lab [97]; Lab [99]]) 0 2 /\ two_levels pl_three (Some [Idx 2; Lab [97]]) 2 0 /\ two_levels pl_bare None 0 1 /\ two_levels pl_bare (Some [Idx 5; Idx 3]) 5 3.
Proof.
  assert (forall k (P : Prop), k < 0 -> P) as N0 by (intros; lia).
  repeat split; try (cbn; lia); try (intros k Hk; apply N0; exact Hk).
  - exists [103], [101], []. split; [reflexivity|discriminate].
  - intros k Hk. assert (k = 0) as -> by lia. discriminate.
  - intros k Hk. assert (k = 0 \/ k = 1) as [-> | ->] by lia; discriminate.
Qed.
Example C62_ex_x : is_ok (pauli_x (pcode 3) pl_tls 0 None) (OPlus [pg 0 1 0; pg 1 0 0]) = true
  /\ is_ok (pauli_x (pcode 3) pl_three 1 (Some [Lab [97]; Lab [99]])) (OPlus [pg 0 2 1; pg 2 0 1]) = true.
Proof. split; vm_compute; reflexivity. Qed.
Example C62_ex_y : match pauli_y (pcode 3) pl_tls 0 None with Ok (OScal c (OPlus [b; OScal d a])) => seqb c sI && seqb d sm1 && oeqb a (pg 0 1 0) && oeqb b (pg 1 0 0) | _ => false end = true.
Proof. vm_compute. reflexivity. Qed.
Example C62_ex_z : is_ok (pauli_z (pcode 3) pl_bare 2 (Some [Idx 5; Idx 3])) (OPlus [pg 5 5 2; OScal sm1 (pg 3 3 2)]) = true.
Proof. vm_compute. reflexivity. Qed.
Example C62_ex_errors : fails (pauli_x (pcode 3) pl_one 3 None) ValueError /\ fails (pauli_z (pcode 3) pl_three 1 (Some [Idx 0; Idx 1; Idx 2])) ValueError
  /\ (exists x, fails (pauli_z (pcode 3) pl_three 1 (Some [Idx 0; Idx 3])) x) /\ (exists x, fails (pauli_y (pcode 3) pl_bare 2 (Some [Idx 0; Lab [97]])) x).
Proof. repeat split; [eexists|eexists]; vm_compute; reflexivity. Qed.
(** products and adjoints are computed *)
Example C62_ex_product : match pauli_x (pcode 3) pl_tls 0 None, pauli_z (pcode 3) pl_tls 0 None with
  | Ok x, Ok z => match k_times (pcode 6) [x; x], k_times (pcode 6) [z; x], oadj (pcode 6) x with Ok _, Ok _, Ok x' => oeqb x' (OPlus [pg 1 0 0; pg 0 1 0]) | _, _, _ => false end | _, _ => false end = true.
Proof. vm_compute. reflexivity. Qed.
Print Assumptions C62_defined.
Print Assumptions C62_only.
Print Assumptions C62_number_of_states.
Print Assumptions C62_one_level.
Print Assumptions C62_labels.
Print Assumptions C62_local.
Print Assumptions C62_x_value.
Print Assumptions C62_y_value.
Print Assumptions C62_z_value.
Print Assumptions C62_table.
Print Assumptions C62_products.
Print Assumptions C62_hermitian.
Print Assumptions C62_same_level.
Print Assumptions C62_spin_half.
Print Assumptions C62_x_matrix.
Print Assumptions C62_y_matrix.
Print Assumptions C62_z_matrix.
