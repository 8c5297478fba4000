(** C60: the library components are physical and compose as documented, and
    [coherent_input] displaces the input fields. *)
From Coq Require Import Reals.
From Verif Require Import Prelude ListFacts PermModel PermSpec CircModel CSimpModel CSimpSpec.
From Verif Require Import AlgSpec CAlg NcRing MatModel SlhModel MatSpec MatProofs SlhProofs1 SlhProofs2 SlhProofs3 SlhProofs4 SlhProofs8 CSimpSlh ToSlhModel ToSlhSpec ToSlhProofs Properties_Circuit.
From Verif Require Import Cplx LibModel LibSpec LibProofs LibProofs2 LibInst.
Local Open Scope nat_scope.

(** [kexp], [kcos], [ksin] are the functions of sympy, [table] the library
    components in use by label, [other] evaluates all further symbols, [inv]
    inverts multiples of the identity (feedback), [slh_eq] compares SLH objects,
    [kzero] tests an amplitude for zero. *)
Section C60.
  Context {M : calgebra} (kexp kcos ksin : K M -> K M) (table : nat -> option (component (M:=M))).
  Context (other : nat -> nat -> res (slh M)) (inv : A M -> res (K M)) (slh_eq : slh M -> slh M -> bool) (kzero : K M -> bool).
  Context (Hinv : sound_inv inv) (Heq : forall s t, slh_eq s t = true -> s = t) (Hz : forall x, kzero x = true -> x = k0).
  Add Ring Kr : (kring M).
  Local Notation circ := (circ (slh M)).
  Local Notation lit := (slh_lits M inv slh_eq).
  Local Notation comp := (lib_comp kexp kcos ksin table other).
  Local Notation toSLH := (to_slh comp inv).
  Local Notation valid := (valid comp).
  Local Notation coherent_input := (coherent_input lit kzero).
  Implicit Types (c r : circ) (s t : slh M) (amps : list (nat * K M)).

  (** the number of amplitudes must be the number of channels *)
  Theorem C60_wrong_cdim c amps fuel : length amps <> cdim c -> coherent_input fuel c amps = Err WrongCDimError.
  Proof.
    intros H. unfold LibModel.coherent_input. destruct (Nat.eqb_spec (length amps) (cdim c)); [contradiction|reflexivity].
  Qed.

  Lemma input_series c s amps fuel r s' : valid c -> toSLH c = Ok s -> 0 < cdim c -> (forall la, In la amps -> table (fst la) = Some (CoherentDriveCC (snd la))) ->
    coherent_input fuel c amps = Ok r -> toSLH r = Ok s' ->
    length amps = cdim c /\ system s (cdim c) /\ s' = ser (cdim c) s (wsys (cdim c) (ampl amps)).
  Proof.
    intros Hv Hs Hc Hn Hr Hs'. unfold LibModel.coherent_input in Hr.
    destruct (Nat.eqb_spec (length amps) (cdim c)) as [Hl|]; [|discriminate Hr]. cbn [negb] in Hr.
    change (k_series (simp lit fuel) [c; drives kzero amps] = Ok r) in Hr.
    assert (amps <> []) as Hne by (intros ->; cbn in Hl; lia).
    pose proof (drives_ok kexp kcos ksin table other inv kzero Hz amps Hne Hn) as Hd.
    destruct (drives_valid kexp kcos ksin table other kzero amps Hne Hn) as [Vd Dd].
    assert (cdim c = cdim (drives kzero amps)) as Hcd by now rewrite Dd.
    pose proof (C13_lshift comp inv slh_eq Hinv Heq c _ s _ fuel r s' Hv Vd Hcd Hs Hd Hr Hs') as Hser.
    destruct (C14_toSLH_cdim comp inv Hinv c s Hv Hs) as [Hp _]. assert (system s (cdim c)) as Sy by apply Hp.
    split; [exact Hl|]. split; [exact Sy|]. rewrite Hl in Hser.
    rewrite (series_ok _ _ (cdim c) Sy (wsys_system _ _)) in Hser. congruence.
  Qed.

  (** [c.coherent_input(alpha_0, ..., alpha_{n-1})]: S unchanged, L + S alpha,
      and H + Im(L^dagger S alpha), where Im x = (x - x^dagger)/2i; whatever was
      simplified on the way *)
  Theorem C60_coherent_input c s amps fuel r s' : valid c -> toSLH c = Ok s -> 0 < cdim c ->
    (forall la, In la amps -> table (fst la) = Some (CoherentDriveCC (snd la))) ->
    coherent_input fuel c amps = Ok r -> toSLH r = Ok s' ->
    let n := cdim c in let alpha j := snd (nth j amps (0, k0)) in
    system s' n /\
    (forall i j, i < n -> j < n -> ent (sS s') i j = ent (sS s) i j) /\
    (forall i, i < n -> ent (sL s') i 0 = aadd (ent (sL s) i 0) (bigsum n (fun j => smul (alpha j) (ent (sS s) i j)))) /\
    let x := coupling n s alpha in
    sH s' = aadd (sH s) (smul (kmul iu khalf) (aadd (star x) (aopp x))).
  Proof.
    intros Hv Hs Hc Hn Hr Hs' n alpha. destruct (input_series c s amps fuel r s' Hv Hs Hc Hn Hr Hs') as (Hl & Sy & ->).
    destruct (ser_w n s alpha Sy) as (E1 & E2 & E3). split; [apply ser_system|]. split; [exact E1|]. split; [exact E2|]. exact E3.
  Qed.

  (** When the scattering matrix consists of numbers, the coherent input acts on
      the dynamics as the driving Hamiltonian -i (L^dagger S alpha - h.c.): the
      master equation and the Heisenberg equation are those of the undriven
      circuit with that Hamiltonian added *)
  Theorem C60_driving_hamiltonian c s amps fuel r s' (sc : nat -> nat -> K M) : valid c -> toSLH c = Ok s -> 0 < cdim c ->
    (forall la, In la amps -> table (fst la) = Some (CoherentDriveCC (snd la))) ->
    coherent_input fuel c amps = Ok r -> toSLH r = Ok s' ->
    (forall i j, i < cdim c -> j < cdim c -> ent (sS s) i j = smul (sc i j) a1) ->
    let x := coupling (cdim c) s (fun j => snd (nth j amps (0, k0))) in
    let t := SLH (sS s) (sL s) (aadd (sH s) (smul (kopp iu) (aadd x (aopp (star x))))) in
    (forall rho, master_equation s' rho = master_equation t rho) /\
    (forall X, heisenberg_eom s' X = heisenberg_eom t X).
  Proof.
    intros Hv Hs Hc Hn Hr Hs' Hsc x t. destruct (input_series c s amps fuel r s' Hv Hs Hc Hn Hr Hs') as (Hl & Sy & ->).
    destruct (ser_w_driven (cdim c) s (ampl amps) sc Sy Hsc) as [be ->].
    assert (hdrive (cdim c) s (ampl amps) = t) as Ht.
    { unfold hdrive, t. do 2 f_equal. change (coupling (cdim c) s (ampl amps)) with x. unfold aopp.
      rewrite !smul_addr, <- !smul_mul, aadd_comm. f_equal; f_equal; ring. }
    rewrite Ht. split; intros; [apply driven_master|apply driven_heis]; exact Sy.
  Qed.

  (** vacuum in: nothing changes *)
  Theorem C60_vacuum_input c s amps fuel r s' : valid c -> toSLH c = Ok s -> 0 < cdim c ->
    (forall la, In la amps -> table (fst la) = Some (CoherentDriveCC (snd la))) ->
    coherent_input fuel c amps = Ok r -> toSLH r = Ok s' -> (forall la, In la amps -> snd la = k0) -> s' = s.
  Proof.
    intros Hv Hs Hc Hn Hr Hs' H0. destruct (input_series c s amps fuel r s' Hv Hs Hc Hn Hr Hs') as (Hl & Sy & ->).
    replace (wsys (cdim c) (ampl amps)) with (ident (M:=M) (cdim c)); [now apply ident_r|].
    apply mkS_ext; try reflexivity. intros i Hi. unfold ampl. rewrite H0 by (apply nth_In; lia). now rewrite smul_0.
  Qed.

  (** *** the components *)
  Context (HC : circular kexp kcos ksin).
  (** for real parameters (the amplitude may be complex) every library component
      is a physical system with the announced number of channels *)
  Theorem C60_components_physical k s : comp_slh kexp kcos ksin k = Ok s ->
    match k with CoherentDriveCC _ => True | PhaseCC p => real p | Beamsplitter t => real t end ->
    physical s (comp_cdim k) /\ slh_cdim s = comp_cdim k.
  Proof.
    intros E Hk. assert (physical s (comp_cdim k)) as Hp.
    { destruct k as [x|p|t]; cbn [comp_cdim].
      - rewrite drive_ok in E. injection E as <-. apply wsys_phys.
      - rewrite ph_ok in E. injection E as <-. apply scat1_phys, (exp_unit kexp kcos ksin HC), Hk.
      - rewrite bs_ok in E. injection E as <-. apply scat2_phys, (bs_unitary kexp kcos ksin HC), Hk. }
    split; [exact Hp|]. apply Hp.
  Qed.
  Theorem C60_components_defined k : exists s, comp_slh kexp kcos ksin k = Ok s.
  Proof. destruct k; [eexists; apply drive_ok|eexists; apply ph_ok|eexists; apply bs_ok]. Qed.

  (** the angles of beam splitters in series add up, and zero transmits everything *)
  Theorem C60_beamsplitters_in_series (t u : K M) : real t -> real u -> exists a b ab : slh M,
    comp_slh kexp kcos ksin (Beamsplitter t) = Ok a /\ comp_slh kexp kcos ksin (Beamsplitter u) = Ok b /\
    comp_slh kexp kcos ksin (Beamsplitter (kadd t u)) = Ok ab /\ series_with_slh a b = Ok ab.
  Proof.
    intros Ht Hu. do 3 eexists. split; [apply bs_ok|]. split; [apply bs_ok|]. split; [apply bs_ok|].
    rewrite (series_ok _ _ 2) by apply mkS_system. rewrite ser_scat2, (cos_add _ _ _ HC), (sin_add _ _ _ HC) by assumption. do 2 f_equal; ring.
  Qed.
  Theorem C60_full_transmission a : comp_slh kexp kcos ksin (Beamsplitter k0) = Ok a -> passthrough a 2.
  Proof.
    rewrite bs_ok, (cos_0 _ _ _ HC), (sin_0 _ _ _ HC). intros E. injection E as <-. split; [apply mkS_system|]. split; [|split; [|reflexivity]].
    - intros i j Hi Hj. change (Sf (scat2 k1 (kopp k0) k0 k1) i j = (delta i j : A M)). unfold scat2. rewrite Sf_mkS by assumption.
      assert (kopp (@k0 M) = k0) as -> by ring.
      destruct i as [|[|i]], j as [|[|j]]; try lia; cbn [m2]; [apply num_1|apply num_0|apply num_0|apply num_1].
    - intros [|[|i]] Hi; try lia; reflexivity.
  Qed.
  Theorem C60_phases_in_series (p q : K M) : real p -> real q -> exists a b ab : slh M,
    comp_slh kexp kcos ksin (PhaseCC p) = Ok a /\ comp_slh kexp kcos ksin (PhaseCC q) = Ok b /\
    comp_slh kexp kcos ksin (PhaseCC (kadd p q)) = Ok ab /\ series_with_slh a b = Ok ab.
  Proof.
    intros Hp Hq. do 3 eexists. split; [apply ph_ok|]. split; [apply ph_ok|]. split; [apply ph_ok|].
    rewrite (series_ok _ _ 1) by apply mkS_system. f_equal. unfold ser, fseries. apply mkS_ext.
    - intros i j Hi Hj. unfold mm. rewrite sum1. unfold scat1. rewrite !Sf_mkS by lia. now rewrite smul_prod, (exp_add kexp kcos ksin HC).
    - intros i Hi. unfold mv. rewrite sum1. unfold scat1. rewrite !Lf_mkS by lia. rewrite amul_0r. apply aadd_0.
    - unfold scat1 at 1 2. rewrite !sH_mkS, aadd_0. transitivity (aadd (a0:A M) (imp a0)).
      + do 2 f_equal. unfold dot. rewrite sum1. unfold scat1 at 1. rewrite Lf_mkS by lia. rewrite star_0. apply amul_0l.
      + rewrite aadd_0. apply imp_selfadj, star_0.
  Qed.

  (** a beam splitter between phase shifters: two in front of its outputs, one
      in front of its second input *)
  Definition interferometer (l0 l1 lb l2 : nat) : circ :=
    CSeries [CConcat [CSym l0 1; CSym l1 1]; CSym lb 2; CConcat [CId; CSym l2 1]].
  Lemma interferometer_ok l0 l1 lb l2 (p0 p1 t p2 : K M) :
    table l0 = Some (PhaseCC p0) -> table l1 = Some (PhaseCC p1) -> table lb = Some (Beamsplitter t) -> table l2 = Some (PhaseCC p2) ->
    toSLH (interferometer l0 l1 lb l2) = Ok (scat2
      (kmul (kexp (kmul iu p0)) (kcos t)) (kopp (kmul (kmul (kexp (kmul iu p0)) (kexp (kmul iu p2))) (ksin t)))
      (kmul (kexp (kmul iu p1)) (ksin t)) (kmul (kmul (kexp (kmul iu p1)) (kexp (kmul iu p2))) (kcos t))).
  Proof.
    intros H0 H1 Hb H2. unfold interferometer. rewrite ev_series. cbn [reduce].
    assert (toSLH (CConcat [CSym l0 1; CSym l1 1]) = Ok (scat2 (kexp (kmul iu p0)) k0 k0 (kexp (kmul iu p1)))) as E1.
    { rewrite ev_concat. cbn [reduce]. assert (toSLH (CSym l0 1) = Ok (scat1 (kexp (kmul iu p0)))) as ->.
      { cbn. unfold lib_comp. rewrite H0. apply ph_ok. }
      cbn [bind go]. assert (toSLH (CSym l1 1) = Ok (scat1 (kexp (kmul iu p1)))) as ->.
      { cbn. unfold lib_comp. rewrite H1. apply ph_ok. }
      cbn [bind]. rewrite (concat_ok _ _ 1 1) by apply mkS_system. cbn [bind]. f_equal. apply cat_scat1. }
    assert (toSLH (CConcat [CId; CSym l2 1]) = Ok (scat2 k1 k0 k0 (kexp (kmul iu p2)))) as E2.
    { rewrite ev_concat. cbn [reduce]. assert (toSLH CId = Ok (scat1 k1)) as ->.
      { transitivity (cid_slh (M:=M)); [reflexivity|]. rewrite cid_slh_ok. f_equal. apply cid_scat1. }
      cbn [bind go]. assert (toSLH (CSym l2 1) = Ok (scat1 (kexp (kmul iu p2)))) as ->.
      { cbn. unfold lib_comp. rewrite H2. apply ph_ok. }
      cbn [bind]. rewrite (concat_ok _ _ 1 1) by apply mkS_system. cbn [bind]. f_equal. apply cat_scat1. }
    assert (toSLH (CSym lb 2) = Ok (scat2 (kcos t) (kopp (ksin t)) (ksin t) (kcos t))) as E3.
    { cbn. unfold lib_comp. rewrite Hb. apply bs_ok. }
    rewrite E1. cbn [bind go]. rewrite E3. cbn [bind]. rewrite (series_ok _ _ 2) by apply mkS_system. cbn [bind]. rewrite E2. cbn [bind].
    rewrite (series_ok _ _ 2) by apply mkS_system. cbn [bind]. rewrite !ser_scat2. f_equal. f_equal; ring.
  Qed.
  (** the symmetric beam splitter of the documentation: a phase of a quarter turn
      behind the reflected output and minus that before the second input *)
  Theorem C60_symmetric_beamsplitter l0 l1 lb l2 (t q : K M) :
    real t -> real q -> kexp (kmul iu q) = iu ->
    table l0 = Some (PhaseCC k0) -> table l1 = Some (PhaseCC q) -> table lb = Some (Beamsplitter t) -> table l2 = Some (PhaseCC (kopp q)) ->
    exists s, toSLH (interferometer l0 l1 lb l2) = Ok s /\
      scatters s (kcos t) (kmul iu (ksin t)) (kmul iu (ksin t)) (kcos t).
  Proof.
    intros Ht Hq Hi H0 H1 Hb H2. eexists. split; [apply (interferometer_ok l0 l1 lb l2 _ _ _ _ H0 H1 Hb H2)|]. apply scatters_iff.
    assert (kexp (kmul iu (kopp q)) = kopp iu) as Hm.
    { assert (real (kopp q)) as Hq' by (unfold real in *; now rewrite kconj_opp, Hq).
      pose proof (exp_add kexp kcos ksin HC q (kopp q) Hq Hq') as E. replace (kadd q (kopp q)) with (@k0 M) in E by ring.
      rewrite (exp_0 kexp kcos ksin HC), Hi in E.
      transitivity (kopp (kmul iu (kmul iu (kexp (kmul iu (kopp q)))))).
      - transitivity (kopp (kmul (kmul iu iu) (kexp (kmul iu (kopp q))))); [rewrite iu_sq|]; ring.
      - rewrite E. ring. }
    rewrite Hi, Hm, (exp_0 kexp kcos ksin HC). f_equal; try ring.
    transitivity (kopp (kmul (kmul iu iu) (kcos t))); [ring|]. rewrite iu_sq. ring.
  Qed.
  (** "or any general beamsplitter": every unitary 2 x 2 scattering matrix *)
  Theorem C60_any_beamsplitter (Ha : has_arg kexp) (Hp : has_polar kexp kcos ksin) (a b c d : K M) : unitary2 a b c d ->
    exists p0 p1 t p2 : K M, real p0 /\ real p1 /\ real t /\ real p2 /\
    forall l0 l1 lb l2,
      table l0 = Some (PhaseCC p0) -> table l1 = Some (PhaseCC p1) -> table lb = Some (Beamsplitter t) -> table l2 = Some (PhaseCC p2) ->
      exists s, toSLH (interferometer l0 l1 lb l2) = Ok s /\ scatters s a b c d.
  Proof.
    intros HU. pose proof (unitary_col a b c d HU) as HD. cbn zeta in HD. destruct HD as (Hb & Hd & HD).
    set (D := kadd (kmul a d) (kopp (kmul b c))) in *.
    destruct (Hp a c (proj1 HU)) as (t & p & q & Rt & Rp & Rq & Hac & Hcc). destruct (Ha D HD) as (e & Re & He).
    assert (forall x : K M, real x -> real (kopp x)) as Ro by (intros x Hx; unfold real in *; now rewrite kconj_opp, Hx).
    assert (forall x y : K M, real x -> real y -> real (kadd x y)) as Rs by (intros x y Hx Hy; unfold real in *; now rewrite kconj_add, Hx, Hy).
    assert (forall x : K M, real x -> kexp (kmul iu (kopp x)) = kconj (kexp (kmul iu x))) as Hcj.
    { intros x Hx. pose proof (exp_add kexp kcos ksin HC x (kopp x) Hx (Ro x Hx)) as E. replace (kadd x (kopp x)) with (@k0 M) in E by ring.
      rewrite (exp_0 kexp kcos ksin HC) in E. pose proof (exp_unit kexp kcos ksin HC x Hx) as E'.
      transitivity (kmul (kmul (kconj (kexp (kmul iu x))) (kexp (kmul iu x))) (kexp (kmul iu (kopp x)))); [rewrite E'; ring|].
      transitivity (kmul (kconj (kexp (kmul iu x))) (kmul (kexp (kmul iu x)) (kexp (kmul iu (kopp x))))); [ring|]. rewrite E. ring. }
    exists p, q, t, (kadd e (kadd (kopp p) (kopp q))).
    split; [exact Rp|]. split; [exact Rq|]. split; [exact Rt|]. split; [now auto|].
    intros l0 l1 lb l2 H0 H1 Hlb H2. eexists. split; [apply (interferometer_ok l0 l1 lb l2 _ _ _ _ H0 H1 Hlb H2)|]. apply scatters_iff.
    rewrite <- !(exp_add kexp kcos ksin HC) by auto. rewrite !Hcj by assumption. rewrite <- He.
    pose proof (exp_unit kexp kcos ksin HC p Rp) as Up. pose proof (exp_unit kexp kcos ksin HC q Rq) as Uq.
    pose proof (cos_real _ _ _ HC t Rt) as Rc. pose proof (sin_real _ _ _ HC t Rt) as Rsn. unfold real in Rc, Rsn.
    rewrite Hb, Hd. clearbody D. rewrite Hac, Hcc. rewrite !kconj_mul, Rc, Rsn.
    generalize dependent (kexp (kmul iu p)). generalize dependent (kexp (kmul iu q)). intros y _ Uy x _ Ux.
    f_equal.
    - ring.
    - transitivity (kopp (kmul (kmul (kconj x) x) (kmul (kmul D (kconj y)) (ksin t)))); [ring|]. rewrite Ux. ring.
    - ring.
    - transitivity (kmul (kmul (kconj y) y) (kmul (kmul D (kconj x)) (kcos t))); [ring|]. rewrite Uy. ring.
  Qed.
End C60.
Print Assumptions C60_wrong_cdim.
Print Assumptions C60_coherent_input.
Print Assumptions C60_driving_hamiltonian.
Print Assumptions C60_vacuum_input.
Print Assumptions C60_components_physical.
Print Assumptions C60_components_defined.
Print Assumptions C60_beamsplitters_in_series.
Print Assumptions C60_full_transmission.
Print Assumptions C60_phases_in_series.
Print Assumptions C60_symmetric_beamsplitter.
Print Assumptions C60_any_beamsplitter.

(** ** The hypotheses can be met *)
(** real angles, complex amplitudes, operators on a two-level system: no
    hypothesis about the functions is left *)
Theorem C60_any_beamsplitter_complex table other inv (a b c d : cx) : unitary2 (M:=XM) a b c d ->
  exists p0 p1 t p2 : cx, cim p0 = 0%R /\ cim p1 = 0%R /\ cim t = 0%R /\ cim p2 = 0%R /\
  forall l0 l1 lb l2,
    table l0 = Some (PhaseCC (M:=XM) p0) -> table l1 = Some (PhaseCC (M:=XM) p1) ->
    table lb = Some (Beamsplitter (M:=XM) t) -> table l2 = Some (PhaseCC (M:=XM) p2) ->
    exists s, to_slh (M:=XM) (lib_comp (M:=XM) cexp ccos csin table other) inv (interferometer l0 l1 lb l2) = Ok s /\ scatters s a b c d.
Proof.
  intros H. destruct (C60_any_beamsplitter (M:=XM) cexp ccos csin table other inv XM_circular XM_arg XM_polar a b c d H)
    as (p0 & p1 & t & p2 & R0 & R1 & Rt & R2 & F).
  exists p0, p1, t, p2. split; [now apply real_im|]. split; [now apply real_im|]. split; [now apply real_im|]. split; [now apply real_im|exact F].
Qed.
Print Assumptions C60_any_beamsplitter_complex.
(** the symmetric 50/50 beam splitter exists: a quarter turn has exp(i pi/2) = i *)
Example C60_quarter_turn : real (M:=XM) (creal (PI / 2)) /\ cexp (cmul ci (creal (PI / 2))) = ci /\
  unitary2 (M:=XM) c0 ci ci c0.
Proof.
  split; [apply cconj_real|]. split.
  - apply cx_eq; cbn; replace (0 * (PI / 2) - 1 * 0)%R with 0%R by ring; replace (0 * 0 + 1 * (PI / 2))%R with (PI / 2)%R by ring;
      rewrite Rtrigo_def.exp_0; [rewrite cos_PI2|rewrite sin_PI2]; ring.
  - split; [|split]; apply cx_eq; cbn; ring.
Qed.
