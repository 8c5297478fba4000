(** C57: the linear state-space form (A, B, C, D, a, c) of an SLH model.
    [getABCD simp same m ext bname K sys amps doubled] is [getABCD(slh, a0, doubled_up)]
    with the simplifier [K]; [code] is the simplifier as it is, [checked] the same, undefined
    where the sorting of the factors of a product moves an operator past one that shares
    a local space with it. [comb cs xs] is the linear combination; [theta] (NoiseSpec) are
    the coefficients of the quantum Langevin equation; [displacement] (AbcdSpec) shifts
    the modes by their amplitudes. *)
From Coq Require Import Reals QArith Qcanon Ring.
From Verif Require Import Prelude ListFacts BinModel AlgSpec CAlg Cplx NcRing MatModel SlhModel MatProofs MatSpec MatProofs2 SlhProofs1 OpModel OpSpec OpForms OpProofs1 OpProofs2 OpProofs3 OpFuel OpSites OpFock OpSx OpRun DiffModel NoiseSpec NoiseProofs Properties_Op1 AbcdModel AbcdSpec AbcdProofs AbcdProofs2 AbcdProofs3.
Local Open Scope nat_scope.

Lemma ok_inj {X} (x y : X) : Ok x = Ok y -> x = y.
Proof. intros H. now injection H. Qed.

Section Abcd.
  Context {S : scalars} {dim : nat -> option nat} {I : interp S dim}.
  Context (olt : op S -> op S -> bool) (slt : list nat -> list nat -> bool).
  Local Notation code := (code dim olt slt).
  Local Notation checked := (checked dim olt slt).
  Context (simp : S -> S) (same : op S -> op S -> bool) (m : nat) (ext bname : nat -> nat).
  Context (Hsimp : forall c, ev (r:=I) (simp c) = ev c) (Hext : forall i j, ext i = ext j -> i = j).
  Local Notation getABCD := (getABCD simp same m ext bname).
  Local Notation value := (value I).
  Local Notation comb := (comb I).
  Local Notation "x + y" := (aadd x y). Local Notation "x * y" := (amul x y).
  Local Notation sm := (@bigsum I).
  Implicit Types (sys : osys S) (amps : list (nat * S)) (r : abcd S).

  (** the input fields; the vectors of the internal modes and of the inputs, with
      their adjoints *)
  Definition field (k : nat) : A I := isym (bname k) [ext k].
  Definition state_vector sys : list (A I) := map idestroy (modes sys) ++ map icreate (modes sys).
  Definition input_vector (n : nat) : list (A I) := map field (seq 0 n) ++ map (fun k => star (field k)) (seq 0 n).
  (** the operators whose coefficients are read off *)
  Definition linear_terms sys (n : nat) : list (op S) :=
    OOne :: map (fun l => OAtom (ADestroy l)) (modes sys) ++ map (fun l => OAtom (ACreate l)) (modes sys)
    ++ map (noise ext bname) (seq 0 n) ++ map (fun k => OAdj (noise ext bname k)) (seq 0 n).
  Definition mode_terms sys : list (op S) :=
    OOne :: map (fun l => OAtom (ADestroy l)) (modes sys) ++ map (fun l => OAtom (ACreate l)) (modes sys).
  (** the displaced model *)
  Definition displace (phi : A I -> A I) (a : slh I) : slh I := SLH (element_wise phi (sS a)) (element_wise phi (sL a)) (phi (sH a)).
  (** the equation of motion of X, without the gauge term *)
  Definition motion (n : nat) (a : slh I) (x : A I) : A I :=
    theta n a x Time Time + sm n (fun i => star (field i) * theta n a x (Chan i) Time) + sm n (fun j => theta n a x Time (Chan j) * field j).
  (** the output field of a port *)
  Definition output (n : nat) (a : slh I) (i : nat) : A I := sm n (fun k => ent (sS a) i k * field k) + ent (sL a) i 0.
  Definition at2 (M : list (list S)) (i j : nat) : S := nth j (nth i M []) s0.

  Lemma slh_displaced phi n sys sys' : sys_ok I n sys -> sys_ok I n sys' -> sys_rel phi sys sys' -> slh_of I sys' = displace phi (slh_of I sys).
  Proof.
    intros (A1 & A2 & A3 & _) (B1 & B2 & B3 & _) (R1 & R2 & R3). unfold slh_of, displace, element_wise. cbn [sS sL sH nrows ncols tab]. rewrite A1, B1, R3. f_equal.
    - unfold tab at 1 2. f_equal. apply map_ext_in. intros i Hi. apply in_seq in Hi. apply map_ext_in. intros j Hj. apply in_seq in Hj. rewrite ent_tab by lia.
      apply R1; [lia|]. pose proof (Forall_nth' _ _ [] i A2 ltac:(lia)) as G. cbn beta in G. lia.
    - unfold tab at 1 2. f_equal. apply map_ext_in. intros i Hi. apply in_seq in Hi. cbn [seq map]. rewrite ent_tab by lia. f_equal. apply R2. lia.
  Qed.
  Lemma keys_NoDup sys n : NoDup (linear_terms sys n).
  Proof.
    pose proof (modes_NoDup sys) as Hm. unfold linear_terms.
    assert (forall (X : Type) (f : X -> op S) l, (forall x y, f x = f y -> x = y) -> NoDup l -> NoDup (map f l)) as Hinj by (intros X f l Hf H; apply FinFun.Injective_map_NoDup; assumption).
    assert (forall i j, noise (S:=S) ext bname i = noise ext bname j -> i = j) as Hn by (intros i j E; injection E as _ E; now apply Hext).
    assert (forall (l l' : list (op S)), NoDup l -> NoDup l' -> (forall x, In x l -> In x l' -> False) -> NoDup (l ++ l')) as Happ.
    { intros l l' H1 H2 H3. induction H1 as [|x l Hx H1 IH]; [exact H2|]. cbn [app]. constructor; [|apply IH; intros y Hy; apply H3; now right].
      intros Hin. apply in_app_or in Hin. destruct Hin as [Hin|Hin]; [now apply Hx|]. apply (H3 x); [now left|exact Hin]. }
    constructor.
    - intros Hin. repeat (apply in_app_or in Hin; destruct Hin as [Hin|Hin]); apply in_map_iff in Hin; destruct Hin as (y & E & _); discriminate.
    - apply Happ; [apply Hinj; [intros x y E; now injection E|exact Hm]|apply Happ; [apply Hinj; [intros x y E; now injection E|exact Hm]|apply Happ; [apply Hinj; [exact Hn|apply seq_NoDup]|apply Hinj; [|apply seq_NoDup]|]|]|].
      + intros i j E. injection E as _ E. now apply Hext.
      + intros x H1 H2. apply in_map_iff in H1, H2. destruct H1 as (y & <- & _), H2 as (z & E & _). discriminate.
      + intros x H1 H2. apply in_map_iff in H1. destruct H1 as (y & <- & _). apply in_app_or in H2. destruct H2 as [H2|H2]; apply in_map_iff in H2; destruct H2 as (z & E & _); discriminate.
      + intros x H1 H2. apply in_map_iff in H1. destruct H1 as (y & <- & _). repeat (apply in_app_or in H2; destruct H2 as [H2|H2]); apply in_map_iff in H2; destruct H2 as (z & E & _); discriminate.
  Qed.
  Lemma keys_rigid sys n : Forall rigid (linear_terms sys n) /\ Forall unscaled (linear_terms sys n).
  Proof.
    split; (constructor; [first [apply rigid_one|exact Logic.I]|]); repeat (apply Forall_app; split); apply Forall_forall; intros x Hx; apply in_map_iff in Hx; destruct Hx as (y & <- & _);
      first [exact Logic.I|apply rigid_down|apply rigid_up|apply rigid_sym|apply rigid_adj, rigid_sym].
  Qed.
  (** an operator is the linear combination of the coefficients, and other terms *)
  Lemma linear_split sys n e : legal I e ->
    value e = smul (ev (get_coeff e OOne)) a1
      + comb (map (get_coeff e) (map (fun l => OAtom (ADestroy l)) (modes sys)) ++ map (get_coeff e) (map (fun l => OAtom (ACreate l)) (modes sys))) (state_vector sys)
      + comb (map (get_coeff e) (map (noise ext bname) (seq 0 n)) ++ map (get_coeff e) (map (fun b => OAdj b) (map (noise ext bname) (seq 0 n)))) (input_vector n)
      + msum I (map value (rest (linear_terms sys n) e)).
  Proof.
    intros L. rewrite (get_coeff_split I (linear_terms sys n) e L (keys_NoDup sys n) (proj1 (keys_rigid sys n))) at 1. f_equal. unfold linear_terms. cbn [map AbcdSpec.comb].
    rewrite <- aadd_assoc. f_equal. unfold state_vector, input_vector. rewrite !map_app, !map_map.
    rewrite !comb_app by (rewrite !map_length; reflexivity). cbn [OpSpec.value atom_val noise]. rewrite <- !aadd_assoc. reflexivity.
  Qed.
  Lemma rest_terms sys n e s : In s (rest (linear_terms sys n) e) -> In s (summands_of e) /\ forall t, In t (linear_terms sys n) -> ~ term_is t s.
  Proof. intros H. exact (rest_other _ _ _ H (proj1 (keys_rigid sys n)) (proj2 (keys_rigid sys n))). Qed.

  Lemma mode_NoDup sys : NoDup (mode_terms sys).
  Proof.
    pose proof (keys_NoDup sys 0) as H. unfold linear_terms in H. cbn [seq map] in H. now rewrite !app_nil_r in H.
  Qed.
  Lemma mode_rigid sys : Forall rigid (mode_terms sys) /\ Forall unscaled (mode_terms sys).
  Proof. pose proof (keys_rigid sys 0) as H. unfold linear_terms in H. cbn [seq map] in H. now rewrite !app_nil_r in H. Qed.
  Lemma mode_split sys e : legal I e ->
    value e = smul (ev (get_coeff e OOne)) a1
      + comb (map (get_coeff e) (map (fun l => OAtom (ADestroy l)) (modes sys)) ++ map (get_coeff e) (map (fun l => OAtom (ACreate l)) (modes sys))) (state_vector sys)
      + msum I (map value (rest (mode_terms sys) e)).
  Proof.
    intros L. rewrite (get_coeff_split I (mode_terms sys) e L (mode_NoDup sys) (proj1 (mode_rigid sys))) at 1. f_equal. unfold mode_terms. cbn [map AbcdSpec.comb].
    f_equal. unfold state_vector. rewrite !map_app, !map_map. reflexivity.
  Qed.

  Lemma state_star sys : (forall l, In l (modes sys) -> boson (i:=I) l) -> map star (state_vector sys) = map icreate (modes sys) ++ map idestroy (modes sys).
  Proof.
    intros Hb. unfold state_vector. rewrite map_app, !map_map. f_equal; apply map_ext_in; intros l Hl; [apply destroy_star; now apply Hb|apply create_star; now apply Hb].
  Qed.
  Lemma comb_swap u v p q : length u = length p -> length v = length q -> comb (v ++ u) (q ++ p) = comb (u ++ v) (p ++ q).
  Proof. intros H1 H2. rewrite !comb_app by assumption. apply aadd_comm. Qed.
  (** the conjugate row *)
  Lemma conj_state sys u v : (forall l, In l (modes sys) -> boson (i:=I) l) -> length u = length (modes sys) -> length v = length (modes sys) ->
    star (comb (u ++ v) (state_vector sys)) = comb (map sconj v ++ map sconj u) (state_vector sys).
  Proof.
    intros Hb Hu Hv. rewrite comb_star, (state_star sys Hb), map_app. unfold state_vector. apply comb_swap; rewrite !map_length; assumption.
  Qed.
  Lemma conj_input n u v : length u = n -> length v = n -> star (comb (u ++ v) (input_vector n)) = comb (map sconj v ++ map sconj u) (input_vector n).
  Proof.
    intros Hu Hv. rewrite comb_star, map_app. unfold input_vector. rewrite map_app, !map_map.
    rewrite (map_ext (fun k => star (star (field k))) field) by (intros; apply star_star). apply comb_swap; rewrite !map_length, ?seq_length; assumption.
  Qed.
  Lemma two_rows_low (l : list (list S * list S)) j : j < length l -> nth j (two_rows true l) [] = fst (nth j l ([], [])) ++ snd (nth j l ([], [])).
  Proof.
    intros H. cbn [two_rows]. rewrite app_nth1 by (now rewrite map_length). rewrite (nth_indep _ [] ((fun uv => fst uv ++ snd uv) ([], []))) by (now rewrite map_length).
    now rewrite (map_nth (fun uv => fst uv ++ snd uv)).
  Qed.
  Lemma two_rows_high (l : list (list S * list S)) j : j < length l -> nth (Nat.add j (length l)) (two_rows true l) [] = map sconj (snd (nth j l ([], []))) ++ map sconj (fst (nth j l ([], []))).
  Proof.
    intros H. cbn [two_rows]. rewrite app_nth2 by (rewrite map_length; lia). rewrite map_length. replace (Nat.add j (length l) - length l) with j by lia.
    rewrite (nth_indep _ [] ((fun uv => map sconj (snd uv) ++ map sconj (fst uv)) ([], []))) by (now rewrite map_length).
    now rewrite (map_nth (fun uv => map sconj (snd uv) ++ map sconj (fst uv))).
  Qed.
  Lemma coeff_row keys keys' es j : j < length es -> nth j (coeff_rows (S:=S) keys keys' es) ([], []) = (map (get_coeff (nth j es OZero)) keys, map (get_coeff (nth j es OZero)) keys').
  Proof.
    intros H. unfold coeff_rows. rewrite (nth_indep _ ([], []) ((fun e => (map (get_coeff e) keys, map (get_coeff e) keys')) OZero)) by (now rewrite map_length).
    now rewrite (map_nth (fun e => (map (get_coeff e) keys, map (get_coeff e) keys'))).
  Qed.
  Lemma two_vec_low (v : list S) j d : j < length v -> nth j (two_vec true v) d = nth j v d.
  Proof. intros H. cbn [two_vec]. now rewrite app_nth1. Qed.
  Lemma two_vec_high (v : list S) j d : j < length v -> nth (Nat.add j (length v)) (two_vec true v) d = sconj (nth j v d).
  Proof.
    intros H. cbn [two_vec]. rewrite app_nth2 by lia. replace (Nat.add j (length v) - length v) with j by lia. rewrite (nth_indep _ d (sconj d)) by (now rewrite map_length). apply map_nth.
  Qed.

  (** a physical, displaced model in the form of a linear system: [getABCD] with [doubled_up],
      [N] modes, [n] channels *)
  Section Run.
  Context (n k : nat) (sys : osys S) (amps : list (nat * S)) (phi : A I -> A I) (r : abcd S).
  Context (Hok : sys_ok I n sys) (Hmodes : forall l, In l (modes sys) -> boson (i:=I) l).
  Context (Hphi : displacement I amps phi) (Hlad : sys_all (ladder_only (map fst amps)) sys).
  Context (Hrun : getABCD (checked k) sys amps true = Ok r).
  Let N := length (modes sys).
  Let a := displace (match amps with [] => fun x => x | _ => phi end) (slh_of I sys).

  (** the code without the checks gives the same result *)
  Theorem C57_code : getABCD (code k) sys amps true = Ok r.
  Proof. exact (le_ok _ _ _ (getABCD_mono simp same m ext bname _ _ (checked_le olt slt k) sys amps true) Hrun). Qed.

  (** the equation of motion of each mode and, row j + N, its adjoint *)
  Theorem C57_equations j : j < N -> exists others : list (op S),
    (forall s, In s others -> forall t, In t (linear_terms sys n) -> ~ term_is t s) /\
    motion n a (idestroy (nth j (modes sys) 0))
    = smul (ev (nth j (va r) s0)) a1 + comb (nth j (mA r) []) (state_vector sys) + comb (nth j (mB r) []) (input_vector n) + msum I (map value others) /\
    star (motion n a (idestroy (nth j (modes sys) 0)))
    = smul (ev (nth (Nat.add j N) (va r) s0)) a1 + comb (nth (Nat.add j N) (mA r) []) (state_vector sys) + comb (nth (Nat.add j N) (mB r) []) (input_vector n)
      + star (msum I (map value others)).
  Proof.
    intros Hj. pose proof Hrun as H. unfold AbcdModel.getABCD in H. cbn zeta in H. step H D ED. step H sys' Es. step H eoms Ee. apply ok_inj in H. subst r. cbn [va mA mB].
    destruct (displaced_sound simp same m Hsimp _ (checked_sound I olt slt k) amps phi n sys sys' Hphi Hlad Hok Es) as [Hok' Hrel].
    destruct (mapM_nth _ (modes sys) eoms 0 OZero Ee) as [Ne Ve]. fold N in Ne, Ve. specialize (Ve j Hj). pose proof Hok as (A1 & _). rewrite A1 in *.
    destruct (eom_sound simp same m Hsimp _ (checked_sound I olt slt k) n sys' (OAtom (ADestroy (nth j (modes sys) 0))) (map (noise ext bname) (seq 0 n)) (nth j eoms OZero) Hok') as [_ [Le V]] ; [| |exact Ve|].
    { apply Hmodes. apply nth_In. exact Hj. }
    { apply Forall_forall. intros x Hx. apply in_map_iff in Hx. destruct Hx as (i & <- & _). exact Logic.I. }
    rewrite (slh_displaced _ n sys sys' Hok Hok' Hrel) in V. set (e := nth j eoms OZero) in *.
    assert (motion n a (idestroy (nth j (modes sys) 0)) = value e) as E.
    { rewrite V. unfold motion. fold a. change (value (OAtom (ADestroy (nth j (modes sys) 0)))) with (idestroy (i:=I) (nth j (modes sys) 0)).
      f_equal; [f_equal|]; apply sm_ext; intros i Hi; (rewrite (nth_indep _ OZero (noise ext bname 0)) by (now rewrite map_length, seq_length)); rewrite (map_nth (noise ext bname)), seq_nth by exact Hi; reflexivity. }
    exists (rest (linear_terms sys n) e). split; [intros s Hs; exact (proj2 (rest_terms sys n e s Hs))|].
    assert (length eoms = N) as Ne' by exact Ne.
    assert (forall keys keys', length (coeff_rows (S:=S) keys keys' eoms) = N) as Nc by (intros; unfold coeff_rows; now rewrite map_length).
    rewrite E. split.
    - rewrite two_vec_low by (now rewrite map_length, Ne'). rewrite !two_rows_low by (now rewrite Nc). rewrite !coeff_row by (now rewrite Ne'). cbn [fst snd]. fold e.
      rewrite (nth_indep _ s0 ((fun e => get_coeff e OOne) OZero)) by (now rewrite map_length, Ne'). rewrite (map_nth (fun e => get_coeff e OOne)). fold e. apply linear_split. exact Le.
    - replace (nth (Nat.add j N) (two_vec true (map (fun e => get_coeff e OOne) eoms)) s0) with (sconj (get_coeff e OOne)).
      2:{ replace N with (length (map (fun e : op S => get_coeff e OOne) eoms)) by (now rewrite map_length). rewrite two_vec_high by (now rewrite map_length, Ne').
          rewrite (nth_indep _ s0 ((fun e => get_coeff e OOne) OZero)) by (now rewrite map_length, Ne'). rewrite (map_nth (fun e => get_coeff e OOne)). reflexivity. }
      assert (forall keys keys', nth (Nat.add j N) (two_rows true (coeff_rows keys keys' eoms)) [] = map sconj (map (get_coeff e) keys') ++ map sconj (map (get_coeff e) keys)) as Hrow.
      { intros keys keys'. rewrite <- (Nc keys keys') at 1. rewrite two_rows_high by (now rewrite Nc). rewrite coeff_row by (now rewrite Ne'). reflexivity. }
      rewrite !Hrow, (ev_conj S I).
      rewrite <- (conj_state sys _ _ Hmodes) by (now rewrite !map_length). rewrite <- conj_input by (now rewrite !map_length, seq_length).
      rewrite (linear_split sys n e Le) at 1. rewrite !star_add, star_smul, star_1. reflexivity.
  Qed.
  (** the scattering matrix is a matrix of numbers, and D holds it and its conjugate *)
  Theorem C57_scattering i j : i < n -> j < n ->
    ent (sS (slh_of I sys)) i j = smul (ev (at2 (mD r) i j)) a1 /\ at2 (mD r) (Nat.add n i) (Nat.add n j) = sconj (at2 (mD r) i j) /\
    at2 (mD r) i (Nat.add n j) = s0 /\ at2 (mD r) (Nat.add n i) j = s0.
  Proof.
    intros Hi Hj. pose proof Hrun as H. unfold AbcdModel.getABCD in H. cbn zeta in H. step H D ED. step H sys' Es. step H eoms Ee. apply ok_inj in H. subst r. cbn [mD two_blocks].
    destruct Hok as (A1 & A2 & _ & A4 & _). destruct (mapM_nth _ (oS sys) D [] [] ED) as [ND VD]. rewrite A1 in ND, VD. specialize (VD i Hi).
    pose proof (Forall_nth' _ _ [] i A2 ltac:(lia)) as Hr. cbn beta in Hr. destruct (mapM_nth _ _ _ OZero s0 VD) as [NR VR]. rewrite Hr in NR, VR. specialize (VR j Hj).
    assert (nth i (map (fun q0 => q0 ++ map (fun _ => s0) q0) D ++ map (fun q0 => map (fun _ => s0) q0 ++ map sconj q0) D) [] = nth i D [] ++ map (fun _ => s0) (nth i D [])) as R1.
    { rewrite app_nth1 by (rewrite map_length; lia). rewrite (nth_indep _ [] ((fun q0 : list S => q0 ++ map (fun _ => s0) q0) [])) by (rewrite map_length; lia). apply (map_nth (fun q0 : list S => q0 ++ map (fun _ => s0) q0)). }
    assert (nth (Nat.add n i) (map (fun q0 => q0 ++ map (fun _ => s0) q0) D ++ map (fun q0 => map (fun _ => s0) q0 ++ map sconj q0) D) [] = map (fun _ => s0) (nth i D []) ++ map sconj (nth i D [])) as R2.
    { rewrite app_nth2 by (rewrite map_length; lia). rewrite map_length. replace (Nat.add n i - length D) with i by lia. rewrite (nth_indep _ [] ((fun q0 : list S => map (fun _ => s0) q0 ++ map sconj q0) [])) by (rewrite map_length; lia).
      apply (map_nth (fun q0 : list S => map (fun _ => s0) q0 ++ map sconj q0)). }
    assert (forall q, q < n -> nth q (map (fun _ : S => s0) (nth i D [])) s0 = (s0 : S)) as Z.
    { intros q Hq. exact (map_nth (fun _ : S => s0) (nth i D []) s0 q). }
    unfold at2. rewrite R1, R2. rewrite (app_nth1 (nth i D [])) by lia. rewrite (app_nth2 (map _ (nth i D []))), (app_nth2 (nth i D [])), (app_nth1 (map _ (nth i D []))) by (rewrite ?map_length; lia).
    rewrite !map_length, NR. replace (Nat.add n j - n) with j by lia. rewrite !Z by exact Hj.
    repeat split.
    - rewrite <- (as_complex_sound m _ (checked_sound I olt slt k) _ _ (Forall_nth' _ _ OZero j (Forall_nth' _ _ [] i A4 ltac:(lia)) ltac:(lia)) VR). unfold slh_of. cbn [sS]. rewrite A1. now rewrite ent_tab by lia.
    - rewrite (nth_indep _ s0 (sconj s0)) by (rewrite map_length; lia). apply map_nth.
  Qed.
  Lemma comb_zeros (l : list S) xs : Forall (fun c => ev (r:=I) c = k0) l -> comb l xs = a0.
  Proof. intros H. revert xs. induction H as [|c l Hc _ IH]; intros [|x xs]; try reflexivity. cbn [AbcdSpec.comb]. rewrite IH, Hc, smul_0. apply aadd_0. Qed.
  Lemma comb_bigsum (l : list S) (f : nat -> A I) q : length l = q -> comb l (map f (seq 0 q)) = sm q (fun i => smul (ev (nth i l s0)) (f i)).
  Proof.
    intros <-. unfold bigsum. revert f. induction l as [|c l IH]; intros f; [reflexivity|]. cbn [length seq map AbcdSpec.comb]. rewrite asum_cons. cbn [nth]. f_equal.
    rewrite <- seq_shift, map_map, (IH (fun i => f (Datatypes.S i))), asum_map. reflexivity.
  Qed.
  (** the input-output relation, and its adjoint *)
  Theorem C57_output i : i < n -> exists others : list (op S),
    (forall s, In s others -> forall t, In t (mode_terms sys) -> ~ term_is t s) /\
    output n a i
    = smul (ev (nth i (vc r) s0)) a1 + comb (nth i (mC r) []) (state_vector sys) + comb (nth i (mD r) []) (input_vector n) + msum I (map value others) /\
    star (output n a i)
    = smul (ev (nth (Nat.add i n) (vc r) s0)) a1 + comb (nth (Nat.add i n) (mC r) []) (state_vector sys) + comb (nth (Nat.add i n) (mD r) []) (input_vector n)
      + star (msum I (map value others)).
  Proof.
    intros Hi. pose proof (fun j => C57_scattering i j Hi) as HD. pose proof Hrun as H. unfold AbcdModel.getABCD in H. cbn zeta in H. step H D ED. step H sys' Es. step H eoms Ee. apply ok_inj in H. subst r. cbn [vc mC mD] in *.
    destruct (displaced_sound simp same m Hsimp _ (checked_sound I olt slt k) amps phi n sys sys' Hphi Hlad Hok Es) as [Hok' Hrel].
    pose proof Hok as (A1 & A2 & _ & A4 & _). pose proof Hok' as (B1 & B2 & B3 & _ & B5 & _).
    set (e := nth i (oL sys') OZero). assert (legal I e) as Le by (apply Forall_nth'; [exact B5|lia]).
    set (Drow := nth i D []).
    destruct (mapM_nth _ (oS sys) D [] [] ED) as [ND VD]. rewrite A1 in ND, VD.
    pose proof (Forall_nth' _ _ [] i A2 ltac:(lia)) as Hr. cbn beta in Hr. destruct (mapM_nth _ _ _ OZero s0 (VD i Hi)) as [NR _]. rewrite Hr in NR. fold Drow in NR.
    assert (nth i (two_blocks true D) [] = Drow ++ map (fun _ => s0) Drow) as R1.
    { cbn [two_blocks]. rewrite app_nth1 by (rewrite map_length; lia). rewrite (nth_indep _ [] ((fun q0 : list S => q0 ++ map (fun _ => s0) q0) [])) by (rewrite map_length; lia). apply (map_nth (fun q0 : list S => q0 ++ map (fun _ => s0) q0)). }
    assert (nth (Nat.add i n) (two_blocks true D) [] = map (fun _ => s0) Drow ++ map sconj Drow) as R2.
    { cbn [two_blocks]. rewrite app_nth2 by (rewrite map_length; lia). rewrite map_length. replace (Nat.add i n - length D) with i by lia. rewrite (nth_indep _ [] ((fun q0 : list S => map (fun _ => s0) q0 ++ map sconj q0) [])) by (rewrite map_length; lia).
      apply (map_nth (fun q0 : list S => map (fun _ => s0) q0 ++ map sconj q0)). }
    assert (comb (Drow ++ map (fun _ => s0) Drow) (input_vector n) = sm n (fun j => smul (ev (nth j Drow s0)) (field j))) as V1.
    { unfold input_vector. rewrite comb_app by (now rewrite map_length, seq_length). rewrite (comb_zeros (map (fun _ => s0) Drow)) by (apply Forall_forall; intros c Hc; apply in_map_iff in Hc; destruct Hc as (? & <- & _); apply ev_s0).
      rewrite aadd_0r. now apply comb_bigsum. }
    assert (output n a i = sm n (fun j => smul (ev (nth j Drow s0)) (field j)) + value e) as EO.
    { unfold output. f_equal.
      - apply sm_ext. intros j Hj. assert (ent (sS a) i j = smul (ev (nth j Drow s0)) a1) as ->; [|rewrite smul_amul_l, amul_1l; reflexivity].
        destruct (HD j Hj) as [HV _]. unfold at2 in HV. rewrite R1, app_nth1 in HV by lia. unfold a, displace. cbn [sS]. unfold element_wise. replace (nrows (sS (slh_of I sys))) with n by (unfold slh_of; cbn; now rewrite A1).
        replace (ncols (sS (slh_of I sys))) with n by (unfold slh_of; cbn; now rewrite A1). rewrite ent_tab by lia. rewrite HV. destruct amps; [reflexivity|]. now rewrite (d_smul I _ _ Hphi), (d_1 I _ _ Hphi).
      - pose proof (slh_displaced _ n sys sys' Hok Hok' Hrel) as E. fold a in E. rewrite <- E. unfold slh_of. cbn [sL]. rewrite B1. now rewrite ent_tab by lia. }
    exists (rest (mode_terms sys) e). split; [intros s Hs; exact (proj2 (rest_other _ _ _ Hs (proj1 (mode_rigid sys)) (proj2 (mode_rigid sys))))|].
    assert (forall keys keys', length (coeff_rows (S:=S) keys keys' (oL sys')) = n) as Nc by (intros; unfold coeff_rows; now rewrite map_length).
    assert (nth i (map (fun e0 => get_coeff e0 OOne) (oL sys')) s0 = get_coeff e OOne) as Ec.
    { rewrite (nth_indep _ s0 ((fun e0 => get_coeff e0 OOne) OZero)) by (rewrite map_length; lia). now rewrite (map_nth (fun e0 => get_coeff e0 OOne)). }
    assert (output n a i = smul (ev (get_coeff e OOne)) a1 + comb (map (get_coeff e) (map (fun l => OAtom (ADestroy l)) (modes sys)) ++ map (get_coeff e) (map (fun l => OAtom (ACreate l)) (modes sys))) (state_vector sys) + comb (Drow ++ map (fun _ => s0) Drow) (input_vector n) + msum I (map value (rest (mode_terms sys) e))) as E1.
    { rewrite EO, V1, (mode_split sys e Le) at 1. ncr. }
    split.
    - rewrite two_vec_low by (rewrite map_length; lia). rewrite Ec, R1. rewrite two_rows_low by (rewrite Nc; lia). rewrite coeff_row by lia. cbn [fst snd]. fold e. exact E1.
    - replace (nth (Nat.add i n) (two_vec true (map (fun e0 => get_coeff e0 OOne) (oL sys'))) s0) with (sconj (get_coeff e OOne)).
      2:{ replace n with (length (map (fun e0 : op S => get_coeff e0 OOne) (oL sys'))) by (now rewrite map_length). rewrite two_vec_high by (rewrite map_length; lia). now rewrite Ec. }
      rewrite <- (Nc (map (fun l => OAtom (ADestroy l)) (modes sys)) (map (fun l => OAtom (ACreate l)) (modes sys))) at 2.
      rewrite two_rows_high by (rewrite Nc; lia). rewrite coeff_row by lia. cbn [fst snd]. fold e. rewrite R2, (ev_conj S I).
      rewrite <- (conj_state sys _ _ Hmodes) by (now rewrite !map_length). rewrite E1, !star_add, star_smul, star_1. f_equal. f_equal.
      rewrite conj_input by (rewrite ?map_length; exact NR). rewrite map_map. unfold input_vector. rewrite !comb_app by (rewrite !map_length, seq_length; exact NR). f_equal.
      rewrite !comb_zeros; [reflexivity| |]; apply Forall_forall; intros c Hc; apply in_map_iff in Hc; destruct Hc as (? & <- & _); [apply ev_s0|]. rewrite (ev_conj S I), ev_s0. apply kconj_0.
  Qed.
  (** with unitary S and self-adjoint H these are the quantum Langevin equations of the
      modes, and row j + N is the one of the adjoint of mode j *)
  Lemma phi_physical p : (p = phi \/ p = (fun x => x)) -> physical (slh_of I sys) n -> physical (displace p (slh_of I sys)) n.
  Proof.
    intros Hp Hph. assert (p a1 = a1 /\ (forall x y, p (x + y) = p x + p y) /\ (forall x y, p (x * y) = p x * p y) /\ (forall x, p (star x) = star (p x)) /\ p a0 = a0) as (P1 & Pa & Pm & Ps & P0).
    { destruct Hp as [-> | ->]; [|repeat split]. repeat split; try apply Hphi. exact (phi_0 amps phi Hphi). }
    destruct Hok as (A1 & _). destruct Hph as (_ & Hi & Hc & Hs).
    assert (forall i j, i < n -> j < n -> ent (sS (displace p (slh_of I sys))) i j = p (ent (sS (slh_of I sys)) i j)) as ES.
    { intros i j Hi' Hj'. unfold displace, slh_of, element_wise. cbn [sS nrows ncols tab]. rewrite A1. now rewrite ent_tab by lia. }
    assert (forall f, p (sm n f) = sm n (fun k => p (f k))) as Psum.
    { intros f. unfold bigsum. generalize (seq 0 n). intros l. induction l as [|x l IH]; [exact P0|]. now rewrite !asum_cons, Pa, IH. }
    assert (forall i j, p (delta i j) = delta (M:=I) i j) as Pd by (intros i j; unfold delta; destruct (i =? j); assumption).
    split; [|split; [|split]].
    - unfold system, displace, slh_of, element_wise. cbn [sS sL nrows ncols tab]. rewrite A1. split; apply has_shape_tab.
    - intros i j Hi' Hj'. rewrite <- (Pd i j), <- (Hi i j Hi' Hj'), Psum. apply sm_ext. intros q Hq. rewrite !ES by lia. now rewrite Pm, Ps.
    - intros i j Hi' Hj'. rewrite <- (Pd i j), <- (Hc i j Hi' Hj'), Psum. apply sm_ext. intros q Hq. rewrite !ES by lia. now rewrite Pm, Ps.
    - cbn [displace sH]. now rewrite <- Ps, Hs.
  Qed.
  Lemma a_physical : physical (slh_of I sys) n -> physical a n.
  Proof. intros H. apply phi_physical; [|exact H]. destruct amps; [now right|now left]. Qed.
  Lemma a_scalar i j : i < n -> j < n -> ent (sS a) i j = smul (ev (at2 (mD r) i j)) a1.
  Proof.
    intros Hi Hj. destruct (C57_scattering i j Hi Hj) as [E _]. destruct Hok as (A1 & _). unfold a, displace, element_wise. cbn [sS].
    replace (nrows (sS (slh_of I sys))) with n by (unfold slh_of; cbn; now rewrite A1). replace (ncols (sS (slh_of I sys))) with n by (unfold slh_of; cbn; now rewrite A1).
    rewrite ent_tab by lia. rewrite E. destruct amps; [reflexivity|]. now rewrite (d_smul I _ _ Hphi), (d_1 I _ _ Hphi).
  Qed.
  Theorem C57_langevin x : physical (slh_of I sys) n -> motion n a x = langevin n (theta n a x) field /\ star (motion n a x) = motion n a (star x).
  Proof.
    intros Hp. pose proof (a_physical Hp) as Ha. split.
    - unfold langevin, motion. symmetry.
      assert (sm n (fun i => sm n (fun j => theta n a x (Chan i) (Chan j) * (star (field i) * field j))) = a0) as Z; [|rewrite Z; apply aadd_0r].
      apply sm_zero. intros i Hi. apply sm_zero. intros j Hj.
      replace (theta n a x (Chan i) (Chan j)) with (@a0 I); [apply amul_0l|]. cbn [theta].
      transitivity (sm n (fun k => star (ent (sS a) k i) * ent (sS a) k j) * x + aopp (delta i j * x)).
      + destruct Ha as (_ & Hi' & _). rewrite (Hi' i j Hi Hj). ncr.
      + f_equal. rewrite <- sm_mul_r. apply sm_ext. intros q Hq. rewrite (a_scalar q j Hq Hj), !smul_amul_r, amul_1r, smul_amul_l, amul_1r. reflexivity.
    - destruct (theta_flow n a Ha) as (_ & Hs & _). unfold motion. rewrite !star_add. rewrite (Hs x Time Time) by exact Logic.I.
      unfold bigsum. rewrite !star_asum. fold (bigsum (M:=I) n). rewrite <- !aadd_assoc. f_equal. rewrite aadd_comm.
      f_equal; apply asum_ext; intros i Hi; apply in_seq in Hi; rewrite star_mul, ?star_star; f_equal; rewrite Hs; try reflexivity; first [exact Logic.I|cbn; lia].
  Qed.
  (** without [doubled_up]: the upper left blocks *)
  Theorem C57_single r' : getABCD (checked k) sys amps false = Ok r' ->
    (forall j, j < N -> nth j (mA r') [] = firstn N (nth j (mA r) []) /\ nth j (mB r') [] = firstn n (nth j (mB r) []) /\ nth j (va r') s0 = nth j (va r) s0) /\
    (forall i, i < n -> nth i (mC r') [] = firstn N (nth i (mC r) []) /\ nth i (mD r') [] = firstn n (nth i (mD r) []) /\ nth i (vc r') s0 = nth i (vc r) s0).
  Proof.
    intros H'. pose proof Hrun as H. unfold AbcdModel.getABCD in H, H'. cbn zeta in H, H'. step H D ED. step H sys' Es. step H eoms Ee. apply ok_inj in H.
    cbn [bind] in H'. rewrite Ee in H'. cbn [bind] in H'. apply ok_inj in H'. subst r r'. cbn [mA mB mC mD va vc].
    destruct (displaced_sound simp same m Hsimp _ (checked_sound I olt slt k) amps phi n sys sys' Hphi Hlad Hok Es) as [(B1 & B2 & B3 & _) _].
    pose proof Hok as (A1 & A2 & _).
    destruct (mapM_nth _ (modes sys) eoms 0 OZero Ee) as [Ne _]. destruct (mapM_nth _ (oS sys) D [] [] ED) as [ND VD]. rewrite A1 in *.
    assert (forall (X : Type) (u v : list X) q, length u = q -> firstn q (u ++ v) = u) as Fst by (intros X u v q <-; rewrite firstn_app, Nat.sub_diag, firstn_O, app_nil_r; apply firstn_all).
    assert (forall keys keys' es j q, length keys = q -> j < length es -> nth j (two_rows false (coeff_rows (S:=S) keys keys' es)) [] = firstn q (nth j (two_rows true (coeff_rows keys keys' es)) [])) as G.
    { intros keys keys' es j q Hq Hj. rewrite two_rows_low by (unfold coeff_rows; now rewrite map_length). rewrite (Fst _ _ _ q) by (rewrite coeff_row by exact Hj; cbn [fst]; now rewrite map_length).
      cbn [two_rows]. exact (map_nth fst _ ([], []) j). }
    split.
    - intros j Hj. fold N in Ne. split; [|split].
      + apply G; [now rewrite map_length|lia].
      + apply G; [now rewrite map_length, seq_length|lia].
      + rewrite two_vec_low by (rewrite map_length; lia). reflexivity.
    - intros i Hi. split; [|split].
      + apply G; [now rewrite map_length|lia].
      + cbn [two_blocks]. rewrite app_nth1 by (rewrite map_length; lia). rewrite (nth_indep (map _ D) [] ((fun q0 : list S => q0 ++ map (fun _ => s0) q0) [])) by (rewrite map_length; lia).
        rewrite (map_nth (fun q0 : list S => q0 ++ map (fun _ => s0) q0)). symmetry. apply Fst. destruct (mapM_nth _ _ _ OZero s0 (VD i Hi)) as [NR _]. rewrite NR.
        exact (Forall_nth' _ _ [] i A2 ltac:(lia)).
      + rewrite two_vec_low by (rewrite map_length; lia). reflexivity.
  Qed.
  End Run.

  (** nothing to displace *)
  Theorem C57_not_displaced : displacement I [] (fun x => x).
  Proof. constructor; try reflexivity. intros l c []. Qed.
  (** displacement operators displace *)
  Theorem C57_displacement amps : NoDup (map fst amps) -> Forall (fun lc => displ (i:=I) (fst lc)) amps -> exists phi, displacement I amps phi.
  Proof. apply displacement_exists. Qed.
End Abcd.

(** ** Examples *)
(** a number without symbols as real and imaginary part *)
Fixpoint gauss (a : sx) : option (Qc * Qc) :=
  match a with
  | XQ q => Some (q, qz 0)
  | XI => Some (qz 0, qz 1)
  | XAdd a b => match gauss a, gauss b with Some (p, q), Some (u, v) => Some (p + u, q + v)%Qc | _, _ => None end
  | XMul a b => match gauss a, gauss b with Some (p, q), Some (u, v) => Some (p * u - q * v, p * v + q * u)%Qc | _, _ => None end
  | _ => None
  end.
Definition g_is (a : sx) (z : Z * Z) : bool := match gauss a with Some (p, q) => qeqb p (qz (fst z)) && qeqb q (qz (snd z)) | None => false end.
Fixpoint v_is (v : list sx) (z : list (Z * Z)) : bool :=
  match v, z with [], [] => true | a :: v', w :: z' => g_is a w && v_is v' z' | _, _ => false end.
Fixpoint m_is (M : list (list sx)) (Z : list (list (Z * Z))) : bool :=
  match M, Z with [], [] => true | r :: M', z :: Z' => v_is r z && m_is M' Z' | _, _ => false end.
Record table := Table { tA : list (list (Z * Z)); tB : list (list (Z * Z)); tC : list (list (Z * Z)); tD : list (list (Z * Z)); ta : list (Z * Z); tc : list (Z * Z) }.
Definition abcd_is (r : res (abcd Sx)) (t : table) : bool :=
  match r with
  | Ok r => m_is (mA r) (tA t) && m_is (mB r) (tB t) && m_is (mC r) (tC t) && m_is (mD r) (tD t) && v_is (va r) (ta t) && v_is (vc r) (tc t)
  | Err _ => false
  end.
Definition xabcd (K : ocreators Sx) := getABCD (S:=Sx) (fun c => c) oeqb 20 (fun k => 100 + k) (fun k => k) K.
Local Open Scope Z_scope.
(** a cavity: S = 1, L = 2 a, H = 3 a^+ a. Then da = (-2 - 3 i) a dt - 2 dA *)
Definition cavity : osys Sx := OSys [[OOne]] [OScal (num 2) (x_a 0)] (OScal (num 3) (OTimes [x_ad 0; x_a 0])).
Definition r0 : Z * Z := (0, 0).
Definition cavity_table : table := {|
  tA := [[(-2, -3); r0]; [r0; (-2, 3)]]; tB := [[(-2, 0); r0]; [r0; (-2, 0)]];
  tC := [[(2, 0); r0]; [r0; (2, 0)]]; tD := [[(1, 0); r0]; [r0; (1, 0)]]; ta := [r0; r0]; tc := [r0; r0] |}.
Example C57_cavity : abcd_is (xabcd (xchecked 40) cavity [] true) cavity_table = true /\ modes cavity = [0%nat] /\ sys_ok xjet 1 cavity /\
  (forall l, In l (modes cavity) -> boson (i:=xjet) l) /\ sys_all (ladder_only []) cavity.
Proof. split; [vm_compute; reflexivity|]. split; [vm_compute; reflexivity|]. split; [repeat constructor|]. split; [intros l [<- |[]]; vm_compute; reflexivity|]. repeat constructor. Qed.
(** a parametric oscillator, S = -1, L = 2 a, H = i (a a - a^+ a^+): the equation of motion
    of a contains -2 a^+ ... *)
Definition opo : osys Sx := OSys [[OScal (num (-1)) OOne]] [OScal (num 2) (x_a 0)] (OPlus [OScal XI (OTimes [x_a 0; x_a 0]); OScal (x_neg XI) (OTimes [x_ad 0; x_ad 0])]).
Definition opo_table : table := {|
  tA := [[(-2, 0); (-2, 0)]; [(-2, 0); (-2, 0)]]; tB := [[(2, 0); r0]; [r0; (2, 0)]];
  tC := [[(2, 0); r0]; [r0; (2, 0)]]; tD := [[(-1, 0); r0]; [r0; (-1, 0)]]; ta := [r0; r0]; tc := [r0; r0] |}.
Example C57_opo : abcd_is (xabcd (xchecked 40) opo [] true) opo_table = true.
Proof. vm_compute. reflexivity. Qed.
(** ... which is missing without [doubled_up]: A = (-2), although da = (-2 a - 2 a^+) dt + ... *)
Example C57_single_active :
  abcd_is (xabcd (xcode 40) opo [] false) {| tA := [[(-2, 0)]]; tB := [[(2, 0)]]; tC := [[(2, 0)]]; tD := [[(-1, 0)]]; ta := [r0]; tc := [r0] |} = true /\
  abcd_is (xabcd (xcode 40) opo [] true) opo_table = true.
Proof. split; vm_compute; reflexivity. Qed.
(** a Kerr oscillator H = a^+ a^+ a a displaced by 3: the quadratic and cubic terms are left out *)
Definition kerr : osys Sx := OSys [[OOne]] [OScal (num 2) (x_a 0)] (OTimes [x_ad 0; x_ad 0; x_a 0; x_a 0]).
Example C57_kerr : abcd_is (xabcd (xchecked 40) kerr [(0%nat, num 3)] true) {|
    tA := [[(-2, -36); (0, -18)]; [(0, 18); (-2, 36)]]; tB := [[(-2, 0); r0]; [r0; (-2, 0)]];
    tC := [[(2, 0); r0]; [r0; (2, 0)]]; tD := [[(1, 0); r0]; [r0; (1, 0)]]; ta := [(-6, -54); (-6, 54)]; tc := [(6, 0); (6, 0)] |} = true /\
  (exists phi, displacement xjet [(0%nat, num 3)] phi) /\ sys_all (ladder_only [0%nat]) kerr.
Proof.
  split; [vm_compute; reflexivity|]. split; [|repeat constructor]. apply C57_displacement; [repeat constructor; easy|]. constructor; [|constructor]. vm_compute. reflexivity.
Qed.
(** two modes and two channels: a beamsplitter-like coupling, different dampings *)
Definition pair : osys Sx := OSys [[OZero; OOne]; [OScal (num (-1)) OOne; OZero]] [OScal (num 2) (x_a 0); OScal (num 4) (x_a 1)]
  (OPlus [OScal XI (OTimes [x_a 1; x_ad 0]); OScal (x_neg XI) (OTimes [x_ad 1; x_a 0])]).
Example C57_pair : match xabcd (xchecked 60) pair [] false with
  | Ok r => m_is (mA r) [[(-2, 0); (1, 0)]; [(-1, 0); (-8, 0)]] && m_is (mB r) [[r0; (-2, 0)]; [(4, 0); r0]] && m_is (mC r) [[(2, 0); r0]; [r0; (4, 0)]]
            && m_is (mD r) [[r0; (1, 0)]; [(-1, 0); r0]]
  | Err _ => false end = true.
Proof. vm_compute. reflexivity. Qed.
(** an entry of the scattering matrix that is not a number is refused *)
Example C57_operator_valued : xabcd (xcode 40) (OSys [[x_a 0]] [OZero] OZero) [] true = Err ValueError.
Proof. vm_compute. reflexivity. Qed.

(** ** What the specification says and the code does not do *)
(** L = 2 (1 + a): without amplitudes the coupling operators are not expanded, and C and c are
    zero; with the amplitude 0 for the mode C = 2 and c = 2. *)
Definition unexpanded (L : op Sx) : osys Sx := OSys [[OOne]] [L] (OTimes [x_ad 0; x_a 0]).
Theorem C57_unexpanded_coupling_refuted : exists L,
  (do s <- k_plus (xcode 40) [OOne; x_a 0]; k_scal (xcode 40) (num 2) s) = Ok L /\
  (exists r, xabcd (xcode 40) (unexpanded L) [] true = Ok r /\ m_is (mC r) [[r0; r0]; [r0; r0]] && v_is (vc r) [r0; r0] = true) /\
  (exists r, xabcd (xcode 40) (unexpanded L) [(0%nat, num 0)] true = Ok r /\ m_is (mC r) [[(2, 0); r0]; [r0; (2, 0)]] && v_is (vc r) [(2, 0); (2, 0)] = true).
Proof.
  exists (OScal (num 2) (OPlus [OOne; x_a 0])). split; [vm_compute; reflexivity|]. split; eexists; (split; [vm_compute; reflexivity|vm_compute; reflexivity]).
Qed.

Print Assumptions C57_code.
Print Assumptions C57_equations.
Print Assumptions C57_scattering.
Print Assumptions C57_output.
Print Assumptions C57_langevin.
Print Assumptions C57_single.
Print Assumptions C57_not_displaced.
Print Assumptions C57_displacement.
Print Assumptions C57_cavity.
Print Assumptions C57_opo.
Print Assumptions C57_single_active.
Print Assumptions C57_kerr.
Print Assumptions C57_pair.
Print Assumptions C57_operator_valued.
Print Assumptions C57_unexpanded_coupling_refuted.
