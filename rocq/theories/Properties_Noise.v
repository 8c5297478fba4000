(** C56 Heisenberg equations of motion with noises. *)
From Coq Require Import QArith Qcanon.
From Verif Require Import Prelude ListFacts AlgSpec CAlg CInst NcRing MatModel SlhModel MatProofs MatSpec MatProofs2 SlhProofs1 AdModel AdProofs2 NoiseModel NoiseSpec NoiseProofs.
Local Open Scope nat_scope.

Section Props.
  Context {M : calgebra}.
  Notation A := (A M).
  Notation "x + y" := (aadd x y). Notation "x * y" := (amul x y). Notation "- x" := (aopp x).
  Notation sm := (@bigsum M).
  Add Ring Kr : (kring M).
  Implicit Types a : slh M.

  (** the coefficients of the quantum Langevin equation of a physical model generate a
      flow of *-homomorphisms *)
  Theorem C56_flow n a : physical a n -> flow n (theta n a).
  Proof. apply theta_flow. Qed.

  Lemma shape_madj' (x : matrix A) n m : has_shape x n m -> has_shape (madj x) m n /\ forall i j, i < m -> j < n -> ent (madj x) i j = star (ent x j i).
  Proof.
    intros (H1 & H2 & _). unfold madj, element_wise, mtranspose. cbn [nrows ncols tab]. rewrite H1, H2. split; [apply has_shape_tab|].
    intros i j Hi Hj. rewrite ent_tab by lia. now rewrite ent_tab by lia.
  Qed.
  Lemma shape_tr (x : matrix A) n m : has_shape x n m -> has_shape (mtranspose x) m n /\ forall i j, i < m -> j < n -> ent (mtranspose x) i j = ent x j i.
  Proof. intros (H1 & H2 & _). unfold mtranspose. rewrite H1, H2. split; [apply has_shape_tab|]. intros i j Hi Hj. now rewrite ent_tab by lia. Qed.
  Lemma shape_opl (x : matrix A) n m z : has_shape x n m -> has_shape (mul_op_l z x) n m /\ forall i j, i < n -> j < m -> ent (mul_op_l z x) i j = z * ent x i j.
  Proof. intros (H1 & H2 & _). unfold mul_op_l. rewrite H1, H2. split; [apply has_shape_tab|]. intros i j Hi Hj. now rewrite ent_tab by lia. Qed.
  Lemma shape_opr (x : matrix A) n m z : has_shape x n m -> has_shape (mul_op_r x z) n m /\ forall i j, i < n -> j < m -> ent (mul_op_r x z) i j = ent x i j * z.
  Proof. intros (H1 & H2 & _). unfold mul_op_r. rewrite H1, H2. split; [apply has_shape_tab|]. intros i j Hi Hj. now rewrite ent_tab by lia. Qed.
  Lemma shape_sub (x z : matrix A) n m : has_shape x n m -> has_shape z n m -> exists y, msub x z = Ok y /\ has_shape y n m /\ forall i j, i < n -> j < m -> ent y i j = ent x i j + - ent z i j.
  Proof.
    intros (H1 & H2 & _) (H3 & H4 & _). unfold msub, madd, mscale. cbn [nrows ncols tab]. rewrite H1, H2, H3, H4, !Nat.eqb_refl. cbn [andb].
    eexists. split; [reflexivity|]. split; [apply has_shape_tab|]. intros i j Hi Hj. rewrite ent_tab by lia. rewrite ent_tab by lia. reflexivity.
  Qed.
  Lemma shape_mul (x z : matrix A) n m k : has_shape x n m -> has_shape z m k -> exists y, mmul x z = Ok y /\ has_shape y n k /\ forall i j, i < n -> j < k -> ent y i j = sm m (fun l => ent x i l * ent z l j).
  Proof.
    intros H1 H2. rewrite (mmul_shape x z n m k H1 H2). eexists. split; [reflexivity|]. split; [apply has_shape_tab|]. intros i j Hi Hj. now rewrite ent_tab by lia.
  Qed.
  Lemma mtrace_sum (x : matrix A) n : has_shape x n n -> mtrace x = Ok (sm n (fun i => ent x i i)).
  Proof.
    intros (H1 & H2 & _). unfold mtrace. rewrite H1, H2, Nat.eqb_refl. f_equal.
    assert (forall ls z, fold_left (fun s k => s + ent x k k) ls z = z + asum (fun k => ent x k k) ls) as G.
    { induction ls as [|k ls IH]; intros z; cbn [fold_left]; [symmetry; apply aadd_0r|]. rewrite IH, asum_cons. apply eq_sym, aadd_assoc. }
    rewrite G. apply aadd_0.
  Qed.
  Lemma heisenberg_theta n a x : system a n -> heisenberg_eom a x = theta n a x Time Time.
  Proof.
    intros (_ & H1 & _). unfold heisenberg_eom, theta, comm. f_equal. unfold Ls. rewrite H1, asum_map. apply asum_ext. intros k _. f_equal.
    unfold aneg, aopp. rewrite <- !smul_mul. f_equal. ring.
  Qed.
  (** the sum over the pairs of different channels *)
  Definition off_diagonal n (x : A) (b : nat -> A) : A := sm n (fun i => sm n (fun j => if i =? j then a0 else x * (star (b i) * b j))).

  (** exactly what the code computes *)
  Theorem C56_value (overlap : bool) a n x noises : system a n -> has_shape noises n 1 ->
    let b i := ent noises i 0 in
    noise_eom overlap a x noises = Ok
      (theta n a x Time Time + sm n (fun i => star (b i) * theta n a x (Chan i) Time) + sm n (fun j => theta n a x Time (Chan j) * b j)
       + (if overlap then sm n (fun i => sm n (fun j => theta n a x (Chan i) (Chan j) * (star (b i) * b j))) + - off_diagonal n x b else a0)).
  Proof.
    intros Hsys Hb b. pose proof (heisenberg_theta n a x Hsys) as Hh. destruct Hsys as [HS HL]. unfold noise_eom.
    destruct (shape_madj' noises n 1 Hb) as [Sbd Ebd]. destruct (shape_tr _ 1 n Sbd) as [Sbdt Ebdt]. destruct (shape_tr _ n 1 Hb) as [Sbt Ebt].
    destruct (shape_mul _ _ n 1 n Sbdt Sbt) as (lam & Elam & Slam & Vlam). rewrite Elam. cbn [bind].
    destruct (shape_tr _ n n Slam) as [SlamT VlamT].
    assert (nrows noises = n /\ ncols noises = 1 /\ nrows (sL a) = n /\ ncols (sL a) = 1) as (-> & -> & -> & ->) by (destruct Hb as (? & ? & _), HL as (? & ? & _); auto).
    rewrite !Nat.eqb_refl. cbn [andb negb].
    destruct (shape_madj' (sS a) n n HS) as [SSd ESd]. destruct (shape_mul _ _ 1 n n Sbd SSd) as (bS & E1 & S1 & V1). rewrite E1. cbn [bind].
    destruct (shape_opl _ n 1 x HL) as [S2 V2]. destruct (shape_opr _ n 1 x HL) as [S3 V3]. destruct (shape_sub _ _ n 1 S2 S3) as (c1 & E4 & S4 & V4). rewrite E4. cbn [bind].
    destruct (shape_mul _ _ 1 n 1 S1 S4) as (cr & E5 & S5 & V5). rewrite E5. cbn [bind].
    destruct (shape_madj' (sL a) n 1 HL) as [SLd ELd].
    destruct (shape_opl _ 1 n x SLd) as [S6 V6]. destruct (shape_opr _ 1 n x SLd) as [S7 V7]. destruct (shape_sub _ _ 1 n S7 S6) as (c2 & E8 & S8 & V8). rewrite E8. cbn [bind].
    destruct (shape_mul _ _ 1 n n S8 HS) as (cS & E9 & S9 & V9). rewrite E9. cbn [bind].
    destruct (shape_mul _ _ 1 n 1 S9 Hb) as (an & E10 & S10 & V10). rewrite E10. cbn [bind].
    assert (ent cr 0 0 = sm n (fun i => star (b i) * theta n a x (Chan i) Time)) as Hcr.
    { rewrite V5 by lia. transitivity (sm n (fun k => sm n (fun i => star (b i) * star (ent (sS a) k i)) * comm x (ent (sL a) k 0))).
      - apply sm_ext. intros k Hk. rewrite V1, V4, V2, V3 by lia. f_equal. apply sm_ext. intros i Hi. now rewrite Ebd, ESd by lia.
      - transitivity (sm n (fun k => sm n (fun i => star (b i) * (star (ent (sS a) k i) * comm x (ent (sL a) k 0))))); [apply sm_ext; intros k _; rewrite <- sm_mul_r; apply sm_ext; intros; ncr|].
        rewrite sm_swap. apply sm_ext. intros i _. cbn [theta]. now rewrite <- sm_mul_l. }
    assert (ent an 0 0 = sm n (fun j => theta n a x Time (Chan j) * b j)) as Han.
    { rewrite V10 by lia. apply sm_ext. intros j Hj. f_equal. rewrite V9 by lia. cbn [theta]. apply sm_ext. intros k Hk. f_equal. rewrite V8, V6, V7, ELd by lia. reflexivity. }
    destruct overlap.
    2:{ f_equal. cbn [asum app]. rewrite !asum_cons, Hh, Hcr, Han. change (asum (fun y : A => y) []) with (@a0 M). ncr. }
    destruct (shape_opr _ n n x SSd) as [S11 V11]. destruct (shape_mul _ _ n n n S11 HS) as (sx & E12 & S12 & V12). rewrite E12. cbn [bind].
    assert (has_shape (madd_op sx (smul (kopp k1) x)) n n /\ forall i j, i < n -> j < n -> ent (madd_op sx (smul (kopp k1) x)) i j = ent sx i j + - x) as [S13 V13].
    { destruct S12 as (G1 & G2 & _). unfold madd_op. rewrite G1, G2. split; [apply has_shape_tab|]. intros i j Hi Hj. now rewrite ent_tab by lia. }
    destruct (shape_mul _ _ n n n S13 SlamT) as (g & E14 & S14 & V14). rewrite E14. cbn [bind]. rewrite (mtrace_sum g n S14). cbn [bind].
    f_equal. cbn [app]. rewrite !asum_cons, Hh, Hcr, Han. change (asum (fun y : A => y) []) with (@a0 M).
    assert (sm n (fun i => ent g i i) = sm n (fun i => sm n (fun j => theta n a x (Chan i) (Chan j) * (star (b i) * b j))) + - off_diagonal n x b) as Hg.
    { unfold off_diagonal. rewrite <- sm_opp, <- sm_add. apply sm_ext. intros i Hi. rewrite V14 by lia. rewrite <- sm_opp, <- sm_add. apply sm_ext. intros j Hj.
      rewrite V13, VlamT, Vlam by lia. replace (sm 1 (fun l => ent (mtranspose (madj noises)) i l * ent (mtranspose noises) l j)) with (star (b i) * b j).
      2:{ rewrite sm_S. unfold bigsum. cbn [seq]. change (asum _ []) with (@a0 M). rewrite aadd_0. now rewrite Ebdt, Ebt, Ebd by lia. }
      rewrite V12 by lia. replace (sm n (fun l => ent (mul_op_r (madj (sS a)) x) i l * ent (sS a) l j)) with (sm n (fun k => star (ent (sS a) k i) * x * ent (sS a) k j)) by (apply sm_ext; intros l Hl; now rewrite V11, ESd by lia).
      cbn [theta]. unfold delta. destruct (i =? j); ncr. }
    rewrite Hg. ncr.
  Qed.
  (** with no system operators of X in S, the result is the quantum Langevin equation *)
  Theorem C56_langevin a n x noises : physical a n -> has_shape noises n 1 ->
    (forall i j, i < n -> j < n -> x * ent (sS a) i j = ent (sS a) i j * x) ->
    noise_eom false a x noises = Ok (langevin n (theta n a x) (fun i => ent noises i 0)).
  Proof.
    intros Hp Hb Hc. rewrite (C56_value false a n x noises (proj1 Hp) Hb). f_equal. unfold langevin. f_equal. symmetry. apply sm_zero. intros i Hi. apply sm_zero. intros j Hj.
    replace (theta n a x (Chan i) (Chan j)) with (@a0 M); [apply amul_0l|]. cbn [theta].
    transitivity (sm n (fun k => star (ent (sS a) k i) * ent (sS a) k j) * x + - (delta i j * x)).
    - destruct Hp as (_ & Hi' & _). rewrite (Hi' i j Hi Hj). ncr.
    - f_equal. rewrite <- sm_mul_r. apply sm_ext. intros k Hk. rewrite <- !amul_assoc, (Hc k j Hk Hj). reflexivity.
  Qed.
  (** with a single channel, always *)
  Theorem C56_one_channel a x noises : physical a 1 -> has_shape noises 1 1 ->
    noise_eom true a x noises = Ok (langevin 1 (theta 1 a x) (fun i => ent noises i 0)).
  Proof.
    intros Hp Hb. rewrite (C56_value true a 1 x noises (proj1 Hp) Hb). f_equal. unfold langevin. f_equal. unfold off_diagonal.
    rewrite (sm_zero 1 (fun i => sm 1 (fun j => if i =? j then a0 else x * (star (ent noises i 0) * ent noises j 0)))); [ncr|]. intros [|i] Hi; [|lia].
    apply sm_zero. intros [|j] Hj; [reflexivity|lia].
  Qed.
  (** With operators in S and several channels the code subtracts X from every entry of
      S^dagger X S, not only from the diagonal: the result differs from the Langevin
      equation by the terms X b_i^dagger b_j with i <> j. *)
  Theorem C56_gauge_error a n x noises : physical a n -> has_shape noises n 1 ->
    noise_eom true a x noises = Ok (langevin n (theta n a x) (fun i => ent noises i 0) + - off_diagonal n x (fun i => ent noises i 0)).
  Proof. intros Hp Hb. rewrite (C56_value true a n x noises (proj1 Hp) Hb). f_equal. unfold langevin. ncr. Qed.
  (** the number of noises must be the number of channels *)
  Theorem C56_noise_shape overlap a n m k x noises : system a n -> has_shape noises m k -> (m <> n \/ k <> 1) ->
    noise_eom overlap a x noises = Err AssertionError.
  Proof.
    intros Hs Hb Hne. unfold noise_eom. destruct (shape_madj' noises m k Hb) as [Sbd _]. destruct (shape_tr _ k m Sbd) as [Sbdt _]. destruct (shape_tr _ m k Hb) as [Sbt _].
    destruct (shape_mul _ _ m k m Sbdt Sbt) as (lam & Elam & _). rewrite Elam. cbn [bind]. destruct Hb as (-> & -> & _), Hs as (_ & -> & -> & _).
    destruct (Nat.eqb_spec m n), (Nat.eqb_spec k 1); try reflexivity. destruct Hne; contradiction.
  Qed.
  (** the averaged equation is dual to the master equation under every trace *)
  Theorem C56_dual a n (f : A -> A) rho x : system a n -> (forall u v, f (u + v) = f u + f v) -> (forall c u, f (smul c u) = smul c (f u)) -> (forall u v, f (u * v) = f (v * u)) ->
    f (master_equation a rho * x) = f (rho * heisenberg_eom a x).
  Proof.
    intros Hs Fa Fs Fc. unfold master_equation, heisenberg_eom. rewrite amul_addl, amul_addr, !Fa.
    assert (forall u, f (- u) = - f u) as Fo by (intros u; unfold aopp; apply Fs).
    assert (f a0 = a0) as F0. { transitivity (f (smul k0 a0)); [now rewrite smul_0|]. rewrite Fs. apply smul_0. }
    f_equal.
    - rewrite smul_amul_l, smul_amul_r, !Fs. unfold aneg. fold (aopp (rho * sH a)). fold (aopp (x * sH a)).
      replace ((sH a * rho + - (rho * sH a)) * x) with (sH a * rho * x + - (rho * sH a * x)) by ncr.
      replace (rho * (sH a * x + - (x * sH a))) with (rho * sH a * x + - (rho * x * sH a)) by ncr.
      rewrite !Fa, !Fo. rewrite (Fc (rho * x) (sH a)). replace (sH a * (rho * x)) with (sH a * rho * x) by ncr.
      transitivity (smul iu (- (f (sH a * rho * x) + - f (rho * sH a * x)))); [|f_equal; ncr].
      unfold aopp at 2. rewrite <- smul_mul. f_equal. ring.
    - induction (Ls a) as [|l ls IH]; [change (asum ?g []) with (@a0 M); now rewrite amul_0l, amul_0r, F0|].
      rewrite !asum_cons, amul_addl, amul_addr, !Fa, IH. f_equal.
      unfold aneg. fold (aopp (smul khalf (star l * l * rho + rho * star l * l))). fold (aopp (star l * l * x + x * star l * l)).
      replace ((l * rho * star l + - smul khalf (star l * l * rho + rho * star l * l)) * x) with (l * rho * star l * x + - (smul khalf (star l * l * rho + rho * star l * l) * x)) by ncr.
      rewrite amul_addr, !Fa, Fo, smul_amul_l, smul_amul_r, !Fs. f_equal.
      + rewrite <- !amul_assoc, (Fc l). f_equal. ncr.
      + replace (rho * - (star l * l * x + x * star l * l)) with (- (rho * star l * l * x + rho * x * (star l * l))) by ncr.
        replace ((star l * l * rho + rho * star l * l) * x) with (star l * l * (rho * x) + rho * star l * l * x) by ncr.
        rewrite Fo, !Fa, (Fc (star l * l) (rho * x)). unfold aopp. rewrite <- !smul_mul. rewrite (aadd_comm M (f (rho * x * (star l * l)))). f_equal. ring.
  Qed.
End Props.

(** A two-channel beam splitter controlled by a qubit: the equation for sigma_z acquires
    wrong terms. The fields are represented by the operators b_0 = 1, b_1 = i. *)
Definition ctrl : slh CM :=
  SLH (M:=CM) (Mat 2 2 [[paulix; zero2]; [zero2; one2]]) (Mat 2 1 [[lower]; [zero2]]) paulix.
Lemma ctrl_physical : physical ctrl 2.
Proof.
  split; [repeat split; repeat constructor|]. split; [|split].
  - intros [|[|i]] [|[|j]] Hi Hj; try lia; apply q2_eqb_eq; vm_compute; reflexivity.
  - intros [|[|i]] [|[|j]] Hi Hj; try lia; apply q2_eqb_eq; vm_compute; reflexivity.
  - apply q2_eqb_eq; vm_compute; reflexivity.
Qed.
Definition two_noises : matrix (A CM) := Mat 2 1 [[one2]; [one2]].
Theorem C56_operator_valued_S_refuted :
  physical ctrl 2 /\ has_shape two_noises 2 1 /\
  exists e, noise_eom true ctrl pauliz two_noises = Ok e /\ e <> langevin 2 (theta 2 ctrl pauliz) (fun i => ent two_noises i 0).
Proof.
  split; [exact ctrl_physical|]. split; [repeat split; repeat constructor|]. eexists. split; [reflexivity|].
  intros H. apply (f_equal (fun x => q2_eqb x (langevin 2 (theta 2 ctrl pauliz) (fun i => ent two_noises i 0)))) in H. vm_compute in H. discriminate H.
Qed.
(** a system with scalar S *)
Definition plain : slh CM :=
  SLH (M:=CM) (Mat 2 2 [[zero2; one2]; [one2; zero2]]) (Mat 2 1 [[lower]; [pauliz]]) paulix.
Example C56_langevin_inhabited : physical plain 2 /\ (forall i j, i < 2 -> j < 2 -> amul (a:=CM) pauliz (ent (sS plain) i j) = amul (a:=CM) (ent (sS plain) i j) pauliz) /\
  (exists e, noise_eom false plain pauliz two_noises = Ok e /\ e <> a0).
Proof.
  split; [|split].
  - split; [repeat split; repeat constructor|]. split; [|split].
    + intros [|[|i]] [|[|j]] Hi Hj; try lia; apply q2_eqb_eq; vm_compute; reflexivity.
    + intros [|[|i]] [|[|j]] Hi Hj; try lia; apply q2_eqb_eq; vm_compute; reflexivity.
    + apply q2_eqb_eq; vm_compute; reflexivity.
  - intros [|[|i]] [|[|j]] Hi Hj; try lia; apply q2_eqb_eq; vm_compute; reflexivity.
  - eexists. split; [reflexivity|]. intros H. apply (f_equal (fun x => q2_eqb x zero2)) in H. vm_compute in H. discriminate H.
Qed.

Print Assumptions C56_flow.
Print Assumptions C56_value.
Print Assumptions C56_langevin.
Print Assumptions C56_one_channel.
Print Assumptions C56_gauge_error.
Print Assumptions C56_noise_shape.
Print Assumptions C56_dual.
Print Assumptions C56_operator_valued_S_refuted.
Print Assumptions C56_langevin_inhabited.
