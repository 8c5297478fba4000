(** The number representation: a state assigns an amplitude to every configuration of
    levels n_1, n_2, ... of the local systems. Oscillators have the levels 0, 1, 2,
    ..., spins the levels 0 .. n-1. Displacements are not defined here (see OpJet). *)
From Coq Require Import Reals QArith Qcanon Qreals Ring Lra FunctionalExtensionality.
From Verif Require Import Prelude AlgSpec CAlg Cplx OpModel OpSpec OpProofs1 OpSites.
Local Open Scope nat_scope.
Add Ring Cr2 : cring.

Lemma Q2R_qn n : Q2R (qn n) = INR n.
Proof. change (Q2R (Qred (inject_Z (Z.of_nat n))) = INR n). rewrite (Qeq_eqR _ _ (Qred_correct (inject_Z (Z.of_nat n)))). unfold Q2R. cbn [Qnum Qden inject_Z]. rewrite INR_IZR_INZ. field. Qed.
Lemma csqrt_sq n : cmul (csqrt (qn n)) (csqrt (qn n)) = cQ (qn n).
Proof. unfold csqrt, cQ. rewrite <- creal_mul, Q2R_qn, sqrt_sqrt by apply pos_INR. reflexivity. Qed.
Lemma csqrt_0 : csqrt (qn 0) = c0.
Proof. unfold csqrt. rewrite Q2R_qn. cbn [INR]. now rewrite sqrt_0. Qed.
Lemma cQ_qn0 : cQ (qn 0) = c0.
Proof. apply cx_eq; [|reflexivity]. cbn [cre cQ creal c0]. rewrite Q2R_qn. reflexivity. Qed.
Lemma cQ_qn_S n : cQ (qn (Datatypes.S n)) = cadd c1 (cQ (qn n)).
Proof. apply cx_eq; cbn [cre cim cQ creal cadd c1]; rewrite ?Q2R_qn, ?S_INR; Lra.lra. Qed.
Lemma cQ_qn_add n m : cQ (qn (n + m)) = cadd (cQ (qn n)) (cQ (qn m)).
Proof. now rewrite qn_add, cQ_add. Qed.

Lemma csqrt_conj q : cconj (csqrt q) = csqrt q.
Proof. apply cconj_real. Qed.
Lemma cQ_conj q : cconj (cQ q) = cQ q.
Proof. apply cconj_real. Qed.

(** level operators *)
Definition n_create : lo nat := mono nat (fun n => match n with 0 => c0 | _ => csqrt (qn n) end) pred.
Definition n_destroy : lo nat := mono nat (fun n => csqrt (qn (n + 1))) (fun n => n + 1).
Definition n_sigma (j k : nat) : lo nat := mono nat (fun n => if n =? j then c1 else c0) (fun _ => k).
Definition n_phase (u : cx) : lo nat := mono nat (fun n => cexp (cmul (cmul ci u) (cQ (qn n)))) (fun n => n).
Definition n_jp (d : nat) : lo nat :=
  mono nat (fun n => match n with 0 => c0 | Datatypes.S m => if n <? d then csqrt (qn ((m + 1) * (d - 1 - m))) else c0 end) pred.
Definition n_jm (d : nat) : lo nat :=
  mono nat (fun n => if n + 1 <? d then csqrt (qn ((n + 1) * (d - 1 - n))) else c0) (fun n => n + 1).
Definition n_jz (d : nat) : lo nat :=
  mono nat (fun n => if n <? d then cQ (qn n - (qn d - 1) / qn 2)%Qc else c0) (fun n => n).
Definition n_one : lo nat := mono nat (fun _ => c1) (fun n => n).

(** ** Local identities *)
Section Local.
  Context (g : nat -> cx).
  Ltac u := cbn [la mono n_create n_destroy n_sigma n_phase n_jp n_jm n_jz n_one].
  Lemma loc_ccr p : n_destroy (n_create g) p = cadd (g p) (n_create (n_destroy g) p).
  Proof.
    u. rewrite Nat.add_1_r. cbn [pred]. transitivity (cmul (cQ (qn (Datatypes.S p))) (g p)); [rewrite <- csqrt_sq; ring|]. rewrite cQ_qn_S.
    destruct p as [|p]; [rewrite cQ_qn0; ring|]. cbn [pred]. rewrite Nat.add_1_r, <- csqrt_sq. ring.
  Qed.
  Lemma loc_create_sigma j k p : n_create (n_sigma j k g) p = cmul (csqrt (qn (j + 1))) (n_sigma (j + 1) k g p).
  Proof.
    u. destruct p as [|p]; cbn [pred].
    - destruct (Nat.eqb_spec 0 (j + 1)); [lia|ring].
    - destruct (Nat.eqb_spec p j) as [E0|N], (Nat.eqb_spec (Datatypes.S p) (j + 1)) as [E|N']; try lia; [|ring]. rewrite E. ring.
  Qed.
  Lemma loc_destroy_sigma_0 k p : n_destroy (n_sigma 0 k g) p = c0.
  Proof. u. destruct (Nat.eqb_spec (p + 1) 0); [lia|ring]. Qed.
  Lemma loc_destroy_sigma j k p : n_destroy (n_sigma (j + 1) k g) p = cmul (csqrt (qn (j + 1))) (n_sigma j k g p).
  Proof. u. destruct (Nat.eqb_spec (p + 1) (j + 1)) as [E|N], (Nat.eqb_spec p j) as [E'|N']; try lia; rewrite ?E; ring. Qed.
  Lemma loc_sigma_destroy j k p : n_sigma k j (n_destroy g) p = cmul (csqrt (qn (j + 1))) (n_sigma k (j + 1) g p).
  Proof. u. destruct (Nat.eqb_spec p k); ring. Qed.
  Lemma loc_sigma_create_0 k p : n_sigma k 0 (n_create g) p = c0.
  Proof. u. ring. Qed.
  Lemma loc_sigma_create j k p : n_sigma k (j + 1) (n_create g) p = cmul (csqrt (qn (j + 1))) (n_sigma k j g p).
  Proof. u. rewrite Nat.add_1_r. cbn [pred]. ring. Qed.
  Lemma loc_phase_0 p : n_phase c0 g p = g p.
  Proof. u. replace (cmul (cmul ci c0) (cQ (qn p))) with c0 by ring. rewrite cexp_0. ring. Qed.
  Lemma loc_phase_phase v w p : n_phase v (n_phase w g) p = n_phase (cadd v w) g p.
  Proof. u. replace (cmul (cmul ci (cadd v w)) (cQ (qn p))) with (cadd (cmul (cmul ci v) (cQ (qn p))) (cmul (cmul ci w) (cQ (qn p)))) by ring. rewrite cexp_add. ring. Qed.
  Lemma loc_destroy_phase v p : n_destroy (n_phase v g) p = cmul (cexp (cmul ci v)) (n_phase v (n_destroy g) p).
  Proof.
    u. replace (cmul (cmul ci v) (cQ (qn (p + 1)))) with (cadd (cmul ci v) (cmul (cmul ci v) (cQ (qn p)))); [rewrite cexp_add; ring|].
    rewrite Nat.add_1_r, cQ_qn_S. ring.
  Qed.
  Lemma loc_phase_create v p : n_phase v (n_create g) p = cmul (cexp (cmul ci v)) (n_create (n_phase v g) p).
  Proof.
    u. destruct p as [|p]; [ring|]. cbn [pred].
    replace (cmul (cmul ci v) (cQ (qn (Datatypes.S p)))) with (cadd (cmul ci v) (cmul (cmul ci v) (cQ (qn p)))); [rewrite cexp_add; ring|].
    rewrite cQ_qn_S. ring.
  Qed.
  Lemma loc_phase_sigma v j k p : n_phase v (n_sigma j k g) p = cmul (cexp (cmul (cmul ci v) (cQ (qn j)))) (n_sigma j k g p).
  Proof. u. destruct (Nat.eqb_spec p j) as [-> |]; ring. Qed.
  Lemma loc_sigma_phase v j k p : n_sigma k j (n_phase v g) p = cmul (cexp (cmul (cmul ci v) (cQ (qn j)))) (n_sigma k j g p).
  Proof. u. ring. Qed.
  Lemma loc_jp_sigma d m k p : m + 1 < d -> n_jp d (n_sigma m k g) p = cmul (csqrt (qn ((m + 1) * (d - 1 - m)))) (n_sigma (m + 1) k g p).
  Proof.
    intros H. u. destruct p as [|p]; cbn [pred].
    - destruct (Nat.eqb_spec 0 (m + 1)); [lia|ring].
    - destruct (Nat.eqb_spec p m) as [E0|N], (Nat.eqb_spec (Datatypes.S p) (m + 1)) as [E|N']; try lia; [|ring]. subst p.
      destruct (Nat.ltb_spec (Datatypes.S m) d); [ring|lia].
  Qed.
  Lemma loc_jp_sigma_0 d m k p : d <= m + 1 -> n_jp d (n_sigma m k g) p = c0.
  Proof.
    intros H. u. destruct p as [|p]; cbn [pred]; [ring|]. destruct (Nat.eqb_spec p m) as [-> |N]; [|ring].
    destruct (Nat.ltb_spec (Datatypes.S m) d); [lia|ring].
  Qed.
  Lemma loc_sigma_jm d m k p : m + 1 < d -> n_sigma k m (n_jm d g) p = cmul (csqrt (qn ((m + 1) * (d - 1 - m)))) (n_sigma k (m + 1) g p).
  Proof. intros H. u. destruct (Nat.ltb_spec (m + 1) d); [ring|lia]. Qed.
  Lemma loc_sigma_jm_0 d m k p : d <= m + 1 -> n_sigma k m (n_jm d g) p = c0.
  Proof. intros H. u. destruct (Nat.ltb_spec (m + 1) d); [lia|ring]. Qed.
  Lemma loc_jm_sigma_0 d k p : n_jm d (n_sigma 0 k g) p = c0.
  Proof. u. destruct (Nat.eqb_spec (p + 1) 0); [lia|ring]. Qed.
  Lemma loc_sigma_jp_0 d k p : n_sigma k 0 (n_jp d g) p = c0.
  Proof. u. ring. Qed.
  Lemma loc_jm_sigma d m k p : m <> 0 -> m < d -> n_jm d (n_sigma m k g) p = cmul (csqrt (qn (m * (d - m)))) (n_sigma (m - 1) k g p).
  Proof.
    intros H Hd. u. destruct (Nat.eqb_spec (p + 1) m) as [E0|N], (Nat.eqb_spec p (m - 1)) as [E|N']; try lia; [|ring]. subst m.
    destruct (Nat.ltb_spec (p + 1) d); [|lia]. replace (d - (p + 1)) with (d - 1 - p) by lia. ring.
  Qed.
  Lemma loc_sigma_jp d m k p : m <> 0 -> m < d -> n_sigma k m (n_jp d g) p = cmul (csqrt (qn (m * (d - m)))) (n_sigma k (m - 1) g p).
  Proof.
    intros H Hd. u. destruct m as [|m]; [lia|]. destruct (Nat.ltb_spec (Datatypes.S m) d); [|lia]. cbn [pred].
    replace (Datatypes.S m - 1) with m by lia. replace (Datatypes.S m * (d - Datatypes.S m)) with ((m + 1) * (d - 1 - m)) by (f_equal; lia). ring.
  Qed.
  Lemma loc_jz_sigma d m k p : m < d -> n_jz d (n_sigma m k g) p = cmul (cQ (qn m - (qn d - 1) / qn 2)%Qc) (n_sigma m k g p).
  Proof. intros H. u. destruct (Nat.eqb_spec p m) as [-> |N]; [|ring]. destruct (Nat.ltb_spec m d); [ring|lia]. Qed.
  Lemma loc_sigma_jz d m k p : m < d -> n_sigma k m (n_jz d g) p = cmul (cQ (qn m - (qn d - 1) / qn 2)%Qc) (n_sigma k m g p).
  Proof. intros H. u. destruct (Nat.ltb_spec m d); [ring|lia]. Qed.
  Lemma jz_level p d : p < d -> cQ (qn ((p + 1) * (d - 1 - p)))
    = cadd (cmul (cQ (qz (-2))) (cQ (qn p - (qn d - 1) / qn 2)%Qc)) (cQ (qn (p * (d - p)))).
  Proof.
    intros H. rewrite <- cQ_mul, <- cQ_add. f_equal. assert (exists e, d = p + 1 + e) as [e ->] by (exists (d - p - 1); lia).
    replace (p + 1 + e - 1 - p) with e by lia. replace (p + 1 + e - p) with (e + 1) by lia.
    rewrite !qn_mul, !qn_add, !qn_1. change (qz (-2)) with (- (qn 2))%Qc. replace (qn 2) with (1 + 1)%Qc by (now rewrite <- qn_1, <- qn_add). field. intros E. discriminate E.
  Qed.
  Lemma jz_step p d : cQ (qn (p + 1) - (qn d - 1) / qn 2)%Qc = cadd (cQ (qn p - (qn d - 1) / qn 2)%Qc) c1.
  Proof. rewrite <- cQ_1, <- cQ_add. f_equal. rewrite qn_add, qn_1. ring. Qed.
  Lemma loc_jm_jp d p : n_jm d (n_jp d g) p = cadd (cmul (cQ (qz (-2))) (n_jz d g p)) (n_jp d (n_jm d g) p).
  Proof.
    u. destruct (Nat.ltb_spec p d) as [Hp|Hp].
    - transitivity (cmul (cQ (qn ((p + 1) * (d - 1 - p)))) (g p)).
      + destruct (Nat.ltb_spec (p + 1) d) as [H|H].
        * rewrite <- csqrt_sq. rewrite Nat.add_1_r. cbn [pred]. destruct (Nat.ltb_spec (Datatypes.S p) d); [|lia]. rewrite Nat.add_1_r. ring.
        * replace ((p + 1) * (d - 1 - p)) with 0 by (replace (d - 1 - p) with 0 by lia; lia). rewrite cQ_qn0. ring.
      + rewrite (jz_level p d Hp). destruct p as [|p]; [rewrite Nat.mul_0_l, cQ_qn0; ring|]. cbn [pred].
        destruct (Nat.ltb_spec (p + 1) d); [|lia].
        replace (Datatypes.S p * (d - Datatypes.S p)) with ((p + 1) * (d - 1 - p)) by (f_equal; lia). rewrite Nat.add_1_r, <- csqrt_sq. ring.
    - destruct (Nat.ltb_spec (p + 1) d); [lia|]. destruct p as [|p]; [ring|]. ring.
  Qed.
  Lemma loc_jz_jp d p : n_jz d (n_jp d g) p = cadd (n_jp d (n_jz d g) p) (n_jp d g p).
  Proof.
    u. destruct p as [|p]; [ring|]. cbn [pred]. destruct (Nat.ltb_spec (Datatypes.S p) d); [|ring].
    destruct (Nat.ltb_spec p d); [|lia]. rewrite <- (Nat.add_1_r p), jz_step. ring.
  Qed.
  Lemma loc_jm_jz d p : n_jm d (n_jz d g) p = cadd (n_jz d (n_jm d g) p) (n_jm d g p).
  Proof.
    u. destruct (Nat.ltb_spec (p + 1) d); [|ring].
    destruct (Nat.ltb_spec p d); [|lia]. rewrite jz_step. ring.
  Qed.
End Local.

Section Fock.
  Context {S : scalars} (r : cxreading S) (dim : nat -> option nat) (is_boson : nat -> bool).
  Context (Hb : forall l, is_boson l = true -> dim l = None).
  Definition size (l : nat) : nat := match dim l with Some d => d | None => 0 end.

  Ltac loc := rewrite ?(at_slice2 nat), ?(at_slice nat); cbn [la mono n_create n_destroy n_sigma n_phase n_jp n_jm n_jz n_one].

  Ltac open l := apply opr_eq; intros f x; cbn [fst snd amul aadd smul a0 a1 oprs_c sal alg oprs_star oprs both lmul ladd lsmul ap l0 l1]; rewrite ?(at_slice2 nat), ?(at_slice nat);
    try (rewrite (slice_id nat f x l)).
  Definition fock : interp S dim.
  Proof.
    refine {| rd := site_reading r nat; boson := fun l => is_boson l = true; displ := fun _ => False; spin := fun l => dim l <> None;
      lives := lives_in nat;
      isym := fun n h => on_all nat h (n_sigma n 0) (n_sigma 0 n);
      icreate := fun l => both nat l n_create n_destroy;
      idestroy := fun l => both nat l n_destroy n_create;
      isigma := fun j k l => both nat l (n_sigma j k) (n_sigma k j);
      iphase := fun u l => both nat l (n_phase u) (n_phase (copp (cconj u)));
      idisp := fun u l => both nat l n_one n_one;
      isqueeze := fun u l => both nat l n_one n_one;
      ijp := fun l => both nat l (n_jp (size l)) (n_jm (size l));
      ijm := fun l => both nat l (n_jm (size l)) (n_jp (size l));
      ijz := fun l => both nat l (n_jz (size l)) (n_jz (size l));
      itrace := fun _ _ => a0 |}; cbn [cal site_reading].
    - exact Hb.
    - easy.
    - intros l H. destruct (dim l) as [n|]; [now exists n|contradiction].
    - intros h h' x. apply li_incl.
    - apply li_0.
    - apply li_1.
    - apply li_add.
    - apply li_mul.
    - apply li_smul.
    - apply li_star.
    - intros. apply li_0.
    - apply li_commute.
    - intros. apply on_all_lives.
    - intros. apply li_at. now left.
    - intros. apply li_at. now left.
    - intros. apply li_at. now left.
    - intros. apply li_at. now left.
    - intros. apply li_at. now left.
    - intros. apply li_at. now left.
    - intros. apply li_at. now left.
    - intros. apply li_at. now left.
    - intros. apply li_at. now left.
    - reflexivity.
    - reflexivity.
    - intros. cbn. unfold both. do 2 f_equal. f_equal. apply cx_eq; cbn; ring.
    - easy.
    - intros. cbn. reflexivity.
    - reflexivity.
    - reflexivity.
    - (* sigma sigma *) intros a b c d l _. destruct (Nat.eqb_spec b c) as [<-|N]; apply opr_eq; intros f x; cbn [fst snd amul oprs_c sal alg oprs_star oprs both lmul ap a0 l0]; loc.
      + rewrite Nat.eqb_refl. ring.
      + rewrite Nat.eqb_refl. ring.
      + destruct (Nat.eqb_spec b c); [contradiction|ring].
      + destruct (Nat.eqb_spec c b); [congruence|ring].
    - (* ccr *) intros l _. open l; apply loc_ccr.
    - (* create sigma *) intros j k l _. open l; [apply loc_create_sigma|]. rewrite ?csqrt_conj, ?cQ_conj. apply loc_sigma_destroy.
    - intros k l _. open l; [apply loc_destroy_sigma_0|apply loc_sigma_create_0].
    - intros j k l _. open l; [apply loc_destroy_sigma|]. rewrite ?csqrt_conj, ?cQ_conj. apply loc_sigma_create.
    - intros l _. open l; [apply loc_phase_0|]. change (n_phase (copp (cconj c0)) (slice f x l) (x l) = slice f x l (x l)).
      replace (copp (cconj c0)) with c0 by (apply cx_eq; cbn; ring). apply loc_phase_0.
    - intros u v l _. open l; [apply loc_phase_phase|]. rewrite cconj_add. etransitivity; [apply loc_phase_phase|]. do 2 f_equal. ring.
    - intros u l _. open l; [apply loc_destroy_phase|]. rewrite cexp_conj. etransitivity; [apply loc_phase_create|]. do 3 f_equal. apply cx_eq; cbn; ring.
    - intros u j k l _. open l; [apply loc_phase_sigma|]. rewrite cexp_conj. etransitivity; [apply loc_sigma_phase|]. do 2 f_equal. apply cx_eq; cbn; ring.
    - easy.
    - easy.
    - easy.
    - intros l _. open l; loc; ring.
    - (* spin *) intros n m k l _ E Hm. unfold size. rewrite E. destruct (Nat.ltb_spec (m + 1) n) as [H|H]; open l.
      + now apply loc_jp_sigma.
      + rewrite ?csqrt_conj, ?cQ_conj. now apply loc_sigma_jm.
      + now apply loc_jp_sigma_0.
      + now apply loc_sigma_jm_0.
    - intros n m k l _ E Hm. unfold size. rewrite E. destruct (Nat.eqb_spec m 0) as [-> |H]; open l.
      + apply loc_jm_sigma_0.
      + apply loc_sigma_jp_0.
      + now apply loc_jm_sigma.
      + rewrite ?csqrt_conj, ?cQ_conj. now apply loc_sigma_jp.
    - intros n m k l _ E Hm. unfold size. rewrite E. open l; [now apply loc_jz_sigma|]. rewrite ?csqrt_conj, ?cQ_conj. now apply loc_sigma_jz.
    - intros l _. open l; [apply loc_jm_jp|]. rewrite ?csqrt_conj, ?cQ_conj. apply loc_jm_jp.
    - intros l _. open l; [apply loc_jz_jp|]. apply loc_jm_jz.
  Defined.
End Fock.
