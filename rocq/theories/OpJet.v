(** A representation with displacements. A state of an oscillator is described by its
    Taylor coefficients g(x,n) at every point x of the complex plane, as for the
    Bargmann functions F(x+e) = sum_n g(x,n) e^n: a is the derivative, a* the
    multiplication by x, D(u)F(x) = exp(-|u|^2/2) exp(ux) F(x - conj u), and the
    number state |j> is x^j / sqrt(j!). The coefficients at different points
    need not belong together, so all identities are proved algebraically. Other
    local systems use only the level n. *)
From Coq Require Import Reals QArith Qcanon Qreals Ring Lra FunctionalExtensionality.
From Verif Require Import Prelude AlgSpec CAlg Cplx OpModel OpSpec OpProofs1 OpSites OpFock.
Local Open Scope nat_scope.
Add Ring Cr3 : cring.

Definition jp := (cx * nat)%type.

(** real weights *)
Definition cn (n : nat) : cx := creal (INR n).
Definition cinv (n : nat) : cx := creal (/ INR n).
Lemma cn_cQ n : cQ (qn n) = cn n.
Proof. unfold cn, cQ. now rewrite Q2R_qn. Qed.
Lemma cn_S n : cn (Datatypes.S n) = cadd (cn n) c1.
Proof. apply cx_eq; cbn [cn creal cre cim cadd c1]; [apply S_INR|Lra.lra]. Qed.
Lemma cn_inv n : cmul (cn (Datatypes.S n)) (cinv (Datatypes.S n)) = c1.
Proof.
  unfold cn, cinv. rewrite <- creal_mul, Rinv_r; [reflexivity|]. apply not_0_INR. lia.
Qed.
Lemma cancel_n n x y : cmul (cn (Datatypes.S n)) x = cmul (cn (Datatypes.S n)) y -> x = y.
Proof.
  intros H. transitivity (cmul (cinv (Datatypes.S n)) (cmul (cn (Datatypes.S n)) x)).
  - transitivity (cmul (cmul (cn (Datatypes.S n)) (cinv (Datatypes.S n))) x); [rewrite cn_inv|]; ring.
  - rewrite H. transitivity (cmul (cmul (cn (Datatypes.S n)) (cinv (Datatypes.S n))) y); [|rewrite cn_inv]; ring.
Qed.
(** sqrt(n!) and its inverse *)
Definition sf (n : nat) : cx := creal (sqrt (INR (fact n))).
Definition isf (n : nat) : cx := creal (/ sqrt (INR (fact n))).
Lemma sf_S n : sf (n + 1) = cmul (csqrt (qn (n + 1))) (sf n).
Proof.
  unfold sf, csqrt. rewrite <- creal_mul, Q2R_qn, Nat.add_1_r. f_equal. rewrite <- sqrt_mult by apply pos_INR.
  f_equal. rewrite <- mult_INR. reflexivity.
Qed.
Lemma sf_pos n : (0 < sqrt (INR (fact n)))%R.
Proof. apply sqrt_lt_R0. apply INR_fact_lt_0. Qed.
Lemma isf_sf n : cmul (isf n) (sf n) = c1.
Proof. unfold isf, sf. rewrite <- creal_mul, Rinv_l; [reflexivity|]. apply Rgt_not_eq, sf_pos. Qed.
Lemma isf_S n : cmul (csqrt (qn (n + 1))) (isf (n + 1)) = isf n.
Proof.
  transitivity (cmul (cmul (isf n) (sf n)) (cmul (csqrt (qn (n + 1))) (isf (n + 1)))); [rewrite isf_sf; ring|].
  transitivity (cmul (isf n) (cmul (isf (n + 1)) (sf (n + 1)))); [rewrite sf_S; ring|]. rewrite isf_sf. ring.
Qed.
Lemma isf_S' n : isf (n + 1) = cmul (csqrt (qn (n + 1))) (cmul (cinv (n + 1)) (isf n)).
Proof.
  rewrite <- (isf_S n). transitivity (cmul (cmul (cmul (csqrt (qn (n + 1))) (csqrt (qn (n + 1)))) (cinv (n + 1))) (isf (n + 1))); [|ring].
  rewrite csqrt_sq, cn_cQ, Nat.add_1_r, cn_inv. ring.
Qed.

(** ** Power series in e *)
Definition ser := nat -> cx.
Definition sshift (g : ser) : ser := fun n => match n with 0 => c0 | Datatypes.S m => g m end.       (* e g *)
Definition sderiv (g : ser) : ser := fun n => cmul (cn (Datatypes.S n)) (g (Datatypes.S n)).          (* dg/de *)
(** exp(u e) g *)
Fixpoint sexpm (u : cx) (n : nat) : ser -> cx :=
  match n with
  | 0 => fun g => g 0
  | Datatypes.S m => fun g => cmul (cinv (Datatypes.S m)) (cadd (cmul u (sexpm u m g)) (sexpm u m (sderiv g)))
  end.
Lemma sexpm_S u n g : cmul (cn (Datatypes.S n)) (sexpm u (Datatypes.S n) g) = cadd (cmul u (sexpm u n g)) (sexpm u n (sderiv g)).
Proof. cbn [sexpm]. transitivity (cmul (cmul (cn (Datatypes.S n)) (cinv (Datatypes.S n))) (cadd (cmul u (sexpm u n g)) (sexpm u n (sderiv g)))); [ring|]. rewrite cn_inv. ring. Qed.
Lemma sexpm_lin u n : forall f g k, sexpm u n (fun m => cadd (cmul k (f m)) (g m)) = cadd (cmul k (sexpm u n f)) (sexpm u n g).
Proof.
  induction n as [|n IH]; intros f g k; [reflexivity|]. cbn [sexpm].
  replace (sderiv (fun m => cadd (cmul k (f m)) (g m))) with (fun m => cadd (cmul k (sderiv f m)) (sderiv g m)).
  - rewrite !IH. ring.
  - apply functional_extensionality. intros m. unfold sderiv. ring.
Qed.
Lemma sexpm_add u n f g : sexpm u n (fun m => cadd (f m) (g m)) = cadd (sexpm u n f) (sexpm u n g).
Proof.
  transitivity (sexpm u n (fun m => cadd (cmul c1 (f m)) (g m))); [f_equal; apply functional_extensionality; intros; ring|].
  rewrite sexpm_lin. ring.
Qed.
Lemma sexpm_scale u n k f : sexpm u n (fun m => cmul k (f m)) = cmul k (sexpm u n f).
Proof.
  transitivity (sexpm u n (fun m => cadd (cmul (cadd k (copp c1)) (f m)) (f m))); [f_equal; apply functional_extensionality; intros; ring|].
  rewrite sexpm_lin. ring.
Qed.
Lemma sexpm_0 n : forall g, sexpm c0 n g = g n.
Proof. induction n as [|n IH]; intros g; [reflexivity|]. apply (cancel_n n). rewrite sexpm_S, !IH. unfold sderiv. ring. Qed.
Lemma sexpm_sexpm u v n : forall g, sexpm u n (fun m => sexpm v m g) = sexpm (cadd u v) n g.
Proof.
  induction n as [|n IH]; intros g; [reflexivity|]. apply (cancel_n n). rewrite !sexpm_S.
  replace (sderiv (fun m => sexpm v m g)) with (fun m => cadd (cmul v (sexpm v m g)) (sexpm v m (sderiv g))).
  - rewrite sexpm_lin, !IH. ring.
  - apply functional_extensionality. intros m. unfold sderiv at 2. now rewrite sexpm_S.
Qed.
Lemma sexpm_shift u n : forall g, sexpm u n (sshift g) = sshift (fun m => sexpm u m g) n.
Proof.
  induction n as [|n IH]; intros g; [reflexivity|]. apply (cancel_n n). rewrite sexpm_S.
  replace (sderiv (sshift g)) with (fun m => cadd (g m) (sshift (sderiv g) m)).
  - rewrite sexpm_add, !IH. cbn [sshift]. destruct n as [|n]; cbn [sshift].
    + cbn [sexpm]. unfold cn. cbn [INR]. replace (creal 1) with c1 by reflexivity. ring.
    + rewrite (cn_S (Datatypes.S n)). transitivity (cadd (cmul (cn (Datatypes.S n)) (sexpm u (Datatypes.S n) g)) (sexpm u (Datatypes.S n) g)); [|ring].
      rewrite sexpm_S. ring.
  - apply functional_extensionality. intros m. unfold sderiv. cbn [sshift]. rewrite cn_S. destruct m as [|m]; cbn [sshift].
    + unfold cn. cbn [INR]. replace (creal 0) with c0 by reflexivity. ring.
    + ring.
Qed.

(** the Taylor coefficients of (x+e)^j *)
Fixpoint pw (j : nat) (x : cx) (n : nat) : cx :=
  match j with
  | 0 => match n with 0 => c1 | _ => c0 end
  | Datatypes.S i => cadd (cmul x (pw i x n)) (match n with 0 => c0 | Datatypes.S m => pw i x m end)
  end.
Lemma pw_0 j : forall n, pw j c0 n = if n =? j then c1 else c0.
Proof.
  induction j as [|j IH]; intros n; [now destruct n|]. cbn [pw]. destruct n as [|n]; [cbn; ring|]. rewrite !IH. change (Datatypes.S n =? Datatypes.S j) with (n =? j). destruct (n =? j); ring.
Qed.
Lemma pw_deriv0 x n : cmul (cn (Datatypes.S n)) (pw 0 x (Datatypes.S n)) = c0.
Proof. cbn [pw]. ring. Qed.
Lemma pw_deriv j x : forall n, cmul (cn (Datatypes.S n)) (pw (Datatypes.S j) x (Datatypes.S n)) = cmul (cn (Datatypes.S j)) (pw j x n).
Proof.
  induction j as [|j IH]; intros n.
  - destruct n as [|n]; cbn [pw]; ring.
  - cbn [pw] in *. rewrite (cn_S (Datatypes.S j)).
    transitivity (cadd (cmul x (cmul (cn (Datatypes.S n)) (cadd (cmul x (pw j x (Datatypes.S n))) (pw j x n)))) (cmul (cn (Datatypes.S n)) (cadd (cmul x (pw j x n)) (match n with 0 => c0 | Datatypes.S m => pw j x m end)))); [ring|].
    rewrite (IH n). destruct n as [|n].
    + unfold cn at 2. cbn [INR]. replace (creal 1) with c1 by reflexivity. ring.
    + rewrite (cn_S (Datatypes.S n)).
      transitivity (cadd (cadd (cmul x (cmul (cn (Datatypes.S j)) (pw j x (Datatypes.S n)))) (cmul (cn (Datatypes.S n)) (cadd (cmul x (pw j x (Datatypes.S n))) (pw j x n)))) (cadd (cmul x (pw j x (Datatypes.S n))) (pw j x n))); [ring|].
      rewrite (IH n). ring.
Qed.
Lemma pw_scale j k x : forall n, cmul (cexp (cmul k (cn n))) (pw j (cmul (cexp k) x) n) = cmul (cexp (cmul k (cn j))) (pw j x n).
Proof.
  induction j as [|j IH]; intros n; cbn [pw].
  - destruct n as [|n]; [reflexivity|ring].
  - rewrite (cn_S j). replace (cmul k (cadd (cn j) c1)) with (cadd k (cmul k (cn j))) by ring. rewrite cexp_add. destruct n as [|n].
    + transitivity (cmul (cmul (cexp k) x) (cmul (cexp (cmul k (cn 0))) (pw j (cmul (cexp k) x) 0))); [ring|]. rewrite IH. ring.
    + transitivity (cadd (cmul (cmul (cexp k) x) (cmul (cexp (cmul k (cn (Datatypes.S n)))) (pw j (cmul (cexp k) x) (Datatypes.S n))))
                         (cmul (cexp (cmul k (cn (Datatypes.S n)))) (pw j (cmul (cexp k) x) n))); [ring|].
      rewrite IH. rewrite (cn_S n). replace (cmul k (cadd (cn n) c1)) with (cadd k (cmul k (cn n))) by ring. rewrite cexp_add.
      transitivity (cadd (cmul (cmul (cexp k) x) (cmul (cexp (cmul k (cn j))) (pw j x (Datatypes.S n)))) (cmul (cexp k) (cmul (cexp (cmul k (cn n))) (pw j (cmul (cexp k) x) n)))); [ring|].
      rewrite IH. ring.
Qed.

(** ** Local operators *)
Definition fin (F : (jp -> cx) -> cx) : Prop := exists r, forall g, F g = entries jp r g.
Lemma fin_0 : fin (fun _ => c0).
Proof. now exists []. Qed.
Lemma fin_at p : fin (fun g => g p).
Proof. exists [(c1, p)]. intros g. unfold entries. cbn [map fold_right fst snd]. ring. Qed.
Lemma fin_add F G : fin F -> fin G -> fin (fun g => cadd (F g) (G g)).
Proof.
  intros [r Hr] [s Hs]. exists (r ++ s). intros g. rewrite Hr, Hs. unfold entries. rewrite map_app.
  induction r as [|x r IH] in F, Hr |- *; cbn [map app fold_right]; [ring|].
  rewrite <- (IH (fun g => fold_right cadd c0 (map (fun wq => cmul (fst wq) (g (snd wq))) r))); [ring|reflexivity].
Qed.
Lemma fin_scale k F : fin F -> fin (fun g => cmul k (F g)).
Proof.
  intros [r Hr]. exists (map (fun wq => (cmul k (fst wq), snd wq)) r). intros g. rewrite Hr. unfold entries. rewrite cx_fold_add, !map_map.
  f_equal. apply map_ext. intros [w q]. cbn [fst snd]. ring.
Qed.
Lemma fin_sexpm u n : forall G : (jp -> cx) -> ser, (forall m, fin (fun g => G g m)) -> fin (fun g => sexpm u n (G g)).
Proof.
  induction n as [|n IH]; intros G H; [apply H|]. cbn [sexpm]. apply fin_scale, fin_add; [apply fin_scale, IH, H|]. apply (IH (fun g => sderiv (G g))).
  intros m. unfold sderiv. apply fin_scale, H.
Qed.
Definition row (g : jp -> cx) (x : cx) : ser := fun n => g (x, n).

Program Definition j_create : lo jp := Lo jp (fun g p => cadd (cmul (fst p) (row g (fst p) (snd p))) (sshift (row g (fst p)) (snd p))) _.
Next Obligation. apply fin_add; [apply fin_scale, fin_at|]. destruct (snd p); [apply fin_0|apply fin_at]. Qed.
Program Definition j_destroy : lo jp := Lo jp (fun g p => sderiv (row g (fst p)) (snd p)) _.
Next Obligation. apply fin_scale, fin_at. Qed.
Program Definition j_sigma (j k : nat) : lo jp := Lo jp (fun g p => cmul (cmul (isf j) (pw j (fst p) (snd p))) (cmul (sf k) (g (c0, k)))) _.
Next Obligation. apply fin_scale, fin_scale, fin_at. Qed.
Definition turn (u : cx) : cx := cexp (cmul ci u).
Program Definition j_phase (u : cx) : lo jp :=
  Lo jp (fun g p => cmul (cexp (cmul (cmul ci u) (cn (snd p)))) (g (cmul (turn u) (fst p), snd p))) _.
Next Obligation. apply fin_scale, fin_at. Qed.
Definition disp_weight (u x : cx) : cx := cexp (cadd (cmul (copp chalf) (cmul u (cconj u))) (cmul u x)).
Program Definition j_disp (u : cx) : lo jp :=
  Lo jp (fun g p => cmul (disp_weight u (fst p)) (sexpm u (snd p) (row g (cadd (fst p) (copp (cconj u)))))) _.
Next Obligation. apply fin_scale. apply (fin_sexpm u (snd p) (fun g => row g _)). intros m. apply fin_at. Qed.
Definition j_one : lo jp := mono jp (fun _ => c1) (fun p => p).
(** operators that use only the level *)
Program Definition j_lift (t : lo nat) : lo jp := Lo jp (fun g p => t (row g (fst p)) (snd p)) _.
Next Obligation.
  destruct (la_rows nat t (snd p)) as [r Hr]. exists (map (fun wq => (fst wq, (fst p, snd wq))) r). intros g. rewrite Hr. unfold entries. rewrite map_map. reflexivity.
Qed.
Lemma lift2 t s g p : j_lift t (j_lift s g) p = t (s (row g (fst p))) (snd p).
Proof. reflexivity. Qed.

Section Local.
  Context (g : jp -> cx).
  Ltac u := cbn [la j_create j_destroy j_sigma j_phase j_disp j_one j_lift mono fst snd].
  Lemma jet_ccr p : j_destroy (j_create g) p = cadd (g p) (j_create (j_destroy g) p).
  Proof.
    destruct p as [x n]. u. unfold sderiv, row. u. destruct n as [|n]; cbn [sshift].
    - unfold cn. cbn [INR]. replace (creal 1) with c1 by reflexivity. ring.
    - rewrite (cn_S (Datatypes.S n)). ring.
  Qed.
  Lemma jet_create_sigma j k p : j_create (j_sigma j k g) p = cmul (csqrt (qn (j + 1))) (j_sigma (j + 1) k g p).
  Proof.
    destruct p as [x n]. u. unfold row. u. rewrite <- (isf_S j). rewrite (Nat.add_1_r j). cbn [pw]. destruct n as [|n]; cbn [sshift]; ring.
  Qed.
  Lemma jet_destroy_sigma_0 k p : j_destroy (j_sigma 0 k g) p = c0.
  Proof. destruct p as [x n]. u. unfold sderiv, row. u. cbn [pw]. ring. Qed.
  Lemma jet_destroy_sigma j k p : j_destroy (j_sigma (j + 1) k g) p = cmul (csqrt (qn (j + 1))) (j_sigma j k g p).
  Proof.
    destruct p as [x n]. u. unfold sderiv, row. u. rewrite isf_S'. rewrite (Nat.add_1_r j).
    transitivity (cmul (cmul (cmul (csqrt (qn (Datatypes.S j))) (cmul (cinv (Datatypes.S j)) (isf j))) (cmul (cn (Datatypes.S n)) (pw (Datatypes.S j) x (Datatypes.S n)))) (cmul (sf k) (g (c0, k)))); [ring|].
    rewrite pw_deriv. transitivity (cmul (cmul (cn (Datatypes.S j)) (cinv (Datatypes.S j))) (cmul (csqrt (qn (Datatypes.S j))) (cmul (cmul (isf j) (pw j x n)) (cmul (sf k) (g (c0, k)))))); [ring|].
    rewrite cn_inv. ring.
  Qed.
  Lemma jet_sigma_destroy j k p : j_sigma k j (j_destroy g) p = cmul (csqrt (qn (j + 1))) (j_sigma k (j + 1) g p).
  Proof.
    destruct p as [x n]. u. unfold sderiv, row. rewrite sf_S.
    transitivity (cmul (cmul (csqrt (qn (j + 1))) (csqrt (qn (j + 1)))) (cmul (cmul (isf k) (pw k x n)) (cmul (sf j) (g (c0, j + 1))))); [|ring].
    rewrite csqrt_sq, cn_cQ, !Nat.add_1_r. ring.
  Qed.
  Lemma jet_sigma_create_0 k p : j_sigma k 0 (j_create g) p = c0.
  Proof. u. cbn [sshift]. ring. Qed.
  Lemma jet_sigma_create j k p : j_sigma k (j + 1) (j_create g) p = cmul (csqrt (qn (j + 1))) (j_sigma k j g p).
  Proof. u. rewrite sf_S, Nat.add_1_r. unfold row. cbn [sshift]. ring. Qed.
  Lemma jet_sigma_sigma a b c d p : j_sigma a b (j_sigma c d g) p = if b =? c then j_sigma a d g p else c0.
  Proof.
    u. rewrite pw_0. destruct (Nat.eqb_spec b c) as [<-|N]; [|ring].
    transitivity (cmul (cmul (isf b) (sf b)) (cmul (cmul (isf a) (pw a (fst p) (snd p))) (cmul (sf d) (g (c0, d))))); [ring|]. rewrite isf_sf. ring.
  Qed.
  Lemma turn_0 : turn c0 = c1.
  Proof. unfold turn. replace (cmul ci c0) with c0 by ring. apply cexp_0. Qed.
  Lemma turn_add v w : turn (cadd v w) = cmul (turn v) (turn w).
  Proof. unfold turn. replace (cmul ci (cadd v w)) with (cadd (cmul ci v) (cmul ci w)) by ring. apply cexp_add. Qed.
  Lemma jet_phase_0 p : j_phase c0 g p = g p.
  Proof.
    destruct p as [x n]. u. replace (cmul (cmul ci c0) (cn n)) with c0 by ring. rewrite cexp_0, turn_0. replace (cmul c1 x) with x by ring. ring.
  Qed.
  Lemma jet_phase_phase v w p : j_phase v (j_phase w g) p = j_phase (cadd v w) g p.
  Proof.
    destruct p as [x n]. u. replace (cmul (cmul ci (cadd v w)) (cn n)) with (cadd (cmul (cmul ci v) (cn n)) (cmul (cmul ci w) (cn n))) by ring.
    rewrite cexp_add, turn_add. replace (cmul (cmul (turn v) (turn w)) x) with (cmul (turn w) (cmul (turn v) x)) by ring. ring.
  Qed.
  Lemma jet_destroy_phase v p : j_destroy (j_phase v g) p = cmul (cexp (cmul ci v)) (j_phase v (j_destroy g) p).
  Proof.
    destruct p as [x n]. u. unfold sderiv, row. u.
    replace (cmul (cmul ci v) (cn (Datatypes.S n))) with (cadd (cmul ci v) (cmul (cmul ci v) (cn n))) by (rewrite cn_S; ring). rewrite cexp_add. ring.
  Qed.
  Lemma jet_phase_create v p : j_phase v (j_create g) p = cmul (cexp (cmul ci v)) (j_create (j_phase v g) p).
  Proof.
    destruct p as [x n]. u. unfold row. u. fold (turn v). destruct n as [|n]; cbn [sshift].
    - ring.
    - u. replace (cmul (cmul ci v) (cn (Datatypes.S n))) with (cadd (cmul ci v) (cmul (cmul ci v) (cn n))) by (rewrite cn_S; ring). rewrite cexp_add.
      fold (turn v). ring.
  Qed.
  Lemma jet_phase_sigma v j k p : j_phase v (j_sigma j k g) p = cmul (cexp (cmul (cmul ci v) (cQ (qn j)))) (j_sigma j k g p).
  Proof.
    destruct p as [x n]. u. rewrite cn_cQ. unfold turn.
    transitivity (cmul (cmul (isf j) (cmul (cexp (cmul (cmul ci v) (cn n))) (pw j (cmul (cexp (cmul ci v)) x) n))) (cmul (sf k) (g (c0, k)))); [ring|].
    rewrite pw_scale. ring.
  Qed.
  Lemma jet_sigma_phase v j k p : j_sigma k j (j_phase v g) p = cmul (cexp (cmul (cmul ci v) (cQ (qn j)))) (j_sigma k j g p).
  Proof. u. rewrite cn_cQ. replace (cmul (turn v) c0) with c0 by ring. ring. Qed.
  Lemma jet_disp_0 p : j_disp c0 g p = g p.
  Proof.
    destruct p as [x n]. u. rewrite sexpm_0. unfold disp_weight. replace (cadd (cmul (copp chalf) (cmul c0 (cconj c0))) (cmul c0 x)) with c0 by ring.
    rewrite cexp_0. unfold row. replace (cadd x (copp (cconj c0))) with x by (apply cx_eq; cbn; ring). ring.
  Qed.
  Lemma jet_disp_disp v w p : j_disp v (j_disp w g) p
    = cmul (cexp (cmul chalf (cadd (cmul v (cconj w)) (copp (cmul (cconj v) w))))) (j_disp (cadd v w) g p).
  Proof.
    destruct p as [x n]. u.
    transitivity (cmul (disp_weight v x) (sexpm v n (fun m => cmul (disp_weight w (cadd x (copp (cconj v)))) (sexpm w m (row g (cadd (cadd x (copp (cconj v))) (copp (cconj w)))))))); [reflexivity|].
    rewrite (sexpm_scale v n (disp_weight w (cadd x (copp (cconj v)))) (fun m => sexpm w m (row g (cadd (cadd x (copp (cconj v))) (copp (cconj w)))))), sexpm_sexpm.
    replace (cadd (cadd x (copp (cconj v))) (copp (cconj w))) with (cadd x (copp (cconj (cadd v w)))) by (rewrite cconj_add; ring).
    transitivity (cmul (cmul (disp_weight v x) (disp_weight w (cadd x (copp (cconj v))))) (sexpm (cadd v w) n (row g (cadd x (copp (cconj (cadd v w))))))); [ring|].
    transitivity (cmul (cmul (cexp (cmul chalf (cadd (cmul v (cconj w)) (copp (cmul (cconj v) w))))) (disp_weight (cadd v w) x)) (sexpm (cadd v w) n (row g (cadd x (copp (cconj (cadd v w))))))); [|ring].
    f_equal. unfold disp_weight. rewrite <- !cexp_add. f_equal. rewrite cconj_add.
    pose proof chalf_2 as H2. 
    transitivity (cadd (cadd (cmul (copp chalf) (cmul v (cconj v))) (cmul (copp chalf) (cmul w (cconj w)))) (cadd (cmul (cadd v w) x) (cmul (cadd chalf chalf) (copp (cmul w (cconj v)))))); [rewrite H2; ring|].
    ring.
  Qed.
  Lemma jet_destroy_disp v p : j_destroy (j_disp v g) p = j_disp v (fun q => cadd (j_destroy g q) (cmul v (g q))) p.
  Proof.
    destruct p as [x n]. u. unfold sderiv at 1. unfold row at 1. u.
    transitivity (cmul (disp_weight v x) (cmul (cn (Datatypes.S n)) (sexpm v (Datatypes.S n) (row g (cadd x (copp (cconj v))))))); [ring|]. rewrite sexpm_S. f_equal.
    rewrite <- sexpm_lin. f_equal. apply functional_extensionality. intros m. unfold row. u. unfold sderiv, row. ring.
  Qed.
  Lemma jet_disp_create v p : j_disp v (j_create g) p = cadd (j_create (j_disp v g) p) (cmul (copp (cconj v)) (j_disp v g p)).
  Proof.
    destruct p as [x n]. u. set (y := cadd x (copp (cconj v))).
    transitivity (cmul (disp_weight v x) (sexpm v n (fun m => cadd (cmul y (row g y m)) (sshift (row g y) m)))); [reflexivity|].
    rewrite sexpm_lin, sexpm_shift.
    transitivity (cadd (cadd (cmul x (cmul (disp_weight v x) (sexpm v n (row g y)))) (cmul (disp_weight v x) (sshift (fun m => sexpm v m (row g y)) n))) (cmul (copp (cconj v)) (cmul (disp_weight v x) (sexpm v n (row g y))))).
    - unfold y at 1. ring.
    - f_equal. f_equal.
      destruct n as [|n]; cbn [sshift]; [ring|]. reflexivity.
  Qed.
End Local.

Section Jet.
  Context {S : scalars} (r : cxreading S) (dim : nat -> option nat) (is_boson : nat -> bool).
  Context (Hb : forall l, is_boson l = true -> dim l = None).
  Local Notation size := (size dim).
  Definition sig (l j k : nat) : lo jp := if is_boson l then j_sigma j k else j_lift (n_sigma j k).
  Ltac open l := apply opr_eq; intros f x; cbn [fst snd amul aadd smul a0 a1 oprs_c sal alg oprs_star oprs both lmul ladd lsmul ap l0 l1]; rewrite ?(at_slice2 jp), ?(at_slice jp);
    try (rewrite (slice_id jp f x l)).
  Lemma slice_at l (t : lo jp) f x : slice (at_ jp l t f) x l = t (slice f x l).
  Proof. apply functional_extensionality. intros p. unfold slice at 1. rewrite at_slice, upd_same. f_equal. apply functional_extensionality. intros q. unfold slice. now rewrite upd_upd. Qed.
  Definition jet : interp S dim.
  Proof.
    refine {| rd := site_reading r jp; boson := fun l => is_boson l = true; displ := fun l => is_boson l = true; spin := fun l => dim l <> None;
      lives := lives_in jp;
      isym := fun n h => on_all jp h (j_lift (n_sigma n 0)) (j_lift (n_sigma 0 n));
      icreate := fun l => both jp l j_create j_destroy;
      idestroy := fun l => both jp l j_destroy j_create;
      isigma := fun j k l => both jp l (sig l j k) (sig l k j);
      iphase := fun u l => both jp l (j_phase u) (j_phase (copp (cconj u)));
      idisp := fun u l => both jp l (j_disp u) (j_disp (copp u));
      isqueeze := fun u l => both jp l j_one j_one;
      ijp := fun l => both jp l (j_lift (n_jp (size l))) (j_lift (n_jm (size l)));
      ijm := fun l => both jp l (j_lift (n_jm (size l))) (j_lift (n_jp (size l)));
      ijz := fun l => both jp l (j_lift (n_jz (size l))) (j_lift (n_jz (size l)));
      itrace := fun _ _ => a0 |}; cbn [cal site_reading].
    - exact Hb.
    - easy.
    - intros l H. destruct (dim l) as [n|]; [now exists n|contradiction].
    - intros h h' x. apply li_incl.
    - apply li_0.
    - apply li_1.
    - apply li_add.
    - apply li_mul.
    - apply li_smul.
    - apply li_star.
    - intros. apply li_0.
    - apply li_commute.
    - intros. apply on_all_lives.
    - intros. apply li_at. now left.
    - intros. apply li_at. now left.
    - intros. apply li_at. now left.
    - intros. apply li_at. now left.
    - intros. apply li_at. now left.
    - intros. apply li_at. now left.
    - intros. apply li_at. now left.
    - intros. apply li_at. now left.
    - intros. apply li_at. now left.
    - reflexivity.
    - reflexivity.
    - intros. cbn. unfold both. do 2 f_equal. f_equal. apply cx_eq; cbn; ring.
    - intros. cbn. unfold both. do 2 f_equal. f_equal. apply cx_eq; cbn; ring.
    - intros. cbn. reflexivity.
    - reflexivity.
    - reflexivity.
    - (* sigma sigma *) intros a b c d l _. unfold sig. destruct (is_boson l).
      + destruct (Nat.eqb_spec b c) as [<-|N]; open l; rewrite jet_sigma_sigma.
        * now rewrite Nat.eqb_refl.
        * now rewrite Nat.eqb_refl.
        * destruct (Nat.eqb_spec b c); [contradiction|reflexivity].
        * destruct (Nat.eqb_spec c b); [congruence|reflexivity].
      + destruct (Nat.eqb_spec b c) as [<-|N]; open l; rewrite lift2; cbn [la j_lift mono n_sigma].
        * rewrite Nat.eqb_refl. ring.
        * rewrite Nat.eqb_refl. ring.
        * destruct (Nat.eqb_spec b c); [contradiction|ring].
        * destruct (Nat.eqb_spec c b); [congruence|ring].
    - (* ccr *) intros l _. open l; apply jet_ccr.
    - intros j k l B. unfold sig. rewrite B. open l; [apply jet_create_sigma|]. rewrite csqrt_conj. apply jet_sigma_destroy.
    - intros k l B. unfold sig. rewrite B. open l; [apply jet_destroy_sigma_0|apply jet_sigma_create_0].
    - intros j k l B. unfold sig. rewrite B. open l; [apply jet_destroy_sigma|]. rewrite csqrt_conj. apply jet_sigma_create.
    - intros l _. open l; [apply jet_phase_0|]. change (j_phase (copp (cconj c0)) (slice f x l) (x l) = slice f x l (x l)).
      replace (copp (cconj c0)) with c0 by (apply cx_eq; cbn; ring). apply jet_phase_0.
    - intros u v l _. open l; [apply jet_phase_phase|]. rewrite cconj_add. etransitivity; [apply jet_phase_phase|]. do 2 f_equal. ring.
    - intros u l _. open l; [apply jet_destroy_phase|]. rewrite cexp_conj. etransitivity; [apply jet_phase_create|]. do 3 f_equal. apply cx_eq; cbn; ring.
    - intros u j k l B. unfold sig. rewrite B. open l; [apply jet_phase_sigma|]. rewrite cexp_conj. etransitivity; [apply jet_sigma_phase|]. do 2 f_equal. apply cx_eq; cbn; ring.
    - intros l _. open l; [apply jet_disp_0|]. change (j_disp (copp c0) (slice f x l) (x l) = slice f x l (x l)).
      replace (copp c0) with c0 by (apply cx_eq; cbn; ring). apply jet_disp_0.
    - intros u v l _. open l; [apply jet_disp_disp|]. etransitivity; [apply jet_disp_disp|].
      change (copp (@kadd (oprs_c jp) u v)) with (copp (cadd u v)). replace (cadd (copp v) (copp u)) with (copp (cadd u v)) by ring.
      f_equal. rewrite cexp_conj. f_equal. apply cx_eq; cbn; ring.
    - intros u l _. open l.
      + etransitivity; [apply jet_destroy_disp|]. f_equal. apply functional_extensionality. intros p.
        rewrite <- (slice_at l j_destroy f x). reflexivity.
      + etransitivity; [apply jet_disp_create|]. rewrite cconj_opp. cbn [la]. ring.
    - intros l _. open l; cbn [la j_one mono]; ring.
    - (* spin *) intros n m k l _ E Hm. unfold sig, size. rewrite E. destruct (is_boson l) eqn:B; [rewrite (Hb l B) in E; discriminate|].
      destruct (Nat.ltb_spec (m + 1) n) as [H|H]; open l; rewrite lift2.
      + now apply loc_jp_sigma.
      + rewrite csqrt_conj. now apply loc_sigma_jm.
      + now apply loc_jp_sigma_0.
      + now apply loc_sigma_jm_0.
    - intros n m k l _ E Hm. unfold sig, size. rewrite E. destruct (is_boson l) eqn:B; [rewrite (Hb l B) in E; discriminate|].
      destruct (Nat.eqb_spec m 0) as [-> |H]; open l; rewrite lift2.
      + apply loc_jm_sigma_0.
      + apply loc_sigma_jp_0.
      + now apply loc_jm_sigma.
      + rewrite csqrt_conj. now apply loc_sigma_jp.
    - intros n m k l _ E Hm. unfold sig, size. rewrite E. destruct (is_boson l) eqn:B; [rewrite (Hb l B) in E; discriminate|].
      open l; rewrite lift2; [now apply loc_jz_sigma|]. rewrite cQ_conj. now apply loc_sigma_jz.
    - intros l _. open l; [apply loc_jm_jp|]. rewrite ?cQ_conj. apply loc_jm_jp.
    - intros l _. open l; [apply loc_jz_jp|]. apply loc_jm_jz.
  Defined.
End Jet.
