(** Adiabatic elimination: a two-level atom coupled with a parameter k. Operators are
    functions of k to 2x2 matrices of Gaussian rationals. *)
From Coq Require Import QArith Qcanon FunctionalExtensionality Lqa.
From Verif Require Import Prelude AlgSpec CAlg CInst OpPi MatModel SlhModel MatSpec SlhProofs1 AdModel AdSpec.
Local Open Scope nat_scope.

Definition PM : calgebra := pi_calg (fun _ : Qc => CM).
Definition cst (x : q2) : A PM := fun _ => x.
Definition pk : K PM := fun q => Gq q 0.
Lemma lin (b a y b' a' y' : q2) : (forall q : Qc,
    q2add (q2add b (q2smul (Gq q 0) a)) (q2smul (qmul (Gq q 0) (Gq q 0)) y) =
    q2add (q2add b' (q2smul (Gq q 0) a')) (q2smul (qmul (Gq q 0) (Gq q 0)) y')) -> b = b' /\ a = a' /\ y = y'.
Proof.
  assert (forall b a y b' a' y' : Qc, (b = b' -> b + a + y = b' + a' + y' -> b - a + y = b' - a' + y' -> a = a' /\ y = y')%Qc) as L.
  { clear. intros b a y b' a' y' -> H1 H2.
    assert (a + y = a' + y')%Qc as E1. { transitivity ((b' + a + y) - b')%Qc; [ring|]. rewrite H1. ring. }
    assert (y - a = y' - a')%Qc as E2. { transitivity ((b' - a + y) - b')%Qc; [ring|]. rewrite H2. ring. }
    assert (half + half = 1)%Qc as Hh by (apply Qc_is_canon; reflexivity).
    split.
    - transitivity (half * ((a + y) - (y - a)))%Qc; [|rewrite E1, E2].
      + transitivity ((half + half) * a)%Qc; [rewrite Hh|]; ring. + transitivity ((half + half) * a')%Qc; [|rewrite Hh]; ring.
    - transitivity (half * ((a + y) + (y - a)))%Qc; [|rewrite E1, E2].
      + transitivity ((half + half) * y)%Qc; [rewrite Hh|]; ring. + transitivity ((half + half) * y')%Qc; [|rewrite Hh]; ring. }
  intros H. pose proof (H 0%Qc) as H0. pose proof (H 1%Qc) as H1. pose proof (H (- (1))%Qc) as H2. clear H.
  assert (forall (r : q2 -> gq) (s : gq -> Qc), (forall x z, s (r (q2add x z)) = s (r x) + s (r z))%Qc -> (forall c x, s (r (q2smul (Gq c 0) x)) = c * s (r x))%Qc ->
    s (r b) = s (r b') /\ s (r a) = s (r a') /\ s (r y) = s (r y')) as G.
  { intros r s Ha Hm.
    assert (forall q : Qc, qmul (Gq q 0) (Gq q 0) = Gq (q * q) 0) as Q by (intros q; apply gq_eq; cbn; ring).
    rewrite !Q in H0, H1, H2.
    apply (f_equal (fun x => s (r x))) in H0, H1, H2. rewrite !Ha, !Hm in H0, H1, H2.
    assert (s (r b) = s (r b')) as E0. { transitivity (s (r b) + 0 * s (r a) + 0 * 0 * s (r y))%Qc; [ring|]. rewrite H0. ring. }
    split; [exact E0|]. apply (L (s (r b)) _ _ (s (r b'))); [exact E0| |].
    - transitivity (s (r b) + 1 * s (r a) + 1 * 1 * s (r y))%Qc; [ring|]. rewrite H1. ring.
    - transitivity (s (r b) + - (1) * s (r a) + - (1) * - (1) * s (r y))%Qc; [ring|]. rewrite H2. ring. }
  assert (forall r : q2 -> gq, (forall x z, r (q2add x z) = qadd (r x) (r z)) -> (forall c x, r (q2smul c x) = qmul c (r x)) -> r b = r b' /\ r a = r a' /\ r y = r y') as G2.
  { intros r Ha Hm. destruct (G r gre) as (A1 & A2 & A3); [intros; now rewrite Ha|intros; rewrite Hm; cbn; ring|].
    destruct (G r gim) as (B1 & B2 & B3); [intros; now rewrite Ha|intros; rewrite Hm; cbn; ring|].
    repeat split; apply gq_eq; assumption. }
  destruct (G2 q00) as (? & ? & ?); [reflexivity|reflexivity|]. destruct (G2 q01) as (? & ? & ?); [reflexivity|reflexivity|].
  destruct (G2 q10) as (? & ? & ?); [reflexivity|reflexivity|]. destruct (G2 q11) as (? & ? & ?); [reflexivity|reflexivity|].
  repeat split; apply q2_eq; assumption.
Qed.
Definition Ck : scaling PM.
Proof.
  refine {| kk := pk; const := fun x => exists m, x = cst m |}.
  - fx. apply gq_eq; cbn; ring.
  - intros x z [m ->] [m' ->]. now exists (aadd (a:=CM) m m').
  - intros x z [m ->] [m' ->]. now exists (amul (a:=CM) m m').
  - intros x [m ->]. now exists (star (s:=CM) m).
  - intros x [m ->]. now exists (smul (a:=CM) khalf m).
  - intros x [m ->]. now exists (smul (a:=CM) iu m).
  - intros b a y b' a' y' [mb ->] [ma ->] [my ->] [mb' ->] [ma' ->] [my' ->] H.
    destruct (lin mb ma my mb' ma' my') as (-> & -> & ->); [|auto]. intros q. exact (f_equal (fun F => F q) H).
Defined.

(** the coefficients of polynomials of degree two from the values at 0, 1, -1 *)
Definition minus (x : q2) : q2 := smul (a:=CM) (kopp k1) x.
Definition ser_k (o : nat) (x : A PM) : res (list (A PM)) :=
  let x0 := x 0%Qc in let x1 := x 1%Qc in let x2 := x (- (1))%Qc in
  match o with
  | 1 => Ok [cst x0; cst (q2add x1 (minus x0))]
  | 2 => Ok [cst x0; cst (q2smul (Gq half 0) (q2add x1 (minus x2))); cst (q2add (q2smul (Gq half 0) (q2add x1 x2)) (minus x0))]
  | _ => Err ValueError
  end.
Lemma cons_eq {X} (x y : X) l m : x = y -> l = m -> x :: l = y :: m.
Proof. now intros -> ->. Qed.
Lemma two0 : (1 + 1 <> 0)%Qc.
Proof. intros H. apply (f_equal (fun q => Qnum (this q))) in H. discriminate H. Qed.
Lemma half_inv : half = (/ (1 + 1))%Qc.
Proof. apply Qc_is_canon. reflexivity. Qed.
Lemma ser_k_ok : series_ok Ck ser_k.
Proof.
  split.
  - intros b a y cs [mb ->] [ma ->] [my ->] E. injection E as <-. unfold cst.
    apply cons_eq; [|apply cons_eq; [|apply cons_eq; [|reflexivity]]]; fx; apply q2_eq; apply gq_eq; cbn; rewrite ?half_inv; field; apply two0.
  - intros g f cs [mg ->] [mf ->] E. injection E as <-. unfold cst.
    apply cons_eq; [|apply cons_eq; [|reflexivity]]; fx; apply q2_eq; apply gq_eq; cbn; ring.
Qed.

(** sums of squares *)
Lemma sq0 (x : Qc) : (0 <= x * x)%Qc.
Proof. unfold Qcle, Qcmult. cbn [this Q2Qc]. rewrite !Qred_correct. generalize (this x). intros q. change (this 0%Qc) with 0%Q. nra. Qed.
Lemma sq_zero (x : Qc) : (x * x = 0)%Qc -> x = 0%Qc.
Proof. intros H. destruct (Qcmult_integral _ _ H); assumption. Qed.
Lemma nonneg_sum (x y : Qc) : (0 <= x -> 0 <= y -> x + y = 0 -> x = 0 /\ y = 0)%Qc.
Proof.
  intros Hx Hy H. assert (x = - y)%Qc as E. { transitivity (x + y - y)%Qc; [ring|]. rewrite H. ring. }
  assert (x <= 0)%Qc as Hx'. { rewrite E. apply Qcopp_le_compat in Hy. replace (- 0)%Qc with 0%Qc in Hy by reflexivity. exact Hy. }
  assert (x = 0)%Qc as -> by now apply Qcle_antisym. split; [reflexivity|]. rewrite <- H. ring.
Qed.
Lemma add_nonneg (x y : Qc) : (0 <= x -> 0 <= y -> 0 <= x + y)%Qc.
Proof. intros Hx Hy. replace 0%Qc with (0 + 0)%Qc by ring. now apply Qcplus_le_compat. Qed.
Definition nrm (x : gq) : Qc := (gre x * gre x + gim x * gim x)%Qc.
Lemma nrm0 x : (0 <= nrm x)%Qc.
Proof. apply add_nonneg; apply sq0. Qed.
Lemma nrm_zero x : nrm x = 0%Qc -> x = g0.
Proof. intros H. apply nonneg_sum in H as [H1 H2]; try apply sq0. apply gq_eq; now apply sq_zero. Qed.
Definition tr2 (x : q2) : Qc := (gre (q00 x) + gre (q11 x))%Qc.
Lemma tr2_sq x : tr2 (q2mul (q2star x) x) = (nrm (q00 x) + nrm (q10 x) + (nrm (q01 x) + nrm (q11 x)))%Qc.
Proof. unfold tr2, nrm. cbn. ring. Qed.
Lemma tr2_sq0 x : (0 <= tr2 (q2mul (q2star x) x))%Qc.
Proof. rewrite tr2_sq. apply add_nonneg; (apply add_nonneg; apply nrm0). Qed.
Lemma tr2_zero x : tr2 (q2mul (q2star x) x) = 0%Qc -> x = zero2.
Proof.
  rewrite tr2_sq. intros H. apply nonneg_sum in H as [H1 H2]; try (apply add_nonneg; apply nrm0).
  apply nonneg_sum in H1 as [? ?]; try apply nrm0. apply nonneg_sum in H2 as [? ?]; try apply nrm0.
  apply q2_eq; now apply nrm_zero.
Qed.
Lemma definite_CM : definite (M := CM).
Proof.
  assert (forall n (x : nat -> A CM), (0 <= tr2 (bigsum (M:=CM) n (fun j => amul (star (x j)) (x j))))%Qc /\
    (tr2 (bigsum (M:=CM) n (fun j => amul (star (x j)) (x j))) = 0%Qc -> forall j, j < n -> x j = a0)) as H.
  { intros n x. induction n as [|n [IH1 IH2]]; [split; [apply Qcle_refl|lia]|]. rewrite sm_S.
    assert (forall u v : q2, tr2 (q2add u v) = (tr2 u + tr2 v)%Qc) as T by (intros; unfold tr2; cbn; ring).
    change (aadd (a:=CM)) with q2add. rewrite T. split; [apply add_nonneg; [exact IH1|apply tr2_sq0]|].
    intros E. apply nonneg_sum in E as [E1 E2]; [|exact IH1|apply tr2_sq0]. intros j Hj.
    assert (j < n \/ j = n) as [Hj' | ->] by lia; [now apply IH2|]. now apply tr2_zero. }
  intros n x E. apply (H n x). rewrite E. reflexivity.
Qed.
Lemma definite_PM : definite (M := PM).
Proof.
  intros n x E j Hj. fx. apply (definite_CM n (fun j => x j x0)); [|exact Hj].
  transitivity (bigsum (M:=PM) n (fun j => amul (star (x j)) (x j)) x0); [|now rewrite E].
  clear. induction n as [|n IH]; [reflexivity|]. rewrite !sm_S, IH. reflexivity.
Qed.
