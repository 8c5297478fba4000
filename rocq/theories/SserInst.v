(** Values that are functions of an integer parameter x, with values in the Gaussian rationals:
    a concrete case of ScalarSpec and SserSpec. Atom 0 is x itself. *)
From Coq Require Import QArith Qcanon Ring_theory Ring FunctionalExtensionality.
From Verif Require Import Prelude CInst ScalarModel ScalarSpec ScalarInst SserModel SserSpec.
Local Open Scope nat_scope.

Local Notation gadd := CInst.qadd. Local Notation gmul := CInst.qmul. Local Notation gopp := CInst.qopp. Local Notation gconj := CInst.qconj.
Local Notation g0 := (Gq 0 0). Local Notation g1 := (Gq 1 0).
Add Ring GQx : CInst.qring.

Definition fatom (n : nat) : Z -> gq := if n =? 0 then gZ else fun _ => gatom n.
Ltac pt L := intros; apply functional_extensionality; intros ?x; first [apply L | eapply L; eauto].
Definition Fm : smeaning Gv.
Proof.
  refine {| sK := Z -> gq; q0 := fun _ => g0; q1 := fun _ => g1; ScalarSpec.qadd := fun f g x => gadd (f x) (g x); ScalarSpec.qmul := fun f g x => gmul (f x) (g x);
     ScalarSpec.qopp := fun f x => gopp (f x); ScalarSpec.qconj := fun f x => gconj (f x); qhalfi := fun _ => @vhalfI Gv;
     vden := fun (v : pv Gv) _ => v; aden := fatom; isint := fun f => forall x, @isint Gv Gm (f x); qpow := fun f g x => qpow_g (f x) (g x); dom := fun f g => forall x, @dom Gv Gm (f x) (g x) |}.
  - constructor; intros; apply functional_extensionality; intros zz; ring.
  - pt (qconj_add Gv Gm).
  - pt (qconj_mul Gv Gm).
  - pt (qconj_0 Gv Gm).
  - pt (qconj_1 Gv Gm).
  - pt (qconj_inv Gv Gm).
  - intros a b H. apply functional_extensionality. intros x. exact (vden_eq Gv Gm a b H).
  - pt (vden_0 Gv Gm).
  - pt (vden_1 Gv Gm).
  - pt (vden_2 Gv Gm).
  - pt (vden_m1 Gv Gm).
  - reflexivity.
  - reflexivity.
  - reflexivity.
  - reflexivity.
  - reflexivity.
  - reflexivity.
  - intros x. apply (isint_1 Gv Gm).
  - intros a H x. now apply (isint_opp Gv Gm).
  - intros a b H H' x. now apply (isint_add Gv Gm).
  - intros a b H H' x. now apply (isint_mul Gv Gm).
  - intros a H x. now apply (isint_conj Gv Gm).
  - pt (pow_0 Gv Gm).
  - pt (pow_1 Gv Gm).
  - intros y H. apply functional_extensionality. intros x. exact (pow_1l Gv Gm _ (H x)).
  - intros f x. exact (dom_2 Gv Gm (f x)).
  - pt (pow_2 Gv Gm).
  - intros f y z H H' x. exact (dom_add Gv Gm _ _ _ (H x) (H' x)).
  - intros f y z H H'. apply functional_extensionality. intros x. exact (pow_add Gv Gm _ _ _ (H x) (H' x)).
  - intros f y z H H' Hz x. exact (dom_mul Gv Gm _ _ _ (H x) (H' x) (Hz x)).
  - intros f y z H H' Hz. apply functional_extensionality. intros x. exact (pow_mul Gv Gm _ _ _ (H x) (H' x) (Hz x)).
  - intros f H. apply functional_extensionality. intros x. exact (pow_inv Gv Gm _ (H x)).
  - intros f y H x. exact (dom_conj Gv Gm _ _ (H x)).
  - intros f y H. apply functional_extensionality. intros x. exact (pow_conj Gv Gm _ _ (H x)).
  - intros a b c E H. apply functional_extensionality. intros x. exact (vden_div Gv Gm a b c E (H x)).
  - intros a b c E H. apply functional_extensionality. intros x. exact (vden_pow Gv Gm a b c E (H x)).
  - intros c E. apply functional_extensionality. intros x. exact (vfdiv_11 Gv Gm c E).
Defined.

(** ** polynomials that vanish have no coefficients *)
Fixpoint evalg (cs : list gq) (x : Z) : gq := match cs with [] => g0 | c :: l => gadd c (gmul (gZ x) (evalg l x)) end.
Fixpoint spreadg (p : Z) (cs : list gq) : list gq := match cs with [] => [] | c :: l => gmul (gZ (p - 1)) c :: spreadg (2 * p) l end.
Lemma gZ_sub a b : gZ (a - b) = gadd (gZ a) (gopp (gZ b)).
Proof. unfold Z.sub. now rewrite gZ_add, gZ_opp. Qed.
Lemma spreadg_eval cs : forall p x, evalg (spreadg p cs) x = gadd (gmul (gZ p) (evalg cs (2 * x))) (gopp (evalg cs x)).
Proof.
  induction cs as [|c l IH]; intros p x; cbn [evalg spreadg]; [ring|]. rewrite IH, gZ_sub, !gZ_mul, gZ_1. ring.
Qed.
Lemma spreadg_length cs : forall p, length (spreadg p cs) = length cs.
Proof. induction cs; intros; cbn; congruence. Qed.
Lemma gmul_Z_0 z c : z <> 0%Z -> gmul (gZ z) c = g0 -> c = g0.
Proof.
  intros H E. assert (gZ z <> g0) as N by (intros F; apply H; apply gZ_inj; rewrite F; symmetry; exact gZ_0).
  apply (gmul_cancel (gZ z)); [exact N|]. rewrite E. ring.
Qed.
Lemma spreadg_zero cs : forall p, (1 < p)%Z -> Forall (fun z => z = g0) (spreadg p cs) -> Forall (fun z => z = g0) cs.
Proof.
  induction cs as [|c l IH]; intros p Hp H; [constructor|]. cbn [spreadg] in H. constructor.
  - exact (gmul_Z_0 (p - 1) c ltac:(lia) (Forall_inv H)).
  - exact (IH (2 * p)%Z ltac:(lia) (Forall_inv_tail H)).
Qed.
Lemma evalg_zeros cs x : Forall (fun z => z = g0) cs -> evalg cs x = g0.
Proof. induction 1 as [|z l Hz _ IH]; [reflexivity|]. cbn [evalg]. rewrite Hz, IH. ring. Qed.
Lemma evalg_zero n : forall cs, length cs = n -> (forall x, x <> 0%Z -> evalg cs x = g0) -> Forall (fun z => z = g0) cs.
Proof.
  induction n as [|n IH]; intros [|c l] Hn H; try discriminate; [constructor|].
  assert (Forall (fun z => z = g0) l) as Hl.
  { apply (spreadg_zero l 2 ltac:(lia)). apply IH; [rewrite spreadg_length; now injection Hn|].
    intros x Hx. apply (gmul_Z_0 x); [exact Hx|]. rewrite spreadg_eval.
    pose proof (H x Hx) as H1. pose proof (H (2 * x)%Z ltac:(lia)) as H2. cbn [evalg] in H1, H2. rewrite gZ_mul in H2.
    transitivity (gadd (gadd c (gmul (gmul (gZ 2) (gZ x)) (evalg l (2 * x)))) (gopp (gadd c (gmul (gZ x) (evalg l x))))); [ring|]. rewrite H1, H2. ring. }
  constructor; [|exact Hl]. specialize (H 1%Z ltac:(lia)). cbn [evalg] in H. rewrite (evalg_zeros l _ Hl) in H. rewrite <- H. ring.
Qed.
Fixpoint addg (cs ds : list gq) : list gq := match cs, ds with [], _ => ds | _, [] => cs | c :: cs', d :: ds' => gadd c d :: addg cs' ds' end.
Fixpoint mulg (cs ds : list gq) : list gq := match cs with [] => [] | c :: cs' => addg (map (gmul c) ds) (g0 :: mulg cs' ds) end.
Lemma addg_eval cs : forall ds x, evalg (addg cs ds) x = gadd (evalg cs x) (evalg ds x).
Proof. induction cs as [|c cs IH]; intros [|d ds] x; cbn [addg evalg]; try ring. rewrite IH. ring. Qed.
Lemma mapg_eval c ds x : evalg (map (gmul c) ds) x = gmul c (evalg ds x).
Proof. induction ds as [|d ds IH]; cbn [map evalg]; [ring|]. rewrite IH. ring. Qed.
Lemma mulg_eval cs ds x : evalg (mulg cs ds) x = gmul (evalg cs x) (evalg ds x).
Proof. induction cs as [|c cs IH]; cbn [mulg]; [cbn [evalg]; ring|]. rewrite addg_eval, mapg_eval. cbn [evalg]. rewrite IH. ring. Qed.

Definition Fp : sparam Fm.
Proof.
  refine {| spt := gZ : sK Fm; scst := fun f : sK Fm => exists c : gq, forall x, f x = c; sreg := fun f : sK Fm => exists cs : list gq, forall x, f x = evalg cs x |}.
  - now exists g0.
  - now exists g1.
  - intros f g [c Hc] [d Hd]. exists (gadd c d). intros x. change (gadd (f x) (g x) = gadd c d). now rewrite Hc, Hd.
  - intros f g [c Hc] [d Hd]. exists (gmul c d). intros x. change (gmul (f x) (g x) = gmul c d). now rewrite Hc, Hd.
  - intros f [c Hc]. exists (gopp c). intros x. change (gopp (f x) = gopp c). now rewrite Hc.
  - intros f [c Hc]. exists [c]. intros x. rewrite Hc. cbn [evalg]. ring.
  - intros f g [c Hc] [d Hd]. exists (addg c d). intros x. rewrite addg_eval. change (gadd (f x) (g x) = gadd (evalg c x) (evalg d x)). now rewrite Hc, Hd.
  - intros f g [c Hc] [d Hd]. exists (mulg c d). intros x. rewrite mulg_eval. change (gmul (f x) (g x) = gmul (evalg c x) (evalg d x)). now rewrite Hc, Hd.
  - exists [g0; g1]. intros x. cbn [evalg]. ring.
  - intros f g [c Hc] [d Hd] E. assert (forall x, evalg (c :: d) x = g0) as H.
    { intros x. cbn [evalg]. rewrite <- Hd, <- (Hc x). exact (f_equal (fun h : Z -> gq => h x) E). }
    assert (Forall (fun z => z = g0) (c :: d)) as F by (apply (evalg_zero (length (c :: d))); [reflexivity|intros x _; apply H]). split.
    + apply functional_extensionality. intros x. rewrite Hc. exact (Forall_inv F).
    + apply functional_extensionality. intros x. rewrite Hd. exact (evalg_zeros d x (Forall_inv_tail F)).
Defined.

(** ** A SymPy: the number i is a SymPy object, whose series is itself *)
Definition isympy (v : pv Gv) : bool := gq_eqb v (Gq 0 1).
Definition iterms (v : pv Gv) (order : nat) : list (pv Gv * option Z) := [(v, Some 0%Z)].
Definition iint (v : pv Gv) : res Z := match int_of v with Some z => Ok z | None => Err TypeError end.
Definition iseries (order : nat) (k : nat) : res (list (scal Gv)) :=
  if k =? 0 then match order with 0 => Ok [SZero] | S m => Ok (SZero :: SOne :: repeat SZero m) end else Ok (SAtom k :: repeat SZero order).
