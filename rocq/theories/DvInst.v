(** The interpretation by real functions: [iD] is the derivative of Coquelicot; symbol 0 is the
    product of its arguments, the others the sum; the other SymPy expressions are twice a symbol.
    The partial derivatives of polynomials commute. *)
From Coq Require Import List ZArith Bool Arith Reals Lra.
From Coquelicot Require Import Coquelicot.
From Verif Require Import Prelude DvModel DvSpec DvProofs.
Import ListNotations.
Local Open Scope nat_scope.

Definition rleaf (f : nat) (l : list R) : R := match f with 0 => fold_right Rmult 1%R l | _ => fold_right Rplus 0%R l end.
Definition rI : interp := {| iV := R; iA := R; izero := 0%R; iD := Derive; iD_ext := fun f g v H => Derive_ext f g v H; iD_const := fun a v => Derive_const a v;
  leafI := rleaf; otherI := fun k e => (2 * e k)%R; numI := IZR |}.
Definition rfree (k : nat) : list nat := [k].
Definition rstill (k x : nat) : bool := negb (k =? x).
Lemma rI_legal : legal rI rfree rstill.
Proof.
  split.
  - intros k e e' H. change ((2 * e k)%R = (2 * e' k)%R). f_equal. apply (H k). now left.
  - intros k x H e v. change ((2 * upd rI e x v k)%R = (2 * e k)%R). unfold upd. unfold rstill in H. destruct (k =? x); [discriminate|reflexivity].
Qed.

Inductive pexp := PV (x : nat) | PC (r : R) | PA (a b : pexp) | PM (a b : pexp).
Fixpoint peval (p : pexp) (e : nat -> R) : R := match p with PV x => e x | PC r => r | PA a b => (peval a e + peval b e)%R | PM a b => (peval a e * peval b e)%R end.
Fixpoint pdiff (x : nat) (p : pexp) : pexp :=
  match p with PV y => PC (if y =? x then 1 else 0)%R | PC _ => PC 0%R | PA a b => PA (pdiff x a) (pdiff x b) | PM a b => PA (PM (pdiff x a) b) (PM a (pdiff x b)) end.
Lemma peval_ext p e e' : (forall z, e z = e' z) -> peval p e = peval p e'.
Proof. intros H. induction p; cbn [peval]; [apply H|reflexivity|congruence|congruence]. Qed.
Lemma pdiff_ok x p e u : is_derive (fun v : R => peval p (upd rI e x v)) u (peval (pdiff x p) (upd rI e x u)).
Proof.
  induction p as [y|r|a IHa b IHb|a IHa b IHb]; cbn [peval pdiff].
  - unfold upd. destruct (y =? x); [exact (is_derive_id u)|exact (is_derive_const (e y : R) u)].
  - exact (is_derive_const r u).
  - exact (is_derive_plus _ _ u _ _ IHa IHb).
  - apply (is_derive_mult (fun v => peval a (upd rI e x v)) (fun v => peval b (upd rI e x v)) u _ _ IHa IHb). intros; apply Rmult_comm.
Qed.
Lemma partial_poly x (f : env rI -> R) p e : (forall e, f e = peval p e) -> partial rI x f e = peval (pdiff x p) e.
Proof.
  intros H. unfold partial. change (Derive (fun v => f (upd rI e x v)) (e x) = peval (pdiff x p) e).
  rewrite (Derive_ext _ (fun v => peval p (upd rI e x v))) by (intros; apply H).
  rewrite (is_derive_unique _ _ _ (pdiff_ok x p e (e x))). apply peval_ext. intros z. unfold upd. destruct (Nat.eqb_spec z x); [now subst|reflexivity].
Qed.
Lemma pdiff_comm x y p e : peval (pdiff x (pdiff y p)) e = peval (pdiff y (pdiff x p)) e.
Proof. induction p as [z|r|a IHa b IHb|a IHa b IHb]; cbn [peval pdiff]; [reflexivity|reflexivity|congruence|]. rewrite IHa, IHb. ring. Qed.
Definition pval (v : value) : pexp := match v with VSym y => PV y | VNum z => PC (IZR z) | VOther k => PM (PC 2%R) (PV k) end.
Lemma pval_ok v e : peval (pval v) e = vden rI v e.
Proof. now destruct v. Qed.
Fixpoint psub (vs : list (nat * value)) (p : pexp) : pexp :=
  match p with PV z => match dget vs z with Some v => pval v | None => PV z end | PC r => PC r | PA a b => PA (psub vs a) (psub vs b) | PM a b => PM (psub vs a) (psub vs b) end.
Lemma psub_ok vs p e : peval (psub vs p) e = peval p (at_point rI vs e).
Proof. induction p as [z|r|a IHa b IHb|a IHa b IHb]; cbn [peval psub]; [|reflexivity|congruence|congruence]. unfold at_point. destruct (dget vs z); [apply pval_ok|reflexivity]. Qed.
Definition poly (f : env rI -> R) : Prop := exists p, forall e, f e = peval p e.
Lemma rI_smooth : smooth rI poly.
Proof.
  split.
  - intros f g E [p H]. exists p. intros e. now rewrite <- E.
  - exists (PC 0%R). reflexivity.
  - intros f args. destruct f as [|f].
    + exists (fold_right PM (PC 1%R) (map pval args)). intros e. change (fold_right Rmult 1%R (map (fun v => vden rI v e) args) = peval (fold_right PM (PC 1%R) (map pval args)) e).
      induction args as [|v l IH]; [reflexivity|]. cbn [map fold_right peval]. now rewrite <- IH, pval_ok.
    + exists (fold_right PA (PC 0%R) (map pval args)). intros e. change (fold_right Rplus 0%R (map (fun v => vden rI v e) args) = peval (fold_right PA (PC 0%R) (map pval args)) e).
      induction args as [|v l IH]; [reflexivity|]. cbn [map fold_right peval]. now rewrite <- IH, pval_ok.
  - intros x f [p H]. exists (pdiff x p). intros e. now apply partial_poly.
  - intros vs f [p H]. exists (psub vs p). intros e. now rewrite psub_ok.
  - intros x y f e [p H]. rewrite (partial_poly x (partial rI y f) (pdiff y p)) by (intros; now apply partial_poly). rewrite (partial_poly y (partial rI x f) (pdiff x p)) by (intros; now apply partial_poly). apply pdiff_comm.
Qed.
