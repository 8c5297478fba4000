(** Coefficients that can be computed with: expressions in symbols, folded where
    all parts are numbers. Used for examples. *)
From Coq Require Import Reals QArith Qcanon Qreals Ring Lra.
From Verif Require Import Prelude Cplx OpModel OpSpec OpSites.
Local Open Scope nat_scope.
Add Ring Crx : cring.

Inductive sx := XQ (q : Qc) | XI | XVar (n : nat) | XAdd (a b : sx) | XMul (a b : sx) | XConj (a : sx) | XExp (a : sx) | XSqrt (q : Qc).
Definition qeqb (p q : Qc) : bool := Qeq_bool (this p) (this q).
Lemma qeqb_eq p q : qeqb p q = true -> p = q.
Proof. intros H. apply Qc_is_canon. now apply Qeq_bool_iff. Qed.
Fixpoint sx_eqb (a b : sx) : bool :=
  match a, b with
  | XQ p, XQ q => qeqb p q
  | XI, XI => true
  | XVar n, XVar m => n =? m
  | XAdd a b, XAdd c d => sx_eqb a c && sx_eqb b d
  | XMul a b, XMul c d => sx_eqb a c && sx_eqb b d
  | XConj a, XConj b => sx_eqb a b
  | XExp a, XExp b => sx_eqb a b
  | XSqrt p, XSqrt q => qeqb p q
  | _, _ => false
  end.
Lemma sx_eqb_eq a : forall b, sx_eqb a b = true -> a = b.
Proof.
  induction a; intros []; cbn [sx_eqb]; intros H; try discriminate; try reflexivity;
    try (apply andb_prop in H; destruct H); f_equal; auto; try (now apply qeqb_eq). now apply Nat.eqb_eq.
Qed.
Definition x_is (q : Qc) (a : sx) : bool := match a with XQ p => qeqb p q | _ => false end.
Lemma x_is_eq q a : x_is q a = true -> a = XQ q.
Proof. destruct a; try discriminate. cbn [x_is]. intros H. apply qeqb_eq in H. now subst. Qed.
Definition x_add (a b : sx) : sx :=
  if x_is 0 a then b else if x_is 0 b then a else match a, b with XQ p, XQ q => XQ (p + q)%Qc | _, _ => XAdd a b end.
Definition x_mul (a b : sx) : sx :=
  if x_is 0 a then XQ 0%Qc else if x_is 0 b then XQ 0%Qc else if x_is 1 a then b else if x_is 1 b then a else
  match a, b with
  | XQ p, XQ q => XQ (p * q)%Qc
  | XSqrt p, XSqrt q => if qeqb p q && Qle_bool 0 p then XQ p else XMul a b
  | _, _ => XMul a b
  end.
Definition x_neg (a : sx) : sx := x_mul (XQ (- (1))%Qc) a.
Fixpoint x_conj (a : sx) : sx :=
  match a with
  | XQ q => XQ q
  | XI => x_neg XI
  | XVar n => XConj (XVar n)
  | XAdd a b => x_add (x_conj a) (x_conj b)
  | XMul a b => x_mul (x_conj a) (x_conj b)
  | XConj a => a
  | XExp a => XExp (x_conj a)
  | XSqrt q => XSqrt q
  end.
Definition x_exp (a : sx) : sx := if x_is 0 a then XQ 1%Qc else XExp a.
Definition x_sqrt (q : Qc) : sx := if qeqb q 0 then XQ 0%Qc else if qeqb q 1 then XQ 1%Qc else if qeqb q (qn 4) then XQ (qn 2) else XSqrt q.
Definition Sx : scalars :=
  {| sc := sx; seqb := sx_eqb; sQ := XQ; sadd := x_add; ssub := fun a b => x_add a (x_neg b); smult := x_mul; sneg := x_neg;
     sdiv2 := x_mul (XQ (/ qn 2)%Qc); sconj := x_conj; sI := XI; sexp := x_exp; ssqrt := x_sqrt |}.

Section Value.
  Context (v : nat -> cx).
  Fixpoint x_val (a : sx) : cx :=
    match a with
    | XQ q => cQ q
    | XI => ci
    | XVar n => v n
    | XAdd a b => cadd (x_val a) (x_val b)
    | XMul a b => cmul (x_val a) (x_val b)
    | XConj a => cconj (x_val a)
    | XExp a => cexp (x_val a)
    | XSqrt q => csqrt q
    end.
  Lemma x_add_val a b : x_val (x_add a b) = cadd (x_val a) (x_val b).
  Proof.
    unfold x_add. destruct (x_is 0 a) eqn:E; [rewrite (x_is_eq _ _ E); cbn [x_val]; rewrite cQ_0; ring|].
    destruct (x_is 0 b) eqn:E2; [rewrite (x_is_eq _ _ E2); cbn [x_val]; rewrite cQ_0; ring|].
    destruct a; try reflexivity. destruct b; try reflexivity. cbn [x_val]. apply cQ_add.
  Qed.
  Lemma x_sqrt_sq p : Qle_bool 0 (this p) = true -> cmul (csqrt p) (csqrt p) = cQ p.
  Proof.
    intros H. unfold csqrt, cQ. rewrite <- creal_mul, sqrt_sqrt; [reflexivity|]. apply Qle_bool_iff in H.
    apply Qle_Rle in H. replace 0%R with (Q2R 0) by (unfold Q2R; cbn; field). exact H.
  Qed.
  Lemma x_mul_val a b : x_val (x_mul a b) = cmul (x_val a) (x_val b).
  Proof.
    unfold x_mul. destruct (x_is 0 a) eqn:E; [rewrite (x_is_eq _ _ E); cbn [x_val]; rewrite cQ_0; ring|].
    destruct (x_is 0 b) eqn:E2; [rewrite (x_is_eq _ _ E2); cbn [x_val]; rewrite cQ_0; ring|].
    destruct (x_is 1 a) eqn:E3; [rewrite (x_is_eq _ _ E3); cbn [x_val]; rewrite cQ_1; ring|].
    destruct (x_is 1 b) eqn:E4; [rewrite (x_is_eq _ _ E4); cbn [x_val]; rewrite cQ_1; ring|].
    destruct a; try reflexivity; destruct b; try reflexivity; cbn [x_val].
    - apply cQ_mul.
    - destruct (qeqb q q0) eqn:Eq1; [|reflexivity]. apply qeqb_eq in Eq1. subst q0. cbn [andb].
      destruct (Qle_bool 0 q) eqn:El; [|reflexivity]. cbn [x_val]. symmetry. now apply x_sqrt_sq.
  Qed.
  Lemma cQ_m1 : cQ (- (1))%Qc = copp c1.
  Proof. apply cx_eq; cbn; [unfold Q2R; cbn; field|ring]. Qed.
  Lemma x_neg_val a : x_val (x_neg a) = copp (x_val a).
  Proof. unfold x_neg. rewrite x_mul_val. cbn [x_val]. rewrite cQ_m1. ring. Qed.
  Lemma x_conj_val a : x_val (x_conj a) = cconj (x_val a).
  Proof.
    induction a; cbn [x_conj x_val].
    - symmetry. apply cconj_real.
    - rewrite x_neg_val. apply cx_eq; cbn; ring.
    - reflexivity.
    - rewrite x_add_val, cconj_add. congruence.
    - rewrite x_mul_val, cconj_mul. congruence.
    - now rewrite cconj_conj.
    - now rewrite cexp_conj, IHa.
    - symmetry. apply cconj_real.
  Qed.
  Lemma csqrt_4 : csqrt (qn 4) = cQ (qn 2).
  Proof.
    apply cx_eq; [|reflexivity]. cbn [cre csqrt cQ creal]. replace (Q2R (qn 4)) with (4%R) by (unfold Q2R; cbn; field).
    replace (Q2R (qn 2)) with 2%R by (unfold Q2R; cbn; field). replace 4%R with (2 * 2)%R by ring. apply sqrt_square. lra.
  Qed.
  Definition sx_reading : cxreading Sx.
  Proof.
    refine {| cev := x_val : Sx -> cx |}; cbn [seqb sQ sadd ssub smult sneg sdiv2 sconj sI sexp ssqrt Sx].
    - intros a b H. now rewrite (sx_eqb_eq _ _ H).
    - reflexivity.
    - apply x_add_val.
    - intros. now rewrite x_add_val, x_neg_val.
    - apply x_mul_val.
    - apply x_neg_val.
    - intros. rewrite x_mul_val. f_equal. apply cx_eq; cbn; [unfold Q2R; cbn; field|ring].
    - apply x_conj_val.
    - reflexivity.
    - intros. unfold x_exp. destruct (x_is 0 a) eqn:E; [|reflexivity]. rewrite (x_is_eq _ _ E). cbn [x_val]. rewrite cQ_0, cexp_0. apply cQ_1.
    - intros q. unfold x_sqrt. destruct (qeqb q 0) eqn:E.
      { apply qeqb_eq in E. subst q. cbn [x_val]. apply cx_eq; cbn [cre cim cQ csqrt creal]; [|reflexivity].
        replace (Q2R 0%Qc) with 0%R by (unfold Q2R; cbn; field). now rewrite sqrt_0. }
      destruct (qeqb q 1) eqn:E1.
      { apply qeqb_eq in E1. subst q. cbn [x_val]. apply cx_eq; cbn [cre cim cQ csqrt creal]; [|reflexivity].
        replace (Q2R 1%Qc) with 1%R by (unfold Q2R; cbn; field). now rewrite sqrt_1. }
      destruct (qeqb q (qn 4)) eqn:E4; [|reflexivity]. apply qeqb_eq in E4. subst q. symmetry. apply csqrt_4.
  Defined.
End Value.
