(** Complex *-algebras: a *-algebra whose scalars contain the imaginary unit and
    one half (the scalars [sympy.I] and [1/2] of the code). *)
From Coq Require Import List Setoid ZArith Ring_theory Ring.
From Verif Require Import AlgSpec.
Import ListNotations.

Record calgebra := mk_calg {
  sal :> star_algebra;
  iu : K sal; khalf : K sal;
  iu_sq : kmul iu iu = kopp k1;
  iu_conj : kconj iu = kopp iu;
  khalf_2 : kadd khalf khalf = k1 }.
Arguments iu {_}. Arguments khalf {_}.

Section Laws.
  Context (M : calgebra).
  Add Ring Kr : (kring M).
  Implicit Types x y z : A M.
  Lemma kconj_0 : kconj (@k0 M) = k0.
  Proof.
    assert (kadd (kconj (@k0 M)) (kconj k0) = kconj k0) as H.
    { rewrite <- kconj_add. f_equal. ring. }
    transitivity (kadd (kadd (kconj (@k0 M)) (kconj k0)) (kopp (kconj k0))); [ring|]. rewrite H. ring.
  Qed.
  Lemma kconj_opp c : kconj (kopp c) = kopp (@kconj M c).
  Proof.
    assert (kadd (kconj (kopp c)) (kconj c) = @k0 M) as H.
    { rewrite <- kconj_add. rewrite <- kconj_0. f_equal. ring. }
    transitivity (kadd (kadd (kconj (kopp c)) (kconj c)) (kopp (@kconj M c))); [ring|]. rewrite H. ring.
  Qed.
  Lemma khalf_unique c : kadd c c = @k1 M -> c = khalf.
  Proof.
    intros H. transitivity (kmul (kadd c c) (@khalf M)).
    - transitivity (kmul c (kadd khalf (@khalf M))); [rewrite khalf_2|]; ring.
    - rewrite H. ring.
  Qed.
  Lemma khalf_conj : kconj (@khalf M) = khalf.
  Proof. apply khalf_unique. rewrite <- kconj_add, khalf_2. apply kconj_1. Qed.
  Lemma star_0 : star (@a0 M) = a0.
  Proof.
    transitivity (star (smul k0 (@a0 M))); [now rewrite smul_0|]. rewrite star_smul, kconj_0. apply smul_0.
  Qed.
  Lemma star_asum {X} (f : X -> A M) l : star (asum f l) = asum (fun v => star (f v)) l.
  Proof.
    induction l as [|v l IH]; [apply star_0|]. rewrite !asum_cons, star_add, IH. reflexivity.
  Qed.
  Definition aopp x : A M := smul (kopp k1) x.
  Lemma aopp_r x : aadd x (aopp x) = a0.
  Proof. apply aadd_opp. Qed.
  Lemma aopp_l x : aadd (aopp x) x = a0.
  Proof. rewrite aadd_comm. apply aadd_opp. Qed.
  Lemma smul_opp c x : smul (kopp c) x = aopp (smul c x).
  Proof. unfold aopp. rewrite <- smul_mul. f_equal. ring. Qed.
  Lemma aopp_opp x : aopp (aopp x) = x.
  Proof. unfold aopp. rewrite <- smul_mul. transitivity (smul k1 x); [f_equal; ring|apply smul_1]. Qed.
  Lemma aopp_add x y : aopp (aadd x y) = aadd (aopp x) (aopp y).
  Proof. apply smul_addr. Qed.
  Lemma aopp_mul_l x y : amul (aopp x) y = aopp (amul x y).
  Proof. apply smul_amul_l. Qed.
  Lemma aopp_mul_r x y : amul x (aopp y) = aopp (amul x y).
  Proof. apply smul_amul_r. Qed.
  Lemma aopp_0 : aopp a0 = @a0 M.
  Proof. apply smul_zero. Qed.
  Lemma star_opp x : star (aopp x) = aopp (star x).
  Proof. unfold aopp. rewrite star_smul, kconj_opp, kconj_1. reflexivity. Qed.
  Lemma aopp_asum {X} (f : X -> A M) l : asum (fun v => aopp (f v)) l = aopp (asum f l).
  Proof. apply asum_smul. Qed.
  Lemma smul_inj_iu x y : smul iu x = smul iu y -> x = y.
  Proof.
    intros H. apply (f_equal (smul iu)) in H. rewrite <- !smul_mul, iu_sq in H.
    apply (f_equal aopp) in H. change (aopp (aopp x) = aopp (aopp y)) in H. now rewrite !aopp_opp in H.
  Qed.
End Laws.
Arguments aopp {M} x.
