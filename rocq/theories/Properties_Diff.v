(** C54: the derivative of an operator with respect to a scalar symbol.
    [diff dep dS simp sym_dep sym_moves dname same K m n times tidy e] is
    [e.diff(sym, times, expand_simplify=tidy)] with the simplifier [K]; [code] is the
    simplifier as it is, [checked] the same, undefined where the sorting of the factors
    of a product moves an operator past one that shares a local space with it. [m] and [n]
    bound the depth of the recursion. [derivation], [nth_derivative]: DiffSpec. *)
From Coq Require Import Reals QArith Qcanon Ring Lra.
From Verif Require Import Prelude ListFacts BinModel AlgSpec CAlg Cplx OpModel OpSpec OpForms OpProofs1 OpProofs2 OpProofs3 OpFuel OpOrder OpLocal OpSites OpFock OpSx OpRun OpPi OpSeriesInst DiffModel DiffSpec DiffCode DiffProofs DiffInst Properties_Op1.
Local Open Scope nat_scope.

Section Diff.
  Context {S : scalars} {dim : nat -> option nat} {I : interp S dim} (D : derivation I).
  Context (olt : op S -> op S -> bool) (slt : list nat -> list nat -> bool).
  Local Notation code := (code dim olt slt).
  Local Notation checked := (checked dim olt slt).
  Context (dep : S -> bool) (dS simp : S -> S) (sym_dep sym_moves : nat -> bool) (dname : atom S -> nat) (same : op S -> op S -> bool).
  Context (HS : sympy_diff D dep dS simp) (HY : symbols_diff D dep sym_dep sym_moves dname).
  Local Notation diff := (diff dep dS simp sym_dep sym_moves dname same).
  Local Notation depends := (depends dep sym_dep).

  (** the value of the result is the derivative of the value *)
  Theorem C54_diff_value m n k times tidy e d :
    legal I e -> times <> 0 -> diff (checked k) m n times tidy e = Ok d ->
    diff (code k) m n times tidy e = Ok d /\ legal I d /\ nth_derivative D times (value I e) (value I d).
  Proof.
    intros L Ht H. split.
    - exact (le_ok _ _ _ (diff_mono dep dS simp sym_dep sym_moves dname same _ _ (checked_le olt slt k) m n times tidy e) H).
    - exact (diff_sound D dep dS simp sym_dep sym_moves dname same HS HY _ (checked_sound I olt slt k) m n times tidy e d L Ht H).
  Qed.
  (** operators on one local space: nothing needs to be checked *)
  Theorem C54_local_diff_value s m n k times tidy e d :
    good_orders olt slt -> local_to s e ->
    legal I e -> times <> 0 -> diff (code k) m n times tidy e = Ok d ->
    local_to s d /\ legal I d /\ nth_derivative D times (value I e) (value I d).
  Proof.
    intros Ho Hloc L Ht H.
    destruct (diff_agree s dep dS simp sym_dep sym_moves dname same _ _ (local_agree s dim olt slt Ho k) m n times tidy e Hloc) as [E G].
    assert (diff (checked k) m n times tidy e = Ok d) as H' by (rewrite <- H; exact E). pose proof (G d H') as HL.
    destruct (C54_diff_value m n k times tidy e d L Ht H') as [_ [Ld X]]. auto.
  Qed.
  (** the first derivative, and the derivative of order t+1 as the derivative of order t
      of the first derivative *)
  Theorem C54_first m n k tidy e d :
    legal I e -> diff (checked k) m n 1 tidy e = Ok d -> legal I d /\ dA D (value I e) (value I d).
  Proof.
    intros L H. destruct (C54_diff_value m n k 1 tidy e d L ltac:(lia) H) as [_ [Ld [y [Hy E]]]]. cbn [nth_derivative] in E. rewrite E. now split.
  Qed.
  Theorem C54_iterated m n k m' n' k' m1 n1 k1 t tidy tidy' tidy1 e d d1 d2 :
    legal I e -> t <> 0 ->
    diff (checked k) m n (Datatypes.S t) tidy e = Ok d ->
    diff (checked k1) m1 n1 1 tidy1 e = Ok d1 -> diff (checked k') m' n' t tidy' d1 = Ok d2 ->
    value I d = value I d2.
  Proof.
    intros L Ht H H1 H2. destruct (C54_diff_value m n k (Datatypes.S t) tidy e d L ltac:(discriminate) H) as [_ [_ X]].
    destruct (C54_first m1 n1 k1 tidy1 e d1 L H1) as [L1 X1]. destruct (C54_diff_value m' n' k' t tidy' d1 d2 L1 Ht H2) as [_ [_ X2]].
    apply (nth_unique D (Datatypes.S t) _ _ _ X). cbn [nth_derivative]. now exists (value I d1).
  Qed.
  (** the result is determined by the operator, not by its form, nor by the order in
      which it is simplified *)
  Theorem C54_form_irrelevant m n k m' n' k' times tidy tidy' e e' d d' :
    legal I e -> legal I e' -> times <> 0 ->
    diff (checked k) m n times tidy e = Ok d -> diff (checked k') m' n' times tidy' e' = Ok d' ->
    value I e = value I e' -> value I d = value I d'.
  Proof.
    intros L L' Ht H H' E. destruct (C54_diff_value m n k times tidy e d L Ht H) as [_ [_ X]].
    destruct (C54_diff_value m' n' k' times tidy' e' d' L' Ht H') as [_ [_ X']]. rewrite <- E in X'. exact (nth_unique D times _ _ _ X X').
  Qed.
  (** without the symbol among the free symbols the result is zero, and the operator is constant *)
  Theorem C54_constant m n k times tidy e :
    legal I e -> depends e = false -> diff (code k) m n times tidy e = Ok OZero /\ dA D (value I e) a0.
  Proof.
    intros L H. split; [unfold DiffModel.diff; now rewrite H|].
    exact (constant_zero D dep dS simp sym_dep sym_moves dname HS HY e L H).
  Qed.
  (** the rules *)
  Theorem C54_sum m n k a b e da db d :
    Forall (legal I) [a; b; e] -> value I e = aadd (value I a) (value I b) ->
    diff (checked k) m n 1 true a = Ok da -> diff (checked k) m n 1 true b = Ok db -> diff (checked k) m n 1 true e = Ok d ->
    value I d = aadd (value I da) (value I db).
  Proof.
    intros HL E Ha Hb H. destruct (C54_first m n k true a da (Forall_inv HL) Ha) as [_ Xa].
    destruct (C54_first m n k true b db (Forall_inv (Forall_inv_tail HL)) Hb) as [_ Xb].
    destruct (C54_first m n k true e d (Forall_inv (Forall_inv_tail (Forall_inv_tail HL))) H) as [_ X]. rewrite E in X.
    exact (dA_unique I D _ _ _ X (dA_add I D _ _ _ _ Xa Xb)).
  Qed.
  Theorem C54_product m n k a b e da db d :
    Forall (legal I) [a; b; e] -> value I e = amul (value I a) (value I b) ->
    diff (checked k) m n 1 true a = Ok da -> diff (checked k) m n 1 true b = Ok db -> diff (checked k) m n 1 true e = Ok d ->
    value I d = aadd (amul (value I da) (value I b)) (amul (value I a) (value I db)).
  Proof.
    intros HL E Ha Hb H. destruct (C54_first m n k true a da (Forall_inv HL) Ha) as [_ Xa].
    destruct (C54_first m n k true b db (Forall_inv (Forall_inv_tail HL)) Hb) as [_ Xb].
    destruct (C54_first m n k true e d (Forall_inv (Forall_inv_tail (Forall_inv_tail HL))) H) as [_ X]. rewrite E in X.
    exact (dA_unique I D _ _ _ X (dA_mul I D _ _ _ _ Xa Xb)).
  Qed.
  Theorem C54_commutator m n k a b e da db d :
    Forall (legal I) [a; b; e] -> value I e = mcomm I (value I a) (value I b) ->
    diff (checked k) m n 1 true a = Ok da -> diff (checked k) m n 1 true b = Ok db -> diff (checked k) m n 1 true e = Ok d ->
    value I d = aadd (mcomm I (value I da) (value I b)) (mcomm I (value I a) (value I db)).
  Proof.
    intros HL E Ha Hb H. destruct (C54_first m n k true a da (Forall_inv HL) Ha) as [_ Xa].
    destruct (C54_first m n k true b db (Forall_inv (Forall_inv_tail HL)) Hb) as [_ Xb].
    destruct (C54_first m n k true e d (Forall_inv (Forall_inv_tail (Forall_inv_tail HL))) H) as [_ X]. rewrite E in X.
    exact (dA_unique I D _ _ _ X (dA_mcomm D _ _ _ _ Xa Xb)).
  Qed.
  Theorem C54_adjoint m n k a e da d :
    Forall (legal I) [a; e] -> value I e = star (value I a) ->
    diff (checked k) m n 1 true a = Ok da -> diff (checked k) m n 1 true e = Ok d ->
    value I d = star (value I da).
  Proof.
    intros HL E Ha H. destruct (C54_first m n k true a da (Forall_inv HL) Ha) as [_ Xa].
    destruct (C54_first m n k true e d (Forall_inv (Forall_inv_tail HL)) H) as [_ X]. rewrite E in X.
    exact (dA_unique I D _ _ _ X (dA_star I D _ _ Xa)).
  Qed.
  Theorem C54_multiple m n k c a e da d :
    Forall (legal I) [a; e] -> value I e = smul (ev c) (value I a) ->
    diff (checked k) m n 1 true a = Ok da -> diff (checked k) m n 1 true e = Ok d ->
    value I d = aadd (smul (ev (if dep c then dS c else s0)) (value I a)) (smul (ev c) (value I da)).
  Proof.
    intros HL E Ha H. destruct (C54_first m n k true a da (Forall_inv HL) Ha) as [_ Xa].
    destruct (C54_first m n k true e d (Forall_inv (Forall_inv_tail HL)) H) as [_ X]. rewrite E in X.
    apply (dA_unique I D _ _ _ X). apply (dA_smul I D); [|exact Xa]. destruct (dep c) eqn:Ec; [now apply (sd_diff D _ _ _ HS)|].
    rewrite ev_s0. now apply (sd_const D _ _ _ HS).
  Qed.
  (** simplify_scalar keeps the value, for any simplification of the coefficients that does *)
  Theorem C54_simplify_value k e d :
    legal I e -> simplify simp same (checked k) e = Ok d ->
    simplify simp same (code k) e = Ok d /\ legal I d /\ value I d = value I e.
  Proof.
    intros L H. split.
    - exact (le_ok _ _ _ (simplify_mono simp same _ _ (checked_le olt slt k) e) H).
    - exact (simplify_sound D dep dS simp same HS _ (checked_sound I olt slt k) e d L H).
  Qed.
End Diff.

(** ** Operators on Fock spaces that are functions of a real number x: the amplitudes of
    the operator applied to a state are differentiable at every x, and their
    derivatives are the amplitudes of the result applied to that state *)
Theorem C54_at_every_point (olt : op Sx -> op Sx -> bool) slt same m n k tidy e d :
  legal Dx e ->
  diff dep_x x_d (fun c => c) sym_dep_x sym_dep_x dname_x same (checked xdim olt slt k) m n 1 tidy e = Ok d ->
  forall (f : vec nat) (c : cfg nat) (x : R),
    derivable_pt_lim (fun y => cre (fst (value (Gx y) e) f c)) x (cre (fst (value (Gx x) d) f c))
    /\ derivable_pt_lim (fun y => cim (fst (value (Gx y) e) f c)) x (cim (fst (value (Gx x) d) f c)).
Proof.
  intros L H f c x. destruct (C54_first Derx olt slt _ _ _ _ _ _ _ Sympyx Symx m n k tidy e d L H) as [_ [X _]].
  pose proof (rep_has _ _ f c X x) as G. cbn beta in G. unfold Dx in G.
  assert (forall a y, fst (value (pi_interp 0%R Gx) a y) f c = fst (value (Gx y) a) f c) as E by (intros a y; now rewrite pi_value).
  destruct G as [G1 G2]. split.
  - refine (d_ext _ _ _ _ _ G1 _ _); intros; now rewrite ?E.
  - refine (d_ext _ _ _ _ _ G2 _ _); intros; now rewrite ?E.
Qed.

(** ** Examples *)
Section Examples.
  Definition y_p : Sx := XVar 0.
  Definition y_diff (times : nat) (e : op Sx) : res (op Sx) :=
    diff dep_x x_d (fun c => c) (fun p => 9 <? p) (fun p => 9 <? p) (fun a => match a with ASym p _ => p + 10 | APhase _ _ => 5 | _ => 7 end) (oeqb (S:=Sx)) (xchecked 9) 9 9 times true e.
  Definition is_op (r : res (op Sx)) (e : op Sx) : bool := match r with Ok d => oeqb (S:=Sx) d e | _ => false end.
  (** x a (x A + B), where A (symbol 11) depends on x and B (symbol 2) does not *)
  Definition ex_diff : op Sx := OTimes [OScal y_p (x_a 0); OPlus [OScal y_p (sym 11 [0]); sym 2 [0]]].
  Example C54_ex_legal : legal Dx ex_diff /\ local_to 0 ex_diff.
  Proof. repeat split; cbn; try lia; intros; try reflexivity; now right. Qed.
  (** d/dx = 2 x a A + x^2 a A' + a B *)
  Example C54_ex :
    is_op (y_diff 1 ex_diff)
      (OPlus [OScal (XAdd y_p y_p : Sx) (OTimes [x_a 0; sym 11 [0]]);
              OScal (XMul y_p y_p : Sx) (OTimes [x_a 0; sym 21 [0]]);
              OTimes [x_a 0; sym 2 [0]]]) = true.
  Proof. vm_compute. reflexivity. Qed.
  Example C54_ex_second : is_op (y_diff 2 (OScal (XMul y_p y_p : Sx) (x_a 0))) (OScal (XQ (qn 2) : Sx) (x_a 0)) = true.
  Proof. vm_compute. reflexivity. Qed.
  Example C54_ex_constant : y_diff 1 (OTimes [x_a 0; sym 2 [0]]) = Ok OZero.
  Proof. reflexivity. Qed.
  Example C54_ex_phase : is_op (y_diff 1 (OTimes [OAtom (APhase y_p 0); x_a 0])) (OTimes [sym 5 [0]; x_a 0]) = true.
  Proof. vm_compute. reflexivity. Qed.
  (** the instance: a symbol that depends on x and one that does not *)
  Example C54_ex_symbols : sym_dep_x (name_code (NPlain 0 1)) = true /\ sym_dep_x (name_code (NPlain 0 2)) = false.
  Proof. unfold sym_dep_x. rewrite !code_name_code. split; reflexivity. Qed.
End Examples.

(** The derivative of OperatorPlusMinusCC fails: [self.operands._diff] *)
Theorem C54_plus_minus_cc_refuted :
  exists e : op Sx, legal Dx e /\ local_to 0 e /\ depends dep_x sym_dep_x e = true
    /\ forall dname same k m n times tidy, times <> 0 ->
       diff dep_x x_d (fun c => c) sym_dep_x sym_dep_x dname same (xcode k) m (Datatypes.S n) times tidy e = Err AttributeError.
Proof.
  exists (OPM true (OScal (XVar 0 : Sx) (x_a 0))). split; [cbn; intros; reflexivity|]. split; [cbn; intuition|]. split; [reflexivity|].
  intros dname same k m n [|t] tidy Ht; [contradiction|]. reflexivity.
Qed.
(** The second derivative of x a is not the zero operator, although the derivative of
    the first derivative is: whether the symbol occurs is checked only once *)
Theorem C54_second_derivative_refuted :
  exists e : op Sx, forall dname same,
    let d t := diff dep_x x_d (fun c => c) sym_dep_x sym_dep_x dname same (xcode 9) 9 9 t true in
    exists d1, d 1 e = Ok d1 /\ d 1 d1 = Ok OZero /\ exists d2, d 2 e = Ok d2 /\ d2 <> OZero.
Proof.
  exists (OScal (XVar 0 : Sx) (x_a 0)). intros dname same d. exists (x_a 0). split; [reflexivity|]. split; [reflexivity|].
  exists (OAtom (ASym (dname (ADestroy 0)) [0])). split; [reflexivity|discriminate].
Qed.
(** The derivative of order 0 of an operator without the symbol is zero, not the operator *)
Theorem C54_zeroth_derivative_refuted :
  exists e : op Sx, forall dname same k m n tidy,
    diff dep_x x_d (fun c => c) sym_dep_x sym_dep_x dname same (xcode k) m n 0 tidy e = Ok OZero
    /\ ~ nth_derivative Derx 0 (value Dx e) (value Dx OZero).
Proof.
  exists OOne. intros dname same k m n tidy. split; [reflexivity|]. cbn [nth_derivative]. intros E.
  apply (f_equal (fun g : A Dx => cre (ap nat (fst (g 0%R)) (fun _ => c1) (fun l => 0)))) in E. cbn in E. lra.
Qed.

Print Assumptions C54_diff_value.
Print Assumptions C54_local_diff_value.
Print Assumptions C54_first.
Print Assumptions C54_iterated.
Print Assumptions C54_form_irrelevant.
Print Assumptions C54_constant.
Print Assumptions C54_sum.
Print Assumptions C54_product.
Print Assumptions C54_commutator.
Print Assumptions C54_adjoint.
Print Assumptions C54_multiple.
Print Assumptions C54_simplify_value.
Print Assumptions C54_at_every_point.
Print Assumptions C54_plus_minus_cc_refuted.
Print Assumptions C54_second_derivative_refuted.
Print Assumptions C54_zeroth_derivative_refuted.
