(** C67 Python arithmetic on operators: a formula built with +, -, *, / and ** from operators
    and numbers evaluates to the operator the formula denotes. *)
From Coq Require Import QArith Qcanon Reals Lra.
From Verif Require Import Prelude ListFacts SortModel SortProofs BinModel AlgSpec CAlg Cplx OpModel OpSpec OpForms OpProofs1 OpProofs2 OpProofs3 OpFuel OpOrder OpForm OpLocal OpSx OpSites OpFock OpJet OpRun Properties_Op1 AriModel AriSpec AriProofs.
Local Open Scope nat_scope.

Section Ari.
  Context {S : scalars} {dim : nat -> option nat} (I : interp S dim).
  Context (olt : op S -> op S -> bool) (slt : list nat -> list nat -> bool).
  Context (sinv : S -> res S).
  Local Notation code := (code dim olt slt).
  Local Notation checked := (checked dim olt slt).
  Add Ring Ar2 : (kring I).

  (** the value, when the sorting of the factors of products is checked; then the code does
      the same *)
  Theorem C67_value n f v : inverts I sinv -> flegal I f -> run (checked n) sinv f = Ok v ->
    run (code n) sinv f = Ok v /\ exists m, stands I f m /\ yields I v m.
  Proof.
    intros Hi Hl H. split; [exact (run_mono _ _ (checked_le olt slt n) sinv f v H)|]. exact (run_sound I _ (checked_sound I olt slt n) sinv Hi f Hl v H).
  Qed.
  (** operators on one local space: nothing to check *)
  Theorem C67_local_value s n f v : good_orders olt slt -> inverts I sinv -> operators_are (local_to s) f -> flegal I f ->
    run (code n) sinv f = Ok v -> (exists m, stands I f m /\ yields I v m) /\ match v with VOp a => local_to s a | VNum _ => True end.
  Proof.
    intros Ho Hi Hloc Hl H. destruct (run_agree s _ _ (local_agree s dim olt slt Ho n) sinv f Hloc) as [E G].
    change (creators_n dim olt slt (real_order olt slt) n) with (code n) in E. rewrite H in E. change (creators_n dim olt slt (careful_order olt slt) n) with (checked n) in E, G.
    split; [exact (run_sound I _ (checked_sound I olt slt n) sinv Hi f Hl v E)|]. exact (G v E).
  Qed.
  (** formulas without products of operators, on any spaces: nothing to check *)
  Theorem C67_linear_value n f v : inverts I sinv -> linear f -> flegal I f -> run (code n) sinv f = Ok v ->
    exists m, stands I f m /\ yields I v m.
  Proof.
    intros Hi Hlin Hl H. rewrite (run_linear (code n) (checked n) sinv (proj1 (plus_order_free dim olt slt _ _ n)) (proj2 (plus_order_free dim olt slt _ _ n)) f Hlin) in H.
    exact (run_sound I _ (checked_sound I olt slt n) sinv Hi f Hl v H).
  Qed.
  (** a formula denotes one thing, so formulas denoting the same give the same operator *)
  Theorem C67_meaning_unique f m m' : stands I f m -> stands I f m' -> m = m'.
  Proof. apply stands_fun. Qed.
  Theorem C67_same_meaning n f g a b m : inverts I sinv -> flegal I f -> flegal I g ->
    run (checked n) sinv f = Ok (VOp a) -> run (checked n) sinv g = Ok (VOp b) -> stands I f m -> stands I g m ->
    value I a = value I b.
  Proof.
    intros Hi Hf Hg Ef Eg Sf Sg. destruct (run_sound I _ (checked_sound I olt slt n) sinv Hi f Hf _ Ef) as [mf [Sf' Yf]]. destruct (run_sound I _ (checked_sound I olt slt n) sinv Hi g Hg _ Eg) as [mg [Sg' Yg]].
    rewrite (stands_fun I f _ _ Sf' Sf) in Yf. rewrite (stands_fun I g _ _ Sg' Sg) in Yg. destruct m as [c|x]; [contradiction|]. destruct Yf as [_ ->], Yg as [_ ->]. reflexivity.
  Qed.

  (** laws: pairs of formulas with one meaning *)
  Local Notation pow x n := (FPow x (XInt (Z.of_nat n))).
  Lemma mpow_add (x : A I) m n : mpow I x (m + n) = amul (mpow I x m) (mpow I x n).
  Proof. induction m; cbn [mpow plus]; [symmetry; apply amul_1l|]. rewrite IHm. now rewrite amul_assoc. Qed.
  Lemma mpow_mul (x : A I) m n : mpow I x (n * m) = mpow I (mpow I x m) n.
  Proof. induction n; [reflexivity|]. cbn [mpow Nat.mul]. now rewrite mpow_add, IHn. Qed.
  Theorem C67_power_sum f v m n : stands I f (MOp v) -> exists w, stands I (FMul (pow f m) (pow f n)) (MOp w) /\ stands I (pow f (m + n)) (MOp w).
  Proof.
    intros H. exists (mpow I v (m + n)). split; [|now constructor]. rewrite mpow_add.
    change (amul (mpow I v m) (mpow I v n)) with (amul (@elem S dim I (MOp (mpow I v m))) (@elem S dim I (MOp (mpow I v n)))). constructor; [now constructor|now constructor|constructor].
  Qed.
  Theorem C67_power_power f v m n : stands I f (MOp v) -> exists w, stands I (pow (pow f m) n) (MOp w) /\ stands I (pow f (n * m)) (MOp w).
  Proof. intros H. exists (mpow I v (n * m)). split; [|now constructor]. rewrite mpow_mul. constructor. now constructor. Qed.
  Theorem C67_power_is_product f v n : stands I f (MOp v) -> exists w, stands I (pow f (Datatypes.S n)) (MOp w) /\ stands I (FMul f (pow f n)) (MOp w).
  Proof.
    intros H. exists (mpow I v (Datatypes.S n)). split; [now constructor|].
    change (mpow I v (Datatypes.S n)) with (amul (@elem S dim I (MOp v)) (@elem S dim I (MOp (mpow I v n)))). constructor; [exact H|now constructor|constructor].
  Qed.
  Theorem C67_square_of_sum f g v w : stands I f (MOp v) -> stands I g (MOp w) ->
    exists u, stands I (pow (FAdd f g) 2) (MOp u) /\ stands I (FAdd (FAdd (FAdd (pow f 2) (FMul f g)) (FMul g f)) (pow g 2)) (MOp u).
  Proof.
    intros Hf Hg. pose proof (st_add I f g _ _ Hf Hg (op_left I _ _)) as Ha. cbn [elem] in Ha. exists (mpow I (aadd v w) 2). split; [now constructor|].
    assert (mpow I (aadd v w) 2 = aadd (aadd (aadd (mpow I v 2) (amul v w)) (amul w v)) (mpow I w 2)) as ->.
    { cbn [mpow]. rewrite !amul_1r, !amul_addl, !amul_addr, !aadd_assoc. reflexivity. }
    apply (st_add I _ _ (MOp _) (MOp _)); [|exact (st_pow I g w 2 Hg)|constructor].
    apply (st_add I _ _ (MOp _) (MOp _)); [|now apply (st_mul I _ _ (MOp _) (MOp _)); try constructor|constructor].
    apply (st_add I _ _ (MOp _) (MOp _)); [exact (st_pow I f v 2 Hf)|now apply (st_mul I _ _ (MOp _) (MOp _)); try constructor|constructor].
  Qed.
  (** subtraction undoes addition, division by a number undoes multiplication with it *)
  Theorem C67_subtract_added f g v w : stands I f (MOp v) -> stands I g (MOp w) -> stands I (FSub (FAdd f g) g) (MOp v).
  Proof.
    intros Hf Hg. pose proof (st_sub I _ _ _ _ (st_add I f g _ _ Hf Hg (op_left I _ _)) Hg (op_left I _ _)) as H. cbn [elem] in H.
    replace (aadd (aadd v w) (smul (kopp k1) w)) with v in H; [exact H|]. rewrite <- aadd_assoc, aadd_opp, aadd_comm, aadd_0. reflexivity.
  Qed.
  Theorem C67_divide_multiplied f g v c i : stands I f (MOp v) -> stands I g (MNum c) -> kmul c i = k1 -> stands I (FDiv (FMul f g) g) (MOp v).
  Proof.
    intros Hf Hg Hi. pose proof (st_div I _ _ _ _ _ (st_mul I f g _ _ Hf Hg (op_left I _ _)) Hg Hi) as H. cbn [elem] in H.
    replace (smul i (amul v (smul c a1))) with v in H; [exact H|]. rewrite smul_one_r, <- smul_mul. replace (kmul i c) with (@k1 I) by (rewrite <- Hi; ring). symmetry. apply smul_1.
  Qed.

  (** a number and an operator: the two orders give the same expression *)
  Theorem C67_number_either_side K f c : run K sinv (FAdd f (FNum c)) = run K sinv (FAdd (FNum c) f) \/ exists d, run K sinv f = Ok (VNum d).
  Proof. cbn [run bind]. destruct (run K sinv f) as [[a|d]|e]; [left; reflexivity|right; now exists d|left; reflexivity]. Qed.
  Theorem C67_factor_either_side K f c : run K sinv (FMul f (FNum c)) = run K sinv (FMul (FNum c) f) \/ exists d, run K sinv f = Ok (VNum d).
  Proof. cbn [run bind]. destruct (run K sinv f) as [[a|d]|e]; [left; reflexivity|right; now exists d|left; reflexivity]. Qed.

  (** operators do not divide; the error of an impossible [1 / c] is passed on *)
  Theorem C67_divide_by_operator K f g v b : run K sinv f = Ok v -> run K sinv g = Ok (VOp b) -> run K sinv (FDiv f g) = Err TypeError.
  Proof. intros E1 E2. cbn [run]. rewrite E1, E2. destruct v; reflexivity. Qed.
  Theorem C67_divide_by_zero K f a c e : run K sinv f = Ok (VOp a) -> sinv c = Err e -> run K sinv (FDiv f (FNum c)) = Err e.
  Proof. intros E1 E2. cbn [run]. rewrite E1. cbn [bind p_div]. now rewrite E2. Qed.
  (** negative powers never succeed *)
  Theorem C67_negative_power K f n r : run K sinv (FPow f (XInt (Zneg n))) <> Ok r.
  Proof.
    cbn [run]. destruct (run K sinv f) as [[a|c]|e]; cbn [bind p_pow]; try discriminate. cbn [p_pow_int]. destruct (n =? 1)%positive; cbn [bind]; [discriminate|]. destruct (k_times K _); discriminate.
  Qed.
  Theorem C67_inverse K a : run K sinv (FPow (FVar a) (XInt (-1))) = Err TypeError.
  Proof. reflexivity. Qed.
  (** exponents that equal an integer above 1 without being one are refused: A ** 2.0 is a
      TypeError for every A, although A ** 2 is the square and A ** 1.0 is A *)
  Theorem C67_float_power_refuted K a : run K sinv (FPow (FVar a) (XNum (Q2Qc 2))) = Err TypeError
    /\ run K sinv (FPow (FVar a) (XNum 1%Qc)) = Ok (VOp a).
  Proof. split; [|reflexivity]. reflexivity. Qed.
End Ari.

(** ** Examples *)
(** [1 / c] for the scalars of OpSx: rational numbers only *)
Definition xinv (c : Sx) : res Sx := match c with XQ q => if Qc_eq_dec q 0 then Err ValueError else Ok (XQ (/ q)%Qc : Sx) | _ => Err Unmodelled end.
Lemma xinv_ok : inverts xfock xinv.
Proof.
  intros c d H. destruct c; try discriminate H. cbn [xinv] in H. destruct (Qc_eq_dec q 0) as [|Hq]; [discriminate H|]. injection H as <-.
  change (cmul (cQ q) (cQ (/ q)%Qc) = c1). rewrite <- cQ_mul, Qcmult_inv_r by exact Hq. apply cQ_1.
Qed.
Definition is_op (r : res (pval Sx)) (e : op Sx) : bool := match r with Ok (VOp e') => oeqb e' e | _ => false end.
(** (a + 2) ** 2 - 4 * a, and (a a^* - 1) / 2 *)
Definition ex_square : formula Sx := FSub (FPow (FAdd (FVar (x_a 0)) (FNum (num 2))) (XInt 2)) (FMul (FNum (num 4)) (FVar (x_a 0))).
Definition ex_number : formula Sx := FDiv (FSub (FMul (FVar (x_a 0)) (FVar (x_ad 0))) (FNum (num 1))) (FNum (num 2)).
Example C67_ex : inverts xfock xinv /\ flegal xfock ex_square /\ flegal xfock ex_number
  /\ operators_are (local_to (S:=Sx) 0) ex_square /\ operators_are (local_to (S:=Sx) 0) ex_number
  /\ (exists v, run (xchecked 12) xinv ex_square = Ok (VOp v)) /\ is_op (run (xcode 12) xinv ex_number) (OScal (XQ (/ qn 2)%Qc : Sx) (OTimes [x_ad 0; x_a 0])) = true.
Proof.
  split; [exact xinv_ok|]. split; [cbn; auto|]. split; [cbn; auto|]. split; [cbn; auto|]. split; [cbn; auto|].
  split; [|vm_compute; reflexivity].
  destruct (run (xchecked 12) xinv ex_square) as [[v|c]|e] eqn:E; [now exists v| |]; exfalso; vm_compute in E; discriminate E.
Qed.
(** operators on several spaces, no products: 3 - (A_01 + B_12) / 2 *)
Definition ex_linear : formula Sx := FSub (FNum (num 3)) (FDiv (FAdd (FVar (sym 1 [0; 1])) (FVar (sym 2 [1; 2]))) (FNum (num 2))).
Example C67_ex_linear : linear ex_linear /\ flegal xfock ex_linear
  /\ is_op (run (xcode 12) xinv ex_linear) (OPlus [OScal (num 3) OOne; OScal (XQ (- / qn 2)%Qc : Sx) (OPlus [sym 1 [0; 1]; sym 2 [1; 2]])]) = true.
Proof. split; [cbn; auto|]. split; [cbn; auto|]. vm_compute. reflexivity. Qed.
(** (A_0 * 2) / 2 and A_0 / 0 *)
Example C67_ex_division : is_op (run (xcode 12) xinv (FDiv (FMul (FVar (sym 1 [0])) (FNum (num 2))) (FNum (num 2)))) (sym 1 [0]) = true
  /\ run (xcode 12) xinv (FDiv (FVar (sym 1 [0])) (FNum (num 0))) = Err ValueError.
Proof. split; vm_compute; reflexivity. Qed.

Print Assumptions C67_value.
Print Assumptions C67_local_value.
Print Assumptions C67_linear_value.
Print Assumptions C67_meaning_unique.
Print Assumptions C67_same_meaning.
Print Assumptions C67_power_sum.
Print Assumptions C67_power_power.
Print Assumptions C67_power_is_product.
Print Assumptions C67_square_of_sum.
Print Assumptions C67_subtract_added.
Print Assumptions C67_divide_multiplied.
Print Assumptions C67_number_either_side.
Print Assumptions C67_factor_either_side.
Print Assumptions C67_divide_by_operator.
Print Assumptions C67_divide_by_zero.
Print Assumptions C67_negative_power.
Print Assumptions C67_inverse.
Print Assumptions C67_float_power_refuted.
