(** C61 convert_to_qutip for states and superoperators. Vocabulary (QsSpec, ConvSpec):
    [amplitude e f] is the amplitude of the ket e in the basis state with the level f x on
    every local space x; row i of a vector on the space h stands for the levels
    [digit h x i]; [map_of h s R] is what the superoperator s does to the matrix R;
    [stack n R] is R stacked column by column, the order QuTiP uses. *)
From Coq Require Import Reals QArith Qcanon Lra Sorting.
From Verif Require Import Prelude ListFacts CSimpProofs5 SortModel AlgSpec CAlg Cplx OpModel OpSpec OpProofs1 OpSx OpSites OpRun KetModel SupModel ConvModel ConvSpec QutipModel QutipSpec QsModel QsSpec ConvProofs1 ConvProofs2 ConvProofs3 ConvProofs4 QutipProofs Properties_Conv Properties_Qutip QsProofs1 QsProofs2 QsProofs3.
Local Open Scope nat_scope.

Section Qs.
Context {S : scalars} (r : reading S) (dim : nat -> option nat) (is_num : S -> bool) (coherent : nat -> K r -> nat -> K r)
  (expand : op S -> res (op S)) (kexpand : ket S -> res (ket S)).
Local Notation convert := (conv_ket r dim is_num coherent expand kexpand).
Local Notation convert_state := (conv_state r dim is_num coherent expand kexpand).
Local Notation amplitude := (amplitude r dim coherent).
Local Notation size := (size dim).

(** The Qobj of a ket, in the ket's own space, is the column of its amplitudes. *)
Theorem C61_ket_value n e h v : NoDup h -> in_order e -> kspace e = h -> convert n e h = Ok v ->
  exists M, v = QObj (size h) 1 M /\ forall i, i < size h -> M i 0 = amplitude e (fun x => digit dim h x i).
Proof.
  intros Hn Hp Hk H. destruct (ket_good r dim is_num coherent expand kexpand n e h v Hn Hp Hk H) as [H1 H2]. destruct v as [|m c M]; [contradiction|]. destruct H2 as [-> [-> H2]]. now exists M.
Qed.
(** Kets made of basis states (and coherent states) are converted. *)
Theorem C61_ket_converts n e : kheight e <= n -> of_basis_states dim is_num e -> in_order e -> (forall x, In x (kspace e) -> dim x <> None) -> exists v, convert n e (kspace e) = Ok v.
Proof. intros H1 H2 H3 H4. destruct (ket_ok r dim is_num coherent expand kexpand n e H1 H2 H3 H4) as [v [E _]]. now exists v. Qed.
(** The order in which TensorKet keeps its factors (states of one local space each, spaces
    compared by the same key as in a product space) is the order of the factors of the
    product space. *)
Theorem C61_tensor_in_order (klt : ket S -> ket S -> bool) (slt : list nat -> list nat -> bool) l : (forall o, klt o o = false) -> (forall x y, slt [x] [y] = (x <? y)) ->
  Forall (fun o => length (kspace o) = 1 /\ in_order o) l -> NoDup (flat_map kspace l) -> in_order (KTensor (pysorted (kfull_lt klt slt) l)).
Proof.
  intros Hk Hs Hl Hn. cbn [in_order]. split.
  - symmetry. apply (tensor_sorted klt slt l Hk Hs); [|exact Hn]. eapply Forall_impl; [|exact Hl]. intros o [G _]. exact G.
  - assert (Forall (fun o => length (kspace o) = 1 /\ in_order o) (pysorted (kfull_lt klt slt) l)) as G by (eapply Permutation_Forall; [apply SortProofs.pysorted_perm|exact Hl]).
    clear - G. induction G as [|x l0 H _ IH]; cbn [fold_right]; [exact Logic.I|now split].
Qed.
(** A tensor product with a factor of several local spaces is converted as its expansion. *)
Theorem C61_ket_expanded n l se h v : NoDup h -> kspace (KTensor l) = h -> Exists (fun o => 1 < length (kspace o)) l -> kexpand (KTensor l) = Ok se -> in_order se -> kspace se = h ->
  convert n (KTensor l) h = Ok v -> exists M, v = QObj (size h) 1 M /\ forall i, i < size h -> M i 0 = amplitude se (fun x => digit dim h x i).
Proof.
  intros Hn Hk Hx E Hs Hks H. destruct n as [|n]; [discriminate|]. cbn [conv_ket] in H.
  assert (existsb (fun o => 1 <? length (kspace o)) l = true) as Ex.
  { apply existsb_exists. apply Exists_exists in Hx. destruct Hx as [o [G1 G2]]. exists o. split; [exact G1|]. now apply Nat.ltb_lt. }
  destruct (is_kzero (KTensor l) || negb (sp_incl (kspace (KTensor l)) h)); [discriminate|]. destruct h as [|x h0] eqn:Eh; [discriminate|]. rewrite <- Eh in *. step H d Ed.
  assert (eqb_list_nat h (kspace (KTensor l)) = true) as Eq1 by (apply eqb_list_nat_spec; now symmetry). rewrite Eq1, Ex, E in H. cbn [bind] in H. destruct (keqb se (KTensor l)); [discriminate|]. now apply (C61_ket_value n se h v).
Qed.

(** In a larger space the Qobj is not a ket: it has as many columns as the other factors
    have states. *)
Fixpoint others (x : nat) (h : list nat) : list nat := match h with [] => [] | y :: h' => if y =? x then h' else y :: others x h' end.
Lemma tensor_shape : forall (sh : list (nat * nat)) vs v, Forall2 (fun s w => exists M, w = QObj (r:=r) (fst s) (snd s) M) sh vs -> qo_tensor r vs = Ok v ->
  exists M, v = QObj (fold_right (fun s n => fst s * n) 1 sh) (fold_right (fun s n => snd s * n) 1 sh) M.
Proof.
  induction sh as [|s sh IH]; intros vs v HF E; inversion HF as [|? w ? vs' [M ->] HF']; subst; [discriminate|]. destruct vs' as [|w' vs'].
  - inversion HF'; subst. injection E as <-. exists M. cbn [fold_right]. now rewrite !Nat.mul_1_r.
  - change (qo_tensor r (QObj (fst s) (snd s) M :: w' :: vs')) with (do y <- qo_tensor r (w' :: vs'); match y with QZero => Err TypeError | QObj m' n' B => Ok (QObj (fst s * m') (snd s * n') (kron2 r m' n' M B)) end) in E.
    step E y Ey. destruct (IH _ _ HF' Ey) as [B ->]. injection E as <-. eexists. reflexivity.
Qed.
Theorem C61_embedded_shape n e x h v : NoDup h -> in_order e -> kspace e = [x] -> h <> [x] -> convert n e h = Ok v -> exists M, v = QObj (size h) (size (others x h)) M.
Proof.
  intros Hn Hp Hk Hh H. destruct n as [|n]; [discriminate|]. cbn [conv_ket] in H. rewrite Hk in H.
  destruct (is_kzero e || negb (sp_incl [x] h)); [discriminate|]. destruct h as [|x0 h0] eqn:Eh; [discriminate|]. rewrite <- Eh in *. step H d Ed. clear Ed.
  destruct (eqb_list_nat h [x]) eqn:Eq1; [apply eqb_list_nat_spec in Eq1; contradiction|]. clear Eq1 Eh x0 h0 Hh.
  destruct (index_of x h) as [i|] eqn:Ei; [|discriminate]. cbn [of_option bind] in H. step H vpre Epre. step H vown Eown. step H vpost Epost.
  apply C61_ket_value in Eown; [|repeat constructor; intros []|exact Hp|exact Hk]. destruct Eown as [M [-> _]].
  set (sh := map (fun s => (levels dim s, levels dim s)) (firstn i h) ++ (levels dim x, 1) :: map (fun s => (levels dim s, levels dim s)) (skipn (Datatypes.S i) h)).
  assert (forall hs vs, mapM (qeye r dim) hs = Ok vs -> Forall2 (fun s w => exists M, w = QObj (r:=r) (fst s) (snd s) M) (map (fun s => (levels dim s, levels dim s)) hs) vs) as G.
  { intros hs vs E. apply mapM_F2 in E. clear - E. induction E as [|s v hs vs Hv _ IH]; cbn [map]; constructor; [|exact IH]. unfold qeye in Hv. step Hv d Ed. injection Hv as <-. apply dimension1_levels in Ed. subst d. cbn [fst snd]. now eexists. }
  assert (Forall2 (fun s w => exists M, w = QObj (r:=r) (fst s) (snd s) M) sh (vpre ++ QObj (size [x]) 1 M :: vpost)) as HS.
  { apply Forall2_app; [now apply G|]. constructor; [|now apply G]. exists M. cbn [fst snd]. f_equal. rewrite size_cons. cbn. lia. }
  destruct (tensor_shape sh _ v HS H) as [B ->]. exists B. clear - Ei Hn.
  assert (forall hs, fold_right (fun s n => fst s * n) 1 (map (fun s => (levels dim s, levels dim s)) hs) = size hs /\ fold_right (fun s n => snd s * n) 1 (map (fun s => (levels dim s, levels dim s)) hs) = size hs) as G.
  { induction hs as [|s hs [IH1 IH2]]; [split; reflexivity|]. cbn [map fold_right fst snd]. rewrite IH1, IH2. now split. }
  assert (fold_right (fun s n => fst s * n) 1 sh = size h /\ fold_right (fun s n => snd s * n) 1 sh = size (others x h)) as [-> ->]; [|reflexivity]. subst sh.
  revert i Ei. induction h as [|y h IH]; intros i Ei; [discriminate|]. cbn [index_of] in Ei. inversion Hn; subst. cbn [others]. rewrite (Nat.eqb_sym y x). destruct (x =? y) eqn:Ey.
  - injection Ei as <-. apply Nat.eqb_eq in Ey. subst y. cbn [firstn skipn map app fold_right fst snd]. destruct (G h) as [-> ->]. split; [reflexivity|lia].
  - destruct (index_of x h) as [i'|] eqn:Ei'; [|discriminate]. injection Ei as <-. change (skipn (Datatypes.S (Datatypes.S i')) (y :: h)) with (skipn (Datatypes.S i') h). cbn [firstn map app fold_right fst snd]. destruct (IH H2 i' eq_refl) as [-> ->]. split; reflexivity.
Qed.
(** A bra is never converted, nor is an inner product. *)
Theorem C61_bra_refuted n e h : exists er, convert_state n (Bra e) h = Err er.
Proof. cbn [conv_state]. destruct (is_kzero e || negb (sp_incl (kspace e) h)); [now eexists|]. destruct h; [now eexists|]. destruct (dimension dim (n0 :: h)); now eexists. Qed.
Theorem C61_braket_refuted n a b h : exists er, conv_braket r dim is_num coherent expand kexpand n a b h = Err er.
Proof. unfold conv_braket. destruct (C61_bra_refuted n a h) as [er ->]. now exists er. Qed.
(** A ket outside the given space, the zero ket and a symbol are refused. *)
Theorem C61_ket_outside n e h x : In x (kspace e) -> ~ In x h -> convert (Datatypes.S n) e h = Err ValueError.
Proof.
  intros H1 H2. cbn [conv_ket]. destruct (sp_incl (kspace e) h) eqn:E; [|cbn [negb]; now rewrite Bool.orb_true_r]. unfold sp_incl in E. rewrite forallb_forall in E. specialize (E x H1). apply sp_mem_In in E. contradiction.
Qed.
Theorem C61_zero_refused n h : convert (Datatypes.S n) KZero h = Err ValueError.
Proof. reflexivity. Qed.

End Qs.

Section Super.
Context {S : scalars} (r : reading S) (dim : nat -> option nat) (is_num : S -> bool) (expand : op S -> res (op S)).
Local Notation convert_super := (conv_super r dim is_num expand).
Local Notation convert_op := (conv_q r dim is_num (fun _ => None) expand).
Local Notation size := (size dim).
(** The Qobj of a superoperator acts on stacked matrices as the superoperator does. *)
Theorem C61_super_value n s h N M : NoDup h -> plain_sop s -> convert_super n s h = Ok (ConvModel.SMat r N M) ->
  N = size h * size h /\ forall R i j, i < size h -> j < size h -> act r N M (stack r (size h) R) (j * size h + i) = map_of r dim h s R i j.
Proof.
  intros Hn Hp H. destruct (super_good r dim is_num expand n s h _ Hn Hp H) as [-> G]. split; [reflexivity|exact G].
Qed.
(** A superoperator is converted in its own space only: any part of a sum or product that
    acts on fewer spaces than the whole makes the conversion fail; so does the identity. *)
Theorem C61_super_own_space n s h v : convert_super n s h = Ok v -> sspace s = h /\ h <> [].
Proof.
  destruct n as [|n]; [discriminate|]. cbn [conv_super]. intros H. destruct (sp_incl (sspace s) h); [|discriminate]. cbn [negb] in H. destruct h as [|x h]; [discriminate|].
  destruct (eqb_list_nat (x :: h) (sspace s)) eqn:E; [apply eqb_list_nat_spec in E; split; [now symmetry|discriminate]|].
  clear - H. destruct (sspace s) as [|y [|]]; try discriminate H. destruct (of_option _ _); [|discriminate H]. cbn [bind] in H. destruct (conv_super r dim is_num expand n s [y]); discriminate H.
Qed.
Theorem C61_super_part_refuted n l h v x : In x l -> sspace x <> h -> convert_super n (SPlus l) h <> Ok v /\ convert_super n (STimes l) h <> Ok v.
Proof.
  intros Hx Hs. destruct n as [|n]; [split; discriminate|]. cbn [conv_super sspace]. destruct (sp_incl _ h); [|split; discriminate]. cbn [negb]. destruct h as [|y h0] eqn:Eh; [split; discriminate|]. rewrite <- Eh in *.
  destruct (eqb_list_nat h _).
  2:{ destruct (fold_right _ [] l) as [|z [|]]; try (split; discriminate). destruct (of_option _ _); [|split; discriminate]. cbn [bind]. split; (destruct (conv_super r dim is_num expand n _ _); discriminate). }
  split.
  - generalize (ConvModel.SZero r). induction l as [|w l IH]; [destruct Hx|]. intros s0 H. cbn [foldM] in H. step H u Eu. step Eu z Ez. destruct Hx as [-> |Hx]; [apply C61_super_own_space in Ez; tauto|]. exact (IH Hx u H).
  - intros H. step H vs Ev. apply mapM_F2 in Ev. clear - Ev Hx Hs. induction Ev as [|w u l vs Hw _ IH]; [destruct Hx|]. destruct Hx as [-> |Hx]; [apply C61_super_own_space in Hw; tauto|now apply IH].
Qed.
Theorem C61_super_identity_refuted n h v : convert_super n SOne h <> Ok v /\ convert_super n SupModel.SZero h <> Ok v.
Proof. split; intros H; apply C61_super_own_space in H; cbn [sspace] in H; destruct H as [<- H]; contradiction. Qed.
(** A superoperator applied to an operator (SuperOperatorTimesOperator) is multiplied by the
    operator's matrix, which has the wrong size. *)
Theorem C61_applied_refuted n s a h N M m A : NoDup h -> plain_sop s -> spinless a -> one_site_factors a -> 1 < size h ->
  convert_super n s h = Ok (ConvModel.SMat r N M) -> convert_op n a h = Ok (ConvModel.SMat r m A) -> conv_applied r dim is_num expand n s a h = Err TypeError.
Proof.
  intros Hn Hp H1 H2 Hs E1 E2. unfold conv_applied. rewrite E1, E2. cbn [bind of_smat qo_mul]. destruct (C61_super_value _ _ _ _ _ Hn Hp E1) as [-> _].
  apply (C50_convert_value r dim is_num expand) in E2; try assumption. destruct E2 as [-> _]. destruct (Nat.eqb_spec (size h * size h) (size h)) as [E|_]; [nia|reflexivity].
Qed.
End Super.

(** ** Non-trivial cases, over the complex numbers; the space l has l + 2 levels *)
Definition no_kexpand (e : ket Sx) : res (ket Sx) := Ok e.
Definition no_coherent (n : nat) (a : K xr) (i : nat) : K xr := k0.
Local Notation conv_x := (conv_ket xr cdim all_num no_coherent no_expand no_kexpand).
(** |0>|1> + 2 |1>|2>, on spaces of 2 and 3 levels: rows 1 and 5 *)
Definition ex_ket : ket Sx := KPlus [KTensor [KBasis 0 0; KBasis 1 1]; KScal (num 2) (KTensor [KBasis 1 0; KBasis 2 1])].
Lemma ex_ket_order : in_order ex_ket.
Proof. cbn. repeat split. Qed.
Example C61_ex_ket : exists M, conv_x 6 ex_ket [0; 1] = Ok (QObj 6 1 M) /\ forall i, i < 6 -> M i 0 = if i =? 1 then k1 else if i =? 5 then kQ (qn 2) else k0.
Proof.
  assert (exists v, conv_x 6 ex_ket [0; 1] = Ok v) as [v E] by (eexists; reflexivity).
  destruct (C61_ket_value xr cdim all_num no_coherent no_expand no_kexpand 6 ex_ket [0; 1] v) as [M [-> G]]; [repeat constructor; cbn; intuition discriminate|exact ex_ket_order|reflexivity|exact E|]. exists M. split; [exact E|]. clear E. intros i Hi. rewrite (G i Hi). clear G M.
  destruct i as [|[|[|[|[|[|i]]]]]]; [..|lia]; cbn; change (qn 2) with (qz 2); generalize (cQ (qz 2)); intros q; destruct q as [a b]; unfold cadd, cmul, c0, c1; cbn; f_equal; ring.
Qed.
Example C61_ex_converts : exists v, conv_x 4 ex_ket (kspace ex_ket) = Ok v.
Proof. apply C61_ket_converts; [cbn; lia|cbn; unfold levels; cbn; repeat split; lia || discriminate|exact ex_ket_order|intros x _; discriminate]. Qed.
(** (|0> + |1>)|0>, and a|1>: with an operator *)
Example C61_ex_operator : exists M, conv_x 6 (KOp (x_a 0) (KTensor [KPlus [KBasis 0 0; KBasis 1 0]; KBasis 0 1])) [0; 1] = Ok (QObj 6 1 M) /\ M 0 0 = k1.
Proof.
  assert (exists v, conv_x 6 (KOp (x_a 0) (KTensor [KPlus [KBasis 0 0; KBasis 1 0]; KBasis 0 1])) [0; 1] = Ok v) as [v E] by (eexists; reflexivity).
  destruct (C61_ket_value xr cdim all_num no_coherent no_expand no_kexpand 6 (KOp (x_a 0) (KTensor [KPlus [KBasis 0 0; KBasis 1 0]; KBasis 0 1])) [0; 1] v) as [M [-> G]]; [repeat constructor; cbn; intuition discriminate|cbn; repeat split|reflexivity|exact E|]. exists M. split; [exact E|]. clear E. rewrite (G 0 ltac:(cbn; lia)). clear G M. cbn.
  assert (csqrt (qn 1) = c1) as -> by (apply cx_eq; [|reflexivity]; cbn [cre csqrt creal c1]; replace (Q2R (qn 1)) with 1%R by (unfold Q2R; cbn; field); apply sqrt_1). unfold cadd, cmul, c0, c1; cbn. f_equal; ring.
Qed.
Example C61_ex_tensor : let l := [KBasis 2 1; KBasis 1 0] in in_order (KTensor (pysorted (kfull_lt (fun _ _ => false) (fun a b => hd 0 a <? hd 0 b)) l)) /\ ~ in_order (S:=Sx) (KTensor l).
Proof.
  split; [apply C61_tensor_in_order; [reflexivity|reflexivity|repeat constructor|cbn; repeat constructor; cbn; intuition discriminate]|]. intros [H _]. discriminate H.
Qed.
(** a ket of the first factor in the product space is 6 x 3 *)
Example C61_ex_embedded : exists M, conv_x 6 (KBasis 1 0) [0; 1] = Ok (QObj 6 3 M).
Proof. eexists. reflexivity. Qed.
Theorem C61_embedded_refuted : exists e h m n M, kspace e = [0] /\ conv_x 6 e h = Ok (QObj m n M) /\ n <> 1.
Proof. exists (KBasis 1 0), [0; 1]. eexists. exists 3. eexists. split; [reflexivity|]. split; [reflexivity|discriminate]. Qed.
(** the Lindblad superoperator of the annihilation operator on a two-level space:
    a R a^dagger - 1/2 a^dagger a R - 1/2 R a^dagger a *)
Definition ex_n : op Sx := OTimes [x_ad 0; x_a 0].
Definition ex_lindblad : sop Sx := SPlus [STimes [SPre (x_a 0); SPost (x_ad 0)]; SScal (XQ (qz (-1) / qn 2)%Qc) (SPre ex_n); SScal (XQ (qz (-1) / qn 2)%Qc) (SPost ex_n)].
Example C61_ex_super : exists M, conv_super xr cdim all_num no_expand 8 ex_lindblad [0] = Ok (ConvModel.SMat xr 4 M)
  /\ forall R i j, i < 2 -> j < 2 -> act xr 4 M (stack xr 2 R) (j * 2 + i) = map_of xr cdim [0] ex_lindblad R i j.
Proof.
  eexists. split; [reflexivity|]. match goal with |- forall R i j, _ -> _ -> act _ _ ?M _ _ = _ => apply (C61_super_value xr cdim all_num no_expand 8 ex_lindblad [0] 4 M) end; [repeat constructor; intros []|cbn; repeat split; lia|reflexivity].
Qed.
(** left multiplication by operators of different spaces: not converted *)
Example C61_ex_part : forall v, conv_super xr cdim all_num no_expand 8 (SPlus [SPre (x_a 0); SPre (x_a 1)]) [0; 1] <> Ok v.
Proof. intros v. apply (C61_super_part_refuted xr cdim all_num no_expand 8 _ [0; 1] v (SPre (x_a 0))); [now left|discriminate]. Qed.
Example C61_ex_applied : conv_applied xr cdim all_num no_expand 8 (SPre (x_a 0)) (x_ad 0) [0] = Err TypeError.
Proof. reflexivity. Qed.

Print Assumptions C61_ket_value.
Print Assumptions C61_ket_converts.
Print Assumptions C61_tensor_in_order.
Print Assumptions C61_ket_expanded.
Print Assumptions C61_embedded_shape.
Print Assumptions C61_bra_refuted.
Print Assumptions C61_braket_refuted.
Print Assumptions C61_ket_outside.
Print Assumptions C61_zero_refused.
Print Assumptions C61_super_value.
Print Assumptions C61_super_own_space.
Print Assumptions C61_super_part_refuted.
Print Assumptions C61_super_identity_refuted.
Print Assumptions C61_applied_refuted.
Print Assumptions C61_embedded_refuted.
