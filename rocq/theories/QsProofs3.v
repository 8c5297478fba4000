(** Kets of basis states are converted; products are in the order of their spaces (C61). *)
From Coq Require Import QArith Qcanon Sorting.
From Verif Require Import Prelude ListFacts CSimpProofs5 SortModel SortSpec SortProofs AlgSpec CAlg OpModel OpSpec OpProofs1 KetModel KetSpec KetProofs1 SupModel ConvModel ConvSpec QutipModel QutipSpec QsModel QsSpec ConvProofs1 ConvProofs2 ConvProofs3 ConvProofs4 QutipProofs Properties_Qutip QsProofs1 QsProofs2.
Local Open Scope nat_scope.

Section Ket.
Context {S : scalars} (r : reading S) (dim : nat -> option nat) (is_num : S -> bool) (coherent : nat -> K r -> nat -> K r) (expand : op S -> res (op S)) (kexpand : ket S -> res (ket S)).
Local Notation ket := (ket S).
Local Notation size := (size dim).
Local Notation levels := (levels dim).
Local Notation qobj := (qobj r).
Local Notation convert := (conv_ket r dim is_num coherent expand kexpand).
Definition col (N : nat) (v : qobj) : Prop := exists M, v = QObj N 1 M.

Lemma tensor_col hs (vs : list qobj) : hs <> [] -> Forall2 (fun s v => col (levels s) v) hs vs -> exists v, qo_tensor r vs = Ok v /\ col (size hs) v.
Proof.
  intros Hn H. induction H as [|s v hs vs [M ->] H IH]; [contradiction|]. destruct vs as [|w vs].
  - inversion H; subst. eexists. split; [reflexivity|]. exists M. f_equal. rewrite size_cons. cbn. lia.
  - destruct hs as [|s' hs]; [inversion H|]. destruct IH as [y [Ey [B ->]]]; [discriminate|].
    change (qo_tensor r (QObj (levels s) 1 M :: w :: vs)) with (do y <- qo_tensor r (w :: vs); match y with QZero => Err TypeError | QObj m' n' B => Ok (QObj (levels s * m') (1 * n') (kron2 r m' n' M B)) end).
    rewrite Ey. eexists. split; [reflexivity|]. eexists. reflexivity.
Qed.
Lemma kheight_list (o : ket) l : In o l -> kheight o <= fold_right (fun x n => Nat.max (kheight x) n) 0 l.
Proof. induction l as [|y l IH]; [intros []|]. cbn [fold_right]. intros [-> |H]; [lia|]. specialize (IH H). lia. Qed.
Lemma sp_incl_refl h : sp_incl h h = true.
Proof. apply forallb_forall. intros x Hx. now apply sp_mem_In. Qed.

Theorem ket_ok : forall n e, kheight e <= n -> of_basis_states dim is_num e -> QsSpec.in_order e -> has_dims dim (kspace e) -> exists v, convert n e (kspace e) = Ok v /\ col (size (kspace e)) v.
Proof.
  induction n as [|n IH]; intros e Hh Hb Hp Hd; [destruct e; cbn in Hh; lia|]. cbn [conv_ket]. rewrite sp_incl_refl.
  assert (eqb_list_nat (kspace e) (kspace e) = true) as -> by now apply eqb_list_nat_spec. rewrite (dimension_ok dim _ Hd). cbn [bind negb].
  assert (kspace e <> [] /\ is_kzero e = false) as [Hne ->].
  { split; [|destruct e; [contradiction Hb|reflexivity..]]. clear - Hb Hp. induction e as [| |j l|u l|nm hs|c t IH|l IH|l IH|a t IH] using ket_ind'; cbn [of_basis_states QsSpec.in_order] in *; try contradiction; try discriminate.
    - cbn [kspace]. now apply IH.
    - destruct Hb as [Hl Hb]. apply fold_all in Hb, Hp. destruct l as [|x l]; [contradiction|]. inversion IH as [|? ? Hx _]; subst. inversion Hb; subst. inversion Hp as [|? ? [Hp1 Hp2] _]; subst. rewrite <- Hp1. now apply Hx.
    - destruct Hb as [Hl Hb], Hp as [Hp1 Hp2]. apply fold_all in Hb, Hp2. destruct l as [|x l]; [contradiction|]. inversion Hp2 as [|? ? [Hp3 Hp4] _]; subst. rewrite <- Hp1. cbn [flat_map]. destruct (kspace x); [discriminate Hp3|discriminate]. }
  cbn [orb]. destruct (kspace e) as [|x0 h0] eqn:Ek; [contradiction|]. rewrite <- Ek in *. clear Hne.
  destruct e as [| |j l|u l|nm hs|c t|l|l|a t]; cbn [of_basis_states QsSpec.in_order kheight] in *; try contradiction.
  - assert (size [l] = levels l) as E1 by (rewrite size_cons; cbn; lia). cbn [kspace]. rewrite E1. destruct (Nat.ltb_spec j (levels l)); [|lia]. eexists. split; [reflexivity|now eexists].
  - rewrite Hb. eexists. split; [reflexivity|now eexists].
  - destruct Hb as [-> Hb]. cbn [kspace] in *. destruct (IH t) as [v [-> [M ->]]]; try assumption; [lia|]. eexists. split; [reflexivity|]. now eexists.
  - destruct Hb as [Hl Hb]. apply fold_all in Hb, Hp. set (h := kspace (KPlus l)) in *.
    assert (Forall (fun x => exists v, convert n x h = Ok v /\ col (size h) v) l) as G.
    { rewrite Forall_forall in *. intros x Hx. destruct (Hp x Hx) as [E1 E2]. destruct (IH x) as [v Hv]; [pose proof (kheight_list x l Hx); lia|now apply Hb|exact E2|now rewrite E1|]. rewrite E1 in Hv. now exists v. }
    clearbody h. clear - Hl G. destruct l as [|x l]; [contradiction|]. inversion G as [|? ? [v [E1 [M ->]]] G']; subst. cbn [foldM]. rewrite E1. cbn [bind qo_plus]. clear - G'.
    revert M. induction G' as [|y l [w [E2 [M' ->]]] _ IH]; intros M; cbn [foldM]; [eexists; split; [reflexivity|now eexists]|]. rewrite E2. cbn [bind qo_plus]. rewrite !Nat.eqb_refl. cbn [andb bind]. apply IH.
  - destruct Hb as [Hl Hb], Hp as [Hp1 Hp2]. apply fold_all in Hb, Hp2.
    assert (existsb (fun o => 1 <? length (kspace o)) l = false) as ->.
    { apply Bool.not_true_is_false. intros Ex. apply existsb_exists in Ex. destruct Ex as [o [Ho Eo]]. rewrite Forall_forall in Hp2. destruct (Hp2 o Ho) as [Hl' _]. rewrite Hl' in Eo. discriminate. }
    destruct (mapM_exists (fun o => convert n o (kspace o)) (fun o v => col (size (kspace o)) v) l) as [vs [-> HF]].
    { intros o Ho. rewrite Forall_forall in *. destruct (Hp2 o Ho) as [E1 E2]. apply IH; [pose proof (kheight_list o l Ho); lia|now apply Hb|exact E2|]. intros s Hs. apply Hd. apply (proj2 (KetProofs1.kspace_list l s)); apply in_flat_map; now exists o. }
    cbn [bind]. change (fold_right (fun o h => sp_union (kspace o) h) [] l) with (kspace (KTensor l)); rewrite <- Hp1. apply tensor_col; [destruct l as [|x l]; [contradiction|]; inversion Hp2 as [|? ? [Hp3 _] _]; subst; cbn [flat_map]; destruct (kspace x); [discriminate Hp3|discriminate]|].
    clear - HF Hp2. induction HF as [|o v l vs Ho _ IH]; cbn [flat_map]; [constructor|]. inversion Hp2 as [|? ? [E1 _] Hp3]; subst. destruct (kspace o) as [|x [|]]; try discriminate E1. cbn [app]. constructor; [|now apply IH].
    destruct Ho as [M ->]. exists M. f_equal. rewrite size_cons. cbn. lia.
Qed.

(** increasing lists of labels *)
Lemma insert_front x h : Forall (lt x) h -> sp_insert x h = x :: h.
Proof. destruct h as [|y h]; [reflexivity|]. intros H. inversion H; subst. cbn [sp_insert]. destruct (Nat.ltb_spec x y); [reflexivity|lia]. Qed.
Lemma union_sorted (l : list ket) : Forall (fun o => length (kspace o) = 1) l -> StronglySorted lt (flat_map kspace l) -> kspace (KTensor l) = flat_map kspace l.
Proof.
  cbn [kspace]. induction l as [|o l IH]; intros Hl Hs; [reflexivity|]. inversion Hl as [|? ? Ho Hl']; subst. cbn [flat_map fold_right] in *. destruct (kspace o) as [|x [|]]; try discriminate Ho. cbn [app] in *.
  inversion Hs; subst. rewrite IH by assumption. now apply insert_front.
Qed.
Theorem tensor_sorted (klt : ket -> ket -> bool) (slt : list nat -> list nat -> bool) l : (forall o, klt o o = false) -> (forall x y, slt [x] [y] = (x <? y)) -> Forall (fun o => length (kspace o) = 1) l -> NoDup (flat_map kspace l) ->
  let l' := pysorted (kfull_lt klt slt) l in kspace (KTensor l') = flat_map kspace l'.
Proof.
  intros Hk Hs Hl Hn l'.
  assert (forall a, kfull_lt klt slt a a = false) as self_false by (intros a; unfold kfull_lt; assert (eqb_list_nat (kspace a) (kspace a) = true) as -> by (now apply eqb_list_nat_spec); apply Hk).
  assert (forall a b, In a l -> In b l -> exists x y, kspace a = [x] /\ kspace b = [y]) as Hsp.
  { intros a b Ha Hb. rewrite Forall_forall in Hl. specialize (Hl a Ha) as H1. specialize (Hl b Hb) as H2. destruct (kspace a) as [|x [|]]; try discriminate. destruct (kspace b) as [|y [|]]; try discriminate. now exists x, y. }
  assert (forall a b, In a l -> In b l -> kspace a = kspace b -> a = b) as Hinj.
  { clear - Hn Hl. induction l as [|o l IH]; intros a b Ha Hb E; [destruct Ha|]. inversion Hl as [|? ? Ho Hl']; subst. cbn [flat_map] in Hn. destruct (kspace o) as [|x [|]] eqn:Eo; try discriminate Ho. inversion Hn; subst.
    destruct Ha as [<-|Ha], Hb as [<-|Hb]; [reflexivity| | |now apply IH].
    - exfalso. apply H1. apply in_flat_map. exists b. split; [exact Hb|]. rewrite <- E, Eo. now left.
    - exfalso. apply H1. apply in_flat_map. exists a. split; [exact Ha|]. rewrite E, Eo. now left. }
  assert (forall a b x y, kspace a = [x] -> kspace b = [y] -> x <> y -> kfull_lt klt slt a b = (x <? y)) as Hlt.
  { intros a b x y Ea Eb Hxy. unfold kfull_lt. rewrite Ea, Eb. destruct (eqb_list_nat [x] [y]) eqn:E; [|apply Hs]. apply eqb_list_nat_spec in E. congruence. }
  assert (consistent (kfull_lt klt slt) l) as HC.
  { split.
    - intros a b Ha Hb H. destruct (Hsp a b Ha Hb) as [x [y [Ea Eb]]]. destruct (Nat.eq_dec x y) as [-> |N].
      + rewrite <- (Hinj a b Ha Hb (eq_trans Ea (eq_sym Eb))) in *. apply self_false.
      + rewrite (Hlt a b x y) in H by assumption. rewrite (Hlt b a y x) by auto. apply Nat.ltb_lt in H. apply Nat.ltb_ge. lia.
    - intros a b c Ha Hb Hc H1 H2. destruct (Hsp a b Ha Hb) as [x [y [Ea Eb]]]. destruct (Hsp b c Hb Hc) as [y' [z [Eb' Ec]]]. rewrite Eb in Eb'. injection Eb' as <-.
      destruct (Nat.eq_dec x y) as [-> |N1]; [rewrite (Hinj a b Ha Hb (eq_trans Ea (eq_sym Eb))); exact H2|]. destruct (Nat.eq_dec y z) as [-> |N2]; [rewrite <- (Hinj b c Hb Hc (eq_trans Eb (eq_sym Ec))); exact H1|].
      rewrite (Hlt a b x y) in H1 by assumption. rewrite (Hlt b c y z) in H2 by assumption. apply Nat.ltb_ge in H1, H2. rewrite (Hlt a c x z) by (auto; lia). apply Nat.ltb_ge. lia. }
  destruct (pysorted_stable _ l HC) as [Hperm [Hin _]]. fold l' in Hperm, Hin.
  assert (NoDup (flat_map kspace l')) as Hn' by (eapply Permutation_NoDup; [apply Permutation_flat_map; exact Hperm|exact Hn]).
  assert (Forall (fun o => length (kspace o) = 1) l') as Hl2 by (eapply Permutation_Forall; [exact Hperm|exact Hl]).
  apply union_sorted; [exact Hl2|]. clearbody l'. clear - Hin Hn' Hl2 Hlt. unfold SortSpec.in_order in Hin. induction Hin as [|o l Hin IH Ho]; [constructor|]. inversion Hl2 as [|? ? E1 Hl3]; subst. cbn [flat_map] in *.
  destruct (kspace o) as [|x [|]] eqn:Eo; try discriminate E1. cbn [app] in *. inversion Hn'; subst. constructor; [now apply IH|]. apply Forall_forall. intros y Hy. apply in_flat_map in Hy. destruct Hy as [o' [Ho' Hy]].
  rewrite Forall_forall in Ho, Hl3. specialize (Ho o' Ho'). specialize (Hl3 o' Ho'). destruct (kspace o') as [|y' [|]] eqn:Eo'; try discriminate Hl3. destruct Hy as [<-|[]].
  assert (y' <> x) as N by (intros ->; apply H1; apply in_flat_map; exists o'; split; [exact Ho'|rewrite Eo'; now left]).
  rewrite (Hlt o' o y' x Eo' Eo N) in Ho. apply Nat.ltb_ge in Ho. lia.
Qed.
End Ket.
