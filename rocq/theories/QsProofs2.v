(** Kets as QuTiP objects (C61). *)
From Coq Require Import QArith Qcanon.
From Verif Require Import Prelude ListFacts CSimpProofs5 AlgSpec CAlg OpModel OpSpec OpProofs1 KetModel KetSpec KetProofs1 SupModel ConvModel ConvSpec QutipModel QutipSpec QsModel QsSpec ConvProofs1 ConvProofs2 ConvProofs3 QutipProofs Properties_Qutip QsProofs1.
Local Open Scope nat_scope.

Section Ket.
Context {S : scalars} (r : reading S) (dim : nat -> option nat) (is_num : S -> bool) (coherent : nat -> K r -> nat -> K r) (expand : op S -> res (op S)) (kexpand : ket S -> res (ket S)).
Add Ring kr : (kring r).
Local Notation k := (K r).
Local Notation ket := (ket S).
Local Notation mat := (mat r).
Local Notation nsum := (nsum r).
Local Notation size := (size dim).
Local Notation levels := (levels dim).
Local Notation digit := (digit dim).
Local Notation amplitude := (amplitude r dim coherent).
Local Notation row_of := (row_of dim).
Local Notation qobj := (qobj r).

Lemma row_of_ext h f g : (forall x, In x h -> f x = g x) -> row_of h f = row_of h g.
Proof. induction h as [|x h IH]; intros H; [reflexivity|]. cbn [QsSpec.row_of]. rewrite (H x) by now left. rewrite IH; [reflexivity|]. intros. apply H. now right. Qed.
Lemma row_of_digits h : NoDup h -> forall i, i < size h -> row_of h (fun x => digit h x i) = i.
Proof.
  induction h as [|l h IH]; intros Hn i Hi; [cbn in *; lia|]. inversion Hn as [|? ? Hl Hh]; subst. rewrite size_cons in Hi. assert (size h <> 0) as E by lia. apply split_ix in Hi. destruct Hi as [H1 H2].
  cbn [QsSpec.row_of ConvSpec.digit]. rewrite Nat.eqb_refl. rewrite Nat.mod_small by assumption.
  rewrite (row_of_ext h _ (fun x => digit h x (i mod size h))); [|intros y Hy; destruct (Nat.eqb_spec l y) as [-> |_]; [contradiction|symmetry; now apply digit_mod]].
  rewrite IH by assumption. rewrite (Nat.div_mod i (size h) E) at 3. lia.
Qed.
Lemma in_union x a b : In x (sp_union a b) <-> In x a \/ In x b.
Proof.
  unfold sp_union. assert (forall y h, In x (sp_insert y h) <-> x = y \/ In x h) as Hi.
  { intros y h. induction h as [|z h IH]; cbn [sp_insert]; [cbn; intuition|]. destruct (y <? z); [cbn; intuition|]. destruct (Nat.eqb_spec y z) as [-> |]; cbn; intuition. }
  induction a as [|y a IH]; cbn [fold_right]; [cbn; intuition|]. rewrite Hi, IH. cbn. intuition.
Qed.
Lemma kspace_list (o : ket) l : In o l -> incl (kspace o) (fold_right (fun o h => sp_union (kspace o) h) [] l).
Proof. induction l as [|y l IH]; [intros []|]. intros [-> |H] x Hx; cbn [fold_right]; apply in_union; [now left|right; now apply IH]. Qed.
Lemma amplitude_ext e : forall f g, (forall x, In x (kspace e) -> f x = g x) -> amplitude e f = amplitude e g.
Proof.
  induction e using ket_ind'; intros f g Hf; cbn [QsSpec.amplitude kspace] in *; try reflexivity.
  - now rewrite (Hf l (or_introl eq_refl)).
  - now rewrite (Hf l (or_introl eq_refl)).
  - now rewrite (IHe f g Hf).
  - assert (forall x, In x l -> amplitude x f = amplitude x g) as G.
    { intros x Hx. rewrite Forall_forall in H. apply H; [exact Hx|]. intros y Hy. apply Hf. now apply (kspace_list x l Hx). }
    clear - G. induction l as [|x l IH]; [reflexivity|]. cbn [fold_right]. rewrite (G x) by now left. rewrite IH; [reflexivity|]. intros. apply G. now right.
  - assert (forall x, In x l -> amplitude x f = amplitude x g) as G.
    { intros x Hx. rewrite Forall_forall in H. apply H; [exact Hx|]. intros y Hy. apply Hf. now apply (kspace_list x l Hx). }
    clear - G. induction l as [|x l IH]; [reflexivity|]. cbn [fold_right]. rewrite (G x) by now left. rewrite IH; [reflexivity|]. intros. apply G. now right.
  - rewrite (row_of_ext (kspace e) f g Hf). reflexivity.
Qed.

(** the object is the column vector [f] of N numbers *)
Definition vec (N : nat) (v : qobj) (f : nat -> k) : Prop :=
  match v with
  | QZero => forall i, i < N -> f i = k0
  | QObj m n M => m = N /\ n = 1 /\ forall i, i < N -> M i 0 = f i
  end.
Lemma vec_ext N v f g : (forall i, i < N -> f i = g i) -> vec N v f -> vec N v g.
Proof.
  intros E. destruct v as [|m n M]; cbn [vec].
  - intros H i Hi. now rewrite <- E, H.
  - intros [H1 [H2 H3]]. repeat split; try assumption. intros i Hi. now rewrite <- E, H3.
Qed.
Lemma vec_plus N v w f g u : vec N v f -> vec N w g -> qo_plus r v w = Ok u -> vec N u (fun i => kadd (f i) (g i)).
Proof.
  destruct v as [|a a' A], w as [|b b' B]; cbn [qo_plus]; intros H1 H2 E.
  - injection E as <-. intros i Hi. rewrite H1, H2 by assumption. ring.
  - injection E as <-. destruct H2 as [-> [-> H2]]. repeat split. intros i Hi. rewrite H1, H2 by assumption. ring.
  - injection E as <-. destruct H1 as [-> [-> H1]]. repeat split. intros i Hi. rewrite H1, H2 by assumption. ring.
  - destruct H1 as [-> [-> H1]], H2 as [-> [-> H2]]. rewrite !Nat.eqb_refl in E. injection E as <-. repeat split. intros i Hi. unfold madd. now rewrite H1, H2.
Qed.
Lemma vec_scale N v f c : vec N v f -> vec N (qo_scale r c v) (fun i => kmul c (f i)).
Proof.
  destruct v as [|a a' A]; cbn [qo_scale vec].
  - intros H i Hi. rewrite H by assumption. ring.
  - intros [-> [-> H]]. repeat split. intros i Hi. unfold mscale. now rewrite H.
Qed.
Lemma vec_mul h A v F f u : stands_for r dim h A F -> v <> QZero -> vec (size h) v f -> qo_mul r (of_smat r A) v = Ok u -> u <> QZero /\ vec (size h) u (fun i => nsum (size h) (fun j => kmul (F i j) (f j))).
Proof.
  destruct v as [|b b' B]; [contradiction|]. intros H1 _ H2. destruct A as [|a A]; cbn [of_smat qo_mul stands_for] in *; intros E.
  - injection E as <-. split; [discriminate|]. destruct H2 as [-> [-> H2]]. repeat split. intros i Hi. unfold mzero. symmetry. transitivity (nsum (size h) (fun _ => k0)); [|apply nsum_zero]. apply nsum_ext. intros j Hj.
    rewrite <- (H1 i j Hi Hj). unfold mzero. ring.
  - destruct H1 as [-> H1], H2 as [-> [-> H2]]. rewrite Nat.eqb_refl in E. injection E as <-. split; [discriminate|]. repeat split. intros i Hi. unfold mmul. apply nsum_ext. intros j Hj. now rewrite (H1 i j Hi Hj), H2.
Qed.
Lemma qo_plus_some v w u : v <> QZero \/ w <> QZero -> qo_plus r v w = Ok u -> u <> QZero.
Proof.
  destruct v as [|a a' A], w as [|b b' B]; cbn [qo_plus]; intros [H|H] E; try contradiction; try (injection E as <-; discriminate).
  all: destruct ((a =? b) && (a' =? b')); [injection E as <-|]; discriminate.
Qed.
Lemma qo_tensor_some l u : qo_tensor r l = Ok u -> u <> QZero.
Proof.
  destruct l as [|[|m n A] [|y l]]; cbn [qo_tensor]; intros E; try discriminate; [injection E as <-; discriminate|]. step E z Ez. destruct z as [|m' n' B]; [discriminate|]. injection E as <-. discriminate.
Qed.
Definition own (o : ket) (v : qobj) : Prop := length (kspace o) = 1 /\ v <> QZero /\ vec (size (kspace o)) v (fun p => amplitude o (fun x => digit (kspace o) x p)).
Lemma tensor_vec os : forall vs u, Forall2 own os vs -> NoDup (flat_map kspace os) -> qo_tensor r vs = Ok u ->
  vec (size (flat_map kspace os)) u (fun i => fold_right (fun o s => kmul (amplitude o (fun x => digit (flat_map kspace os) x i)) s) k1 os).
Proof.
  induction os as [|o os IH]; intros vs u HF Hn E; inversion HF as [|? v ? vs' Ho HF']; subst; [discriminate|]. clear HF.
  destruct Ho as [Hl [Hz Ho]]. destruct (kspace o) as [|x [|]] eqn:Ek; try discriminate Hl. clear Hl. cbn [flat_map] in *. rewrite Ek in *. cbn [app] in *.
  inversion Hn as [|? ? Hx Hn']; subst. destruct v as [|m n A]; [contradiction|]. destruct Ho as [-> [-> HA]].
  assert (size [x] = levels x) as E1 by (rewrite size_cons; cbn; lia). rewrite E1 in HA.
  set (h := flat_map kspace os) in *.
  assert (forall i, i < levels x * size h -> amplitude o (fun y => digit (x :: h) y i) = amplitude o (fun y => digit [x] y (i / size h))) as G1.
  { intros i Hi. apply amplitude_ext. rewrite Ek. intros y [<-|[]]. cbn [ConvSpec.digit]. rewrite Nat.eqb_refl. cbn [ConvSpec.size fold_right]. now rewrite Nat.div_1_r. }
  destruct vs' as [|v' vs'].
  - inversion HF'; subst. cbn [qo_tensor] in E. injection E as <-. cbn [vec]. repeat split. intros i Hi. subst h. cbn [flat_map] in *. rewrite E1 in Hi. cbn [fold_right].
    rewrite HA by assumption. rewrite G1; [|cbn; lia]. cbn [ConvSpec.size fold_right]. rewrite Nat.div_1_r. ring.
  - rewrite E1 in E. generalize dependent (levels x). intros lx E HA E1 G1. change (qo_tensor r (QObj lx 1 A :: v' :: vs')) with (do y <- qo_tensor r (v' :: vs'); match y with QZero => Err TypeError | QObj m' n' B => Ok (QObj (lx * m') (1 * n') (kron2 r m' n' A B)) end) in E.
    step E y Ey. specialize (IH _ _ HF' Hn' Ey). destruct y as [|m' n' B]; [discriminate|]. injection E as <-. destruct IH as [-> [-> IH]]. assert (size (x :: h) = lx * size h) as -> by (rewrite <- E1, !size_cons; cbn; lia). repeat split. intros i Hi.
    unfold kron2. change (0 / 1) with 0. change (0 mod 1) with 0. assert (size h <> 0) as E0 by lia. pose proof (split_ix _ _ _ Hi) as [H1 H2].
    rewrite HA, IH by assumption. cbn [fold_right]. rewrite G1 by assumption. f_equal.
    assert (forall o', In o' os -> amplitude o' (fun y => digit h y (i mod size h)) = amplitude o' (fun y => digit (x :: h) y i)) as G2.
    { intros o' Ho'. apply amplitude_ext. intros y Hy. rewrite digit_mod by assumption. cbn [ConvSpec.digit]. destruct (Nat.eqb_spec x y) as [-> |_]; [|reflexivity].
      exfalso. apply Hx. apply in_flat_map. now exists o'. }
    clear - G2. revert G2. generalize h. intros h0 G2. induction os as [|o' os IH]; [reflexivity|]. cbn [fold_right]. rewrite (G2 o') by now left. f_equal. apply IH. intros. apply G2. now right.
Qed.

Local Notation convert := (conv_ket r dim is_num coherent expand kexpand).
Theorem ket_good : forall n e h v, NoDup h -> in_order e -> kspace e = h -> convert n e h = Ok v -> v <> QZero /\ vec (size h) v (fun i => amplitude e (fun x => digit h x i)).
Proof.
  induction n as [|n IH]; intros e h v Hn Hp Hk H; [discriminate|]. cbn [conv_ket] in H.
  destruct (is_kzero e || negb (sp_incl (kspace e) h)); [discriminate|]. destruct h as [|x0 h0] eqn:Eh; [discriminate|]. rewrite <- Eh in *. step H d Ed.
  apply dimension_size in Ed. subst d. assert (eqb_list_nat h (kspace e) = true) as Es by (apply eqb_list_nat_spec; now symmetry). rewrite Es in H. clear Es.
  destruct e as [| |j l|u l|nm hs|c t|l|l|a t]; try discriminate H.
  - destruct (j <? size h) eqn:Ej; [|discriminate]. injection H as <-. split; [discriminate|]. cbn [vec]. repeat split. intros i Hi. cbn [QsSpec.amplitude]. cbn [kspace] in Hk. rewrite <- Hk in *. clear - Hi.
    unfold basis_state. cbn [ConvSpec.digit]. rewrite Nat.eqb_refl. cbn [ConvSpec.size fold_right] in *. rewrite Nat.mul_1_r in Hi. rewrite Nat.div_1_r, Nat.mod_small by assumption. reflexivity.
  - destruct (is_num u); [|discriminate]. injection H as <-. split; [discriminate|]. cbn [vec]. repeat split. intros i Hi. cbn [QsSpec.amplitude]. cbn [kspace] in Hk. rewrite <- Hk in *. clear - Hi.
    cbn [ConvSpec.digit]. rewrite Nat.eqb_refl. cbn [ConvSpec.size fold_right] in *. rewrite Nat.mul_1_r in *. rewrite Nat.div_1_r, Nat.mod_small by assumption. reflexivity.
  - destruct (is_num c); [|discriminate]. step H w Ew. injection H as <-. apply IH in Ew; try assumption. destruct Ew as [Hw Ew]. split; [destruct w; [contradiction|discriminate]|]. now apply vec_scale.
  - cbn [in_order] in Hp. apply fold_all in Hp.
    assert (l <> []) as Hne by (intros ->; cbn in Hk; congruence).
    assert (forall l v0 f0 v, Forall (fun x => kspace x = h /\ in_order x) l -> vec (size h) v0 f0 -> (v0 <> QZero \/ l <> []) -> foldM (fun s o => do v <- convert n o h; qo_plus r s v) v0 l = Ok v ->
      v <> QZero /\ vec (size h) v (fun i => kadd (f0 i) (fold_right (fun x s => kadd (amplitude x (fun y => digit h y i)) s) k0 l))) as G.
    { clear - Hn IH. induction l as [|x l IHl]; intros v0 f0 v Hl H0 Hz H; cbn [foldM fold_right] in *.
      - injection H as <-. split; [destruct Hz as [Hz|Hz]; [exact Hz|contradiction]|]. eapply vec_ext; [|exact H0]. intros i Hi. ring.
      - inversion Hl as [|? ? [Hx1 Hx2] Hl']; subst. step H w Ew. step Ew u Eu. apply IH in Eu; try assumption; [|reflexivity]. destruct Eu as [Hu Eu]. pose proof (vec_plus _ _ _ _ _ _ H0 Eu Ew) as H1.
        assert (w <> QZero) as Hw by (eapply qo_plus_some; [right; exact Hu|exact Ew]).
        destruct (IHl w _ v Hl' H1 (or_introl Hw) H) as [G1 G2]. split; [exact G1|]. eapply vec_ext; [|exact G2]. intros i Hi. cbn beta. ring. }
    destruct (G l QZero (fun _ => k0) v) as [G1 G2]; [rewrite Hk in Hp; exact Hp|intros i Hi; reflexivity|now right|exact H|]. split; [exact G1|]. eapply vec_ext; [|exact G2]. intros i Hi. cbn beta. cbn [QsSpec.amplitude]. ring.
  - cbn [in_order] in Hp. destruct Hp as [Hf Hp]. apply fold_all in Hp.
    assert (existsb (fun o => 1 <? length (kspace o)) l = false) as Ex.
    { apply Bool.not_true_is_false. intros Ex. apply existsb_exists in Ex. destruct Ex as [o [Ho Eo]]. rewrite Forall_forall in Hp. destruct (Hp o Ho) as [Hl _]. rewrite Hl in Eo. discriminate. }
    rewrite Ex in H. clear Ex. step H fs Efs. split; [now apply qo_tensor_some in H|]. apply mapM_F2 in Efs.
    assert (Forall2 own l fs) as HF.
    { eapply F2_impl_in; [|exact Efs]. cbn beta. intros o w Ho Hw. rewrite Forall_forall in Hp. destruct (Hp o Ho) as [Hl Hi]. apply IH in Hw; try assumption; [|destruct (kspace o) as [|y [|]]; try discriminate Hl; repeat constructor; intros []|reflexivity].
      destruct Hw. now split. }
    rewrite Hk in Hf. pose proof (tensor_vec l fs v HF) as G. rewrite Hf in G. specialize (G Hn H). exact G.
  - destruct Hp as [Hp1 [Hp2 Hp3]]. step H Aq EA. step H w Ew. cbn [kspace] in Hk. apply IH in Ew; try assumption. destruct Ew as [Hw Ew].
    assert (stands_for r dim h Aq (mat_of r dim false h a)) as HA by now apply (C50_convert_value r dim is_num expand n).
    destruct (vec_mul h Aq w _ _ v HA Hw Ew H) as [G1 G2]. split; [exact G1|]. eapply vec_ext; [|exact G2]. intros i Hi. cbn beta. cbn [QsSpec.amplitude]. rewrite Hk. rewrite row_of_digits by assumption. reflexivity.
Qed.
End Ket.
