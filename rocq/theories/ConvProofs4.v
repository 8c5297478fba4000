(** The conversion to matrices succeeds. *)
From Coq Require Import QArith Qcanon.
From Verif Require Import Prelude ListFacts CSimpProofs5 AlgSpec CAlg OpModel OpSpec OpProofs1 ConvModel ConvSpec ConvProofs1 ConvProofs2 ConvProofs3.
Local Open Scope nat_scope.

Section Conv.
Context {S : scalars} (r : reading S) (dim : nat -> option nat).
Local Notation op := (op S).
Local Notation mat := (mat r).
Local Notation meye := (meye r).
Local Notation levels := (levels dim). Local Notation size := (size dim).
Local Notation smat := (smat r). Local Notation SMat := (SMat r).
Definition has_dims (h : list nat) : Prop := forall s, In s h -> dim s <> None.

Lemma has_dims_ok s h : has_dims h -> In s h -> dimension1 dim s = Ok (levels s).
Proof. intros H Hs. unfold dimension1, ConvSpec.levels. specialize (H s Hs). now destruct (dim s). Qed.
Lemma dimension_ok h : has_dims h -> dimension dim h = Ok (size h).
Proof.
  induction h as [|s h IH]; intros H; [reflexivity|]. cbn [dimension]. rewrite (has_dims_ok s (s :: h) H (or_introl eq_refl)). cbn [bind].
  rewrite IH; [reflexivity|]. intros x Hx. apply H. now right.
Qed.
Lemma eyes_ok h hs : has_dims h -> incl hs h -> mapM (fun s => do d <- dimension1 dim s; Ok (SMat d meye)) hs = Ok (map (fun s => SMat (levels s) meye) hs).
Proof. intros H Hi. apply mapM_ok. intros s Hs. now rewrite (has_dims_ok s h H (Hi s Hs)). Qed.

(** a matrix of that size *)
Definition isz (n : nat) (v : smat) : Prop := exists M, v = SMat n M.
Lemma s_tensor_ok hs (vs : list smat) : hs <> [] -> Forall2 (fun s v => isz (levels s) v) hs vs -> exists v, s_tensor r vs = Ok v /\ isz (size hs) v.
Proof.
  intros Hn H.
  assert (exists ms, mapM (fun x : smat => match x with ConvModel.SMat _ n M => Ok (n, M) | ConvModel.SZero _ => Err TypeError end) vs = Ok ms /\ fst (tensor r ms) = size hs) as [ms [E1 E2]].
  { clear Hn. induction H as [|s v hs vs [M ->] _ [ms [IH1 IH2]]]; [now exists []|]. exists ((levels s, M) :: ms). cbn [mapM bind]. rewrite IH1. split; [reflexivity|].
    cbn [tensor fold_right fst]. fold (tensor r ms). now rewrite IH2. }
  destruct vs as [|v [|w vs]].
  - inversion H. subst. contradiction.
  - exists v. split; [reflexivity|]. inversion H as [|s v' hs' l [M EM] Hl]. subst. inversion Hl. subst. exists M. cbn [ConvSpec.size fold_right]. now rewrite Nat.mul_1_r.
  - unfold s_tensor. rewrite E1. cbn [bind]. destruct (tensor r ms) as [n M]. exists (SMat n M). cbn [fst] in E2. subst n. split; [reflexivity|]. now exists M.
Qed.
Lemma mul_all_ok n (vs : list smat) : vs <> [] -> Forall (isz n) vs -> exists v, mul_all r vs = Ok v /\ isz n v.
Proof.
  intros Hn H. destruct vs as [|v vs]; [contradiction|]. cbn [mul_all]. inversion H as [|v' l Hv Hl]. subst. clear Hn H.
  revert v Hv. induction Hl as [|w vs [M ->] _ IH]; intros v Hv; [now exists v|]. destruct Hv as [N ->]. cbn [foldM s_mul]. rewrite Nat.eqb_refl. cbn [bind]. apply IH. eexists. reflexivity.
Qed.
Lemma mapM_exists {A B} (f : A -> res B) (P : A -> B -> Prop) l : (forall x, In x l -> exists y, f x = Ok y /\ P x y) -> exists ys, mapM f l = Ok ys /\ Forall2 P l ys.
Proof.
  induction l as [|x l IH]; intros H; [now exists []|]. destruct (H x (or_introl eq_refl)) as [y [E Py]]. destruct IH as [ys [E2 HF]]; [intros; apply H; now right|].
  exists (y :: ys). cbn [mapM]. rewrite E. cbn [bind]. rewrite E2. split; [reflexivity|]. now constructor.
Qed.

Lemma one_space_in (o : op) h s : NoDup h -> In s h -> space o = [s] -> sum (map (fun t => if on_space t o then 1 else 0) h) = 1.
Proof.
  intros Hn Hs Eo. induction Hn as [|t h Ht Hn IH]; [destruct Hs|]. cbn [map sum fold_right]. fold (sum (map (fun t => if on_space t o then 1 else 0) h)).
  unfold on_space at 1. rewrite Eo. destruct (eqb_list_nat [s] [t]) eqn:E.
  - apply eqb_list_nat_spec in E. injection E as ->. assert (sum (map (fun t => if on_space t o then 1 else 0) h) = 0) as ->; [|reflexivity].
    clear - Ht Eo. induction h as [|u h IH]; [reflexivity|]. cbn [map sum fold_right]. unfold on_space at 1. rewrite Eo. destruct (eqb_list_nat [t] [u]) eqn:E.
    + apply eqb_list_nat_spec in E. injection E as ->. exfalso. apply Ht. now left.
    + apply IH. intros H. apply Ht. now right.
  - destruct Hs as [-> |Hs]; [|now apply IH]. exfalso. assert (eqb_list_nat [s] [s] = true) by now apply eqb_list_nat_spec. congruence.
Qed.
Lemma all_counted (l : list op) h : NoDup h -> (forall o, In o l -> exists s, In s h /\ space o = [s]) -> sum (map (fun s => length (filter (on_space s) l)) h) = length l.
Proof.
  intros Hn. induction l as [|o l IH]; intros H.
  - clear. induction h as [|s h IH]; [reflexivity|exact IH].
  - destruct (H o (or_introl eq_refl)) as [s [Hs Eo]]. cbn [length]. rewrite <- IH by (intros; apply H; now right). transitivity (1 + sum (map (fun s => length (filter (on_space s) l)) h)); [|reflexivity]. rewrite <- (one_space_in o h s Hn Hs Eo).
    clear. induction h as [|s h IH]; [reflexivity|]. cbn [map sum fold_right] in *. fold (sum (map (fun s => length (filter (on_space s) (o :: l))) h)).
    fold (sum (map (fun s => length (filter (on_space s) l)) h)). fold (sum (map (fun s => if on_space s o then 1 else 0) h)). rewrite IH. cbn [filter]. destruct (on_space s o); cbn [length]; lia.
Qed.

Lemma times_ok (cv : op -> list nat -> res smat) l h : NoDup h -> h <> [] -> has_dims h ->
  (forall o, In o l -> exists s, In s h /\ space o = [s] /\ exists v, cv o [s] = Ok v /\ isz (levels s) v) ->
  exists bs v, by_space r dim cv l h = Ok bs /\ sum (map fst bs) = length l /\ s_tensor r (map snd bs) = Ok v /\ isz (size h) v.
Proof.
  intros Hn Hh Hd H.
  destruct (mapM_exists (fun ls => do ls_ops <- mapM (fun o => cv o (space o)) (filter (on_space ls) l);
                  match ls_ops with
                  | [] => do d <- dimension1 dim ls; Ok (0, SMat d meye)
                  | _ => do p <- mul_all r ls_ops; Ok (length ls_ops, p)
                  end) (fun s p => fst p = length (filter (on_space s) l) /\ isz (levels s) (snd p)) h) as [bs [E HF]].
  { intros s Hs. destruct (mapM_exists (fun o => cv o (space o)) (fun o v => isz (levels s) v) (filter (on_space s) l)) as [ops [E HF]].
    { intros o Ho. apply filter_In in Ho. destruct Ho as [Ho1 Ho2]. destruct (H o Ho1) as [s' [Hs' [Es [v [Ev Hv]]]]]. unfold on_space in Ho2. apply eqb_list_nat_spec in Ho2.
      assert (s' = s) as -> by congruence. exists v. rewrite Es. now split. }
    rewrite E. cbn [bind]. pose proof (F2_len _ _ _ HF) as El. destruct ops as [|p ops].
    - rewrite (has_dims_ok s h Hd Hs). cbn [bind]. eexists. split; [reflexivity|]. cbn [fst snd]. split; [now rewrite El|]. now exists meye.
    - destruct (mul_all_ok (levels s) (p :: ops)) as [v [Ev Hv]]; [discriminate| |].
      { clear - HF. induction HF; constructor; auto. }
      rewrite Ev. cbn [bind]. eexists. split; [reflexivity|]. cbn [fst snd]. now split. }
  destruct (s_tensor_ok h (map snd bs) Hh) as [v [Ev Hv]].
  { clear - HF. induction HF as [|s p h bs [_ Hp] _ IH]; constructor; auto. }
  exists bs, v. repeat split; [exact E| |exact Ev|exact Hv].
  rewrite <- (all_counted l h Hn).
  - f_equal. clear - HF. induction HF as [|s p h bs [Hp _] _ IH]; [reflexivity|]. cbn [map]. congruence.
  - intros o Ho. destruct (H o Ho) as [s [Hs [Es _]]]. now exists s.
Qed.

Lemma site_ok h x own i : has_dims h -> nth_error h i = Some x -> isz (levels x) own ->
  exists pre post v, mapM (fun s => do d <- dimension1 dim s; Ok (SMat d meye)) (firstn i h) = Ok pre /\
    mapM (fun s => do d <- dimension1 dim s; Ok (SMat d meye)) (skipn (Datatypes.S i) h) = Ok post /\
    s_tensor r (pre ++ own :: post) = Ok v /\ isz (size h) v.
Proof.
  intros Hd Ei Ho.
  assert (h = firstn i h ++ x :: skipn (Datatypes.S i) h) as Eh.
  { clear - Ei. revert i Ei. induction h as [|y h IHh]; intros [|i] E; try discriminate; cbn [nth_error] in E.
    - injection E as ->. reflexivity.
    - cbn [firstn skipn app]. f_equal. now apply IHh. }
  assert (forall hs, Forall2 (fun s v => isz (levels s) v) hs (map (fun s => SMat (levels s) meye) hs)) as He.
  { induction hs as [|s hs IH]; cbn [map]; constructor; [now exists meye|exact IH]. }
  destruct (s_tensor_ok h (map (fun s => SMat (levels s) meye) (firstn i h) ++ own :: map (fun s => SMat (levels s) meye) (skipn (Datatypes.S i) h))) as [v [Ev Hv]].
  - intros ->. now destruct i.
  - rewrite Eh at 1. apply Forall2_app; [apply He|]. constructor; [exact Ho|apply He].
  - exists (map (fun s => SMat (levels s) meye) (firstn i h)), (map (fun s => SMat (levels s) meye) (skipn (Datatypes.S i) h)), v.
    repeat split; [|  |exact Ev|exact Hv]; apply (eyes_ok h); try exact Hd; rewrite Eh at 2; intros s Hs; apply in_app_iff; [now left|right; now right].
Qed.

Lemma incl_ok (e : op) h : incl (space e) h -> forallb (fun x => sp_mem x h) (space e) = true.
Proof. intros H. apply forallb_forall. intros x Hx. apply sp_mem_In. now apply H. Qed.
Lemma space_in_list (o : op) l : In o l -> incl (space o) (fold_right (fun o h => sp_union (space o) h) [] l).
Proof.
  intros H x Hx. induction l as [|y l IH]; [destruct H|]. cbn [fold_right]. apply sp_union_In. destruct H as [-> |H]; [now left|right; now apply IH].
Qed.
Lemma height_list (o : op) l : In o l -> height o <= fold_right (fun x n => Nat.max (height x) n) 0 l.
Proof. induction l as [|y l IH]; [intros []|]. cbn [fold_right]. intros [-> |H]; [lia|]. specialize (IH H). lia. Qed.

Context (expand : op -> res op).
Theorem conv_ok : forall n e h, height e <= n -> convertible dim e -> NoDup h -> has_dims h -> incl (space e) h -> exists v, conv r dim expand n e h = Ok v /\ isz (size h) v.
Proof.
  induction n as [|n IH]; intros e h Hh Hc Hn Hd Hi; [destruct e; cbn in Hh; lia|]. cbn [conv]. rewrite (incl_ok e h Hi). cbn [negb].
  destruct e as [| |a|c t|l|l|a b|a|a h'|s a]; try (now destruct Hc).
  - rewrite (dimension_ok h Hd). cbn [bind]. eexists. split; [reflexivity|]. now exists meye.
  - assert (exists x, atom_space a = [x] /\ exists M, local_matrix r a (levels x) = Ok M) as [x [Ex [M EM]]].
    { destruct a as [nm hs|x|x|p q x|u x|u x|u x|x|x|x]; cbn [convertible] in Hc; try contradiction; exists x; (split; [reflexivity|]); try (eexists; reflexivity).
      cbn [local_matrix]. destruct Hc as [Hp Hq]. rewrite (proj2 (Nat.ltb_lt _ _) Hp), (proj2 (Nat.ltb_lt _ _) Hq). eexists. reflexivity. }
    assert (exists v, (do n0 <- dimension dim h;
      if eqb_list_nat h (space (OAtom a)) then do M <- local_matrix r a n0; Ok (SMat n0 M)
      else do i <- of_option ValueError (index_of (hd 0 (space (OAtom a))) h);
           do pre <- mapM (fun s => do d <- dimension1 dim s; Ok (SMat d meye)) (firstn i h);
           do own <- conv r dim expand n (OAtom a) (space (OAtom a));
           do post <- mapM (fun s => do d <- dimension1 dim s; Ok (SMat d meye)) (skipn (Datatypes.S i) h);
           s_tensor r (pre ++ own :: post)) = Ok v /\ isz (size h) v) as [v [E Hv]].
    { cbn [space] in *. rewrite (dimension_ok h Hd). cbn [bind]. rewrite Ex in *. assert (size [x] = levels x) as E1 by (cbn [ConvSpec.size fold_right]; lia).
      destruct (eqb_list_nat h [x]) eqn:E.
      - apply eqb_list_nat_spec in E. subst h. rewrite E1, EM. cbn [bind]. eexists. split; [reflexivity|]. now exists M.
      - cbn [hd]. assert (In x h) as Hx by (apply Hi; now left). destruct (index_of x h) as [i|] eqn:Ei; [|destruct (index_of_In x h Hx) as [j Ej]; congruence].
        cbn [of_option bind]. apply index_of_Some in Ei. destruct Ei as [Ei _].
        assert (exists own, conv r dim expand n (OAtom a) [x] = Ok own /\ isz (levels x) own) as [own [Eo Ho]].
        { destruct n as [|n]; [cbn in Hh; lia|]. cbn [conv space]. rewrite Ex. cbn [forallb]. assert (sp_mem x [x] = true) as -> by (apply sp_mem_In; now left). cbn [andb negb].
          assert (forall s, In s [x] -> dim s <> None) as Hd1 by (intros s [<- |[]]; now apply Hd).
          assert (eqb_list_nat [x] [x] = true) as Er by now apply eqb_list_nat_spec.
          rewrite (dimension_ok [x] Hd1), E1. cbn [bind]. rewrite Er, EM. cbn [bind].
          exists (SMat (levels x) M). split; [|now exists M]. destruct a; try reflexivity. destruct Hc. }
        destruct (site_ok h x own i Hd Ei Ho) as [pre [post [v [E2 [E3 [E4 Hv]]]]]]. rewrite E2. cbn [bind]. rewrite Eo. cbn [bind]. rewrite E3. cbn [bind]. rewrite E4. now exists v. }
    exists v. split; [|exact Hv]. destruct a; first [exact E|destruct Hc].
  - cbn [height] in Hh. destruct (IH t h) as [v [Ev [M ->]]]; try assumption; [lia|]. rewrite Ev. cbn [bind]. eexists. split; [reflexivity|]. eexists. reflexivity.
  - destruct Hc as [Hne Hc]. cbn [height] in Hh. cbn [space] in Hi.
    assert (forall o, In o l -> exists v, conv r dim expand n o h = Ok v /\ isz (size h) v) as Hall.
    { intros o Ho. apply IH; try assumption.
      - pose proof (height_list o l Ho). lia.
      - clear - Hc Ho. induction l as [|y l IHl]; [destruct Ho|]. cbn [fold_right] in Hc. destruct Hc as [H1 H2]. destruct Ho as [-> |Ho]; [exact H1|now apply IHl].
      - intros x Hx. apply Hi. now apply (space_in_list o l Ho). }
    destruct l as [|y l]; [contradiction|]. destruct (Hall y (or_introl eq_refl)) as [v [Ev Hv]]. rewrite Ev. cbn [bind].
    assert (forall o, In o l -> exists v, conv r dim expand n o h = Ok v /\ isz (size h) v) as Hall' by (intros; apply Hall; now right).
    clear - Hall' Hv. revert v Hv. induction l as [|y l IHl]; intros v Hv; [now exists v|]. cbn [foldM]. destruct (Hall' y (or_introl eq_refl)) as [w [Ew [M ->]]]. rewrite Ew. cbn [bind].
    destruct Hv as [N ->]. cbn [s_plus]. rewrite Nat.eqb_refl. cbn [bind]. apply IHl; [|eexists; reflexivity]. intros; apply Hall'; now right.
  - destruct Hc as [Hne Hc]. cbn [height] in Hh. cbn [space] in Hi.
    assert (forall o, In o l -> length (space o) = 1 /\ convertible dim o) as Hc'.
    { clear - Hc. induction l as [|y l IHl]; [intros ? []|]. cbn [fold_right] in Hc. destruct Hc as [H1 H2]. intros o [<- |Ho]; [exact H1|now apply IHl]. }
    assert (existsb (fun o => 1 <? length (space o)) l = false) as ->.
    { apply Bool.not_true_iff_false. intros H. apply existsb_exists in H. destruct H as [o [Ho H]]. apply Nat.ltb_lt in H. destruct (Hc' o Ho). lia. }
    assert (forall o, In o l -> exists s, In s h /\ space o = [s] /\ exists v, conv r dim expand n o [s] = Ok v /\ isz (levels s) v) as Hall.
    { intros o Ho. destruct (Hc' o Ho) as [H1 H2]. destruct (space o) as [|s [|]] eqn:Es; try discriminate. exists s.
      assert (In s h) as Hs by (apply Hi, (space_in_list o l Ho); rewrite Es; now left). repeat split; [exact Hs|].
      destruct (IH o [s]) as [v [Ev Hv]]; try assumption.
      - pose proof (height_list o l Ho). lia.
      - repeat constructor. intros [].
      - intros t [<- |[]]. now apply Hd.
      - rewrite Es. apply incl_refl.
      - exists v. split; [exact Ev|]. cbn [ConvSpec.size fold_right] in Hv. now rewrite Nat.mul_1_r in Hv. }
    destruct (times_ok (conv r dim expand n) l h Hn) as [bs [v [E1 [E2 [E3 Hv]]]]]; try assumption.
    { intros ->. destruct l as [|o l]; [contradiction|]. destruct (Hall o (or_introl eq_refl)) as [s [[] _]]. }
    unfold by_space in E1. rewrite E1. cbn [bind]. rewrite E2, Nat.eqb_refl. cbn [negb]. now exists v.
  - cbn [height] in Hh. destruct (IH a h) as [v [Ev [M ->]]]; try assumption; [lia|]. rewrite Ev. cbn [bind]. eexists. split; [reflexivity|]. eexists. reflexivity.
Qed.
End Conv.
