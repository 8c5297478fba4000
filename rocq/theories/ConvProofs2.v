(** The conversion to matrices is right. *)
From Coq Require Import QArith Qcanon.
From Verif Require Import Prelude ListFacts CSimpProofs5 AlgSpec CAlg OpModel OpSpec OpProofs1 ConvModel ConvSpec ConvProofs1.
Local Open Scope nat_scope.

Section Conv.
Context {S : scalars} (r : reading S) (dim : nat -> option nat) (desc : bool).
Add Ring Kr : (kring r).
Local Notation k := (K r).
Local Notation op := (op S).
Local Notation mat := (mat r).
Local Notation nsum := (nsum r). Local Notation meye := (meye r). Local Notation mzero := (mzero r).
Local Notation madd := (madd r). Local Notation mscale := (mscale r). Local Notation mmul := (mmul r).
Local Notation mherm := (mherm r). Local Notation mkron := (mkron r). Local Notation meq := (meq r).
Local Notation levels := (levels dim). Local Notation size := (size dim). Local Notation digit := (digit dim).
Local Notation at_site := (at_site r dim). Local Notation mat_of := (mat_of r dim desc). Local Notation tensor := (tensor r).
Local Notation smat := (smat r). Local Notation SMat := (SMat r). Local Notation SZero := (SZero r).
Local Notation dimension := (dimension dim). Local Notation dimension1 := (dimension1 dim).

(** *** local operators *)
Lemma create_entries n p q : SympyCreate r n p q = if (1 <=? p) && (p <=? n - 1) && (q =? p - 1) then ksqrt (qn p) else k0.
Proof.
  unfold SympyCreate. generalize (n - 1). clear n. intros n.
  assert (forall A : mat, fold_left (fun a i => madd a (mscale (ksqrt (qn i)) (ket_bra r i (i - 1)))) (seq 1 n) A p q
    = kadd (A p q) (if (1 <=? p) && (p <=? n) && (q =? p - 1) then ksqrt (qn p) else k0)) as H.
  { induction n as [|n IH]; intros A.
    - cbn [seq fold_left]. replace ((1 <=? p) && (p <=? 0)) with false by (destruct p; reflexivity). cbn [andb]. ring.
    - rewrite seq_S, fold_left_app. cbn [fold_left plus]. unfold ConvModel.madd at 1. rewrite IH. unfold ConvModel.mscale, ket_bra, basis_state.
      destruct (Nat.eqb_spec p (Datatypes.S n)) as [-> |N].
      + replace (Datatypes.S n <=? n) with false by (symmetry; apply Nat.leb_gt; lia). rewrite Nat.leb_refl, andb_false_r. cbn [andb Nat.leb].
        destruct (q =? Datatypes.S n - 1); [rewrite kconj_1; ring|rewrite (kconj_0 r); ring].
      + replace (p <=? Datatypes.S n) with (p <=? n); [ring|]. destruct (Nat.leb_spec p n), (Nat.leb_spec p (Datatypes.S n)); try reflexivity; lia. }
  rewrite H. unfold ConvModel.mzero. ring.
Qed.
Definition nospin (a : atom S) : Prop := match a with AJz _ | AJp _ | AJm _ => False | _ => True end.
Lemma element_ok a n M : local_matrix r a n = Ok M -> nospin a -> meq n M (element r desc a n).
Proof.
  destruct a; cbn [local_matrix nospin]; intros H Hs; try discriminate; try contradiction.
  - injection H as <-. intros i j Hi Hj. rewrite create_entries. cbn [element]. destruct (Nat.eqb_spec i (j + 1)) as [-> |N].
    + replace (1 <=? j + 1) with true by (symmetry; apply Nat.leb_le; lia). replace (j + 1 <=? n - 1) with true by (symmetry; apply Nat.leb_le; lia).
      replace (j =? j + 1 - 1) with true by (symmetry; apply Nat.eqb_eq; lia). reflexivity.
    + destruct (Nat.leb_spec 1 i); [|reflexivity]. destruct (Nat.eqb_spec j (i - 1)); [lia|]. now rewrite andb_false_r.
  - injection H as <-. intros i j Hi Hj. unfold ConvModel.mherm. rewrite create_entries. cbn [element]. destruct (Nat.eqb_spec j (i + 1)) as [-> |N].
    + replace (1 <=? i + 1) with true by (symmetry; apply Nat.leb_le; lia). replace (i + 1 <=? n - 1) with true by (symmetry; apply Nat.leb_le; lia).
      replace (i =? i + 1 - 1) with true by (symmetry; apply Nat.eqb_eq; lia). cbn [andb]. apply ksqrt_real.
    + destruct (Nat.leb_spec 1 j); [|apply (kconj_0 r)]. destruct (Nat.eqb_spec i (j - 1)); [lia|]. rewrite andb_false_r. apply (kconj_0 r).
  - destruct ((j <? n) && (k <? n)); [|discriminate]. injection H as <-. intros p q Hp Hq. unfold ket_bra, basis_state. cbn [element].
    destruct (p =? j), (q =? k); cbn [andb]; rewrite ?kconj_1, ?(kconj_0 r); ring.
  - injection H as <-. apply meq_refl.
Qed.

(** *** results *)
Definition stands (n : nat) (v : smat) (F : mat) : Prop :=
  match v with ConvModel.SZero _ => meq n mzero F | ConvModel.SMat _ n' M => n' = n /\ meq n M F end.
Lemma stands_for_stands h v F : stands_for r dim h v F <-> stands (size h) v F.
Proof.
  destruct v as [|n M]; cbn [stands_for stands]; [tauto|]. split; intros [-> H]; now split.
Qed.
Lemma stands_eq n v F G : stands n v F -> meq n F G -> stands n v G.
Proof. destruct v as [|m M]; cbn [stands]; [intros; eapply meq_trans; eassumption|]. intros [-> H] HG. split; [reflexivity|]. eapply meq_trans; eassumption. Qed.
Lemma mul_stands n v w F G u : stands n v F -> stands n w G -> s_mul r v w = Ok u -> stands n u (mmul n F G).
Proof.
  destruct v as [|a A], w as [|b B]; cbn [stands s_mul]; intros HF HG H.
  - injection H as <-. cbn [stands]. eapply meq_trans; [apply meq_sym, mmul_0l|]. now apply mmul_eq; [exact HF|apply meq_refl].
  - destruct HG as [-> HG]. injection H as <-. split; [reflexivity|]. eapply meq_trans; [apply meq_sym, mmul_0l|]. now apply mmul_eq; [exact HF|apply meq_refl].
  - destruct HF as [-> HF]. injection H as <-. split; [reflexivity|]. eapply meq_trans; [apply meq_sym, mmul_0r|]. now apply mmul_eq; [apply meq_refl|exact HG].
  - destruct HF as [-> HF], HG as [-> HG]. rewrite Nat.eqb_refl in H. injection H as <-. split; [reflexivity|]. now apply mmul_eq.
Qed.
Lemma plus_stands n v w F G u : stands n v F -> stands n w G -> s_plus r v w = Ok u -> stands n u (madd F G).
Proof.
  destruct v as [|a A], w as [|b B]; cbn [stands s_plus]; intros HF HG H; try discriminate.
  - injection H as <-. cbn [stands]. eapply meq_trans; [|apply madd_eq; [exact HF|exact HG]]. intros i j _ _. unfold ConvModel.madd, ConvModel.mzero. ring.
  - destruct HF as [-> HF], HG as [-> HG]. rewrite Nat.eqb_refl in H. injection H as <-. split; [reflexivity|]. now apply madd_eq.
Qed.
Definition mprodl (n : nat) (l : list mat) : mat := fold_right (fun F M => mmul n F M) meye l.
Lemma mul_all_stands n l Fs u : Forall2 (fun v F => stands n v F) l Fs -> mul_all r l = Ok u -> stands n u (mprodl n Fs).
Proof.
  intros HF H. destruct HF as [|v F l Fs Hv HF]; [discriminate|]. cbn [mul_all] in H. revert v F Hv H.
  induction HF as [|w G l Fs Hw _ IH]; intros v F Hv H.
  - cbn [foldM] in H. injection H as <-. cbn [mprodl fold_right]. eapply stands_eq; [exact Hv|apply meq_sym, mmul_1r].
  - cbn [foldM] in H. step H x E. pose proof (mul_stands _ _ _ _ _ _ Hv Hw E) as Hx. specialize (IH x (mmul n F G) Hx H). eapply stands_eq; [exact IH|].
    unfold mprodl. cbn [fold_right]. apply meq_sym, mmul_assoc.
Qed.

(** *** tensor products *)
Definition chain (h : list nat) (f : nat -> mat) : mat := snd (tensor (map (fun s => (levels s, f s)) h)).
Lemma tensor_fst h f : fst (tensor (map (fun s => (levels s, f s)) h)) = size h.
Proof. induction h as [|s h IH]; [reflexivity|]. cbn [map ConvModel.tensor fold_right fst]. fold (tensor (map (fun s => (levels s, f s)) h)). now rewrite IH. Qed.
Lemma chain_cons s h f : chain (s :: h) f = mkron (size h) (f s) (chain h f).
Proof. unfold chain. cbn [map ConvModel.tensor fold_right snd]. fold (tensor (map (fun s => (levels s, f s)) h)). now rewrite tensor_fst. Qed.
Lemma tensor_stands : forall h f (ms : list (nat * mat)), Forall2 (fun s p => fst p = levels s /\ meq (levels s) (snd p) (f s)) h ms ->
  fst (tensor ms) = size h /\ meq (size h) (snd (tensor ms)) (chain h f).
Proof.
  induction 1 as [|s p h ms [H1 H2] _ [IH1 IH2]]; [split; [reflexivity|apply meq_refl]|]. cbn [ConvModel.tensor fold_right fst snd]. fold (tensor ms).
  rewrite chain_cons, size_cons, IH1, H1. split; [reflexivity|]. now apply mkron_eq.
Qed.
Lemma s_tensor_stands h f l u : Forall2 (fun s v => stands (levels s) v (f s)) h l -> s_tensor r l = Ok u -> stands (size h) u (chain h f).
Proof.
  intros H E. destruct l as [|x [|y l]]; cbn [s_tensor] in E; [discriminate| |].
  - injection E as <-. inversion H as [|s ? h' ? Hx Hn]; subst. inversion Hn; subst. rewrite chain_cons, size_cons. cbn [ConvSpec.size fold_right]. rewrite Nat.mul_1_r.
    eapply stands_eq; [exact Hx|]. intros i j Hi Hj. unfold ConvModel.mkron. rewrite !Nat.div_1_r. change (i mod 1) with 0. change (j mod 1) with 0.
    unfold chain. cbn [map ConvModel.tensor fold_right snd]. unfold ConvModel.meye. rewrite Nat.eqb_refl. ring.
  - step E ms E1. destruct (tensor ms) as [n M] eqn:E2. injection E as <-.
    destruct (tensor_stands h f ms) as [G1 G2].
    { clear E2. apply mapM_F2 in E1. revert h H. induction E1 as [|v p l' ms Hv _ IH]; intros h H; inversion H as [|s ? h' ? Hs Hl]; subst; constructor.
      - destruct v as [|d D]; [discriminate|]. injection Hv as <-. exact Hs.
      - now apply IH. }
    rewrite E2 in G1, G2. cbn [fst snd stands] in *. now split.
Qed.

(** factors grouped by their local spaces *)
Definition on (s : nat) (l : list (nat * mat)) : list mat := map snd (filter (fun p => fst p =? s) l).
Definition sites_prod (h : list nat) (l : list (nat * mat)) : mat := mprodl (size h) (map (fun p => at_site h (fst p) (snd p)) l).
Lemma chain_ext h f g : (forall s, In s h -> meq (levels s) (f s) (g s)) -> meq (size h) (chain h f) (chain h g).
Proof.
  induction h as [|s h IH]; intros H; [apply meq_refl|]. rewrite !chain_cons, size_cons. apply mkron_eq; [apply H; now left|]. apply IH. intros. apply H. now right.
Qed.
Lemma chain_eye h : meq (size h) (chain h (fun _ => meye)) meye.
Proof.
  induction h as [|s h IH]; [apply meq_refl|]. rewrite chain_cons, size_cons. eapply meq_trans; [apply mkron_eq; [apply meq_refl|exact IH]|]. apply mkron_eye.
Qed.
Lemma sites_prod_cons s h l : NoDup (s :: h) -> Forall (fun p => In (fst p) (s :: h)) l ->
  meq (size (s :: h)) (sites_prod (s :: h) l) (mkron (size h) (mprodl (levels s) (on s l)) (sites_prod h (filter (fun p => negb (fst p =? s)) l))).
Proof.
  intros Hn H. inversion Hn as [|? ? Hs Hh]; subst. induction H as [|[x m] l Hx _ IH].
  - cbn [filter on map sites_prod mprodl fold_right]. apply meq_sym, mkron_eye.
  - unfold sites_prod in *. cbn [map mprodl fold_right fst snd] in *. fold (mprodl (size (s :: h)) (map (fun p => at_site (s :: h) (fst p) (snd p)) l)).
    eapply meq_trans; [apply mmul_eq; [apply meq_refl|exact IH]|]. unfold on. cbn [filter fst]. destruct (Nat.eqb_spec x s) as [-> |N]; cbn [negb map snd fst mprodl fold_right].
    + eapply meq_trans; [apply mmul_eq; [now apply site_here|apply meq_refl]|]. eapply meq_trans; [apply mkron_mul|]. apply mkron_eq; [apply meq_refl|apply mmul_1l].
    + eapply meq_trans; [apply mmul_eq; [apply site_there; [congruence|assumption]|apply meq_refl]|]. eapply meq_trans; [apply mkron_mul|]. apply mkron_eq; [apply mmul_1l|apply meq_refl].
Qed.
Theorem grouped h : NoDup h -> forall l, Forall (fun p => In (fst p) h) l -> meq (size h) (chain h (fun s => mprodl (levels s) (on s l))) (sites_prod h l).
Proof.
  induction h as [|s h IH]; intros Hn l H.
  - destruct H as [|p l Hp _]; [apply meq_refl|destruct Hp].
  - inversion Hn as [|? ? Hs Hh]; subst. eapply meq_trans; [|apply meq_sym, sites_prod_cons; assumption]. rewrite chain_cons. apply mkron_eq; [apply meq_refl|].
    eapply meq_trans; [|apply IH; [exact Hh|]].
    + apply chain_ext. intros s' Hs'. replace (on s' (filter (fun p => negb (fst p =? s)) l)) with (on s' l); [apply meq_refl|]. unfold on. f_equal.
      assert (s <> s') as N by congruence. clear - N. induction l as [|[x m] l IH]; [reflexivity|]. cbn [filter fst]. destruct (Nat.eqb_spec x s) as [-> |_].
      * cbn [negb]. rewrite (proj2 (Nat.eqb_neq s s') N). exact IH.
      * cbn [negb filter fst]. destruct (x =? s'); [now rewrite IH|exact IH].
    + rewrite Forall_forall in *. intros p Hp. apply filter_In in Hp. destruct Hp as [Hp1 Hp2]. destruct (H p Hp1) as [E|E]; [|exact E]. rewrite E, Nat.eqb_refl in Hp2. discriminate.
Qed.

(** *** an operator on one local space, in a larger space *)
Lemma mat_of_site h x : NoDup h -> In x h -> forall e : op, incl (space e) [x] -> meq (size h) (mat_of h e) (at_site h x (mat_of [x] e)).
Proof.
  intros Hn Hx. assert (size [x] = levels x) as E1 by (cbn [ConvSpec.size fold_right]; lia).
  fix IH 1. intros [| |a|c t|l|l|a b|a|a h'|s a] Hi.
  - apply meq_sym, site_zero.
  - apply meq_sym. now apply site_eye.
  - destruct a as [nm hh| | | | | | | | | ]; cbn [ConvSpec.mat_of].
    { intros i j Hi' Hj'. unfold ConvSpec.at_site. cbn [element]. repeat match goal with |- context [if forallb ?f ?l then _ else _] => destruct (forallb f l) end; reflexivity. }
    all: cbn [atom_space hd]; assert (ls = x) as -> by (destruct (Hi ls (or_introl eq_refl)) as [?|[]]; congruence); apply site_eq; [apply meq_sym, site_only|exact Hx].
  - cbn [ConvSpec.mat_of]. eapply meq_trans; [apply mscale_eq, IH; exact Hi|]. apply meq_sym, site_scale.
  - assert (forall o, In o l -> incl (space o) [x]) as Hl.
    { intros o Ho y Hy. apply Hi. cbn [space]. apply space_list_In. now exists o. }
    clear Hi. cbn [ConvSpec.mat_of]. induction l as [|o l IHl]; [apply meq_sym, site_zero|]. cbn [fold_right].
    eapply meq_trans; [apply madd_eq; [apply IH, Hl; now left|apply IHl; intros; apply Hl; now right]|]. apply meq_sym, site_add.
  - assert (forall o, In o l -> incl (space o) [x]) as Hl.
    { intros o Ho y Hy. apply Hi. cbn [space]. apply space_list_In. now exists o. }
    clear Hi. cbn [ConvSpec.mat_of]. rewrite E1. induction l as [|o l IHl]; [apply meq_sym; now apply site_eye|]. cbn [fold_right].
    eapply meq_trans; [apply mmul_eq; [apply IH, Hl; now left|apply IHl; intros; apply Hl; now right]|]. now apply site_mul.
  - assert (incl (space a) [x] /\ incl (space b) [x]) as [Ha Hb].
    { split; intros y Hy; apply Hi; cbn [space]; apply sp_union_In; tauto. }
    cbn [ConvSpec.mat_of]. rewrite E1. eapply meq_trans; [|apply meq_sym, site_add]. apply madd_eq.
    + eapply meq_trans; [apply mmul_eq; apply IH; assumption|]. now apply site_mul.
    + eapply meq_trans; [|apply meq_sym, site_scale]. apply mscale_eq. eapply meq_trans; [apply mmul_eq; apply IH; assumption|]. now apply site_mul.
  - cbn [ConvSpec.mat_of]. eapply meq_trans; [apply mherm_eq, IH; exact Hi|]. apply meq_sym, site_herm.
  - apply meq_sym, site_zero.
  - assert (meq (size h) (mherm (mat_of h a)) (at_site h x (mherm (mat_of [x] a)))) as Ga by (eapply meq_trans; [apply mherm_eq, IH; exact Hi|apply meq_sym, site_herm]).
    destruct s; cbn [ConvSpec.mat_of]; (eapply meq_trans; [|apply meq_sym, site_add]); apply madd_eq; [apply IH; exact Hi|exact Ga|apply IH; exact Hi|].
    eapply meq_trans; [apply mscale_eq, Ga|]. apply meq_sym, site_scale.
Qed.
End Conv.
