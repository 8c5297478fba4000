(** Kronecker products and sites. *)
From Coq Require Import QArith Qcanon.
From Verif Require Import Prelude ListFacts AlgSpec CAlg OpModel OpSpec ConvModel ConvSpec.
Local Open Scope nat_scope.

Section Mat.
Context {S : scalars} (r : reading S).
Add Ring Kr : (kring r).
Local Notation k := (K r).
Local Notation mat := (mat r).
Local Notation nsum := (nsum r). Local Notation meye := (meye r). Local Notation mzero := (mzero r).
Local Notation madd := (madd r). Local Notation mscale := (mscale r). Local Notation mmul := (mmul r).
Local Notation mherm := (mherm r). Local Notation mkron := (mkron r). Local Notation meq := (meq r).

(** *** finite sums *)
Lemma nsum_S n f : nsum (Datatypes.S n) f = kadd (nsum n f) (f n).
Proof.
  unfold ConvModel.nsum. rewrite seq_S, fold_right_app. cbn [fold_right plus]. generalize (seq 0 n). intros l.
  induction l as [|x l IH]; cbn [fold_right]; [ring|]. rewrite IH. ring.
Qed.
Lemma nsum_0 f : nsum 0 f = k0.
Proof. reflexivity. Qed.
Lemma nsum_ext n f g : (forall i, i < n -> f i = g i) -> nsum n f = nsum n g.
Proof. induction n as [|n IH]; intros H; [reflexivity|]. rewrite !nsum_S, IH, H; auto. Qed.
Lemma nsum_zero n : nsum n (fun _ => k0) = k0.
Proof. induction n as [|n IH]; [reflexivity|]. rewrite nsum_S, IH. ring. Qed.
Lemma nsum_add n f g : nsum n (fun i => kadd (f i) (g i)) = kadd (nsum n f) (nsum n g).
Proof. induction n as [|n IH]; [cbn; ring|]. rewrite !nsum_S, IH. ring. Qed.
Lemma nsum_mul_l n c f : nsum n (fun i => kmul c (f i)) = kmul c (nsum n f).
Proof. induction n as [|n IH]; [cbn; ring|]. rewrite !nsum_S, IH. ring. Qed.
Lemma nsum_mul_r n c f : nsum n (fun i => kmul (f i) c) = kmul (nsum n f) c.
Proof. induction n as [|n IH]; [cbn; ring|]. rewrite !nsum_S, IH. ring. Qed.
Lemma nsum_swap n m f : nsum n (fun i => nsum m (fun j => f i j)) = nsum m (fun j => nsum n (fun i => f i j)).
Proof.
  induction n as [|n IH].
  - symmetry. apply nsum_zero.
  - rewrite nsum_S, IH, <- nsum_add. apply nsum_ext. intros. now rewrite nsum_S.
Qed.
Lemma nsum_conj n f : kconj (nsum n f) = nsum n (fun i => kconj (f i)).
Proof.
  induction n as [|n IH]; [apply (kconj_0 r)|]. now rewrite !nsum_S, kconj_add, IH.
Qed.
Lemma nsum_plus n m f : nsum (n + m) f = kadd (nsum n f) (nsum m (fun i => f (n + i))).
Proof.
  induction m as [|m IH]; [rewrite Nat.add_0_r; cbn; ring|]. rewrite Nat.add_succ_r, !nsum_S, IH. ring.
Qed.
Lemma nsum_prod n m f g : nsum (n * m) (fun t => kmul (f (t / m)) (g (t mod m))) = kmul (nsum n f) (nsum m g).
Proof.
  destruct (Nat.eq_dec m 0) as [-> |Hm].
  { rewrite Nat.mul_0_r. cbn. ring. }
  induction n as [|n IH]; [cbn; ring|]. replace (Datatypes.S n * m) with (n * m + m) by lia. rewrite nsum_plus, IH, nsum_S.
  transitivity (kadd (kmul (nsum n f) (nsum m g)) (nsum m (fun i => kmul (f n) (g i)))).
  - f_equal. apply nsum_ext. intros i Hi.
    replace ((n * m + i) / m) with n by (rewrite Nat.div_add_l, Nat.div_small; lia).
    replace ((n * m + i) mod m) with i; [reflexivity|]. rewrite Nat.add_comm, Nat.mod_add, Nat.mod_small; lia.
  - rewrite nsum_mul_l. ring.
Qed.
Lemma nsum_delta n p f : p < n -> nsum n (fun i => if i =? p then f i else k0) = f p.
Proof.
  induction n as [|n IH]; intros H; [lia|]. rewrite nsum_S. destruct (Nat.eqb_spec n p) as [<- |N].
  - rewrite (nsum_ext n _ (fun _ => k0)), nsum_zero; [ring|]. intros i Hi. destruct (Nat.eqb_spec i n); [lia|reflexivity].
  - rewrite IH by lia. ring.
Qed.

(** *** matrices *)
Lemma meq_refl n A : meq n A A.
Proof. now intros i j. Qed.
Lemma meq_sym n A B : meq n A B -> meq n B A.
Proof. intros H i j Hi Hj. symmetry. now apply H. Qed.
Lemma meq_trans n A B C : meq n A B -> meq n B C -> meq n A C.
Proof. intros H G i j Hi Hj. rewrite H by assumption. now apply G. Qed.
Lemma madd_eq n A A' B B' : meq n A A' -> meq n B B' -> meq n (madd A B) (madd A' B').
Proof. intros H G i j Hi Hj. unfold ConvModel.madd. now rewrite H, G. Qed.
Lemma mscale_eq n c A A' : meq n A A' -> meq n (mscale c A) (mscale c A').
Proof. intros H i j Hi Hj. unfold ConvModel.mscale. now rewrite H. Qed.
Lemma mherm_eq n A A' : meq n A A' -> meq n (mherm A) (mherm A').
Proof. intros H i j Hi Hj. unfold ConvModel.mherm. now rewrite H. Qed.
Lemma mmul_eq n A A' B B' : meq n A A' -> meq n B B' -> meq n (mmul n A B) (mmul n A' B').
Proof. intros H G i j Hi Hj. unfold ConvModel.mmul. apply nsum_ext. intros t Ht. now rewrite H, G. Qed.
Lemma mmul_1l n A : meq n (mmul n meye A) A.
Proof.
  intros i j Hi Hj. unfold ConvModel.mmul. rewrite (nsum_ext n _ (fun t => if t =? i then A t j else k0)).
  - now rewrite nsum_delta.
  - intros t Ht. unfold ConvModel.meye. rewrite (Nat.eqb_sym i t). destruct (t =? i); ring.
Qed.
Lemma mmul_1r n A : meq n (mmul n A meye) A.
Proof.
  intros i j Hi Hj. unfold ConvModel.mmul. rewrite (nsum_ext n _ (fun t => if t =? j then A i t else k0)).
  - now rewrite nsum_delta.
  - intros t Ht. unfold ConvModel.meye. destruct (t =? j); ring.
Qed.
Lemma mmul_assoc n A B C : meq n (mmul n A (mmul n B C)) (mmul n (mmul n A B) C).
Proof.
  intros i j Hi Hj. unfold ConvModel.mmul.
  transitivity (nsum n (fun t => nsum n (fun u => kmul (kmul (A i t) (B t u)) (C u j)))).
  - apply nsum_ext. intros t Ht. rewrite <- nsum_mul_l. apply nsum_ext. intros. ring.
  - rewrite nsum_swap. apply nsum_ext. intros u Hu. now rewrite nsum_mul_r.
Qed.
Lemma mmul_0l n B : meq n (mmul n mzero B) mzero.
Proof. intros i j Hi Hj. unfold ConvModel.mmul, ConvModel.mzero. rewrite (nsum_ext n _ (fun _ => k0)); [apply nsum_zero|]. intros. ring. Qed.
Lemma mmul_0r n B : meq n (mmul n B mzero) mzero.
Proof. intros i j Hi Hj. unfold ConvModel.mmul, ConvModel.mzero. rewrite (nsum_ext n _ (fun _ => k0)); [apply nsum_zero|]. intros. ring. Qed.
Lemma meye_herm n : meq n (mherm meye) meye.
Proof. intros i j _ _. unfold ConvModel.mherm, ConvModel.meye. rewrite Nat.eqb_sym. destruct (i =? j); [apply kconj_1|apply (kconj_0 r)]. Qed.
Lemma mherm_mul n A B : meq n (mherm (mmul n A B)) (mmul n (mherm B) (mherm A)).
Proof.
  intros i j Hi Hj. unfold ConvModel.mherm, ConvModel.mmul. rewrite nsum_conj. apply nsum_ext. intros t Ht. rewrite kconj_mul. ring.
Qed.

(** *** Kronecker products *)
Lemma split_ix n m i : i < n * m -> i / m < n /\ i mod m < m.
Proof.
  intros H. destruct m as [|m]; [lia|]. split.
  - apply Nat.div_lt_upper_bound; lia.
  - apply Nat.mod_upper_bound. lia.
Qed.
Lemma mkron_eq n m A A' B B' : meq n A A' -> meq m B B' -> meq (n * m) (mkron m A B) (mkron m A' B').
Proof.
  intros H G i j Hi Hj. unfold ConvModel.mkron. apply split_ix in Hi, Hj. rewrite H, G; tauto.
Qed.
Lemma mkron_mul n m A B C D : meq (n * m) (mmul (n * m) (mkron m A B) (mkron m C D)) (mkron m (mmul n A C) (mmul m B D)).
Proof.
  intros i j Hi Hj. unfold ConvModel.mmul, ConvModel.mkron. rewrite <- nsum_prod. apply nsum_ext. intros t Ht. ring.
Qed.
Lemma mkron_eye n m : meq (n * m) (mkron m meye meye) meye.
Proof.
  intros i j Hi Hj. unfold ConvModel.mkron, ConvModel.meye. destruct m as [|m]; [lia|].
  destruct (Nat.eqb_spec i j) as [-> |N]; [rewrite !Nat.eqb_refl; ring|].
  destruct (Nat.eqb_spec (i / Datatypes.S m) (j / Datatypes.S m)) as [E1|_]; [|ring].
  destruct (Nat.eqb_spec (i mod Datatypes.S m) (j mod Datatypes.S m)) as [E2|_]; [|ring].
  exfalso. apply N. rewrite (Nat.div_mod i (Datatypes.S m)), (Nat.div_mod j (Datatypes.S m)) by lia. congruence.
Qed.
Lemma mkron_herm n m A B : meq (n * m) (mherm (mkron m A B)) (mkron m (mherm A) (mherm B)).
Proof. intros i j _ _. unfold ConvModel.mherm, ConvModel.mkron. apply kconj_mul. Qed.

(** *** the factors of a space *)
Context (dim : nat -> option nat).
Local Notation levels := (levels dim). Local Notation size := (size dim). Local Notation digit := (digit dim).
Local Notation at_site := (at_site r dim).
Lemma size_cons l h : size (l :: h) = levels l * size h.
Proof. reflexivity. Qed.
Lemma digit_add h y : forall q i, digit h y (q * size h + i) = digit h y i.
Proof.
  induction h as [|l h IH]; intros q i; [reflexivity|]. cbn [ConvSpec.digit]. rewrite size_cons. destruct (l =? y).
  - destruct (Nat.eq_dec (size h) 0) as [E|E]; [now rewrite E, !Nat.mul_0_r|].
    replace (q * (levels l * size h) + i) with ((q * levels l) * size h + i) by lia. rewrite Nat.div_add_l by assumption.
    destruct (Nat.eq_dec (levels l) 0) as [E2|E2]; [rewrite E2; cbn; now rewrite Nat.mul_0_r|]. rewrite Nat.add_comm. now apply Nat.mod_add.
  - replace (q * (levels l * size h) + i) with ((q * levels l) * size h + i) by lia. apply IH.
Qed.
Lemma digit_mod h y i : size h <> 0 -> digit h y (i mod size h) = digit h y i.
Proof. intros E. rewrite (Nat.div_mod i (size h) E) at 2. rewrite Nat.mul_comm. symmetry. apply digit_add. Qed.
Lemma digits_eq h : NoDup h -> forall i j, i < size h -> j < size h -> (forall y, In y h -> digit h y i = digit h y j) -> i = j.
Proof.
  induction h as [|l h IH]; intros Hn i j Hi Hj H; [cbn in *; lia|]. rewrite size_cons in *. inversion Hn as [|? ? Hl Hh]; subst.
  assert (size h <> 0) as E by lia. apply split_ix in Hi, Hj. destruct Hi as [Hi1 Hi2], Hj as [Hj1 Hj2].
  assert (i / size h = j / size h) as E1.
  { specialize (H l (or_introl eq_refl)). cbn [ConvSpec.digit] in H. rewrite Nat.eqb_refl in H. now rewrite !Nat.mod_small in H. }
  assert (i mod size h = j mod size h) as E2.
  { apply IH; try assumption. intros y Hy. rewrite !digit_mod by assumption. specialize (H y (or_intror Hy)). cbn [ConvSpec.digit] in H.
    destruct (Nat.eqb_spec l y) as [-> |_]; [contradiction|exact H]. }
  rewrite (Nat.div_mod i (size h) E), (Nat.div_mod j (size h) E). congruence.
Qed.
(** the first factor *)
Lemma site_here l h m : ~ In l h -> NoDup h -> meq (size (l :: h)) (at_site (l :: h) l m) (mkron (size h) m meye).
Proof.
  intros Hl Hn i j Hi Hj. rewrite size_cons in Hi, Hj. assert (size h <> 0) as E by lia. apply split_ix in Hi, Hj. destruct Hi as [Hi1 Hi2], Hj as [Hj1 Hj2].
  unfold ConvSpec.at_site, ConvModel.mkron, ConvModel.meye. cbn [forallb ConvSpec.digit]. rewrite Nat.eqb_refl. cbn [orb andb].
  rewrite !Nat.mod_small with (a := _ / _) by assumption. destruct (forallb _ h) eqn:F.
  - rewrite forallb_forall in F. replace (i mod size h =? j mod size h) with true; [ring|]. symmetry. apply Nat.eqb_eq. apply (digits_eq h Hn); try assumption.
    intros y Hy. rewrite !digit_mod by assumption. specialize (F y Hy). assert (l <> y) as N by (intros ->; contradiction).
    rewrite (proj2 (Nat.eqb_neq l y)), (proj2 (Nat.eqb_neq y l)) in F by (try assumption; now apply not_eq_sym). cbn [orb] in F. now apply Nat.eqb_eq in F.
  - destruct (Nat.eqb_spec (i mod size h) (j mod size h)) as [E2|_]; [|ring]. exfalso.
    apply Bool.not_true_iff_false in F. apply F. apply forallb_forall. intros y Hy. assert (l <> y) as N by (intros ->; contradiction).
    rewrite (proj2 (Nat.eqb_neq l y) N). apply orb_true_intro. right. apply Nat.eqb_eq. now rewrite <- (digit_mod h y i E), <- (digit_mod h y j E), E2.
Qed.
Lemma site_there l h x m : l <> x -> ~ In l h -> meq (size (l :: h)) (at_site (l :: h) x m) (mkron (size h) meye (at_site h x m)).
Proof.
  intros Hx Hl i j Hi Hj. rewrite size_cons in Hi, Hj. assert (size h <> 0) as E by lia. apply split_ix in Hi, Hj. destruct Hi as [Hi1 Hi2], Hj as [Hj1 Hj2].
  unfold ConvSpec.at_site, ConvModel.mkron, ConvModel.meye. cbn [forallb ConvSpec.digit]. rewrite Nat.eqb_refl.
  destruct (Nat.eqb_spec l x) as [?|_]; [contradiction|]. cbn [orb]. rewrite !Nat.mod_small with (a := _ / _) by assumption.
  rewrite !(digit_mod h x) by assumption.
  replace (forallb (fun y => (y =? x) || (digit h y (i mod size h) =? digit h y (j mod size h))) h)
    with (forallb (fun y => (y =? x) || ((if l =? y then i / size h else digit h y i) =? (if l =? y then j / size h else digit h y j))) h).
  2:{ clear - Hl E. assert (forall h0, incl h0 h -> forallb (fun y => (y =? x) || ((if l =? y then i / size h else digit h y i) =? (if l =? y then j / size h else digit h y j))) h0
       = forallb (fun y => (y =? x) || (digit h y (i mod size h) =? digit h y (j mod size h))) h0) as G.
      { induction h0 as [|y h0 IH]; intros Hi; [reflexivity|]. cbn [forallb]. rewrite IH by (intros z Hz; apply Hi; now right). f_equal. f_equal.
        destruct (Nat.eqb_spec l y) as [-> |_]; [exfalso; apply Hl, Hi; now left|]. now rewrite !digit_mod. }
      apply G. apply incl_refl. }
  destruct (i / size h =? j / size h); cbn [andb]; [|ring]. destruct (forallb _ h); ring.
Qed.
Lemma site_eq h x m m' : meq (levels x) m m' -> In x h -> meq (size h) (at_site h x m) (at_site h x m').
Proof.
  intros H Hx i j Hi Hj. unfold ConvSpec.at_site. destruct (forallb _ h); [|reflexivity].
  assert (forall h0 i0, In x h0 -> i0 < size h0 -> digit h0 x i0 < levels x) as G.
  { clear. induction h0 as [|l h0 IH]; intros i Hx Hi; [contradiction|]. cbn [ConvSpec.digit]. rewrite size_cons in Hi. destruct (Nat.eqb_spec l x) as [-> |N].
    - apply Nat.mod_upper_bound. lia.
    - destruct Hx as [Hx|Hx]; [contradiction|]. assert (size h0 <> 0) by lia. rewrite <- digit_mod by assumption. apply IH; [exact Hx|]. now apply Nat.mod_upper_bound. }
  apply H; now apply G.
Qed.
(** products, sums, multiples, adjoints and identity at a site *)
Lemma site_mul h x m m' : NoDup h -> In x h -> meq (size h) (mmul (size h) (at_site h x m) (at_site h x m')) (at_site h x (mmul (levels x) m m')).
Proof.
  induction h as [|l h IH]; intros Hn Hx; [contradiction|]. inversion Hn as [|? ? Hl Hh]; subst. destruct (Nat.eq_dec l x) as [-> |N].
  - eapply meq_trans; [apply mmul_eq; apply site_here; assumption|]. eapply meq_trans; [apply mkron_mul|]. eapply meq_trans; [|apply meq_sym, site_here; assumption].
    apply mkron_eq; [apply meq_refl|apply mmul_1l].
  - destruct Hx as [Hx|Hx]; [contradiction|]. eapply meq_trans; [apply mmul_eq; apply site_there; assumption|]. eapply meq_trans; [apply mkron_mul|].
    eapply meq_trans; [|apply meq_sym, site_there; assumption]. apply mkron_eq; [apply mmul_1l|now apply IH].
Qed.
Lemma site_eye h x : NoDup h -> In x h -> meq (size h) (at_site h x meye) meye.
Proof.
  induction h as [|l h IH]; intros Hn Hx; [contradiction|]. inversion Hn as [|? ? Hl Hh]; subst. destruct (Nat.eq_dec l x) as [-> |N].
  - eapply meq_trans; [apply site_here; assumption|]. apply mkron_eye.
  - destruct Hx as [Hx|Hx]; [contradiction|]. eapply meq_trans; [apply site_there; assumption|]. eapply meq_trans; [apply mkron_eq; [apply meq_refl|now apply IH]|apply mkron_eye].
Qed.
Lemma site_add h x m m' n : meq n (at_site h x (madd m m')) (madd (at_site h x m) (at_site h x m')).
Proof. intros i j _ _. unfold ConvSpec.at_site, ConvModel.madd. destruct (forallb _ h); ring. Qed.
Lemma site_scale h x c m n : meq n (at_site h x (mscale c m)) (mscale c (at_site h x m)).
Proof. intros i j _ _. unfold ConvSpec.at_site, ConvModel.mscale. destruct (forallb _ h); ring. Qed.
Lemma site_zero h x n : meq n (at_site h x mzero) mzero.
Proof. intros i j _ _. unfold ConvSpec.at_site, ConvModel.mzero. destruct (forallb _ h); reflexivity. Qed.
Lemma site_herm h x m n : meq n (at_site h x (mherm m)) (mherm (at_site h x m)).
Proof.
  intros i j _ _. unfold ConvSpec.at_site, ConvModel.mherm.
  replace (forallb (fun y => (y =? x) || (digit h y j =? digit h y i)) h) with (forallb (fun y => (y =? x) || (digit h y i =? digit h y j)) h).
  2:{ assert (forall h0, forallb (fun y => (y =? x) || (digit h y i =? digit h y j)) h0 = forallb (fun y => (y =? x) || (digit h y j =? digit h y i)) h0) as G; [|apply G].
      induction h0 as [|y h0 IH]; [reflexivity|]. cbn [forallb]. now rewrite IH, (Nat.eqb_sym (digit h y i)). }
  destruct (forallb _ h); [reflexivity|]. symmetry. apply (kconj_0 r).
Qed.
Lemma site_only x m : meq (levels x) (at_site [x] x m) m.
Proof.
  intros i j Hi Hj. unfold ConvSpec.at_site. cbn [forallb ConvSpec.digit]. rewrite Nat.eqb_refl. cbn [orb andb ConvSpec.size fold_right].
  rewrite !Nat.div_1_r, !Nat.mod_small by assumption. reflexivity.
Qed.
End Mat.
