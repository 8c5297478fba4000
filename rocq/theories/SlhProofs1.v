(** Finite sums, vectors and matrices at the level of index functions. *)
From Verif Require Import Prelude ListFacts AlgSpec CAlg NcRing MatModel SlhModel MatProofs MatSpec.

Section F.
  Context {M : calgebra}.
  Add Ring Kr : (kring M).
  Notation A := (A M). Notation K := (K M).
  Notation "x + y" := (aadd x y). Notation "x * y" := (amul x y).
  Implicit Types x y z : A. Implicit Types u v w : nat -> A.
  Implicit Types s t : nat -> nat -> A.
  Notation sm := (@bigsum M).

  Lemma sm_ext n (f g : nat -> A) : (forall k, k < n -> f k = g k) -> sm n f = sm n g.
  Proof. intros H. apply asum_ext. intros k Hk. apply in_seq in Hk. apply H. lia. Qed.
  Lemma sm_add n (f g : nat -> A) : sm n (fun k => f k + g k) = sm n f + sm n g.
  Proof. apply asum_add. Qed.
  Lemma sm_mul_l n (f : nat -> A) x : sm n (fun k => x * f k) = x * sm n f.
  Proof. apply asum_mul_l. Qed.
  Lemma sm_mul_r n (f : nat -> A) x : sm n (fun k => f k * x) = sm n f * x.
  Proof. apply asum_mul_r. Qed.
  Lemma sm_smul n c (f : nat -> A) : sm n (fun k => smul c (f k)) = smul c (sm n f).
  Proof. apply asum_smul. Qed.
  Lemma sm_opp n (f : nat -> A) : sm n (fun k => aopp (f k)) = aopp (sm n f).
  Proof. apply aopp_asum. Qed.
  Lemma sm_swap n m (f : nat -> nat -> A) : sm n (fun i => sm m (fun j => f i j)) = sm m (fun j => sm n (fun i => f i j)).
  Proof. apply asum_swap. Qed.
  Lemma sm_0 n : sm n (fun _ => a0) = a0.
  Proof. apply asum_zero. Qed.
  Lemma sm_zero n (f : nat -> A) : (forall k, k < n -> f k = a0) -> sm n f = a0.
  Proof. intros H. rewrite (sm_ext n f (fun _ => a0) H). apply sm_0. Qed.
  Lemma sm_S n (f : nat -> A) : sm (S n) f = sm n f + f n.
  Proof.
    unfold bigsum. rewrite seq_S, asum_app. cbn [plus]. f_equal.
    rewrite asum_cons. apply aadd_0r.
  Qed.
  Lemma sm_split n m (f : nat -> A) : sm (n + m) f = sm n f + sm m (fun j => f (Nat.add n j)).
  Proof. apply asum_split. Qed.
  Lemma star_sm n (f : nat -> A) : star (sm n f) = sm n (fun k => star (f k)).
  Proof. apply star_asum. Qed.
  Lemma sm_delta_l n k (f : nat -> A) : k < n -> sm n (fun j => delta k j * f j) = f k.
  Proof.
    intros Hk. unfold bigsum. rewrite <- (asum_delta_l n k f Hk). apply asum_ext. intros j _.
    unfold delta. rewrite (Nat.eqb_sym k j). reflexivity.
  Qed.
  Lemma sm_delta_r n k (f : nat -> A) : k < n -> sm n (fun j => f j * delta j k) = f k.
  Proof. intros Hk. apply asum_delta_r. exact Hk. Qed.

  Lemma delta_sym i j : delta i j = delta j i :> A.
  Proof. unfold delta. now rewrite Nat.eqb_sym. Qed.
  Lemma delta_refl i : delta i i = a1 :> A.
  Proof. unfold delta. now rewrite Nat.eqb_refl. Qed.
  Lemma delta_neq i j : i <> j -> delta i j = a0 :> A.
  Proof. unfold delta. destruct (Nat.eqb_spec i j); [contradiction|reflexivity]. Qed.
  Lemma star_delta i j : star (delta i j) = delta i j :> A.
  Proof. unfold delta. destruct (i =? j); [apply star_1|apply star_0]. Qed.

  (** [x^dagger y], [S x], [S^dagger x], [S T] *)
  Definition dot n (x y : nat -> A) : A := sm n (fun k => star (x k) * y k).
  Definition mv n (s : nat -> nat -> A) (x : nat -> A) (i : nat) : A := sm n (fun k => s i k * x k).
  Definition hc (s : nat -> nat -> A) : nat -> nat -> A := fun i j => star (s j i).
  Definition mm n (s t : nat -> nat -> A) (i j : nat) : A := sm n (fun k => s i k * t k j).
  Definition iso n (s : nat -> nat -> A) := forall i j, i < n -> j < n -> mm n (hc s) s i j = delta i j.

  Lemma dot_ext n u v (u' v' : nat -> A) : (forall k, k < n -> u k = u' k) -> (forall k, k < n -> v k = v' k) ->
    dot n u v = dot n u' v'.
  Proof. intros Hx Hy. apply sm_ext. intros k Hk. now rewrite Hx, Hy. Qed.
  Lemma dot_add_r n u v w : dot n u (fun k => v k + w k) = dot n u v + dot n u w.
  Proof. unfold dot. rewrite <- sm_add. apply sm_ext. intros. apply amul_addr. Qed.
  Lemma dot_add_l n u v w : dot n (fun k => u k + v k) w = dot n u w + dot n v w.
  Proof. unfold dot. rewrite <- sm_add. apply sm_ext. intros. rewrite star_add. apply amul_addl. Qed.
  Lemma dot_opp_r n u v : dot n u (fun k => aopp (v k)) = aopp (dot n u v).
  Proof. unfold dot. rewrite <- sm_opp. apply sm_ext. intros. apply aopp_mul_r. Qed.
  Lemma dot_opp_l n u v : dot n (fun k => aopp (u k)) v = aopp (dot n u v).
  Proof. unfold dot. rewrite <- sm_opp. apply sm_ext. intros. rewrite star_opp. apply aopp_mul_l. Qed.
  Lemma dot_mul_r n u v z : dot n u (fun k => v k * z) = dot n u v * z.
  Proof. unfold dot. rewrite <- sm_mul_r. apply sm_ext. intros. apply amul_assoc. Qed.
  Lemma dot_mul_l n u v z : dot n (fun k => u k * z) v = star z * dot n u v.
  Proof. unfold dot. rewrite <- sm_mul_l. apply sm_ext. intros. rewrite star_mul. symmetry. apply amul_assoc. Qed.
  Lemma star_dot n u v : star (dot n u v) = dot n v u.
  Proof. unfold dot. rewrite star_sm. apply sm_ext. intros. rewrite star_mul, star_star. reflexivity. Qed.
  Lemma mv_ext n s u (s' : nat -> nat -> A) u' i : (forall k, k < n -> s i k = s' i k) -> (forall k, k < n -> u k = u' k) ->
    mv n s u i = mv n s' u' i.
  Proof. intros Hs Hx. apply sm_ext. intros k Hk. now rewrite Hx, Hs. Qed.
  Lemma mm_ext n s t (s' t' : nat -> nat -> A) i j : (forall k, k < n -> s i k = s' i k) -> (forall k, k < n -> t k j = t' k j) ->
    mm n s t i j = mm n s' t' i j.
  Proof. intros Hs Hx. apply sm_ext. intros k Hk. now rewrite Hx, Hs. Qed.
  Lemma mv_add n s u v i : mv n s (fun k => u k + v k) i = mv n s u i + mv n s v i.
  Proof. unfold mv. rewrite <- sm_add. apply sm_ext. intros. apply amul_addr. Qed.
  Lemma mv_opp n s u i : mv n s (fun k => aopp (u k)) i = aopp (mv n s u i).
  Proof. unfold mv. rewrite <- sm_opp. apply sm_ext. intros. apply aopp_mul_r. Qed.
  Lemma mv_mul n s u z i : mv n s (fun k => u k * z) i = mv n s u i * z.
  Proof. unfold mv. rewrite <- sm_mul_r. apply sm_ext. intros. apply amul_assoc. Qed.
  Lemma hc_hc s i j : hc (hc s) i j = s i j.
  Proof. unfold hc. apply star_star. Qed.

  Lemma dot_mv n m u s v : dot n u (mv m s v) = dot m (mv n (hc s) u) v.
  Proof.
    unfold dot, mv, hc.
    transitivity (sm n (fun k => sm m (fun j => star (u k) * (s k j * v j)))).
    - apply sm_ext. intros k _. symmetry. apply sm_mul_l.
    - rewrite sm_swap. apply sm_ext. intros j _. rewrite star_sm, <- sm_mul_r. apply sm_ext. intros k _.
      rewrite star_mul, star_star. apply amul_assoc.
  Qed.
  Lemma mv_mm n m s t u i : mv m (mm n s t) u i = mv n s (mv m t u) i.
  Proof.
    unfold mv, mm. transitivity (sm m (fun k => sm n (fun j => s i j * t j k * u k))).
    - apply sm_ext. intros k _. symmetry. apply sm_mul_r.
    - rewrite sm_swap. apply sm_ext. intros j _. rewrite <- sm_mul_l. apply sm_ext. intros k _.
      symmetry. apply amul_assoc.
  Qed.
  Lemma mm_assoc n m s t (r : nat -> nat -> A) i j : mm m (mm n s t) r i j = mm n s (mm m t r) i j.
  Proof. exact (mv_mm n m s t (fun k => r k j) i). Qed.
  Lemma mv_col n s t i j : mm n s t i j = mv n s (fun k => t k j) i.
  Proof. reflexivity. Qed.
  Lemma hc_mm n s t i j : hc (mm n s t) i j = mm n (hc t) (hc s) i j.
  Proof. unfold hc, mm. rewrite star_sm. apply sm_ext. intros. apply star_mul. Qed.
  Lemma mv_delta n u i : i < n -> mv n delta u i = u i.
  Proof. intros Hi. apply sm_delta_l. exact Hi. Qed.
  Lemma mm_delta_l n s i j : i < n -> mm n delta s i j = s i j.
  Proof. intros Hi. unfold mm. exact (sm_delta_l n i (fun k => s k j) Hi). Qed.
  Lemma mm_delta_r n s i j : j < n -> mm n s delta i j = s i j.
  Proof. intros Hj. unfold mm. exact (sm_delta_r n j (fun k => s i k) Hj). Qed.
  Lemma iso_mv n s u i : iso n s -> i < n -> mv n (hc s) (mv n s u) i = u i.
  Proof.
    intros Hs Hi. rewrite <- mv_mm. rewrite <- (mv_delta n u i Hi). apply mv_ext; [|reflexivity].
    intros k Hk. apply Hs; assumption.
  Qed.
  Lemma iso_dot n s u v : iso n s -> dot n (mv n s u) (mv n s v) = dot n u v.
  Proof.
    intros Hs. rewrite dot_mv. apply dot_ext; [|reflexivity]. intros. now apply iso_mv.
  Qed.
  Lemma iso_mm n s t : iso n s -> iso n t -> iso n (mm n s t).
  Proof.
    intros Hs Ht i j Hi Hj.
    rewrite (mm_ext n _ (mm n s t) (mm n (hc t) (hc s)) (mm n s t) i j (fun k _ => hc_mm n s t i k) (fun _ _ => eq_refl)).
    rewrite mm_assoc. rewrite <- (Ht i j Hi Hj). apply mm_ext; [reflexivity|]. intros k Hk.
    rewrite <- mm_assoc. rewrite <- (mm_delta_l n t k j Hk). apply mm_ext; [|reflexivity].
    intros l Hl. apply Hs; assumption.
  Qed.

  (** the imaginary part, as the code computes it *)
  Definition imp x : A := smul (kmul iu khalf) (star x + smul (kopp k1) x).
  Lemma imp_add x y : imp (x + y) = imp x + imp y.
  Proof.
    unfold imp. rewrite <- smul_addr. f_equal. rewrite star_add, smul_addr. apply aadd_perm4.
  Qed.
  Lemma imp_selfadj x : star x = x -> imp x = a0.
  Proof. intros H. unfold imp. rewrite H, aadd_opp. apply smul_zero. Qed.
  Lemma imp_star x : imp (star x) = aopp (imp x).
  Proof.
    unfold imp. rewrite star_star. unfold aopp. rewrite <- smul_mul.
    replace (kmul (kopp k1) (kmul iu khalf)) with (kmul (kmul iu (@khalf M)) (kopp k1)) by ring.
    rewrite (smul_mul M (kmul iu khalf) (kopp k1)). f_equal. rewrite smul_addr, <- smul_mul.
    rewrite aadd_comm. f_equal. replace (kmul (kopp (@k1 M)) (kopp k1)) with (@k1 M) by ring.
    symmetry. apply smul_1.
  Qed.
  Lemma imp_opp x : imp (aopp x) = aopp (imp x).
  Proof.
    unfold imp. rewrite star_opp. unfold aopp. rewrite <- smul_addr, <- !smul_mul. f_equal. ring.
  Qed.
  Lemma star_imp x : star (imp x) = imp x.
  Proof.
    unfold imp. rewrite star_smul, kconj_mul, iu_conj, khalf_conj, star_add, star_star, star_smul.
    rewrite kconj_opp, kconj_1.
    replace (kmul (kopp iu) (@khalf M)) with (kmul (kmul iu (@khalf M)) (kopp k1)) by ring.
    rewrite (smul_mul M (kmul iu khalf) (kopp k1)). f_equal. rewrite smul_addr, <- smul_mul. rewrite aadd_comm. f_equal.
    replace (kmul (kopp (@k1 M)) (kopp k1)) with (@k1 M) by ring. apply smul_1.
  Qed.
  (** -i Im x = -(x - x^dagger)/2 *)
  Lemma imp_i x : smul (kopp iu) (imp x) = smul khalf (star x + aopp x).
  Proof.
    unfold imp. fold (aopp x). rewrite <- smul_mul. f_equal.
    transitivity (kmul (kopp (kmul iu iu)) (@khalf M)); [ring|]. rewrite iu_sq. ring.
  Qed.
  Lemma half_half x : smul khalf (x + x) = x.
  Proof. rewrite smul_addr, <- smul_addl, khalf_2. apply smul_1. Qed.
End F.
