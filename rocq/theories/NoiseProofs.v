From Verif Require Import Prelude ListFacts AlgSpec CAlg NcRing MatModel SlhModel MatProofs MatSpec MatProofs2 SlhProofs1 AdModel NoiseModel NoiseSpec AdProofs2.

Section P.
  Context {M : calgebra}.
  Notation A := (A M).
  Notation "x + y" := (aadd x y). Notation "x * y" := (amul x y). Notation "- x" := (aopp x).
  Notation sm := (@bigsum M).
  Add Ring Kr : (kring M).
  Context (n : nat) (a : slh M).
  Notation s := (ent (sS a)). Notation l := (fun k => ent (sL a) k 0).
  Lemma smul_half_opp (x : A) : smul khalf (- x) = - smul khalf x.
  Proof. unfold aopp. rewrite <- !smul_mul. f_equal. ring. Qed.
  Lemma smul_opp c (x : A) : smul c (- x) = - smul c x.
  Proof. unfold aopp. rewrite <- !smul_mul. f_equal. ring. Qed.
  Lemma smul_comm_l c (x y : A) : smul c x * y = smul c (x * y).
  Proof. apply smul_amul_l. Qed.
  Lemma half_sum (x : A) : smul khalf x + smul khalf x = x.
  Proof. rewrite <- smul_addl, khalf_2. apply smul_1. Qed.
  Context (Hphys : physical a n).
  Lemma iso_ i j : i < n -> j < n -> sm n (fun k => star (s k i) * s k j) = delta i j.
  Proof. apply Hphys. Qed.
  Lemma coiso_ i j : i < n -> j < n -> sm n (fun k => s i k * star (s j k)) = delta i j.
  Proof. apply Hphys. Qed.
  Lemma theta_one m v : in_range n m -> in_range n v -> theta n a a1 m v = a0.
  Proof.
    destruct m as [|i], v as [|j]; intros Hm Hv; cbn [theta in_range] in *; unfold comm.
    - transitivity (smul iu (a0 : A) + sm n (fun _ => a0)); [|rewrite sm_0, smul_zero; ncr]. f_equal; [f_equal; ncr|].
      apply sm_ext. intros k _. rewrite !amul_1r, amul_1l. transitivity (star (l k) * l k + - (smul khalf (star (l k) * l k) + smul khalf (star (l k) * l k))); [now rewrite <- smul_addr|].
      rewrite half_sum. ncr.
    - apply sm_zero. intros k _. ncr.
    - apply sm_zero. intros k _. ncr.
    - transitivity (sm n (fun k => star (s k i) * s k j) + - (delta i j * a1)); [f_equal; apply sm_ext; intros k _; ncr|].
      rewrite iso_ by assumption. ncr.
  Qed.
  Lemma star_comm x y : star (comm x y) = comm (star y) (star x) :> A.
  Proof. unfold comm. rewrite star_add, star_opp, !star_mul. reflexivity. Qed.
  Lemma theta_star x m v : in_range n m -> in_range n v -> star (theta n a x m v) = theta n a (star x) v m.
  Proof.
    destruct Hphys as (_ & _ & _ & HH).
    destruct m as [|i], v as [|j]; intros Hm Hv; cbn [theta in_range] in *.
    - rewrite star_add, star_smul, iu_conj, star_comm, HH, star_sm. f_equal.
      + transitivity (smul iu (- comm (star x) (sH a))); [|f_equal; unfold comm; ncr]. unfold aopp. rewrite <- smul_mul. f_equal. ring.
      + apply sm_ext. intros k _. rewrite star_add, star_opp, star_smul, khalf_conj, star_add, !star_mul, star_star.
        rewrite <- !(amul_assoc M). f_equal. f_equal. f_equal. apply aadd_comm.
    - rewrite star_sm. apply sm_ext. intros k _. rewrite star_mul, star_comm, star_star. reflexivity.
    - rewrite star_sm. apply sm_ext. intros k _. rewrite star_mul, star_comm, star_star. reflexivity.
    - rewrite star_add, star_opp, star_sm, star_mul, star_delta, (delta_sym j i). f_equal.
      + apply sm_ext. intros k _. rewrite !star_mul, star_star. ncr.
      + f_equal. unfold delta. destruct (i =? j); ncr.
  Qed.
  Lemma theta_add x y m v : in_range n m -> in_range n v -> theta n a (x + y) m v = theta n a x m v + theta n a y m v.
  Proof.
    destruct m as [|i], v as [|j]; intros Hm Hv; cbn [theta in_range] in *; unfold comm.
    - transitivity ((smul iu (sH a * x + - (x * sH a)) + smul iu (sH a * y + - (y * sH a))) + (sm n (fun k => star (l k) * x * l k + - smul khalf (star (l k) * l k * x + x * star (l k) * l k)) + sm n (fun k => star (l k) * y * l k + - smul khalf (star (l k) * l k * y + y * star (l k) * l k)))); [|ncr].
      rewrite <- smul_addr, <- sm_add. f_equal; [f_equal; ncr|]. apply sm_ext. intros k _.
      transitivity (star (l k) * x * l k + star (l k) * y * l k + - (smul khalf (star (l k) * l k * x + x * star (l k) * l k) + smul khalf (star (l k) * l k * y + y * star (l k) * l k))); [|ncr].
      rewrite <- smul_addr. f_equal; [ncr|]. f_equal. f_equal. ncr.
    - rewrite <- sm_add. apply sm_ext. intros k _. ncr.
    - rewrite <- sm_add. apply sm_ext. intros k _. ncr.
    - transitivity (sm n (fun k => star (s k i) * x * s k j) + sm n (fun k => star (s k i) * y * s k j) + - (delta i j * (x + y))); [|ncr].
      rewrite <- sm_add. f_equal. apply sm_ext. intros k _. ncr.
  Qed.
  (** the sum over an intermediate channel *)
  Lemma mid (u w : nat -> A) : sm n (fun k => sm n (fun i => u i * s i k) * sm n (fun j => star (s j k) * w j)) = sm n (fun i => u i * w i).
  Proof.
    transitivity (sm n (fun k => sm n (fun i => sm n (fun j => u i * (s i k * star (s j k)) * w j)))).
    - apply sm_ext. intros k _. rewrite <- sm_mul_r. apply sm_ext. intros i _. rewrite <- sm_mul_l. apply sm_ext. intros j _. ncr.
    - rewrite sm_swap. apply sm_ext. intros i Hi. rewrite sm_swap.
      transitivity (sm n (fun j => delta i j * (u i * w j))); [|exact (sm_delta_l n i (fun j => u i * w j) Hi)].
      apply sm_ext. intros j Hj. transitivity (u i * sm n (fun k => s i k * star (s j k)) * w j); [now rewrite <- sm_mul_l, <- sm_mul_r|].
      rewrite coiso_ by assumption. unfold delta. destruct (i =? j); ncr.
  Qed.
  Lemma theta_mul x y m v : in_range n m -> in_range n v ->
    theta n a (x * y) m v = theta n a x m v * y + x * theta n a y m v + sm n (fun k => theta n a x m (Chan k) * theta n a y (Chan k) v).
  Proof.
    destruct m as [|i], v as [|j]; intros Hm Hv; cbn [theta in_range] in *.
    - rewrite (mid (fun k => comm (star (l k)) x) (fun k => comm y (l k))).
      transitivity ((smul iu (comm (sH a) x) * y + x * smul iu (comm (sH a) y)) +
        (sm n (fun k => (star (l k) * x * l k + - smul khalf (star (l k) * l k * x + x * star (l k) * l k)) * y) +
         sm n (fun k => x * (star (l k) * y * l k + - smul khalf (star (l k) * l k * y + y * star (l k) * l k))) +
         sm n (fun k => comm (star (l k)) x * comm y (l k)))); [|rewrite sm_mul_l, sm_mul_r; ncr].
      f_equal.
      + rewrite smul_amul_l, smul_amul_r, <- smul_addr. f_equal. unfold comm. ncr.
      + rewrite <- !sm_add. apply sm_ext. intros k _. cbn beta. generalize (ent (sL a) k 0) as lk. intros lk. unfold comm.
        transitivity (star lk * (x * y) * lk + - (smul khalf (star lk * lk * (x * y)) + smul khalf (x * y * star lk * lk))); [now rewrite smul_addr|].
        transitivity (star lk * x * lk * y + - (smul khalf (star lk * lk * x) * y + smul khalf (x * star lk * lk) * y) + (x * (star lk * y * lk) + - (x * smul khalf (star lk * lk * y) + x * smul khalf (y * star lk * lk))) + (star lk * x + - (x * star lk)) * (y * lk + - (lk * y))); [|rewrite !smul_addr; ncr].
        rewrite !smul_amul_l, !smul_amul_r.
        replace (star lk * lk * x * y) with (star lk * lk * (x * y)) by ncr.
        replace (x * (y * star lk * lk)) with (x * y * star lk * lk) by ncr.
        replace (x * (star lk * lk * y)) with (x * star lk * lk * y) by ncr.
        transitivity (star lk * (x * y) * lk + - (smul khalf (star lk * lk * (x * y)) + smul khalf (x * y * star lk * lk)) + (x * star lk * lk * y + - (smul khalf (x * star lk * lk * y) + smul khalf (x * star lk * lk * y)))); [|ncr].
        rewrite half_sum. ncr.
    - (* Time, Chan j *)
      transitivity (sm n (fun k => comm (star (l k)) x * s k j) * y + x * sm n (fun k => comm (star (l k)) y * s k j) +
        (sm n (fun k => sm n (fun i => comm (star (l i)) x * s i k) * sm n (fun i => star (s i k) * (y * s i j))) + - sm n (fun k => sm n (fun i => comm (star (l i)) x * s i k) * (delta k j * y)))).
      2:{ f_equal. rewrite <- sm_opp, <- sm_add. apply sm_ext. intros k _. 
          transitivity (sm n (fun i => comm (star (l i)) x * s i k) * sm n (fun i => star (s i k) * (y * s i j)) + - (sm n (fun i => comm (star (l i)) x * s i k) * (delta k j * y))); [reflexivity|].
          transitivity (sm n (fun i => comm (star (l i)) x * s i k) * (sm n (fun i => star (s i k) * (y * s i j)) + - (delta k j * y))); [ncr|]. f_equal. f_equal. apply sm_ext. intros i _. ncr. }
      rewrite (mid (fun i => comm (star (l i)) x) (fun i => y * s i j)).
      replace (sm n (fun k => sm n (fun i => comm (star (l i)) x * s i k) * (delta k j * y))) with (sm n (fun i => comm (star (l i)) x * s i j) * y).
      2:{ transitivity (sm n (fun k => sm n (fun i => comm (star (l i)) x * s i k) * delta k j) * y); [|rewrite <- sm_mul_r; apply sm_ext; intros k _; ncr].
          now rewrite (sm_delta_r n j (fun k => sm n (fun i => comm (star (l i)) x * s i k)) Hv). }
      transitivity (x * sm n (fun k => comm (star (l k)) y * s k j) + sm n (fun i => comm (star (l i)) x * (y * s i j))); [|ncr].
      rewrite <- sm_mul_l, <- sm_add. apply sm_ext. intros k _. unfold comm. ncr.
    - (* Chan i, Time *)
      transitivity (sm n (fun k => star (s k i) * comm x (l k)) * y + x * sm n (fun k => star (s k i) * comm y (l k)) +
        (sm n (fun k => sm n (fun h => (star (s h i) * x) * s h k) * sm n (fun h => star (s h k) * comm y (l h))) + - sm n (fun k => delta i k * (x * sm n (fun h => star (s h k) * comm y (l h)))))).
      2:{ f_equal. rewrite <- sm_opp, <- sm_add. apply sm_ext. intros k _. ncr. }
      rewrite (mid (fun h => star (s h i) * x) (fun h => comm y (l h))), (sm_delta_l n i (fun k => x * sm n (fun h => star (s h k) * comm y (l h))) Hm).
      transitivity (sm n (fun k => star (s k i) * comm x (l k)) * y + sm n (fun h => star (s h i) * x * comm y (l h))); [|ncr].
      rewrite <- sm_mul_r, <- sm_add. apply sm_ext. intros k _. unfold comm. ncr.
    - (* Chan i, Chan j *)
      transitivity ((sm n (fun k => star (s k i) * x * s k j) + - (delta i j * x)) * y + x * (sm n (fun k => star (s k i) * y * s k j) + - (delta i j * y)) +
        (sm n (fun k => sm n (fun h => (star (s h i) * x) * s h k) * sm n (fun h => star (s h k) * (y * s h j)))
         + - sm n (fun k => sm n (fun h => star (s h i) * x * s h k) * delta k j) * y
         + - sm n (fun k => delta i k * (x * sm n (fun h => star (s h k) * y * s h j)))
         + sm n (fun k => delta i k * (x * (delta k j * y))))).
      2:{ f_equal. rewrite <- !sm_opp, <- sm_mul_r, <- !sm_add. apply sm_ext. intros k _.
          replace (sm n (fun h => star (s h k) * (y * s h j))) with (sm n (fun h => star (s h k) * y * s h j)) by (apply sm_ext; intros; ncr). 
          transitivity ((sm n (fun h => star (s h i) * x * s h k) + - (delta i k * x)) * (sm n (fun h => star (s h k) * y * s h j) + - (delta k j * y))); [|reflexivity]. ncr. }
      rewrite (mid (fun h => star (s h i) * x) (fun h => y * s h j)), (sm_delta_r n j (fun k => sm n (fun h => star (s h i) * x * s h k)) Hv).
      rewrite (sm_delta_l n i (fun k => x * sm n (fun h => star (s h k) * y * s h j)) Hm), (sm_delta_l n i (fun k => x * (delta k j * y)) Hm).
      replace (sm n (fun i0 => star (s i0 i) * x * (y * s i0 j))) with (sm n (fun k => star (s k i) * (x * y) * s k j)) by (apply sm_ext; intros; ncr).
      unfold delta. destruct (i =? j); ncr.
  Qed.
  Lemma theta_flow : flow n (theta n a).
  Proof.
    split; [exact theta_one|]. split; [exact theta_star|]. split; [exact theta_add|exact theta_mul].
  Qed.
End P.
