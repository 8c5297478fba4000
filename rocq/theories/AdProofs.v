(** Adiabatic elimination: the algebra of the limit. *)
From Coq Require Import Ncring Ncring_tac.
From Verif Require Import Prelude ListFacts AlgSpec CAlg NcRing MatModel SlhModel MatProofs MatSpec MatProofs2 SlhProofs1 AdModel AdSpec.

Section Alg.
  Context {M : calgebra}.
  Notation A := (A M). Notation K := (K M).
  Notation "x + y" := (aadd x y). Notation "x * y" := (amul x y). Notation "- x" := (aopp x).
  Notation sm := (@bigsum M).
  Context (n : nat) (y a b yt p0 : A) (f g : nat -> A) (w : nat -> nat -> A).
  Context (HP : slow_space y yt p0).
  Definition FF := sm n (fun j => f j * star (f j)).
  Definition FG := sm n (fun j => f j * star (g j)).
  Definition GF := sm n (fun j => g j * star (f j)).
  Definition GG := sm n (fun j => g j * star (g j)).
  Context (HY : y + star y = - FF) (HA : a + star a = - (FG + GF)) (HB : b + star b = - GG).
  Context (Hdark : forall j, j < n -> star (f j) * p0 = a0).
  Let pp : p0 * p0 = p0. Proof. apply HP. Qed.
  Let ps : star p0 = p0. Proof. apply HP. Qed.
  Let yp : y * p0 = a0. Proof. apply HP. Qed.
  Let py : p0 * y = a0. Proof. apply HP. Qed.
  Let yyt : y * yt = a1 + - p0. Proof. apply HP. Qed.
  Let yty : yt * y = a1 + - p0. Proof. apply HP. Qed.
  Let ytp : yt * p0 = a0. Proof. apply HP. Qed.
  Let pyt : p0 * yt = a0. Proof. apply HP. Qed.
  Lemma pf j : j < n -> p0 * f j = a0.
  Proof. intros H. transitivity (star (star (f j) * p0)); [now rewrite star_mul, star_star, ps|]. rewrite (Hdark j H). apply star_0. Qed.
  Lemma FGp : p0 * FG = a0.
  Proof. unfold FG. rewrite <- sm_mul_l. apply sm_zero. intros j Hj. rewrite amul_assoc, (pf j Hj). apply amul_0l. Qed.
  Lemma GFp : GF * p0 = a0.
  Proof. unfold GF. rewrite <- sm_mul_r. apply sm_zero. intros j Hj. rewrite <- amul_assoc, (Hdark j Hj). apply amul_0r. Qed.
  Lemma opp_eq (x z : A) : x + z = a0 -> x = - z.
  Proof. intros H. transitivity (x + z + - z); [ncr|]. rewrite H. ncr. Qed.
  Lemma mine (x z v : A) : x + z = v -> x = v + - z.
  Proof. intros <-. ncr. Qed.
  Lemma starp : star yt * p0 = a0.
  Proof. transitivity (star (p0 * yt)); [now rewrite star_mul, ps|]. rewrite pyt. apply star_0. Qed.
  Lemma pstar : p0 * star yt = a0.
  Proof. transitivity (star (yt * p0)); [now rewrite star_mul, ps|]. rewrite ytp. apply star_0. Qed.
  (** Yt (Y + Y^dagger) Yt^dagger *)
  Lemma sandwich : yt * FF * star yt = - (yt + star yt).
  Proof.
    assert (FF = - (y + star y)) as E. { rewrite HY. ncr. }
    rewrite E. transitivity (- ((yt * y) * star yt + yt * star (yt * y))); [rewrite star_mul; ncr|].
    rewrite yty, star_add, star_opp, star_1, ps.
    transitivity (- (star yt + yt) + (p0 * star yt + yt * p0)); [ncr|]. rewrite pstar, ytp. ncr.
  Qed.
  Lemma sandwich' : star yt * FF * yt = - (yt + star yt).
  Proof.
    assert (FF = - (y + star y)) as E. { rewrite HY. ncr. }
    rewrite E. transitivity (- (star yt * (y * yt) + star (y * yt) * yt)); [rewrite star_mul; ncr|].
    rewrite yyt, star_add, star_opp, star_1, ps.
    transitivity (- (star yt + yt) + (star yt * p0 + p0 * yt)); [ncr|]. rewrite starp, pyt. ncr.
  Qed.
  (** p0 A = - p0 (A^dagger + GF),  A p0 = - (A^dagger + FG) p0 *)
  Lemma ap : a * p0 = - ((star a + FG) * p0).
  Proof.
    assert (a = - (FG + GF) + - star a) as E by now apply mine. transitivity ((- (FG + GF) + - star a) * p0); [now rewrite <- E|].
    transitivity (- ((star a + FG) * p0) + - (GF * p0)); [ncr|]. rewrite GFp. ncr.
  Qed.
  Lemma pa : p0 * star a = - (p0 * (a + GF)).
  Proof.
    assert (star a = - (FG + GF) + - a) as E. { apply mine. rewrite <- HA. apply aadd_comm. }
    rewrite E. transitivity (- (p0 * (a + GF)) + - (p0 * FG)); [ncr|]. rewrite FGp. ncr.
  Qed.
  Definition mj j : A := g j + - (a * yt * f j).
  Lemma star_mj j : star (mj j) = star (g j) + - (star (f j) * star yt * star a).
  Proof. unfold mj. rewrite star_add, star_opp, !star_mul. ncr. Qed.
  Lemma mm_sum : sm n (fun j => mj j * star (mj j)) = GG + - (a * yt * FG) + - (GF * star yt * star a) + a * (yt * FF * star yt) * star a.
  Proof.
    transitivity (sm n (fun j => g j * star (g j) + - (a * yt * (f j * star (g j))) + - ((g j * star (f j)) * (star yt * star a)) + (a * yt) * ((f j * star (f j)) * (star yt * star a)))).
    - apply sm_ext. intros j _. rewrite star_mj. unfold mj. ncr.
    - rewrite !sm_add, !sm_opp, !sm_mul_l, !sm_mul_r. fold FF FG GF GG. ncr.
  Qed.
  Context (HC : forall j, j < n -> p0 * mj j * (a1 + - p0) = a0).
  Lemma pmp j : j < n -> p0 * mj j * p0 = p0 * mj j.
  Proof. intros H. transitivity (p0 * mj j + - (p0 * mj j * (a1 + - p0))); [ncr|]. rewrite (HC j H). ncr. Qed.
  Lemma lim_L_eq j : j < n -> lim_L a yt p0 f g j = p0 * mj j.
  Proof. intros H. exact (pmp j H). Qed.
  (** K + K^dagger = - sum of L^dagger L *)
  Lemma limit_dissipation : lim_K a b yt p0 + star (lim_K a b yt p0) = - sm n (fun j => lim_L a yt p0 f g j * star (lim_L a yt p0 f g j)).
  Proof.
    transitivity (- (p0 * sm n (fun j => mj j * star (mj j)) * p0)).
    2:{ f_equal. rewrite <- sm_mul_l, <- sm_mul_r. apply sm_ext. intros j Hj. rewrite (lim_L_eq j Hj), star_mul, ps. ncr. }
    rewrite mm_sum, sandwich. unfold lim_K. rewrite !star_mul, ps, star_add, star_opp, !star_mul.
    transitivity (p0 * (b + star b) * p0 + - (p0 * a * yt * (a * p0)) + - ((p0 * star a) * star yt * star a * p0)); [ncr|].
    rewrite ap, pa, HB. ncr.
  Qed.
  Definition dN i j : A := star (f i) * yt * f j + delta i j.
  Context (HN : forall i j, i < n -> j < n -> sm n (fun l => p0 * w i l * dN l j) * (a1 + - p0) = a0).
  Definition nj i j : A := sm n (fun l => p0 * w i l * dN l j).
  Lemma lim_N_eq i j : i < n -> j < n -> lim_N n yt p0 f w i j = nj i j.
  Proof.
    intros Hi Hj. unfold lim_N. transitivity (nj i j * p0); [unfold nj; rewrite <- sm_mul_r; reflexivity|].
    transitivity (nj i j + - (nj i j * (a1 + - p0))); [ncr|]. unfold nj at 2. rewrite (HN i j Hi Hj). ncr.
  Qed.
  Lemma lim_N_p i j : i < n -> j < n -> nj i j * p0 = nj i j.
  Proof. intros Hi Hj. rewrite <- (lim_N_eq i j Hi Hj) at 2. unfold lim_N, nj. rewrite <- sm_mul_r. reflexivity. Qed.
  (** the coefficients of the annihilation process follow from N and L *)
  Lemma limit_scattering i : i < n ->
    lim_M n a yt p0 f g w i = - sm n (fun j => lim_N n yt p0 f w i j * star (lim_L a yt p0 f g j)).
  Proof.
    intros Hi. unfold lim_M. f_equal.
    transitivity (sm n (fun j => nj i j * star (p0 * mj j))).
    2:{ apply sm_ext. intros j Hj. now rewrite (lim_N_eq i j Hi Hj), (lim_L_eq j Hj). }
    transitivity (sm n (fun j => nj i j * (star (mj j) * p0))).
    2:{ apply sm_ext. intros j _. now rewrite star_mul, ps. }
    transitivity (sm n (fun j => sm n (fun l => p0 * w i l * dN l j * (star (mj j) * p0)))).
    2:{ apply sm_ext. intros j _. unfold nj. now rewrite <- sm_mul_r. }
    rewrite sm_swap. apply sm_ext. intros l Hl.
    transitivity (p0 * w i l * (sm n (fun j => dN l j * star (mj j)) * p0)).
    2:{ rewrite <- sm_mul_r, <- sm_mul_l. apply sm_ext. intros j _. ncr. }
    transitivity (p0 * w i l * ((star (g l) + - (star (f l) * yt * a)) * p0)); [ncr|]. f_equal.
    (* sum over j of dN l j * star (mj j) *)
    transitivity ((star (f l) * yt * (FG + - (FF * star yt * star a)) + star (mj l)) * p0).
    - rewrite star_mj. transitivity ((star (g l) + star (f l) * (yt * FG + - ((yt * FF * star yt) * star a) + - (star yt * star a))) * p0); [|ncr].
      rewrite sandwich. transitivity (star (g l) * p0 + - (star (f l) * yt * (a * p0))); [ncr|]. rewrite ap. ncr.
    - f_equal. transitivity (sm n (fun j => (star (f l) * yt) * (f j * star (g j)) + - ((star (f l) * yt) * ((f j * star (f j)) * (star yt * star a))) + delta l j * star (mj j))).
      + rewrite !sm_add, sm_opp, !sm_mul_l, sm_mul_r, (sm_delta_l n l (fun j => star (mj j)) Hl). fold FF FG. ncr.
      + apply sm_ext. intros j _. rewrite star_mj. unfold dN. ncr.
  Qed.
  (** (1 + F^dagger Yt F) is unitary *)
  Lemma star_dN i j : star (dN i j) = star (f j) * star yt * f i + delta j i.
  Proof. unfold dN. rewrite star_add, !star_mul, star_star, star_delta, (delta_sym i j). ncr. Qed.
  Lemma dN_coiso i k : i < n -> k < n -> sm n (fun j => dN i j * star (dN k j)) = delta i k.
  Proof.
    intros Hi Hk.
    transitivity (sm n (fun j => (star (f i) * yt) * ((f j * star (f j)) * (star yt * f k)) + (star (f i) * yt) * (f j * delta j k) + (delta i j * (star (f j) * star yt * f k)) + delta i j * delta j k)).
    - apply sm_ext. intros j _. rewrite star_dN. unfold dN. ncr.
    - rewrite !sm_add, !sm_mul_l, !sm_mul_r, (sm_delta_r n k f Hk), (sm_delta_l n i (fun j => star (f j) * star yt * f k) Hi), (sm_delta_l n i (fun j => delta j k) Hi). fold FF.
      transitivity (star (f i) * (yt * FF * star yt) * f k + star (f i) * (yt + star yt) * f k + delta i k); [ncr|]. rewrite sandwich. ncr.
  Qed.
  Lemma dN_iso i k : i < n -> k < n -> sm n (fun j => star (dN j i) * dN j k) = delta i k.
  Proof.
    intros Hi Hk.
    transitivity (sm n (fun j => (star (f i) * star yt) * ((f j * star (f j)) * (yt * f k)) + (star (f i) * star yt) * (f j * delta j k) + (delta i j * (star (f j) * yt * f k)) + delta i j * delta j k)).
    - apply sm_ext. intros j _. rewrite star_dN. unfold dN. ncr.
    - rewrite !sm_add, !sm_mul_l, !sm_mul_r, (sm_delta_r n k f Hk), (sm_delta_l n i (fun j => star (f j) * yt * f k) Hi), (sm_delta_l n i (fun j => delta j k) Hi). fold FF.
      transitivity (star (f i) * (star yt * FF * yt) * f k + star (f i) * (yt + star yt) * f k + delta i k); [ncr|]. rewrite sandwich'. ncr.
  Qed.
  Lemma limit_coiso : (forall i k, i < n -> k < n -> sm n (fun l => w i l * star (w k l)) = delta i k) ->
    forall i k, i < n -> k < n -> sm n (fun j => lim_N n yt p0 f w i j * star (lim_N n yt p0 f w k j)) = delta i k * p0.
  Proof.
    intros Hw i k Hi Hk.
    transitivity (sm n (fun j => sm n (fun l => sm n (fun m => (p0 * w i l) * (dN l j * star (dN m j)) * (star (w k m) * p0))))).
    - apply sm_ext. intros j Hj. rewrite (lim_N_eq i j Hi Hj), (lim_N_eq k j Hk Hj). unfold nj at 1. rewrite <- sm_mul_r. apply sm_ext. intros l _.
      unfold nj. rewrite star_sm, <- sm_mul_l. apply sm_ext. intros m _. rewrite !star_mul, ps. ncr.
    - rewrite sm_swap. transitivity (sm n (fun l => sm n (fun m => (p0 * w i l) * (sm n (fun j => dN l j * star (dN m j))) * (star (w k m) * p0)))).
      + apply sm_ext. intros l _. rewrite sm_swap. apply sm_ext. intros m _. now rewrite <- sm_mul_l, <- sm_mul_r.
      + transitivity (sm n (fun l => (p0 * w i l) * (star (w k l) * p0))).
        * apply sm_ext. intros l Hl. transitivity (sm n (fun m => delta l m * (p0 * w i l * (star (w k m) * p0)))); [|apply (sm_delta_l n l (fun m => p0 * w i l * (star (w k m) * p0)) Hl)].
          apply sm_ext. intros m Hm. rewrite (dN_coiso l m Hl Hm). unfold delta. destruct (l =? m); ncr.
        * transitivity (p0 * sm n (fun l => w i l * star (w k l)) * p0); [rewrite <- sm_mul_l, <- sm_mul_r; apply sm_ext; intros l _; ncr|].
          rewrite (Hw i k Hi Hk). unfold delta. destruct (i =? k); [|ncr]. transitivity (p0 * p0); [ncr|]. rewrite pp. ncr.
  Qed.
  Context (HB' : forall i j, i < n -> j < n -> (a1 + - p0) * sm n (fun l => w i l * dN l j) * p0 = a0).
  Lemma limit_iso : (forall i k, i < n -> k < n -> sm n (fun l => star (w l i) * w l k) = delta i k) ->
    forall i k, i < n -> k < n -> sm n (fun j => star (lim_N n yt p0 f w j i) * lim_N n yt p0 f w j k) = delta i k * p0.
  Proof.
    intros Hw i k Hi Hk. pose (wd := fun i j => sm n (fun l => w i l * dN l j)).
    assert (forall i j, i < n -> j < n -> lim_N n yt p0 f w i j = wd i j * p0) as E.
    { intros i' j' Hi' Hj'. transitivity (p0 * wd i' j' * p0).
      - unfold lim_N, wd. rewrite <- sm_mul_l, <- sm_mul_r. apply sm_ext. intros l _. unfold dN. ncr.
      - transitivity (wd i' j' * p0 + - ((a1 + - p0) * wd i' j' * p0)); [ncr|]. unfold wd at 2. rewrite (HB' i' j' Hi' Hj'). ncr. }
    transitivity (p0 * sm n (fun j => star (wd j i) * wd j k) * p0).
    { rewrite <- sm_mul_l, <- sm_mul_r. apply sm_ext. intros j Hj. rewrite (E j i Hj Hi), (E j k Hj Hk), star_mul, ps. ncr. }
    assert (sm n (fun j => star (wd j i) * wd j k) = delta i k) as G.
    { transitivity (sm n (fun j => sm n (fun l => sm n (fun m => star (dN l i) * (star (w j l) * w j m) * dN m k)))).
      - apply sm_ext. intros j _. unfold wd at 1. rewrite star_sm, <- sm_mul_r. apply sm_ext. intros l _. unfold wd. rewrite <- sm_mul_l. apply sm_ext. intros m _. rewrite star_mul. ncr.
      - rewrite sm_swap. transitivity (sm n (fun l => star (dN l i) * dN l k)); [|now apply dN_iso].
        apply sm_ext. intros l Hl. rewrite sm_swap. transitivity (sm n (fun m => delta l m * (star (dN l i) * dN m k))); [|apply (sm_delta_l n l (fun m => star (dN l i) * dN m k) Hl)].
        apply sm_ext. intros m Hm. transitivity (star (dN l i) * sm n (fun j => star (w j l) * w j m) * dN m k); [now rewrite <- sm_mul_l, <- sm_mul_r|].
        rewrite (Hw l m Hl Hm). unfold delta. destruct (l =? m); ncr. }
    rewrite G. unfold delta. destruct (i =? k); [|ncr]. transitivity (p0 * p0); [ncr|]. rewrite pp. ncr.
  Qed.
End Alg.
