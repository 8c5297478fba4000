From Verif Require Import Prelude ListFacts PermModel PermSpec PermProofs1 AlgSpec CAlg MatModel.

Section Tab.
  Context {T : Type}.
  Lemma tab_ext n m (f g : nat -> nat -> T) :
    (forall i j, i < n -> j < m -> f i j = g i j) -> tab n m f = tab n m g.
  Proof.
    intros H. unfold tab. f_equal. apply map_ext_in. intros i Hi. apply in_seq in Hi.
    apply map_ext_in. intros j Hj. apply in_seq in Hj. apply H; lia.
  Qed.
  Lemma nrows_tab n m (f : nat -> nat -> T) : nrows (tab n m f) = n.
  Proof. reflexivity. Qed.
  Lemma ncols_tab n m (f : nat -> nat -> T) : ncols (tab n m f) = m.
  Proof. reflexivity. Qed.
End Tab.

Section P.
  Context {M : calgebra}.
  Notation A := (A M). Notation mat := (matrix A).
  Implicit Types a b : mat.

  (** a well-formed array: its rows agree with its shape *)
  Definition wfm a : Prop := a = tab (nrows a) (ncols a) (ent a).

  Lemma ent_tab n m f i j : i < n -> j < m -> ent (tab n m f) i j = f i j :> A.
  Proof.
    intros Hi Hj. unfold ent, tab. cbn [rows].
    rewrite (nth_map_lt (fun i => map (f i) (seq 0 m)) (seq 0 n) i [] 0) by (rewrite seq_length; exact Hi).
    rewrite seq_nth by exact Hi.
    rewrite (nth_map_lt (f (0 + i)) (seq 0 m) j a0 0) by (rewrite seq_length; exact Hj).
    rewrite seq_nth by exact Hj. reflexivity.
  Qed.
  Lemma wfm_tab n m f : wfm (tab n m f).
  Proof. unfold wfm. apply tab_ext. intros i j Hi Hj. symmetry. now apply ent_tab. Qed.
  Lemma mat_eq a b : wfm a -> wfm b -> nrows a = nrows b -> ncols a = ncols b ->
    (forall i j, i < nrows a -> j < ncols a -> ent a i j = ent b i j) -> a = b.
  Proof.
    intros Ha Hb Hr Hc H. rewrite Ha, Hb, <- Hr, <- Hc. now apply tab_ext.
  Qed.
  Lemma tab_inj n m f g i j : tab n m f = tab n m g -> i < n -> j < m -> f i j = g i j :> A.
  Proof. intros H Hi Hj. rewrite <- (ent_tab n m f i j), H by assumption. now apply ent_tab. Qed.

  (** sums with a single contributing index *)
  Lemma asum_delta n k (f : nat -> A) : k < n ->
    asum (fun j => if j =? k then f j else a0) (seq 0 n) = f k.
  Proof.
    intros Hk. replace (seq 0 n) with (seq 0 k ++ k :: seq (S k) (n - S k)).
    - rewrite asum_app, asum_cons, Nat.eqb_refl.
      rewrite (asum_ext _ _ (fun _ => a0) (seq 0 k)), asum_zero.
      + rewrite (asum_ext _ _ (fun _ => a0) (seq (S k) _)), asum_zero.
        * rewrite aadd_0. apply aadd_0r.
        * intros v Hv. apply in_seq in Hv. destruct (Nat.eqb_spec v k); [lia|reflexivity].
      + intros v Hv. apply in_seq in Hv. destruct (Nat.eqb_spec v k); [lia|reflexivity].
    - change (k :: seq (S k) (n - S k)) with (seq k (S (n - S k))). rewrite <- seq_app. f_equal. lia.
  Qed.
  Lemma asum_delta_l n k (f : nat -> A) : k < n ->
    asum (fun j => amul (if j =? k then a1 else a0) (f j)) (seq 0 n) = f k.
  Proof.
    intros Hk. rewrite <- (asum_delta n k f Hk). apply asum_ext. intros j _.
    destruct (j =? k); [apply amul_1l|apply amul_0l].
  Qed.
  Lemma asum_delta_r n k (f : nat -> A) : k < n ->
    asum (fun j => amul (f j) (if j =? k then a1 else a0)) (seq 0 n) = f k.
  Proof.
    intros Hk. rewrite <- (asum_delta n k f Hk). apply asum_ext. intros j _.
    destruct (j =? k); [apply amul_1r|apply amul_0r].
  Qed.
  Lemma asum_all_0 {X} (f : X -> A) l : (forall v, In v l -> f v = a0) -> asum f l = a0.
  Proof. intros H. rewrite (asum_ext _ _ (fun _ => a0) l H). apply asum_zero. Qed.
  Lemma asum_split n m (f : nat -> A) :
    asum f (seq 0 (n + m)) = aadd (asum f (seq 0 n)) (asum (fun j => f (n + j)) (seq 0 m)).
  Proof.
    rewrite seq_app, asum_app. f_equal. cbn [plus].
    rewrite <- (asum_map _ f (fun j => n + j)). f_equal. clear.
    induction m as [|m IH] in n |- * ; [reflexivity|]. cbn [seq map]. f_equal; [lia|].
    rewrite IH, <- seq_shift, map_map. apply map_ext. intros; lia.
  Qed.
End P.
