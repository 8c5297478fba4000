(** Model of /repo/src/qnet/algebra/core/matrix_algebra.py: two-dimensional
    numpy arrays of operators. An operator is an element of an arbitrary
    complex *-algebra [M]; a number in a matrix is that multiple of the
    identity. *)
From Verif Require Import Prelude PermModel AlgSpec CAlg.

(** matrix_algebra.py:36-47: an ndarray with its [shape] and its rows. *)
Record matrix (T : Type) := Mat { nrows : nat; ncols : nat; rows : list (list T) }.
Arguments Mat {T} nrows ncols rows.
Arguments nrows {T} m.
Arguments ncols {T} m.
Arguments rows {T} m.

(** The array of the given shape with entries [f i j]. *)
Definition tab {T} (n m : nat) (f : nat -> nat -> T) : matrix T :=
  Mat n m (map (fun i => map (f i) (seq 0 m)) (seq 0 n)).

Section Ops.
  Context {M : calgebra}.
  Notation A := (A M). Notation mat := (matrix A).
  Implicit Types a b : mat.

  (** [m.matrix[i, j]]; outside the array this returns 0 (the code raises
      IndexError; every use below is in range). *)
  Definition ent a (i j : nat) : A := nth j (nth i (rows a) []) a0.

  (** matrix_algebra.py:123-127 [__add__] for two matrices; numpy
      broadcasting of unequal shapes is not modelled. *)
  Definition madd a b : res mat :=
    if (nrows a =? nrows b) && (ncols a =? ncols b)
    then Ok (tab (nrows a) (ncols a) (fun i j => aadd (ent a i j) (ent b i j)))
    else Err Unmodelled.
  (** matrix_algebra.py:132-134 [__mul__] for two matrices: [ndarray.dot] *)
  Definition mmul a b : res mat :=
    if ncols a =? nrows b
    then Ok (tab (nrows a) (ncols b)
               (fun i j => asum (fun k => amul (ent a i k) (ent b k j)) (seq 0 (ncols a))))
    else Err ValueError.
  (** matrix_algebra.py:136, [Matrix * x] and :139 [x * Matrix], for a scalar
      [c] or an operator [x] *)
  Definition mscale (c : K M) a : mat := tab (nrows a) (ncols a) (fun i j => smul c (ent a i j)).
  Definition mul_op_r a (x : A) : mat := tab (nrows a) (ncols a) (fun i j => amul (ent a i j) x).
  (** matrix_algebra.py:147-148 [__neg__]: [(-1) * self] *)
  Definition mneg a : mat := mscale (kopp k1) a.
  (** matrix_algebra.py:141-142 [__sub__]: [self + (-1) * other] *)
  Definition msub a b : res mat := madd a (mscale (kopp k1) b).
  (** matrix_algebra.py:159-161 *)
  Definition mtranspose a : mat := tab (ncols a) (nrows a) (fun i j => ent a j i).
  (** matrix_algebra.py:284-300 element_wise *)
  Definition element_wise (f : A -> A) a : mat := tab (nrows a) (ncols a) (fun i j => f (ent a i j)).
  (** matrix_algebra.py:257-261 adjoint / dag / H *)
  Definition madj a : mat := element_wise star (mtranspose a).
  (** matrix_algebra.py:265-268; Python's [sum] starts from 0 *)
  Definition mtrace a : res A :=
    if nrows a =? ncols a
    then Ok (fold_left (fun s k => aadd s (ent a k k)) (seq 0 (nrows a)) a0)
    else Err PlainException.
  (** [m[r0:r1, c0:c1]] (matrix_algebra.py:275-279, numpy basic slicing,
      bounds within the shape) *)
  Definition msub_block a (r0 r1 c0 c1 : nat) : mat :=
    tab (r1 - r0) (c1 - c0) (fun i j => ent a (r0 + i) (c0 + j)).

  (** matrix_algebra.py:371-373 hstackm, for two matrices *)
  Definition hstackm a b : res mat :=
    if nrows a =? nrows b
    then Ok (tab (nrows a) (ncols a + ncols b)
               (fun i j => if j <? ncols a then ent a i j else ent b i (j - ncols a)))
    else Err ValueError.
  (** matrix_algebra.py:376-381 vstackm, for two matrices *)
  Definition vstackm a b : res mat :=
    if ncols a =? ncols b
    then Ok (tab (nrows a + nrows b) (ncols a)
               (fun i j => if i <? nrows a then ent a i j else ent b (i - nrows a) j))
    else Err ValueError.
  (** matrix_algebra.py:390-406 *)
  Definition block_matrix (a b c d : mat) : res mat :=
    do top <- hstackm a b; do bottom <- hstackm c d; vstackm top bottom.
  (** matrix_algebra.py:409-419, 422-424 *)
  Definition identity_matrix (n : nat) : mat := tab n n (fun i j => if i =? j then a1 else a0).
  Definition zerosm (n m : nat) : mat := tab n m (fun _ _ => a0).

  (** matrix_algebra.py:427-463: start from zeros, then set entry [[j, i]] for
      every [(i, j)] in [enumerate(permutation)]; a later assignment to the
      same cell would overwrite. *)
  Definition set_entry (f : nat -> nat -> A) (r c : nat) (x : A) : nat -> nat -> A :=
    fun i j => if (i =? r) && (j =? c) then x else f i j.
  Fixpoint fill_perm (i : nat) (p : list nat) (f : nat -> nat -> A) : nat -> nat -> A :=
    match p with
    | [] => f
    | j :: p' => fill_perm (S i) p' (set_entry f j i a1)
    end.
  Definition permutation_matrix (p : list nat) : res mat :=
    if negb (checkp p) then Err AssertionError
    else Ok (tab (length p) (length p) (fill_perm 0 p (fun _ _ => a0))).

  (** *** Block structure. [zb x] is the test [x == 0]. *)
  Context (zb : A -> bool).
  (** [(self.matrix[r0:r1, c0:c1] == 0).all()] *)
  Definition all_zero a (r0 r1 c0 c1 : nat) : bool :=
    forallb (fun i => forallb (fun j => zb (ent a i j)) (seq c0 (c1 - c0))) (seq r0 (r1 - r0)).
  (** matrix_algebra.py:54-69: the for loop over [k in range(1, n)] *)
  Fixpoint first_split a (n : nat) (ks : list nat) : option nat :=
    match ks with
    | [] => None
    | k :: ks' =>
      if all_zero a 0 k k n && all_zero a k n 0 k then Some k else first_split a n ks'
    end.
  Fixpoint bs_loop (fuel : nat) a : res (list nat) :=
    match fuel with
    | 0 => Err OutOfFuel
    | S fuel' =>
      if negb (nrows a =? ncols a) then Err AttributeError
      else
        let n := nrows a in
        match first_split a n (seq 1 (n - 1)) with
        | None => Ok [n]
        | Some k => do rest <- bs_loop fuel' (msub_block a k n k n); Ok (k :: rest)
        end
    end.
  Definition block_structure a : res (list nat) := bs_loop (S (nrows a)) a.

  (** matrix_algebra.py:71-92 [_get_blocks]. Python slices stop at the end of
      the array. In the column branch the recursion is on [self[:b0, :]], as
      in the code. *)
  Fixpoint get_blocks a (bs : list nat) : res (list mat) :=
    let n := nrows a in let m := ncols a in
    if n =? m then
      if negb (sum bs =? n) then Err ValueError
      else match bs with
           | [] => Ok []
           | j :: bs' =>
             if all_zero a 0 j j n && all_zero a j n 0 j
             then do rest <- get_blocks (msub_block a j n j n) bs';
                  Ok (msub_block a 0 j 0 j :: rest)
             else Err ValueError
           end
    else if m =? 1 then
      match bs with
      | [] => Ok []
      | b0 :: bs' =>
        do rest <- get_blocks (msub_block a 0 (Nat.min b0 n) 0 1) bs';
        Ok (msub_block a 0 (Nat.min b0 n) 0 1 :: rest)
      end
    else Err ValueError.
End Ops.
