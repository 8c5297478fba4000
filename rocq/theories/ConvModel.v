(** Conversion of operator expressions to explicit matrices,
    /repo/src/qnet/convert/to_sympy_matrix.py.
    Simplifications: the entries of SymPy matrices are modelled by their values
    (the scalar [ev c] for a coefficient [c]); a Hilbert space is the list of the
    labels of its local factors in the order of [local_factors]; a local space is
    determined by its label, [dim] giving its dimension ([None]: no basis set).
    PseudoInverse and NullSpaceProjector (which raise NotImplementedError) are
    not part of [op]. *)
From Coq Require Import QArith Qcanon.
From Verif Require Import Prelude AlgSpec CAlg OpModel OpSpec.
Local Open Scope nat_scope.

Section Conv.
Context {S : scalars} (r : reading S) (dim : nat -> option nat).
Local Notation k := (K r).
Local Notation op := (op S).

(** entries of a square matrix (row, column) *)
Definition mat := nat -> nat -> k.
Definition nsum (n : nat) (f : nat -> k) : k := fold_right (fun i s => kadd (f i) s) k0 (seq 0 n).
(** [sympy.eye], [A + B], [c * A], [A * B] for n x n matrices, [A.H] *)
Definition meye : mat := fun i j => if i =? j then k1 else k0.
Definition mzero : mat := fun _ _ => k0.
Definition madd (A B : mat) : mat := fun i j => kadd (A i j) (B i j).
Definition mscale (c : k) (A : mat) : mat := fun i j => kmul c (A i j).
Definition mmul (n : nat) (A B : mat) : mat := fun i j => nsum n (fun t => kmul (A i t) (B t j)).
Definition mherm (A : mat) : mat := fun i j => kconj (A j i).
(** [TensorProduct(A, B)] of an m x m and an n x n matrix: the Kronecker product *)
Definition mkron (n : nat) (A B : mat) : mat := fun i j => kmul (A (i / n) (j / n)) (B (i mod n) (j mod n)).
(** a matrix with its number of rows; [TensorProduct] of several matrices *)
Definition tensor (l : list (nat * mat)) : nat * mat :=
  fold_right (fun p q : nat * mat => (fst p * fst q, mkron (fst q) (snd p) (snd q))) (1, meye) l.

(** basis_state, to_sympy_matrix.py:20-25 *)
Definition basis_state (i : nat) : nat -> k := fun p => if p =? i then k1 else k0.
(** [basis_state(i, n) * basis_state(j, n).H] *)
Definition ket_bra (i j : nat) : mat := fun p q => kmul (basis_state i p) (kconj (basis_state j q)).
(** SympyCreate, to_sympy_matrix.py:28-34 *)
Definition SympyCreate (n : nat) : mat :=
  fold_left (fun a i => madd a (mscale (ksqrt (qn i)) (ket_bra i (i - 1)))) (seq 1 (n - 1)) mzero.

(** HilbertSpace.dimension, hilbert_space_algebra.py:421-433, 531-532, 758-770 *)
Definition dimension1 (l : nat) : res nat := of_option BasisNotSetError (dim l).
Fixpoint dimension (h : list nat) : res nat :=
  match h with [] => Ok 1 | l :: h' => do d <- dimension1 l; do n <- dimension h'; Ok (d * n) end.

(** a LocalOperator in its own space, to_sympy_matrix.py:72-94. A LocalOperator has no
    attribute [operands], which the branches for Displace and Squeeze read. *)
Definition local_matrix (a : atom S) (n : nat) : res mat :=
  match a with
  | ACreate _ | AJz _ | AJp _ => Ok (SympyCreate n)
  | ADestroy _ | AJm _ => Ok (mherm (SympyCreate n))
  | APhase u _ => Ok (fun i j => if i =? j then kexp (kmul (kmul iu (kQ (qn i))) (ev u)) else k0)
  | ADisp _ _ | ASqueeze _ _ => Err AttributeError
  | ASigma p q _ => if (p <? n) && (q <? n) then Ok (ket_bra p q) else Err IndexError
  | ASym _ _ => Err ValueError
  end.

(** what convert_to_sympy_matrix returns: the number 0, or a matrix *)
Inductive smat := SZero | SMat (n : nat) (M : mat).
Definition s_plus (a b : smat) : res smat :=
  match a, b with
  | SZero, SZero => Ok SZero
  | SMat n A, SMat n' B => if n =? n' then Ok (SMat n (madd A B)) else Err ValueError
  | _, _ => Err TypeError                       (* number + matrix *)
  end.
Definition s_mul (a b : smat) : res smat :=
  match a, b with
  | SZero, SZero => Ok SZero
  | SZero, SMat n _ | SMat n _, SZero => Ok (SMat n mzero)
  | SMat n A, SMat n' B => if n =? n' then Ok (SMat n (mmul n A B)) else Err ValueError
  end.
Definition s_tensor (l : list smat) : res smat :=
  match l with
  | [] => Err IndexError
  | [x] => Ok x
  | _ => do ms <- mapM (fun x => match x with SMat n M => Ok (n, M) | SZero => Err TypeError end) l;
         let '(n, M) := tensor ms in Ok (SMat n M)
  end.

Context (expand : op -> res op).   (* [expr.expand()], see [OpModel.expand] *)

(** the factors on the local space [ls], multiplied from left to right,
    to_sympy_matrix.py:115-124 *)
Definition mul_all (l : list smat) : res smat :=
  match l with [] => Err IndexError | x :: l' => foldM s_mul x l' end.
Definition on_space (ls : nat) (o : op) : bool := eqb_list_nat (space o) [ls].

(** convert_to_sympy_matrix, to_sympy_matrix.py:37-149 *)
Fixpoint conv (fuel : nat) (e : op) (full : list nat) {struct fuel} : res smat :=
  match fuel with
  | 0 => Err OutOfFuel
  | Datatypes.S m =>
    if negb (forallb (fun x => sp_mem x full) (space e)) then Err ValueError
    else match e with
    | OOne => do n <- dimension full; Ok (SMat n meye)
    | OZero => Ok SZero
    | OAtom (ASym _ _) => Err ValueError
    | OAtom a =>
      do n <- dimension full;
      if eqb_list_nat full (space e) then do M <- local_matrix a n; Ok (SMat n M)
      else
        do i <- of_option ValueError (index_of (hd 0 (space e)) full);
        do pre <- mapM (fun s => do d <- dimension1 s; Ok (SMat d meye)) (firstn i full);
        do own <- conv m e (space e);
        do post <- mapM (fun s => do d <- dimension1 s; Ok (SMat d meye)) (skipn (Datatypes.S i) full);
        s_tensor (pre ++ own :: post)
    | OPlus l =>
      match l with
      | [] => Err IndexError
      | x :: l' => do s <- conv m x full; foldM (fun s o => do v <- conv m o full; s_plus s v) s l'
      end
    | OTimes l =>
      if existsb (fun o => 1 <? length (space o)) l then
        do se <- expand e;
        if oeqb se e then Err ValueError else conv m se full
      else
        do by_space <- mapM (fun ls =>
             do ls_ops <- mapM (fun o => conv m o (space o)) (filter (on_space ls) l);
             match ls_ops with
             | [] => do d <- dimension1 ls; Ok (0, SMat d meye)
             | _ => do p <- mul_all ls_ops; Ok (length ls_ops, p)
             end) full;
        if negb (sum (map fst by_space) =? length l) then Err AssertionError
        else s_tensor (map snd by_space)
    | OAdj a =>
      do v <- conv m a full;
      match v with SMat n M => Ok (SMat n (mherm M)) | SZero => Err AttributeError end
    | OScal c t =>
      do v <- conv m t full;
      match v with SMat n M => Ok (SMat n (mscale (ev c) M)) | SZero => Ok SZero end
    | OComm _ _ | OTr _ _ | OPM _ _ => Err ValueError
    end
  end.
End Conv.
