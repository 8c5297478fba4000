(** What the QuTiP objects of states and superoperators are. Specification vocabulary
    for C61, independent of the conversion routines. *)
From Coq Require Import QArith Qcanon.
From Verif Require Import Prelude AlgSpec CAlg OpModel OpSpec KetModel SupModel ConvModel ConvSpec.
Local Open Scope nat_scope.

Section Spec.
Context {S : scalars} (r : reading S) (dim : nat -> option nat).
Local Notation k := (K r).
Local Notation mat := (mat r).
(** the vector of a coherent state in a space of n levels *)
Context (coherent : nat -> k -> nat -> k).

(** the row number of the basis state in which the factor [x] of [h] is in the level [f x] *)
Fixpoint row_of (h : list nat) (f : nat -> nat) : nat :=
  match h with [] => 0 | x :: h' => f x * size dim h' + row_of h' f end.
(** amplitude of a ket in the basis state with the level [f x] on every local space [x] *)
Fixpoint amplitude (e : ket S) (f : nat -> nat) : k :=
  match e with
  | KZero | KSym _ _ => k0                            (* not given *)
  | KTriv => k1
  | KBasis j l => if f l =? j then k1 else k0
  | KCoh u l => coherent (levels dim l) (ev u) (f l)
  | KScal c t => kmul (ev c) (amplitude t f)
  | KPlus l => fold_right (fun x s => kadd (amplitude x f) s) k0 l
  | KTensor l => fold_right (fun x s => kmul (amplitude x f) s) k1 l
  | KOp a t => let h := kspace t in
    nsum r (size dim h) (fun j => kmul (mat_of r dim false h a (row_of h f) j) (amplitude t (fun x => digit dim h x j)))
  end.
(** summands are states of the same space; the factors of a product are states of one local
    space each, in the order of these spaces; operators are such that C50 gives their
    matrices *)
Fixpoint in_order (e : ket S) : Prop :=
  match e with
  | KScal _ t => in_order t
  | KPlus l => fold_right (fun x P => (kspace x = kspace (KPlus l) /\ in_order x) /\ P) True l
  | KTensor l => flat_map kspace l = kspace (KTensor l) /\ fold_right (fun x P => (length (kspace x) = 1 /\ in_order x) /\ P) True l
  | KOp a t => spinless a /\ one_site_factors a /\ in_order t
  | _ => True
  end.

(** made of basis states with existing levels and coherent states with numeric
    amplitudes, with numeric coefficients *)
Context (is_num : S -> bool).
Fixpoint of_basis_states (e : ket S) : Prop :=
  match e with
  | KBasis j l => j < levels dim l
  | KCoh u _ => is_num u = true
  | KScal c t => is_num c = true /\ of_basis_states t
  | KPlus l | KTensor l => l <> [] /\ fold_right (fun x P => of_basis_states x /\ P) True l
  | _ => False
  end.
Fixpoint kheight (e : ket S) : nat :=
  match e with
  | KScal _ t | KOp _ t => Datatypes.S (kheight t)
  | KPlus l | KTensor l => Datatypes.S (fold_right (fun x n => Nat.max (kheight x) n) 0 l)
  | _ => 1
  end.

(** what a superoperator does to the matrix [R] of an operator on [h] *)
Fixpoint map_of (h : list nat) (s : sop S) (R : mat) : mat :=
  match s with
  | SupModel.SZero | SSym _ _ | SAdj _ => mzero r     (* the last two: not given *)
  | SOne => R
  | SPre a => mmul r (size dim h) (mat_of r dim false h a) R
  | SPost a => mmul r (size dim h) R (mat_of r dim false h a)
  | SScal c t => mscale r (ev c) (map_of h t R)
  | SPlus l => fold_right (fun x M => madd r (map_of h x R) M) (mzero r) l
  | STimes l => fold_right (fun x M => map_of h x M) R l
  end.
(** a matrix stacked column by column; a matrix acting on a vector *)
Definition stack (n : nat) (R : mat) : nat -> k := fun t => R (t mod n) (t / n).
Definition act (n : nat) (M : mat) (v : nat -> k) : nat -> k := fun i => nsum r n (fun j => kmul (M i j) (v j)).
(** the operators in a superoperator are such that C50 gives their matrices *)
Fixpoint plain_sop (s : sop S) : Prop :=
  match s with
  | SPre a | SPost a => spinless a /\ one_site_factors a
  | SScal _ t | SAdj t => plain_sop t
  | SPlus l | STimes l => fold_right (fun x P => plain_sop x /\ P) True l
  | _ => True
  end.
End Spec.
