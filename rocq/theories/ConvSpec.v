(** What the matrix of an operator expression is. Specification vocabulary for
    C49 and C50, independent of the conversion routines. *)
From Coq Require Import QArith Qcanon.
From Verif Require Import Prelude AlgSpec CAlg OpModel OpSpec ConvModel.
Local Open Scope nat_scope.

Section Spec.
Context {S : scalars} (r : reading S) (dim : nat -> option nat).
Local Notation k := (K r).
Local Notation mat := (mat r).

(** number of levels of a local space, of a product space *)
Definition levels (l : nat) : nat := match dim l with Some d => d | None => 0 end.
Definition size (h : list nat) : nat := fold_right (fun l n => levels l * n) 1 h.
(** row number [i] of a matrix on the product space [h] stands for a basis state
    of every factor, the last factor varying fastest: the level of factor [x] *)
Fixpoint digit (h : list nat) (x i : nat) : nat :=
  match h with
  | [] => 0
  | l :: h' => if l =? x then (i / size h') mod levels l else digit h' x i
  end.
(** the operator with matrix [m] on the factor [x] of [h], and the identity on the
    other factors *)
Definition at_site (h : list nat) (x : nat) (m : mat) : mat :=
  fun i j => if forallb (fun y => (y =? x) || (digit h y i =? digit h y j)) h
             then m (digit h x i) (digit h x j) else k0.

(** matrix elements of the local operators in the basis of levels. The magnetic
    quantum number of level [i] of a spin [s] is [m = i - s] in QNET, whose basis is
    ordered by increasing [m]; [desc] is for the opposite order, [m = s - i] *)
Context (desc : bool).
Definition spin_s (d : nat) : Qc := ((qn d - 1) / qn 2)%Qc.
Definition spin_m (d i : nat) : Qc := if desc then (spin_s d - qn i)%Qc else (qn i - spin_s d)%Qc.
(** level [i] has the next higher quantum number after level [j] *)
Definition next_up (i j : nat) : bool := if desc then j =? i + 1 else i =? j + 1.
Definition element (a : atom S) (d : nat) : mat := fun i j =>
  match a with
  | ACreate _ => if i =? j + 1 then ksqrt (qn (j + 1)) else k0
  | ADestroy _ => if j =? i + 1 then ksqrt (qn j) else k0
  | ASigma p q _ => if (i =? p) && (j =? q) then k1 else k0
  | APhase u _ => if i =? j then kexp (kmul (kmul iu (kQ (qn i))) (ev u)) else k0
  | AJz _ => if i =? j then kQ (spin_m d i) else k0
  | AJp _ => if next_up i j then ksqrt (spin_s d * (spin_s d + 1) - spin_m d j * (spin_m d j + 1))%Qc else k0
  | AJm _ => if next_up j i then ksqrt (spin_s d * (spin_s d + 1) - spin_m d j * (spin_m d j - 1))%Qc else k0
  | ASym _ _ | ADisp _ _ | ASqueeze _ _ => k0      (* not given *)
  end.

(** the matrix of an expression on the product space [h]: sums, products, multiples
    and adjoints of matrices *)
Fixpoint mat_of (h : list nat) (e : op S) : mat :=
  match e with
  | OZero => mzero r
  | OOne => meye r
  | OAtom a => at_site h (hd 0 (atom_space a)) (element a (levels (hd 0 (atom_space a))))
  | OScal c t => mscale r (ev c) (mat_of h t)
  | OPlus l => fold_right (fun x M => madd r (mat_of h x) M) (mzero r) l
  | OTimes l => fold_right (fun x M => mmul r (size h) (mat_of h x) M) (meye r) l
  | OAdj a => mherm r (mat_of h a)
  | OComm a b => madd r (mmul r (size h) (mat_of h a) (mat_of h b)) (mscale r (kopp k1) (mmul r (size h) (mat_of h b) (mat_of h a)))
  | OPM true a => madd r (mat_of h a) (mherm r (mat_of h a))
  | OPM false a => madd r (mat_of h a) (mscale r (kopp k1) (mherm r (mat_of h a)))
  | OTr _ _ => mzero r                              (* not given *)
  end.

(** equal as n x n matrices *)
Definition meq (n : nat) (A B : mat) : Prop := forall i j, i < n -> j < n -> A i j = B i j.
(** the result of a conversion stands for the matrix [F] on [h] *)
Definition stands_for (h : list nat) (v : smat r) (F : mat) : Prop :=
  match v with
  | SZero _ => meq (size h) (mzero r) F
  | SMat _ n M => n = size h /\ meq n M F
  end.

(** every factor of every product acts on at most one local space, so that no
    expansion is needed *)
Fixpoint one_site_factors (e : op S) : Prop :=
  match e with
  | OScal _ t | OAdj t => one_site_factors t
  | OPlus l => fold_right (fun x P => one_site_factors x /\ P) True l
  | OTimes l => fold_right (fun x P => (length (space x) <= 1 /\ one_site_factors x) /\ P) True l
  | _ => True
  end.
(** no spin operator Jz, J+, J- occurs *)
Fixpoint spinless (e : op S) : Prop :=
  match e with
  | OAtom (AJz _) | OAtom (AJp _) | OAtom (AJm _) => False
  | OScal _ t | OAdj t | OTr t _ | OPM _ t => spinless t
  | OPlus l | OTimes l => fold_right (fun x P => spinless x /\ P) True l
  | OComm a b => spinless a /\ spinless b
  | _ => True
  end.
(** an expression made of creation and annihilation operators, transitions between
    existing levels, phases, the identity, multiples, nonempty sums, adjoints and
    nonempty products of factors on one local space each *)
Fixpoint convertible (e : op S) : Prop :=
  match e with
  | OOne => True
  | OAtom (ACreate _) | OAtom (ADestroy _) | OAtom (APhase _ _) => True
  | OAtom (ASigma p q x) => p < levels x /\ q < levels x
  | OScal _ t | OAdj t => convertible t
  | OPlus l => l <> [] /\ fold_right (fun x P => convertible x /\ P) True l
  | OTimes l => l <> [] /\ fold_right (fun x P => (length (space x) = 1 /\ convertible x) /\ P) True l
  | _ => False
  end.
(** nesting depth of an expression *)
Fixpoint height (e : op S) : nat :=
  match e with
  | OZero | OOne => 1
  | OAtom _ => 2
  | OScal _ t | OAdj t | OTr t _ | OPM _ t => Datatypes.S (height t)
  | OPlus l | OTimes l => Datatypes.S (fold_right (fun x n => Nat.max (height x) n) 0 l)
  | OComm a b => Datatypes.S (Nat.max (height a) (height b))
  end.
End Spec.
