(** States and superoperators as QuTiP objects,
    /repo/src/qnet/convert/to_qutip.py:44-118, 307-410. A Qobj is modelled by its numbers
    of rows and columns and its entries; the conversion of operators is [conv_q] of
    QutipModel. [qutip.basis], [qeye], [tensor], [spre], [spost] are modelled by their
    documented results, [qutip.coherent] by a parameter.
    Not modelled: entries for states and superoperators in [mapping], dims, an expression
    of the trivial or full space without a given [full_space]. *)
From Coq Require Import QArith Qcanon.
From Verif Require Import Prelude AlgSpec CAlg OpModel OpSpec KetModel SupModel ConvModel QutipModel.
Local Open Scope nat_scope.

(** a Qobj; the number 0 a sum starts with *)
Inductive qobj {S : scalars} (r : reading S) := QZero | QObj (rows cols : nat) (M : mat r).
Arguments QZero {S r}. Arguments QObj {S r}.

Section Qs.
Context {S : scalars} (r : reading S) (dim : nat -> option nat).
Local Notation k := (K r).
Local Notation op := (op S).
Local Notation ket := (ket S).
Local Notation sop := (sop S).
Local Notation mat := (mat r).
Local Notation smat := (smat r).
Local Notation SMat := (ConvModel.SMat r).
Local Notation qobj := (qobj r).

Definition of_smat (v : smat) : qobj := match v with ConvModel.SZero _ => QZero | ConvModel.SMat _ n M => QObj n n M end.
(** [Qobj + Qobj]; the number 0 may be added *)
Definition qo_plus (a b : qobj) : res qobj :=
  match a, b with
  | QZero, _ => Ok b
  | _, QZero => Ok a
  | QObj m n A, QObj m' n' B => if (m =? m') && (n =? n') then Ok (QObj m n (madd r A B)) else Err TypeError
  end.
(** [Qobj * Qobj] *)
Definition qo_mul (a b : qobj) : res qobj :=
  match a, b with
  | QZero, QZero => Ok QZero
  | QZero, QObj m n _ | QObj m n _, QZero => Ok (QObj m n (mzero r))
  | QObj m n A, QObj m' n' B => if n =? m' then Ok (QObj m n' (mmul r n A B)) else Err TypeError
  end.
Definition qo_scale (c : k) (a : qobj) : qobj := match a with QZero => QZero | QObj m n A => QObj m n (mscale r c A) end.
(** [qutip.tensor]: Kronecker product of rectangular matrices *)
Definition kron2 (m n : nat) (A B : mat) : mat := fun i j => kmul (A (i / m) (j / n)) (B (i mod m) (j mod n)).
Fixpoint qo_tensor (l : list qobj) : res qobj :=
  match l with
  | [] => Err TypeError
  | QZero :: _ => Err TypeError
  | [x] => Ok x
  | QObj m n A :: l' =>
    do y <- qo_tensor l';
    match y with QZero => Err TypeError | QObj m' n' B => Ok (QObj (m * m') (n * n') (kron2 m' n' A B)) end
  end.
Definition qeye (s : nat) : res qobj := do d <- dimension1 dim s; Ok (QObj d d (meye r)).

Context (is_num : S -> bool)                       (* complex(coeff) succeeds *)
        (coherent : nat -> k -> nat -> k)          (* entries of qutip.coherent(n, alpha) *)
        (expand : op -> res op) (kexpand : ket -> res ket).
Local Notation conv_o := (conv_q r dim is_num (fun _ => None) expand).

(** convert_to_qutip for kets, to_qutip.py:62-69, 101-102, 343-379. The space of ZeroKet,
    FullSpace, is not a factor of [full]; TrivialKet falls to the search for its space. *)
Fixpoint conv_ket (fuel : nat) (e : ket) (full : list nat) {struct fuel} : res qobj :=
  match fuel with
  | 0 => Err OutOfFuel
  | Datatypes.S m =>
    if is_kzero e || negb (sp_incl (kspace e) full) then Err ValueError
    else if match full with [] => true | _ => false end then Err AlgebraError
    else
      do n <- dimension dim full;
      if eqb_list_nat full (kspace e) then
        match e with
        | KBasis j _ => if j <? n then Ok (QObj n 1 (fun p _ => basis_state r j p)) else Err ValueError
        | KCoh u _ => if is_num u then Ok (QObj n 1 (fun p _ => coherent n (ev u) p)) else Err TypeError
        | KPlus l => foldM (fun s o => do v <- conv_ket m o full; qo_plus s v) QZero l
        | KTensor l =>
          if existsb (fun o => 1 <? length (kspace o)) l then
            do se <- kexpand e;
            if keqb se e then Err ValueError else conv_ket m se full
          else
            do fs <- mapM (fun o => conv_ket m o (kspace o)) l;
            qo_tensor fs
        | KScal c t => if is_num c then do v <- conv_ket m t full; Ok (qo_scale (ev c) v) else Err TypeError
        | KOp a t => do A <- conv_o m a full; do v <- conv_ket m t full; qo_mul (of_smat A) v
        | KZero | KTriv | KSym _ _ => Err ValueError
        end
      else
        match kspace e with
        | [x] =>
          do i <- of_option ValueError (index_of x full);
          do pre <- mapM qeye (firstn i full);
          do own <- conv_ket m e [x];
          do post <- mapM qeye (skipn (Datatypes.S i) full);
          qo_tensor (pre ++ own :: post)
        | _ => Err ValueError                       (* [all_spaces.index(expr.space)] *)
        end
  end.
(** a Bra is a State, for which _convert_ket_to_qutip has no branch; if its space is a factor
    of a larger space it is first converted in its own space *)
Definition conv_state (fuel : nat) (x : @state S) (full : list nat) : res qobj :=
  match x with
  | Ket e => conv_ket fuel e full
  | Bra e =>
    if is_kzero e || negb (sp_incl (kspace e) full) then Err ValueError
    else if match full with [] => true | _ => false end then Err AlgebraError
    else do _ <- dimension dim full; Err ValueError
  end.
(** _convert_state_operation_to_qutip for a BraKet, to_qutip.py:307-340, in the space of the
    two states; the bra is converted first *)
Definition conv_braket (fuel : nat) (a b : ket) (full : list nat) : res qobj :=
  do bq <- conv_state fuel (Bra a) full;
  do kq <- conv_state fuel (Ket b) full;
  qo_mul bq kq.

(** qutip.spre(A) = 1 (x) A and qutip.spost(A) = A^T (x) 1 for n x n matrices, acting on
    matrices stacked column by column *)
Definition mtransp (A : mat) : mat := fun i j => A j i.
Definition spre (v : smat) : smat := match v with ConvModel.SZero _ => v | ConvModel.SMat _ n A => SMat (n * n) (mkron r n (meye r) A) end.
Definition spost (v : smat) : smat := match v with ConvModel.SZero _ => v | ConvModel.SMat _ n A => SMat (n * n) (mkron r n (mtransp A) (meye r)) end.

(** convert_to_qutip for superoperators, to_qutip.py:62-69, 103-104, 371-410. In a larger
    space the code adds a list and a Qobj (line 376). The product of no factors, which is
    the number 1 in the code, is an error here. *)
Fixpoint conv_super (fuel : nat) (s : sop) (full : list nat) {struct fuel} : res smat :=
  match fuel with
  | 0 => Err OutOfFuel
  | Datatypes.S m =>
    if negb (sp_incl (sspace s) full) then Err ValueError
    else if match full with [] => true | _ => false end then Err AlgebraError
    else if eqb_list_nat full (sspace s) then
      match s with
      | SOne => do l <- mapM (fun s => do d <- dimension1 dim s; Ok (SMat d (meye r))) full; do v <- s_tensor r l; Ok (spre v)
      | SupModel.SZero => do v <- conv_o m OZero full; Ok (spre v)
      | SPlus l => foldM (fun s o => do v <- conv_super m o full; q_plus r s v) (ConvModel.SZero r) l
      | STimes l => do vs <- mapM (fun o => conv_super m o full) l; mul_all r vs
      | SScal c t =>
        if is_num c then
          do v <- conv_super m t full;
          Ok (match v with ConvModel.SMat _ n M => SMat n (mscale r (ev c) M) | ConvModel.SZero _ => v end)
        else Err TypeError
      | SPre a => do v <- conv_o m a full; Ok (spre v)
      | SPost a => do v <- conv_o m a full; Ok (spost v)
      | SSym _ _ | SAdj _ => Err ValueError
      end
    else
      match sspace s with
      | [x] => do _ <- of_option ValueError (index_of x full); do _ <- conv_super m s [x]; Err TypeError
      | _ => Err ValueError
      end
  end.
(** SuperOperatorTimesOperator, to_qutip.py:398-401, where the space is that of the whole:
    the product of the Qobj of the superoperator and of the operator *)
Definition conv_applied (fuel : nat) (s : sop) (a : op) (full : list nat) : res qobj :=
  do x <- conv_super fuel s full;
  do y <- conv_o fuel a full;
  qo_mul (of_smat x) (of_smat y).
End Qs.
