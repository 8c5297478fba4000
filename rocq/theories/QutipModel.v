(** Conversion to QuTiP objects, /repo/src/qnet/convert/to_qutip.py.
    Modelled: operators (convert_to_qutip:44-118, 181-304), the time-dependent
    nested lists (412-463) and the loop of SLH_to_qutip:121-178 (after
    move_drive_to_H, for which see C38). A Qobj is modelled by its number of rows and its
    entries; [qutip.create], [destroy], [jmat], [basis], [qeye], [tensor] by their
    documented results. As in ConvModel, entries are values of scalars and spaces
    are lists of labels in the order of [local_factors]. Not modelled: states,
    superoperators, PseudoInverse, NullSpaceProjector, dims and isherm. *)
From Coq Require Import QArith Qcanon.
From Verif Require Import Prelude AlgSpec CAlg OpModel OpSpec ConvModel.
Local Open Scope nat_scope.

Section Qutip.
Context {S : scalars} (r : reading S) (dim : nat -> option nat).
Local Notation k := (K r).
Local Notation op := (op S).
Local Notation mat := (mat r).
Local Notation smat := (smat r). Local Notation SMat := (SMat r). Local Notation SZero := (SZero r).

(** qutip.destroy(n): sqrt(1), sqrt(2), ... above the diagonal; qutip.create(n) its adjoint *)
Definition q_destroy : mat := fun i j => if j =? i + 1 then ksqrt (qn j) else k0.
Definition q_create : mat := mherm r q_destroy.
(** qutip.jmat((n-1)/2., op): the basis is ordered by decreasing magnetic quantum
    number, index i standing for m = s - i *)
Definition q_m (n i : nat) : Qc := ((qn n - 1) / qn 2 - qn i)%Qc.
Definition q_jp (n : nat) : mat := fun i j =>
  let s := ((qn n - 1) / qn 2)%Qc in
  if j =? i + 1 then ksqrt (s * (s + 1) - q_m n j * (q_m n j + 1))%Qc else k0.
Definition q_jm (n : nat) : mat := mherm r (q_jp n).
Definition q_jz (n : nat) : mat := fun i j => if i =? j then kQ (q_m n i) else k0.

(** _convert_local_operator_to_qutip in the operator's own space, to_qutip.py:194-226.
    A LocalOperator has no attribute [operands], which the branches for Phase,
    Displace and Squeeze read. *)
Definition q_local (a : atom S) (n : nat) : res mat :=
  match a with
  | ACreate _ => Ok q_create
  | AJz _ => Ok (q_jz n)
  | AJp _ => Ok (q_jp n)
  | AJm _ => Ok (q_jm n)
  | ADestroy _ => Ok q_destroy
  | APhase _ _ | ADisp _ _ | ASqueeze _ _ => Err AttributeError
  | ASigma p q _ => if (p <? n) && (q <? n) then Ok (ket_bra r p q) else Err ValueError
  | ASym _ _ => Err ValueError
  end.

(** [Qobj + Qobj]; the number 0 may be added to a Qobj *)
Definition q_plus (a b : smat) : res smat :=
  match a, b with
  | ConvModel.SZero _, _ => Ok b
  | _, ConvModel.SZero _ => Ok a
  | ConvModel.SMat _ n A, ConvModel.SMat _ n' B => if n =? n' then Ok (SMat n (madd r A B)) else Err TypeError
  end.

Context (is_num : S -> bool)                     (* complex(coeff) succeeds *)
        (mapping : op -> option (nat * mat))     (* the Qobj given for an expression *)
        (expand : op -> res op).                 (* [expr.expand()] *)

(** convert_to_qutip for operators *)
Fixpoint conv_q (fuel : nat) (e : op) (full : list nat) {struct fuel} : res smat :=
  match fuel with
  | 0 => Err OutOfFuel
  | Datatypes.S m =>
    if negb (forallb (fun x => sp_mem x full) (space e)) then Err ValueError
    else if match full with [] => true | _ => false end then Err AlgebraError
    else match mapping e with
    | Some (n, M) => Ok (SMat n M)
    | None =>
      match e with
      | OOne => do l <- mapM (fun s => do d <- dimension1 dim s; Ok (SMat d (meye r))) full; s_tensor r l
      | OZero => do l <- mapM (fun s => do d <- dimension1 dim s; Ok (SMat d (mzero r))) full; s_tensor r l
      | OAtom (ASym _ _) => Err ValueError
      | OAtom a =>
        do n <- dimension dim full;
        if eqb_list_nat full (space e) then do M <- q_local a n; Ok (SMat n M)
        else
          do i <- of_option ValueError (index_of (hd 0 (space e)) full);
          do pre <- mapM (fun s => do d <- dimension1 dim s; Ok (SMat d (meye r))) (firstn i full);
          do own <- conv_q m e (space e);
          do post <- mapM (fun s => do d <- dimension1 dim s; Ok (SMat d (meye r))) (skipn (Datatypes.S i) full);
          s_tensor r (pre ++ own :: post)
      | OPlus l => foldM (fun s o => do v <- conv_q m o full; q_plus s v) SZero l
      | OTimes l =>
        if existsb (fun o => 1 <? length (space o)) l then
          do se <- expand e;
          if oeqb se e then Err ValueError else conv_q m se full
        else
          do by_space <- mapM (fun ls =>
               do ls_ops <- mapM (fun o => conv_q m o (space o)) (filter (on_space ls) l);
               match ls_ops with
               | [] => do d <- dimension1 dim ls; Ok (0, SMat d (meye r))
               | _ => do p <- mul_all r ls_ops; Ok (length ls_ops, p)
               end) full;
          if negb (sum (map fst by_space) =? length l) then Err AssertionError
          else s_tensor r (map snd by_space)
      | OAdj _ => Err TypeError                 (* qutip.dag of a QNET expression *)
      | OScal c t =>
        if is_num c then
          do v <- conv_q m t full;
          match v with ConvModel.SMat _ n M => Ok (SMat n (mscale r (ev c) M)) | ConvModel.SZero _ => Ok SZero end
        else Err TypeError
      | OComm _ _ | OTr _ _ | OPM _ _ => Err ValueError
      end
    end
  end.

(** the nested lists of QuTiP: a Qobj, a pair [Qobj, coefficient function], or a list *)
Inductive nested := NQ (v : smat) | NPair (v : smat) (c : S) | NList (l : list nested).
Context (has_t : op -> bool).                    (* [time_symbol in op.free_symbols] *)
(** _time_dependent_to_qutip, to_qutip.py:412-463. [fuel] as for [conv_q]. *)
Fixpoint td (n fuel : nat) (e : op) (full : list nat) {struct n} : res nested :=
  match n with
  | 0 => Err OutOfFuel
  | Datatypes.S m =>
    if has_t e then
      do e' <- expand e;
      match e' with
      | OPlus l =>
        do cs <- mapM (fun o => conv_q fuel o full) (filter (fun o => negb (has_t o)) l);
        do c <- match cs with [] => Ok [] | c0 :: cs' => do s <- foldM q_plus c0 cs'; Ok [NQ s] end;
        do ts <- mapM (fun o => td m fuel o full) (filter has_t l);
        Ok (NList (c ++ ts))
      | OScal c t => do v <- conv_q fuel t full; Ok (NPair v c)
      | _ => Err ValueError
      end
    else do v <- conv_q fuel e full; Ok (NQ v)
  end.

(** the loop over the Lindblad operators in SLH_to_qutip, to_qutip.py:158-165, without a
    time symbol; [is_null] is [L_qutip.norm('max') > 0] negated *)
Definition slh_to_qutip (is_null : smat -> bool) (fuel : nat) (H : op) (Ls : list op) (full : list nat) : res (smat * list smat) :=
  if match full with [] => true | _ => false end then Err AlgebraError
  else
    do h <- conv_q fuel H full;
    do ls <- mapM (fun L => conv_q fuel L full) Ls;
    Ok (h, filter (fun v => negb (is_null v)) ls).
End Qutip.
