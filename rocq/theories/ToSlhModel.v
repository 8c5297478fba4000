(** toSLH: evaluation of circuit expressions, /repo/src/qnet/algebra/core/circuit_algebra.py,
    the [_toSLH] methods at lines 416, 625, 745, 811, 1039, 1065, 1093, 1127, 1263, 1313. *)
From Verif Require Import Prelude PermModel AlgSpec CAlg MatModel SlhModel CircModel.

Section ToSlh.
  Context {M : calgebra}.
  Local Notation slh := (slh M).
  Local Notation circ := (circ slh).
  (** [comp l n]: the [_toSLH] method of the symbol or component with label [l]
      and cdim [n]: a bare CircuitSymbol raises CannotConvertToSLH (:625), the
      components of the library return an SLH object. *)
  Context (comp : nat -> nat -> res slh) (scalar_inv : A M -> res (K M)).

  (** circuit_algebra.py:1039-1040: [SLH(Matrix([[1]]), Matrix([[0]]), 0)] *)
  Definition cid_slh : res slh := mk_slh (Mat 1 1 [[a1]]) (Mat 1 1 [[a0]]) a0.

  Fixpoint to_slh (c : circ) : res slh :=
    (** [reduce(lambda a, b: a.toSLH().op(b.toSLH()), operands)]: [acc] is the
        accumulator. With a single operand [reduce] returns that operand
        unconverted: not an SLH object unless the operand is one. *)
    let go := fix go (op : slh -> slh -> res slh) (acc : slh) (l : list circ) : res slh :=
      match l with
      | [] => Ok acc
      | o :: l' => do b <- to_slh o; do r <- op acc b; go op r l'
      end in
    let reduce op l :=
      match l with
      | [] => Err TypeError
      | [o] => match o with CSlh s _ => Ok s | _ => Err Unmodelled end
      | o :: l' => do a <- to_slh o; go op a l'
      end in
    match c with
    | CSym l n => comp l n
    | CSlh s _ => Ok s
    | CPerm p => perm_to_slh p
    | CId => cid_slh
    | CZero => (* [Matrix([[]])] has shape (1, 0), so SLH.__init__ (:332-334) raises *) Err ValueError
    | CSeries ops => reduce (series_with_slh (M:=M)) ops
    | CConcat ops => reduce (concatenate_slh (M:=M)) ops
    | CFeedback d out_port in_port => do a <- to_slh d; slh_feedback scalar_inv a out_port in_port
    | CSInv d => do a <- to_slh d; slh_series_inverse a
    end.
End ToSlh.
