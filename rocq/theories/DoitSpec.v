(** Specification vocabulary for C59. *)
From Coq Require Import QArith Qcanon.
From Verif Require Import Prelude OpModel DoitModel.

(** the expression contains no Commutator (if [in_comm cl]) and no OperatorPlusMinusCC
    (if [in_pm cl]) *)
Fixpoint explicit {S : scalars} (cl : classes) (e : op S) : bool :=
  match e with
  | OZero | OOne | OAtom _ => true
  | OScal _ t => explicit cl t
  | OPlus l | OTimes l => forallb (explicit cl) l
  | OComm a b => negb (in_comm cl) && (explicit cl a && explicit cl b)
  | OAdj a | OTr a _ => explicit cl a
  | OPM _ a => negb (in_pm cl) && explicit cl a
  end.
