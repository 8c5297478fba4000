(** Expressions built from transition operators between existing levels (and symbols):
    specification vocabulary for the theorems of C49 and C50 on finite-level systems. *)
From Coq Require Import QArith Qcanon.
From Verif Require Import Prelude OpModel.
Local Open Scope nat_scope.
Section Spec.
Context {S : scalars} (dim : nat -> option nat).
(** level [j] exists in the local space [l] *)
Definition is_level (l j : nat) : Prop := match dim l with Some d => j < d | None => True end.
Fixpoint level_ops (e : op S) : Prop :=
  match e with
  | OZero | OOne => True
  | OAtom (ASigma j k l) => is_level l j /\ is_level l k
  | OAtom (ASym _ _) => True
  | OAtom _ => False
  | OScal _ t | OAdj t | OTr t _ | OPM _ t => level_ops t
  | OPlus l | OTimes l => fold_right (fun x P => level_ops x /\ P) True l
  | OComm a b => level_ops a /\ level_ops b
  end.
End Spec.
