(** What a nested list of QuTiP objects stands for: at a given instant (given by the
    values the scalars have), a pair [Q, f] is the matrix Q times the value of f, a
    list is the sum of its members. *)
From Coq Require Import QArith Qcanon.
From Verif Require Import Prelude AlgSpec CAlg OpModel OpSpec ConvModel ConvSpec QutipModel.
Local Open Scope nat_scope.

Section Spec.
Context {S : scalars} (r : reading S) (dim : nat -> option nat).
Fixpoint nested_is (h : list nat) (x : nested r) (F : mat r) {struct x} : Prop :=
  match x with
  | NQ _ v => stands_for r dim h v F
  | NPair _ v c => exists G, stands_for r dim h v G /\ meq r (size dim h) (mscale r (ev c) G) F
  | NList _ l =>
    (fix go (l : list (nested r)) (F : mat r) : Prop :=
       match l with
       | [] => meq r (size dim h) (mzero r) F
       | y :: l' => exists F1 F2, nested_is h y F1 /\ go l' F2 /\ meq r (size dim h) (madd r F1 F2) F
       end) l F
  end.
Definition nested_list_is (h : list nat) : list (nested r) -> mat r -> Prop :=
  fix go l F := match l with
       | [] => meq r (size dim h) (mzero r) F
       | y :: l' => exists F1 F2, nested_is h y F1 /\ go l' F2 /\ meq r (size dim h) (madd r F1 F2) F
       end.

(** the order of the basis of a spin does not matter: no spin operator occurs; or it
    does, and transitions between numbered levels do not *)
Fixpoint sigmaless (e : op S) : Prop :=
  match e with
  | OAtom (ASigma _ _ _) => False
  | OScal _ t | OAdj t | OTr t _ | OPM _ t => sigmaless t
  | OPlus l | OTimes l => fold_right (fun x P => sigmaless x /\ P) True l
  | OComm a b => sigmaless a /\ sigmaless b
  | _ => True
  end.
End Spec.
