(** What a pseudo-inverse is: the Moore-Penrose inverse. Specification vocabulary of C65. *)
From Coq Require Import QArith Qcanon.
From Verif Require Import Prelude BinModel AlgSpec CAlg OpModel OpSpec PinvModel.
Local Open Scope nat_scope.

(** the four equations in the documentation of [Operator.pseudo_inverse] *)
Record pseudo_inverse {M : calgebra} (x y : A M) : Prop := {
  mp_xyx : amul (amul x y) x = x;
  mp_yxy : amul (amul y x) y = y;
  mp_yx_hermitian : star (amul y x) = amul y x;
  mp_xy_hermitian : star (amul x y) = amul x y }.

Definition unitary {M : calgebra} (x : A M) : Prop := amul x (star x) = a1 /\ amul (star x) x = a1.

Section Spec.
  Context {S : scalars} {dim : nat -> option nat} (I : interp S dim).
  Context (sinv : S -> S) (pi_name : op S -> nat) (pi_of : nat -> option (op S)) (K : ocreators S).

  (** the operators of which an unevaluated pseudo-inverse is met or made *)
  Fixpoint left_open (e : op S) : list (op S) :=
    match e with
    | OZero | OOne => []
    | OAtom a =>
      match a with
      | ASym n h => match pi_of n with Some x => if list_eq_dec Nat.eq_dec (space x) h then [x] else [e] | None => [e] end
      | ACreate _ | ADestroy _ | AJp _ | AJm _ | AJz _ => [e]
      | _ => []
      end
    | OScal _ t => left_open t
    | OPlus _ | OComm _ _ | OTr _ _ => [e]
    | OTimes l => flat_map left_open l
    | OAdj a => left_open a
    | OPM s a => match pm_doit K s a with Ok d => [d] | Err _ => [] end
    end.
  (** ... and these objects stand for pseudo-inverses *)
  Definition objects_ok (e : op S) : Prop :=
    forall x, In x (left_open e) -> legal I x /\ pseudo_inverse (M:=I) (value I x) (isym (i:=I) (pi_name x) (space x)).

  (** products whose pseudo-inverse is the reversed product of the pseudo-inverses of
      the factors: of commuting parts on different spaces, or with a unitary part *)
  Inductive reversible : list (op S) -> Prop :=
  | rv_nil : reversible []
  | rv_one e : reversible [e]
  | rv_apart l1 l2 : reversible l1 -> reversible l2 ->
      (forall x y, In x l1 -> In y l2 -> apart (space x) (space y)) -> reversible (l1 ++ l2)
  | rv_left l1 l2 : reversible l1 -> reversible l2 -> unitary (M:=I) (value I (OTimes l1)) -> reversible (l1 ++ l2)
  | rv_right l1 l2 : reversible l1 -> reversible l2 -> unitary (M:=I) (value I (OTimes l2)) -> reversible (l1 ++ l2).

  (** every product that is taken apart is such a product; 1/c is the inverse of the
      coefficient c (in SymPy it is for c other than zero) *)
  Fixpoint products_ok (e : op S) : Prop :=
    match e with
    | OScal c t => kmul (ev (r:=I) (sinv c)) (ev (r:=I) c) = k1 /\ products_ok t
    | OTimes l => reversible l /\ fold_right (fun x P => products_ok x /\ P) True l
    | OAdj a => products_ok a
    | _ => True
    end.
End Spec.
