(** The shape of operator expressions. Specification vocabulary for C30 and C31. *)
From Coq Require Import QArith Qcanon.
From Verif Require Import Prelude OpModel.
Local Open Scope nat_scope.

Section Forms.
  Context {S : scalars}.
  Local Notation op := (op S).
  (** a summand is a coefficient times a term *)
  Definition coeff (o : op) : S := match o with OScal c _ => c | _ => s1 end.
  Definition term (o : op) : op := match o with OScal _ t => t | _ => o end.
  (** neither zero, nor a sum, nor a multiple *)
  Definition plain (t : op) : Prop := match t with OZero | OScal _ _ | OPlus _ => False | _ => True end.
  (** the summands have nonzero coefficients and different terms *)
  Definition collected (l : list op) : Prop :=
    Forall (fun o => plain (term o)) l /\ Forall (fun o => seqb (coeff o) s0 = false) l
    /\ ForallOrdPairs (fun o o' => oeqb (term o) (term o') = false) l.

  Definition is_sum (e : op) : bool := match e with OPlus _ => true | _ => false end.
  (** no product in the expression has a sum as a factor *)
  Fixpoint no_sum_factor (e : op) : bool :=
    match e with
    | OZero | OOne | OAtom _ => true
    | OScal _ t => negb (is_sum t) && no_sum_factor t
    | OPlus l => forallb no_sum_factor l
    | OTimes l => forallb (fun x => negb (is_sum x) && no_sum_factor x) l
    | OComm a b => no_sum_factor a && no_sum_factor b
    | OAdj a | OTr a _ | OPM _ a => no_sum_factor a
    end.

  (** local operators whose products with each other are never sums *)
  Definition tame (a : atom S) : Prop :=
    match a with ASym _ _ | ASigma _ _ _ | APhase _ _ | ADisp _ _ | ASqueeze _ _ => True | _ => False end.
  (** sums, multiples and products of such operators *)
  Inductive tame_expr : op -> Prop :=
  | te_zero : tame_expr OZero
  | te_one : tame_expr OOne
  | te_atom a : tame a -> tame_expr (OAtom a)
  | te_scal c t : tame_expr t -> tame_expr (OScal c t)
  | te_plus l : (forall x, In x l -> tame_expr x) -> tame_expr (OPlus l)
  | te_times l : (forall x, In x l -> tame_expr x) -> tame_expr (OTimes l).
End Forms.

Section Local.
  Context {S : scalars}.
  (** every local operator and symbol in the expression acts on the local space [l]
      only (or is a scalar) *)
  Fixpoint local_to (l : nat) (e : op S) : Prop :=
    match e with
    | OZero | OOne => True
    | OAtom a => atom_space a = [] \/ atom_space a = [l]
    | OScal _ t => local_to l t
    | OPlus es | OTimes es => fold_right (fun x P => local_to l x /\ P) True es
    | OComm a b => local_to l a /\ local_to l b
    | OAdj a | OTr a _ | OPM _ a => local_to l a
    end.
  (** the given comparisons order expressions and Hilbert spaces strictly *)
  Record good_orders (olt : op S -> op S -> bool) (slt : list nat -> list nat -> bool) : Prop := {
    olt_asym : forall x y, olt x y = true -> olt y x = false;
    olt_neg : forall x y z, olt x y = false -> olt y z = false -> olt x z = false;
    slt_total : forall h h', h <> h' -> slt h h' = true \/ slt h' h = true;
    slt_asym : forall h h', slt h h' = true -> slt h' h = false;
    slt_trans : forall h1 h2 h3, slt h1 h2 = true -> slt h2 h3 = true -> slt h1 h3 = true
  }.
End Local.
