(** Specification vocabulary for C16, independent of the reduction algorithm. *)
From Coq Require Import Relations.
From Verif Require Import Prelude BinModel.

Section Spec.
  Context {A : Type} (cls : bincls A).

  (** [r] is what the first rule that has a say returns for the pair (x, y). *)
  Definition rewrites_to (x y r : A) : Prop :=
    exists before rule after,
      binary_rules cls = before ++ rule :: after /\
      (forall q, In q before -> q x y = NoMatch \/ q x y = Refuses) /\
      rule x y = Replaces (Some r).

  (** the operands a replacement contributes to the enclosing product *)
  Definition contributes (r : A) : list A :=
    if is_neutral cls r then []
    else match instance_args cls r with Some args => args | None => [r] end.

  (** one in-place rewriting of two *adjacent* operands *)
  Definition one_step (l l' : list A) : Prop :=
    exists pre x y post r,
      l = pre ++ x :: y :: post /\ rewrites_to x y r /\ l' = pre ++ contributes r ++ post.
  Definition reachable : list A -> list A -> Prop := clos_refl_trans _ one_step.

  (** no two adjacent operands can be rewritten *)
  Definition irreducible (l : list A) : Prop :=
    forall pre x y post, l = pre ++ x :: y :: post -> ~ exists r, rewrites_to x y r.

  (** operands of a [match_replace_binary] result *)
  Definition result_operands (out : A + list A) : list A :=
    match out with inl x => if is_neutral cls x then [] else [x] | inr l => l end.
End Spec.

(** A monoid and a product over it *)
Record monoid := {
  carrier :> Type;
  mul : carrier -> carrier -> carrier;
  unit_ : carrier;
  mul_assoc : forall a b c, mul a (mul b c) = mul (mul a b) c;
  mul_unit_l : forall a, mul unit_ a = a;
  mul_unit_r : forall a, mul a unit_ = a
}.
Definition product (M : monoid) {A} (den : A -> M) (l : list A) : M :=
  fold_right (fun x acc => mul M (den x) acc) (unit_ M) l.
