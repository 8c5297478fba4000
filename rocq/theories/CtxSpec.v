(** Specification vocabulary for C18. *)
From Verif Require Import Prelude CtxModel.

Section Spec.
  Variable mro : nat -> list nat.

  (** What class [c] sees through attribute [at_]: the object and its content;
      of a cache only the entries of [c] itself, because [create] of [c] only
      looks up keys that start with [c]. *)
  Definition sees (st : state) (c : nat) (at_ : attr) : option (nat * dict) :=
    match getattr mro st c at_ with
    | None => None
    | Some p => Some (p, match at_ with
                         | AInst => filter (fun e => fst (fst e) =? c) (heap st at_ p)
                         | _ => heap st at_ p
                         end)
    end.

  (** Sane class hierarchy: a class comes first in its own mro, and the mro of
      a base class is contained in that of the subclass. *)
  Definition hierarchy : Prop :=
    (forall c, exists l, mro c = c :: l) /\ (forall b c, In b (mro c) -> incl (mro b) (mro c)).
  (** all attribute values are existing objects *)
  Definition well_formed (st : state) : Prop :=
    forall a c p, own st a c = Some p -> p < next st.

  (** an Expression class: it has [_instances] and [simplifications] *)
  Definition expression_class (st : state) (c : nat) : Prop :=
    getattr mro st c AInst <> None /\ getattr mro st c ASimp <> None.

  (** the list names no class twice and no base class before its subclass *)
  Definition independent (cs : list nat) : Prop :=
    ForallOrdPairs (fun c c' => ~ In c (mro c')) cs.

  (** [s] changes rules and simplifications only of classes in [scope] (or
      of classes it protects itself); instances of any class may be created *)
  Fixpoint modifies_within (scope : list nat) (s : stmt) : Prop :=
    match s with
    | Skip | Raise _ => True
    | Seq s1 s2 => modifies_within scope s1 /\ modifies_within scope s2
    | Prim p =>
      match p with
      | PAddRule _ c _ _ | PDelRules _ c _ | PAppendSimp c _ | PSetSimp c _ => In c scope
      | PStore _ _ _ => True
      end
    | Try s => modifies_within scope s
    | TempRules cs _ body => modifies_within (scope ++ cs) body
    | TempCache _ body => modifies_within scope body
    | NoCaching body => modifies_within scope body
    end.
End Spec.
