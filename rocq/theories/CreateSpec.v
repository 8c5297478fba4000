(** What [create] means without any cache: a big-step relation with no depth
    bound and no state (C17). *)
From Verif Require Import Prelude CreateModel.

Section Spec.
  Context {C AR V K : Type} (W : classes C AR V K) (Keqb : K -> K -> bool).

  Inductive creates : C -> AR -> res V -> Prop :=
  | creates_intro c a r : simplifies c (simplifications W c) a r -> creates c a r
  with simplifies : C -> list (AR -> prog C AR V) -> AR -> res V -> Prop :=
  | simplifies_instance c a v : evaluates (instantiate W c a) (Ok (inl v)) -> simplifies c [] a (Ok v)
  | simplifies_instance_err c a e : evaluates (instantiate W c a) (Err e) -> simplifies c [] a (Err e)
  | simplifies_instance_bad c a a' : evaluates (instantiate W c a) (Ok (inr a')) -> simplifies c [] a (Err Unmodelled)
  | simplifies_object c f rest a v : evaluates (f a) (Ok (inl v)) -> simplifies c (f :: rest) a (Ok v)
  | simplifies_args c f rest a a' r :
      evaluates (f a) (Ok (inr a')) -> simplifies c rest a' r -> simplifies c (f :: rest) a r
  | simplifies_err c f rest a e : evaluates (f a) (Err e) -> simplifies c (f :: rest) a (Err e)
  with evaluates : prog C AR V -> res (V + AR) -> Prop :=
  | evaluates_ret r : evaluates (PRet r) (Ok r)
  | evaluates_raise e : evaluates (PRaise e) (Err e)
  | evaluates_create c a k r r' : creates c a r -> evaluates (k r) r' -> evaluates (PCreate c a k) r'.

  (** "calls with equal instance keys are the same call": the property of
      [_get_instance_key] (and of [==] on arguments) that caching relies on *)
  Definition keys_sound : Prop := forall c a c' a' r,
    Keqb (get_instance_key W c' a') (get_instance_key W c a) = true -> creates c a r -> creates c' a' r.

  (** [create] is idempotent for the classes that claim it *)
  Definition idempotent_claims_hold : Prop := forall c, create_idempotent W c = true ->
    (forall a v k c' a', creates c a (Ok v) -> instance_key W v = Some k ->
       Keqb (get_instance_key W c' a') k = true -> creates c' a' (Ok v)) /\
    (forall a v, evaluates (instantiate W c a) (Ok (inl v)) -> creates c a (Ok v)).
End Spec.
