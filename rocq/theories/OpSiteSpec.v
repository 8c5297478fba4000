(** Products of operators each of which acts on one local space. Specification
    vocabulary for the theorems [C31_sites_...], [C32_sites_...], [C34_sites_...],
    [C36_sites_...]. *)
From Coq Require Import QArith Qcanon Sorting.
From Verif Require Import Prelude OpModel OpForms.
Local Open Scope nat_scope.

Section Sites.
  Context {S : scalars}.
  Local Notation op := (op S).
  (** everything in the expression acts on one and the same local space *)
  Definition site (x : op) : Prop := exists l, local_to l x.
  (** no local space of the first comes after a local space of the second *)
  Definition below (x y : op) : Prop := forall p q, In p (space x) -> In q (space y) -> p <= q.
  Definition ordl (L : list op) : Prop := StronglySorted below L.
  (** how Hilbert spaces compare: the trivial space comes first, and a space all of
      whose factors come before those of another comes before it. (The order of
      [_order_key] has these properties: a local space has the key of its label, a
      product space the concatenation of the keys of its factors,
      hilbert_space_algebra.py.) *)
  Record site_order (olt : op -> op -> bool) (slt : list nat -> list nat -> bool) : Prop := {
    so_good :> good_orders olt slt;
    so_nil : forall h, h <> [] -> slt [] h = true;
    so_lt : forall h h', h <> [] -> h' <> [] -> (forall p q, In p h -> In q h' -> p < q) -> slt h h' = true
  }.
  (** an operator on one site, or a product of such operators *)
  Definition tidy (x : op) : Prop := site x \/ exists es, x = OTimes es /\ Forall site es.
  (** multiples of products of operators on single sites, sorted by site *)
  Inductive nf : op -> Prop :=
  | nf_site x : site x -> nf x
  | nf_times es : Forall site es -> ordl es -> nf (OTimes es)
  | nf_scal c x : nf x -> nf (OScal c x).
  (** sums, multiples and commutators of those, and of arbitrary symbols *)
  Inductive sited : op -> Prop :=
  | sd_nf x : nf x -> sited x
  | sd_atom a : sited (OAtom a)
  | sd_scal c x : sited x -> sited (OScal c x)
  | sd_plus es : (forall x, In x es -> sited x) -> sited (OPlus es)
  | sd_comm a b : sited a -> sited b -> sited (OComm a b).
  (** the same with products in any order of the sites *)
  Inductive loose : op -> Prop :=
  | ls_tidy x : tidy x -> loose x
  | ls_atom a : loose (OAtom a)
  | ls_scal c x : loose x -> loose (OScal c x)
  | ls_plus es : (forall x, In x es -> loose x) -> loose (OPlus es)
  | ls_comm a b : loose a -> loose b -> loose (OComm a b).
  (** an expression without sums except within a site *)
  Inductive sumless : op -> Prop :=
  | sl_nf x : nf x -> sumless x
  | sl_atom a : sumless (OAtom a)
  | sl_scal c x : sumless x -> sumless (OScal c x)
  | sl_comm a b : sumless a -> sumless b -> sumless (OComm a b).
End Sites.
