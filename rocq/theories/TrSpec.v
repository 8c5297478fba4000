(** Laws of the partial trace. Specification vocabulary for C41. *)
From Coq Require Import QArith Qcanon.
From Verif Require Import Prelude AlgSpec CAlg OpModel OpSpec.
Local Open Scope nat_scope.

Record trace_laws {S : scalars} {dim : nat -> option nat} (I : interp S dim) : Prop := {
  (* one local factor after the other *)
  tr_nil : forall x, itrace (i:=I) [] x = x;
  tr_snoc : forall h l x, itrace (i:=I) (h ++ [l]) x = itrace h (itrace [l] x);
  (* linear, and compatible with adjoints *)
  tr_add : forall l x y, itrace (i:=I) [l] (aadd x y) = aadd (itrace [l] x) (itrace [l] y);
  tr_smul : forall l c x, itrace (i:=I) [l] (smul c x) = smul c (itrace [l] x);
  tr_star : forall l x, itrace (i:=I) [l] (star x) = star (itrace [l] x);
  (* operators on other spaces can be taken out, on their side *)
  tr_left : forall l h x y, ~ In l h -> lives h x -> itrace (i:=I) [l] (amul x y) = amul x (itrace [l] y);
  tr_right : forall l h x y, ~ In l h -> lives h x -> itrace (i:=I) [l] (amul y x) = amul (itrace [l] y) x;
  (* dimension, and the trace of a transition |j><k| *)
  tr_one : forall l n, dim l = Some n -> itrace (i:=I) [l] a1 = smul (kQ (qn n)) a1;
  tr_sigma : forall l j k, level (dim:=dim) l j -> level (dim:=dim) l k -> itrace (i:=I) [l] (isigma j k l) = if j =? k then a1 else a0;
  (* operators on the space itself can be moved around cyclically, next to a transition *)
  tr_cyclic : forall l j k x y, level (dim:=dim) l j -> level (dim:=dim) l k -> lives [l] x \/ lives [l] y ->
    itrace (i:=I) [l] (amul x (amul (isigma j k l) y)) = itrace [l] (amul (isigma j k l) (amul y x));
  (* the creation operator is off-diagonal *)
  tr_create : forall l, boson (i:=I) l -> itrace (i:=I) [l] (icreate l) = a0
}.
