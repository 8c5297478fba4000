(** What liouvillian_normal_form is meant to return. Specification vocabulary for C39;
    independent of the routine. *)
From Coq Require Import QArith Qcanon.
From Verif Require Import Prelude AlgSpec CAlg OpModel OpSpec SupModel SupSpec.
Local Open Scope nat_scope.

(** [s] is c times t, where the coefficient 1 is not written *)
Definition multiple_of {S : scalars} (s : sop S) (c : option S) (t : sop S) : Prop :=
  match c with None => s = t /\ (forall d u, t <> SScal d u) | Some c => s = SScal c t end.
Definition written {S : scalars} (c : option S) : S := match c with None => s1 | Some c => c end.
(** multiples of SPre(A), of SPost(B), of SPre(A)*SPost(B) *)
Definition pre_term {S : scalars} (s : sop S) : Prop := exists c a, multiple_of s c (SPre a).
Definition post_term {S : scalars} (s : sop S) : Prop := exists c a, multiple_of s c (SPost a).
Definition cross_term {S : scalars} (s : sop S) (c : option S) (a b : op S) : Prop := multiple_of s c (STimes [SPre a; SPost b]).
Definition no_cross {S : scalars} (l : list (sop S)) : Prop := Forall (fun s => pre_term s \/ post_term s) l.
(** a sum with exactly one term of the form c SPre(A)*SPost(B) *)
Definition one_cross {S : scalars} (l : list (sop S)) (c : option S) (a b : op S) : Prop :=
  exists l1 s l2, l = l1 ++ s :: l2 /\ no_cross l1 /\ no_cross l2 /\ cross_term s c a b.

(** the trace of the right-hand side vanishes: what makes a map the generator of a
    trace-preserving evolution *)
Definition trace_free {S : scalars} {dim : nat -> option nat} {T : sinterp S dim} (W : tracing T) (f : A T -> A T) : Prop :=
  forall rho, tr W (f rho) = k0.
