(** Which circuit expressions the evaluation theorems (C13, C14) are about. *)
From Verif Require Import Prelude PermSpec AlgSpec CAlg MatModel SlhModel MatSpec CircModel CSimpSpec.

(** [wf c n]: a well-formed circuit expression with [n] channels, whatever its components do *)
Inductive wf {X} (xdim : X -> nat -> Prop) : circ X -> nat -> Prop :=
| wf_sym l n : 0 < n -> wf xdim (CSym l n) n
| wf_slh s n : 0 < n -> xdim s n -> wf xdim (CSlh s n) n
| wf_perm p : p <> [] -> bijection p -> wf xdim (CPerm p) (length p)
| wf_id : wf xdim CId 1
| wf_zero : wf xdim CZero 0
| wf_series ops n : ops <> [] -> 0 < n -> (forall o, In o ops -> wf xdim o n) -> wf xdim (CSeries ops) n
| wf_concat ops ns : ops <> [] -> Forall2 (wf xdim) ops ns -> (forall n, In n ns -> 0 < n) -> wf xdim (CConcat ops) (sum ns)
| wf_fb c n o i : wf xdim c (S n) -> 0 < n -> o <= n -> i <= n -> wf xdim (CFeedback c o i) n
| wf_inv c n : wf xdim c n -> 0 < n -> no_feedback c -> wf xdim (CSInv c) n.

Section Spec.
  Context {M : calgebra} (comp : nat -> nat -> res (slh M)).
  (** the SLH object [s] has [n] channels *)
  Definition slh_has_cdim (s : slh M) (n : nat) : Prop := nrows (sS s) = n /\ ncols (sS s) = n.
  (** every SLH literal and every component in the expression is a physical
      system with as many channels as it announces (at least one), the images of
      permutations are permutations, and feedback ports exist *)
  Fixpoint valid (c : circ (slh M)) : Prop :=
    match c with
    | CSym l n => 0 < n /\ (forall s, comp l n = Ok s -> physical s n)
    | CSlh s n => 0 < n /\ physical s n
    | CPerm p => p <> [] /\ bijection p
    | CId | CZero => True
    | CSeries ops | CConcat ops => ops <> [] /\ fold_right (fun o P => valid o /\ P) True ops
    | CFeedback d o i => valid d /\ 1 < cdim d /\ o < cdim d /\ i < cdim d
    | CSInv d => valid d /\ no_feedback d
    end.
End Spec.
