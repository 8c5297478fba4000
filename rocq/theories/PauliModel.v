(** Model of qnet/algebra/library/pauli_matrices.py: PauliX, PauliY, PauliZ.
    [s] is the local space (labels, BasisModel), [ls] the label by which operators refer to
    it (OpModel). Symbolic labels (SymbolicLabelBase) are not modelled. *)
From Coq Require Import ZArith QArith Qcanon.
From Verif Require Import Prelude HilbertModel BasisModel OpModel.
Local Open Scope nat_scope.

(** _get_pauli_args, pauli_matrices.py:11-19, and the unpacking [g, e = states], lines 46,
    66, 87 *)
Definition pauli_args (s : local) (states : option (list lbl)) : res (lbl * lbl) :=
  let st := match states with
            | Some l => l
            | None => match l_basis s with
                      | Some b => map Lab (firstn 2 b)
                      | None => [Idx 0; Idx 1]
                      end
            end in
  match st with
  | [g; e] => Ok (g, e)
  | _ => Err ValueError           (* not enough / too many values to unpack *)
  end.

Section Pauli.
Context {S : scalars} (K : ocreators S).

(** LocalSigma(j, k, hs=s), operator_algebra.py:356-367: both labels are looked up; an integer
    is replaced by the label with this index. LocalSigma.create does the same (LocalSigma has
    no rules); LocalProjector(j, hs=s) is LocalSigma(j, j, hs=s), lines 442-450. *)
Definition local_sigma (s : local) (ls : nat) (j k : lbl) : res (op S) :=
  do a <- unpack s j;
  do b <- unpack s k;
  Ok (OAtom (ASigma (Z.to_nat (snd a)) (Z.to_nat (snd b)) ls)).
Definition local_projector (s : local) (ls : nat) (j : lbl) : res (op S) := local_sigma s ls j j.

(** PauliX, pauli_matrices.py:22-50 *)
Definition pauli_x (s : local) (ls : nat) (states : option (list lbl)) : res (op S) :=
  do ge <- pauli_args s states;
  let (g, e) := ge in
  do a <- local_sigma s ls g e;
  do b <- local_sigma s ls e g;
  k_plus K [a; b].
(** PauliY, pauli_matrices.py:53-70; [-A] is [(-1) * A], abstract_quantum_algebra.py:259-260 *)
Definition pauli_y (s : local) (ls : nat) (states : option (list lbl)) : res (op S) :=
  do ge <- pauli_args s states;
  let (g, e) := ge in
  do a <- local_sigma s ls g e;
  do a' <- k_scal K sm1 a;
  do b <- local_sigma s ls e g;
  do p <- k_plus K [a'; b];
  k_scal K sI p.
(** PauliZ, pauli_matrices.py:73-90 *)
Definition pauli_z (s : local) (ls : nat) (states : option (list lbl)) : res (op S) :=
  do ge <- pauli_args s states;
  let (g, e) := ge in
  do a <- local_projector s ls g;
  do b <- local_projector s ls e;
  osub K a b.
End Pauli.
