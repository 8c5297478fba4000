(** Writing an operator in a basis: Operator.expand_in_basis, operator_algebra.py:80-138,
    and HilbertSpace.basis_states, hilbert_space_algebra.py:380-389 (LocalSpace), 541-544
    (TrivialSpace), 697-711 (ProductSpace). Basis labels are numbers 0 .. d-1. *)
From Verif Require Import Prelude OpModel KetModel.
Local Open Scope nat_scope.

Section Xb.
Context {S : scalars}.
Local Notation op := (op S).
Local Notation ket := (ket S).

(** [basis_states]; a space without a basis raises BasisNotSetError (116-117, 246-253).
    A TrivialSpace has one state, a ProductSpace one for each tuple of labels; TensorKet is
    instantiated directly. *)
Definition local_states (dim : nat -> option nat) (l : nat) : res (list ket) :=
  match dim l with Some d => Ok (map (fun j => KBasis j l) (seq 0 d)) | None => Err BasisNotSetError end.
Definition basis_states (dim : nat -> option nat) (h : list nat) : res (list ket) :=
  match h with
  | [] => Ok [KTriv]
  | [l] => local_states dim l
  | _ => do ls <- mapM (local_states dim) h; Ok (map (fun t => KTensor t) (cartesian ls))
  end.

Context (K : ocreators S) (Q : kcreators S) (kb : ket -> ket -> op).
(** the expansion of the scalar that is the matrix element *)
Context (sexpand : S -> res S).

(** [(ket_i.dag() * self * ket_j).expand()] *)
Definition matrix_element (a : op) (ki kj : ket) : res S :=
  do b <- mul_op K Q (Bra ki) a;
  do p <- state_mul Q b (Ket kj);
  match p with PScal c => sexpand c | _ => Err TypeError end.
(** [op_ij * ketbra], where [ketbra] is instantiated directly *)
Definition xterm (a : op) (ki kj : ket) : res op :=
  do c <- matrix_element a ki kj;
  do e <- kb_new kb ki kj;
  k_scal K c e.
(** the terms for row [i], as (on the diagonal, term) *)
Definition not_zero (e : op) : bool := negb (oeqb e OZero).
Definition xrow (a : op) (hermitian : bool) (states : list ket) (i : nat) (ki : ket) : res (list (bool * op)) :=
  mapM (fun jk => do t <- xterm a ki (snd jk); Ok (i =? fst jk, t))
       (filter (fun jk => negb ((fst jk <? i) && hermitian)) (combine (seq 0 (length states)) states)).
Definition expand_in_basis (dim : nat -> option nat) (a : op) (given : option (list ket)) (hermitian : bool) : res op :=
  do states <- match given with Some l => Ok l | None => basis_states dim (space a) end;
  do rows <- mapM (fun ik => xrow a hermitian states (fst ik) (snd ik)) (combine (seq 0 (length states)) states);
  let all := filter (fun t => not_zero (snd t)) (concat rows) in
  let diag := map snd (filter fst all) in
  let terms := map snd (filter (fun t => negb (fst t)) all) in
  if hermitian then
    do r <- k_plus K diag;
    match terms with
    | [] => Ok r
    | _ => do t <- k_plus K terms; k_plus K [r; OPM true t]
    end
  else
    do r <- k_plus K diag;
    do t <- k_plus K terms;
    k_plus K [r; t].
End Xb.
