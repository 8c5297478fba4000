(** Model of State.__mul__ (core/state_algebra.py:87-151): products of kets and
    bras, with indexed sums. The simplifications of [create] are modelled separately
    (IdxModel). Simplification: the summand of a sum is not itself a sum
    (assoc_indexed flattens it), so that the products of summands are plain products. *)
From Verif Require Import Prelude SortModel HilbertModel BasisModel IdxModel.

Section Adj.
  (** the names of the conjugated symbols and of the adjoint atoms *)
  Context (cj adj : nat -> nat).
  (** [conjugate()] of scalars; numbers, index expressions, deltas and indicators are real *)
  Fixpoint sconj (s : scal) : scal :=
    match s with
    | SSym n args => SSym (cj n) args
    | SAdd l => SAdd (map sconj l)
    | SMul l => SMul (map sconj l)
    | _ => s
    end.
  (** the adjoint of a summand; for kets: the Bra (538-570), which keeps the ket and
      gives its properties (bound_symbols, free_symbols) *)
  Fixpoint dag (t : term) : term :=
    match t with
    | TAtom n args => TAtom (adj n) args
    | TScale c t => TScale (sconj c) (dag t)
    | TAdd t u => TAdd (dag t) (dag u)
    | TMul t u => TMul (dag u) (dag t)
    | TSum t rs => TSum (dag t) rs
    end.
  (** Ket * Ket (98-107) *)
  Definition ket_ket (k l : term) : res term :=
    match k, l with
    | TSum t rs, TSum t' rs' => mul_sums t rs t' rs'
    | TSum t rs, _ => mul_other t rs l
    | _, TSum t' rs' => rmul_other t' rs' k
    | _, _ => Ok (TMul k l)
    end.
  (** Ket * Bra (108-125); [b] is the ket of the bra *)
  Definition ket_bra (k b : term) : res term :=
    match k, b with
    | TSum t rs, TSum t' rs' =>
      do o <- make_disjunct (syms rs) t' rs';
      sum_init (TMul t (dag (fst o))) (rs ++ snd o)
    | TSum t rs, _ => mul_other t rs (dag b)
    | _, TSum t' rs' => sum_init (TMul k (dag t')) rs'
    | _, _ => Ok (TMul k (dag b))
    end.
  (** Bra * Ket (126-143) *)
  Definition bra_ket (b k : term) : res term :=
    match b, k with
    | TSum t rs, TSum t' rs' =>
      do o <- make_disjunct (syms rs) t' rs';
      sum_init (TMul (dag t) (fst o)) (rs ++ snd o)
    | TSum t rs, _ => sum_init (TMul (dag t) k) rs
    | _, TSum t' rs' => rmul_other t' rs' (dag b)
    | _, _ => Ok (TMul (dag b) k)
    end.
  (** Bra * Bra (144-146): the bra of the product of the kets *)
  Definition bra_bra (b c : term) : res term := do k <- ket_ket b c; Ok (dag k).
  (** a ket or a bra; a bra is given by its ket *)
  Inductive state := Ket (k : term) | BraOf (k : term).
  Definition state_mul (x y : state) : res term :=
    match x, y with
    | Ket k, Ket l => ket_ket k l
    | Ket k, BraOf b => ket_bra k b
    | BraOf b, Ket k => bra_ket b k
    | BraOf b, BraOf c => bra_bra b c
    end.
End Adj.
