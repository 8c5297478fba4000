(** Adiabatic elimination of fast degrees of freedom,
    /repo/src/qnet/algebra/core/circuit_algebra.py:1677-1770. The operators are the
    elements of a complex *-algebra; expand() and simplify_scalar() do not change them.
    Not modelled: the projection of Y to the truncated basis and the substitution of
    P0 by the identity at the end of try_adiabatic_elimination. *)
From Verif Require Import Prelude AlgSpec CAlg MatModel SlhModel.

Section Ad.
  Context {M : calgebra}.
  Notation A := (A M). Notation K := (K M).

  (** matrix_algebra.py:142-143: an operator times a matrix *)
  Definition mul_op_l (x : A) (a : matrix A) : matrix A := tab (nrows a) (ncols a) (fun i j => amul x (ent a i j)).

  (** The objects Y, A, B, F, G, N *)
  Record parts := Parts { pY : A; pA : A; pB : A; pF : matrix A; pG : matrix A; pN : matrix A }.

  (** [ser order x] stands for [x.series_expand(k, 0, order)] *)
  Context (ser : nat -> A -> res (list A)).
  (** circuit_algebra.py:1677-1698, with matrix_algebra.py:302-318: the coefficients of a
      matrix are matrices of coefficients; a matrix without entries has none *)
  Definition prepare (a : slh M) : res parts :=
    let Ld := madj (sL a) in
    do m <- mmul Ld (sL a);
    let k := aadd (smul khalf (smul (kopp k1) (ent m 0 0))) (smul iu (sH a)) in
    let N := madj (sS a) in
    do s <- ser 2 k;
    match s with
    | [b; a'; y] =>
      do t <- mapM (ser 1) (concat (rows Ld));
      match t with
      | [] => Err ValueError
      | _ =>
        if forallb (fun l => length l =? 2) t then
          let coefficient i := tab (nrows Ld) (ncols Ld) (fun r c => nth i (nth (r * ncols Ld + c) t []) a0) in
          Ok (Parts y a' b (coefficient 1) (coefficient 0) N)
        else Err ValueError
      end
    | _ => Err ValueError
    end.

  (** circuit_algebra.py:1701-1723 *)
  Definition eval_limit (p : parts) (Yt P0 : A) : res (slh M) :=
    let klim := amul (amul P0 (aadd (pB p) (smul (kopp k1) (amul (amul (pA p) Yt) (pA p))))) P0 in
    let hlim := smul (kopp iu) (smul khalf (aadd klim (smul (kopp k1) (star klim)))) in
    do d <- msub (pG p) (mul_op_l (amul (pA p) Yt) (pF p));
    let ldlim := mul_op_r (mul_op_l P0 d) P0 in
    do ff <- mmul (mul_op_r (madj (pF p)) Yt) (pF p);
    do dN <- madd (identity_matrix (nrows (pN p))) ff;
    do n <- mmul (mul_op_l P0 (pN p)) dN;
    let nlim := mul_op_r n P0 in
    mk_slh (madj nlim) (madj ldlim) (star hlim).

  (** ** try_adiabatic_elimination, circuit_algebra.py:1736-1764 *)
  (** A term of the projected Y: a projector to a level of the basis, another level
      flip operator, or anything else; with its coefficient (nonzero). *)
  Inductive term := TProj (l : nat) | TSigma (j k : nat) | TOther.
  Definition in_basis (d : nat) (t : term) : bool := match t with TProj l => l <? d | _ => false end.
  Definition is_level (l : nat) (t : term * K) : bool := match fst t with TProj l' => l' =? l | _ => false end.
  (** [b] is the number of levels, [proj l] the projector to the level [l], [kinv] the
      division. A LocalSigma has no attribute [operands] (:1747-1748).
      PlainException stands for CannotEliminateAutomatically; when there are terms of
      both kinds, which one is met first depends on the set order. [zero] is [== ZeroOperator]. *)
  Definition choose (kinv : K -> K) (proj : nat -> A) (zero : A -> bool) (b : nat) (terms : list (term * K)) : res (A * A) :=
    match find (fun t => negb (in_basis b (fst t))) terms with
    | Some (TOther, _) => Err PlainException
    | Some _ => Err AttributeError
    | None =>
      let fast l := existsb (is_level l) terms in
      let P0 := asum proj (filter (fun l => negb (fast l)) (seq 0 b)) in
      if zero P0 then Err PlainException
      else Ok (asum (fun t => match fst t with TProj l => smul (kinv (snd t)) (proj l) | _ => a0 end) terms, P0)
    end.
End Ad.
Arguments parts M : clear implicits.
