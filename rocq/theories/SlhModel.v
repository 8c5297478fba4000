(** Model of the SLH class, /repo/src/qnet/algebra/core/circuit_algebra.py:315-505
    and 1549-1620. *)
From Verif Require Import Prelude PermModel AlgSpec CAlg MatModel CircModel.

(** circuit_algebra.py:326-352: the attributes of an SLH object. Coercing
    numbers to multiples of the identity operator (:339-344) is implicit. *)
Record slh (M : calgebra) := SLH { sS : matrix (A M); sL : matrix (A M); sH : A M }.
Arguments SLH {M} sS sL sH.
Arguments sS {M} s.
Arguments sL {M} s.
Arguments sH {M} s.

Section Slh.
  Context {M : calgebra}.
  Notation A := (A M). Notation K := (K M). Notation slh := (slh M).
  Implicit Types a b : slh.

  (** circuit_algebra.py:326-337: the shape checks of [SLH.__init__] *)
  Definition mk_slh (S L : matrix A) (H : A) : res slh :=
    if negb (nrows S =? nrows L) then Err ValueError
    else if negb (ncols L =? 1) then Err ValueError
    else Ok (SLH S L H).
  (** circuit_algebra.py:363-366 *)
  Definition slh_cdim a : nat := nrows (sS a).

  (** circuit_algebra.py:404-405, 493-494: [(m.H - m) * (I / 2)] *)
  Definition im_adjoint (m : matrix A) : res (matrix A) :=
    do d <- msub (madj m) m; Ok (mscale (kmul iu khalf) d).

  (** circuit_algebra.py:391-415 *)
  Definition series_with_slh a b : res slh :=
    do new_S <- mmul (sS a) (sS b);
    do t <- mmul (sS a) (sL b);
    do new_L <- madd t (sL a);
    do u <- mmul (madj (sL a)) (sS a);
    do m <- mmul u (sL b);
    do delta <- im_adjoint m;
    mk_slh new_S new_L (aadd (aadd (sH a) (sH b)) (ent delta 0 0)).

  (** circuit_algebra.py:417-427 *)
  Definition concatenate_slh a b : res slh :=
    do new_S <- block_matrix (sS a) (zerosm (nrows (sS a)) (ncols (sS b)))
                             (zerosm (nrows (sS b)) (ncols (sS a))) (sS b);
    do new_L <- vstackm (sL a) (sL b);
    mk_slh new_S new_L (aadd (sH a) (sH b)).

  (** circuit_algebra.py:451-452; [- S.adjoint() * L] negates first *)
  Definition slh_series_inverse a : res slh :=
    do l <- mmul (mneg (madj (sS a))) (sL a);
    mk_slh (madj (sS a)) l (smul (kopp k1) (sH a)).

  (** circuit_algebra.py:806-808 CPermutation._toSLH *)
  Definition perm_to_slh (p : list nat) : res slh :=
    do s <- permutation_matrix p; mk_slh s (zerosm (length p) 1) a0.

  (** [scalar_inv x] stands for circuit_algebra.py:475-490 applied to
      [one_minus_Snn = x]: if [x] is an (invertible) multiple [c] of the identity
      operator return [1/c], otherwise raise AlgebraError. *)
  Context (scalar_inv : A -> res K).

  (** circuit_algebra.py:471-505: feedback of the last port to the last port *)
  Definition feedback_last a : res slh :=
    let n := slh_cdim a - 1 in
    let S := sS a in let L := sL a in
    do inv <- scalar_inv (aadd a1 (smul (kopp k1) (ent S n n)));
    do s1 <- mmul (mscale inv (msub_block S 0 n n (n + 1))) (msub_block S n (n + 1) 0 n);
    do new_S <- madd (msub_block S 0 n 0 n) s1;
    do l1 <- mmul (mscale inv (msub_block S 0 n n (n + 1))) (msub_block L n (n + 1) 0 1);
    do new_L <- madd (msub_block L 0 n 0 1) l1;
    do m <- mmul (madj L) (msub_block S 0 (n + 1) n (n + 1));
    do delta <- im_adjoint (mul_op_r (mscale inv m) (ent L n 0));
    mk_slh new_S new_L (aadd (sH a) (ent delta 0 0)).

  Definition channel_slh (c : circ slh) : res slh :=
    match c with CPerm p => perm_to_slh p | _ => Err Unmodelled end.

  (** circuit_algebra.py:454-470: move the ports to the end first. *)
  Definition slh_feedback a (out_port in_port : nat) : res slh :=
    let n := slh_cdim a - 1 in
    do b <- (if negb (out_port =? n)
             then do m <- mc1 out_port n (slh_cdim a); do p <- channel_slh m; series_with_slh p a
             else Ok a);
    do c <- (if negb (in_port =? n)
             then do m <- mc1 n in_port (slh_cdim a); do p <- channel_slh m; series_with_slh b p
             else Ok b);
    feedback_last c.

  (** circuit_algebra.py:507-528 symbolic_master_equation *)
  Definition Ls a : list A := map (fun i => ent (sL a) i 0) (seq 0 (nrows (sL a))).
  Definition aneg (x : A) : A := smul (kopp k1) x.
  Definition master_equation a (rho : A) : A :=
    let H := sH a in
    aadd (smul (kopp iu) (aadd (amul H rho) (aneg (amul rho H))))
         (asum (fun Lk => aadd (amul (amul Lk rho) (star Lk))
                               (aneg (smul khalf (aadd (amul (amul (star Lk) Lk) rho)
                                                       (amul (amul rho (star Lk)) Lk))))) (Ls a)).
  (** circuit_algebra.py:530-563 symbolic_heisenberg_eom with [noises=None]
      (the final [expand().simplify_scalar()] does not change the operator) *)
  Definition heisenberg_eom a (x : A) : A :=
    let H := sH a in
    aadd (smul iu (aadd (amul H x) (aneg (amul x H))))
         (asum (fun Lk => aadd (amul (amul (star Lk) x) Lk)
                               (smul khalf (aneg (aadd (amul (amul (star Lk) Lk) x)
                                                       (amul (amul x (star Lk)) Lk))))) (Ls a)).

  (** circuit_algebra.py:1611-1672 move_drive_to_H, before the optional
      [expand().simplify_scalar()]. [idcoeff x] stands for
      [get_coeffs(x.expand())[IdentityOperator]]; [kzero] for [== 0]. [which] is
      the list of channel numbers ([None] and [[]] are the same, line 1661). *)
  Context (idcoeff : A -> K) (kzero : K -> bool).
  Definition drive_amps (which : list nat) a : list K :=
    map (fun jL => if match which with [] => true | _ => false end || existsb (Nat.eqb (fst jL)) which
                   then kopp (idcoeff (snd jL)) else k0)
        (combine (seq 0 (length (Ls a))) (Ls a)).
  Definition move_drive_to_H (which : list nat) a : res slh :=
    let cs := drive_amps which a in
    if forallb kzero cs then Ok a
    else
      let n := slh_cdim a in
      do d <- mk_slh (identity_matrix n) (tab (length cs) 1 (fun i _ => smul (nth i cs k0) a1)) a0;
      series_with_slh d a.
End Slh.
