(** SLH.symbolic_heisenberg_eom with noises, /repo/src/qnet/algebra/core/circuit_algebra.py:524-566,
    over an arbitrary complex *-algebra; expand() and simplify_scalar() do not change the operators. *)
From Verif Require Import Prelude AlgSpec CAlg MatModel SlhModel AdModel.

Section Noise.
  Context {M : calgebra}.
  Notation A := (A M).
  (** matrix_algebra.py:128-132: [Matrix + x] for an operator [x] adds [x] to every entry (numpy broadcasting) *)
  Definition madd_op (m : matrix A) (x : A) : matrix A := tab (nrows m) (ncols m) (fun i j => aadd (ent m i j) x).
  (** circuit_algebra.py:543-564. [overlap] is the test [len(S.space & X.space)];
      [noises] is a matrix (a list of operators becomes a column, matrix_algebra.py:42-47) *)
  Definition noise_eom (overlap : bool) (a : slh M) (x : A) (noises : matrix A) : res A :=
    let L := sL a in let S := sS a in
    do lambda <- mmul (mtranspose (madj noises)) (mtranspose noises);
    let lambdaT := mtranspose lambda in
    if negb ((nrows noises =? nrows L) && (ncols noises =? ncols L)) then Err AssertionError else
    do bS <- mmul (madj noises) (madj S);
    do comm1 <- msub (mul_op_l x L) (mul_op_r L x);
    do creation <- mmul bS comm1;
    do comm2 <- msub (mul_op_r (madj L) x) (mul_op_l x (madj L));
    do c2S <- mmul comm2 S;
    do annihilation <- mmul c2S noises;
    let summands := [heisenberg_eom a x; ent creation 0 0; ent annihilation 0 0] in
    if overlap then
      do SXS <- mmul (mul_op_r (madj S) x) S;
      let comm := madd_op SXS (smul (kopp k1) x) in
      do g <- mmul comm lambdaT;
      do t <- mtrace g;
      Ok (asum (fun y => y) (summands ++ [t]))
    else Ok (asum (fun y => y) summands).
End Noise.
