(** getABCD: the linear state-space form of an SLH model.
    /repo/src/qnet/algebra/core/circuit_algebra.py:1455-1608 (getABCD), 524-566
    (symbolic_heisenberg_eom with noises), operator_algebra.py:888-928 (get_coeffs),
    abstract_algebra.py:387-419 and abstract_quantum_algebra.py:586-598 (substitute).
    SLH.__init__ (circuit_algebra.py:338-343) makes every entry of S, L, H an operator, so
    the entries are expressions of OpModel. The numbers of the result are coefficients;
    [complex(o)] (line 1534) is not applied. Not modelled: a scattering matrix that shares a
    local space with the modes (the third noise term), models without channels (a dot
    product of empty vectors), an OperatorTrace in the displaced expressions. *)
From Coq Require Import QArith Qcanon.
From Verif Require Import Prelude BinModel OpModel DiffModel.
Local Open Scope nat_scope.

(** circuit_algebra.py:326-348 *)
Record osys (S : Type) := OSys { oS : list (list (op S)); oL : list (op S); oH : op S }.
Arguments OSys {S}. Arguments oS {S}. Arguments oL {S}. Arguments oH {S}.
(** the tuple (A, B, C, D, a, c) *)
Record abcd (S : Type) := Abcd {
  mA : list (list S); mB : list (list S); mC : list (list S); mD : list (list S);
  va : list S; vc : list S }.
Arguments Abcd {S}. Arguments mA {S}. Arguments mB {S}. Arguments mC {S}. Arguments mD {S}.
Arguments va {S}. Arguments vc {S}.

Section Abcd.
Context {S : scalars}.
Local Notation op := (op S).
(** sympy.simplify; [is]; the recursion depth of [expand] *)
Context (simp : S -> S) (same : op -> op -> bool) (m : nat).
(** the local spaces "ext_0", "ext_1", ... and the names of the symbols "b_0", "b_1", ... *)
Context (ext bname : nat -> nat).
Context (K : ocreators S).

(** [numpy.dot] of two vectors of operators *)
Definition dot (xs ys : list op) : res op :=
  do ps <- mapM (fun xy => k_times K [fst xy; snd xy]) (combine xs ys);
  match ps with [] => Err Unmodelled | _ => add_all K ps end.
(** columns of a matrix *)
Definition column (s : list (list op)) (j : nat) : list op := map (fun row => nth j row OZero) s.
(** [X * L - L * X] and [L.adjoint() * X - X * L.adjoint()] for one entry *)
Definition ocomm (a b : op) : res op :=
  do p <- k_times K [a; b]; do q <- k_times K [b; a]; osub K p q.

(** circuit_algebra.py:546-549: the two summands of one Lindblad operator,
    [adjoint(Lk) * X * Lk] and [-(adjoint(Lk) * Lk * X + X * adjoint(Lk) * Lk) / 2] *)
Definition lindblad (x l : op) : res (list op) :=
  do ld <- oadj K l;
  do p <- k_times K [ld; x]; do t1 <- k_times K [p; l];
  do q <- k_times K [ld; l]; do q' <- k_times K [q; x];
  do r <- k_times K [x; ld]; do r' <- k_times K [r; l];
  do s <- k_plus K [q'; r'];
  do n <- k_scal K sm1 s;
  do t2 <- k_scal K (sQ (/ qn 2)%Qc) n;
  Ok [t1; t2].
(** [S.space & X.space] is not the trivial space *)
Definition overlaps (s : list (list op)) (x : op) : bool :=
  existsb (existsb (fun e => negb (sp_disjoint (space e) (space x)))) s.

(** circuit_algebra.py:541-566, [slh.symbolic_heisenberg_eom(X, noises)] *)
Definition eom (sys : osys S) (x : op) (noises : list op) : res op :=
  do hx <- ocomm (oH sys) x;
  do h <- k_scal K sI hx;
  do ls <- mapM (lindblad x) (oL sys);
  if negb (length noises =? length (oL sys)) then Err AssertionError else
  do bd <- mapM (oadj K) noises;
  do bS <- mapM (fun row => do srow <- mapM (oadj K) row; dot bd srow) (oS sys);
  do c1 <- mapM (ocomm x) (oL sys);
  do t <- dot bS c1;
  do creation <- expand K m t;
  do c2 <- mapM (fun l => do ld <- oadj K l; ocomm ld x) (oL sys);
  do c2S <- mapM (fun j => dot c2 (column (oS sys) j)) (seq 0 (length (oS sys)));
  do u <- dot c2S noises;
  do annihilation <- expand K m u;
  if overlaps (oS sys) x then Err Unmodelled else
  do ret <- k_plus K ([h] ++ concat ls ++ [creation; annihilation]);
  do ret' <- expand K m ret;
  simplify simp same K ret'.

(** operator_algebra.py:888-928: [get_coeffs(e)[t]] *)
Definition get_coeff (e t : op) : S :=
  fold_left (fun acc s => let '(c, t') := coeff_term s in if oeqb t' t then sadd acc c else acc) (summands_of e) s0.

(** circuit_algebra.py:1522-1537 *)
Definition as_complex (o : op) : res S :=
  do e <- expand K m o;
  match e with
  | OOne => Ok s1
  | OZero => Ok s0
  | OScal c OOne => Ok c
  | OScal _ _ => Err AssertionError
  | _ => Err ValueError
  end.

(** [e.substitute({a_l: a_l + amp_l, ...})], keys a_l and their adjoints, lines 1549-1559.
    [amps]: the labels of the displaced modes with their amplitudes *)
Fixpoint amp_of (amps : list (nat * S)) (l : nat) : option S :=
  match amps with [] => None | (l', c) :: r => if l =? l' then Some c else amp_of r l end.
Definition shifted (a : op) (c : S) : res op := do u <- k_scal K c OOne; k_plus K [a; u].
Definition atom_subst (amps : list (nat * S)) (a : atom S) : res op :=
  match a with
  | ADestroy l => match amp_of amps l with Some c => shifted (OAtom a) c | None => Ok (OAtom a) end
  | ACreate l => match amp_of amps l with Some c => shifted (OAtom a) (sconj c) | None => Ok (OAtom a) end
  | _ => Ok (OAtom a)
  end.
Fixpoint osubst (amps : list (nat * S)) (e : op) : res op :=
  let substs := fix go (l : list op) : res (list op) :=
    match l with [] => Ok [] | x :: l' => do x' <- osubst amps x; do r <- go l'; Ok (x' :: r) end in
  match e with
  | OZero | OOne => Ok e
  | OAtom a => atom_subst amps a
  | OScal c t => do t' <- osubst amps t; k_scal K c t'
  | OPlus l => do l' <- substs l; k_plus K l'
  | OTimes l => do l' <- substs l; k_times K l'
  | OComm a b => do a' <- osubst amps a; do b' <- osubst amps b; k_comm K a' b'
  | OAdj a => do a' <- osubst amps a; oadj K a'
  | OPM s a => do a' <- osubst amps a; Ok (OPM s a')
  | OTr _ _ => Err Unmodelled
  end.
(** SLH.substitute, SLH.expand, SLH.simplify_scalar: entry by entry
    (circuit_algebra.py:419-436, matrix_algebra.py:284-333) *)
Definition sys_map (f : op -> res op) (s : osys S) : res (osys S) :=
  do s' <- mapM (mapM f) (oS s); do l' <- mapM f (oL s); do h' <- f (oH s); Ok (OSys s' l' h').
(** circuit_algebra.py:1560-1564 *)
Definition displaced (amps : list (nat * S)) (s : osys S) : res (osys S) :=
  match amps with
  | [] => Ok s
  | _ => do s1 <- sys_map (osubst amps) s; do s2 <- sys_map (expand K m) s1; sys_map (simplify simp same K) s2
  end.

(** circuit_algebra.py:1500-1502: the local factors of the space of S, L and H, sorted *)
Definition modes (s : osys S) : list nat :=
  fold_right (fun e h => sp_union (space e) h) [] (concat (oS s) ++ oL s ++ [oH s]).
(** circuit_algebra.py:1566-1568 *)
Definition noise (k : nat) : op := OAtom (ASym (bname k) [ext k]).

(** circuit_algebra.py:1539-1547, 1575-1606, for [doubled_up] *)
Definition two_rows (doubled : bool) (rows : list (list S * list S)) : list (list S) :=
  if doubled then map (fun uv => fst uv ++ snd uv) rows ++ map (fun uv => map sconj (snd uv) ++ map sconj (fst uv)) rows
  else map fst rows.
Definition two_vec (doubled : bool) (v : list S) : list S := if doubled then v ++ map sconj v else v.
(** numpy.vstack of hstack(D, 0) and hstack(0, conj D) *)
Definition two_blocks (doubled : bool) (D : list (list S)) : list (list S) :=
  let zeros := map (fun _ => s0) in
  if doubled then map (fun r => r ++ zeros r) D ++ map (fun r => zeros r ++ map sconj r) D else D.
Definition coeff_rows (keys keys' : list op) (es : list op) : list (list S * list S) :=
  map (fun e => (map (get_coeff e) keys, map (get_coeff e) keys')) es.
Definition getABCD (sys : osys S) (amps : list (nat * S)) (doubled : bool) : res (abcd S) :=
  let ms := modes sys in
  let n := length (oS sys) in
  do D <- mapM (mapM as_complex) (oS sys);
  do sys' <- displaced amps sys;
  let noises := map noise (seq 0 n) in
  do eoms <- mapM (fun l => eom sys' (OAtom (ADestroy l)) noises) ms;
  let downs := map (fun l => OAtom (ADestroy l)) ms in
  let ups := map (fun l => OAtom (ACreate l)) ms in
  let noises' := map (fun b => OAdj b) noises in
  Ok {| mA := two_rows doubled (coeff_rows downs ups eoms);
        mB := two_rows doubled (coeff_rows noises noises' eoms);
        mC := two_rows doubled (coeff_rows downs ups (oL sys'));
        mD := two_blocks doubled D;
        va := two_vec doubled (map (fun e => get_coeff e OOne) eoms);
        vc := two_vec doubled (map (fun e => get_coeff e OOne) (oL sys')) |}.
End Abcd.
