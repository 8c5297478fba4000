(** Model of the rest of /repo/src/qnet/algebra/core/matrix_algebra.py: construction
    and indexing, equality, arithmetic with numpy's broadcasting, conjugate and
    real/imaginary part, diagm, power series, spaces and symbols. MatModel.v has the
    products, traces, blocks and block structure. *)
From Verif Require Import Prelude AlgSpec CAlg MatModel HilbertModel.

(** ** Functions that do not look at the entries *)
Section Entries.
  Context {T : Type}.
  Implicit Types a : matrix T.

  (** what [numpy.array(m)] makes of the argument of [Matrix]: an array with 0, 1, 2
      or more dimensions. Simplification: the nesting is regular, as numpy needs it *)
  Inductive input := V0 (x : T) | V1 (l : list T) | V2 (a : matrix T) | V3.
  (** matrix_algebra.py:36-47 [Matrix.__init__]: lines 44-45 make a column; the shape
      of a 0-dimensional array is [()], so [shape[0]] fails *)
  Definition matrix_init (v : input) : res (matrix T) :=
    match v with
    | V0 _ => Err IndexError
    | V1 l => Ok (Mat (length l) 1 (map (fun x => [x]) l))
    | V2 a => Ok a
    | V3 => Err ValueError
    end.

  (** numpy [ravel] and [reshape], used in matrix_algebra.py:103, 115, 299, 300, 318 *)
  Definition ravel a : list T := concat (rows a).
  Fixpoint chunks {U} (n m : nat) (l : list U) : list (list U) :=
    match n with
    | 0 => []
    | S n' => firstn m l :: chunks n' m (skipn m l)
    end.
  Definition reshape {U} (n m : nat) (l : list U) : res (matrix U) :=
    if length l =? n * m then Ok (Mat n m (chunks n m l)) else Err ValueError.

  (** matrix_algebra.py:284-300 [element_wise], for a function that may raise; also
      [expand] (320-327: the function leaves what is not a QuantumExpression as it is) and [simplify_scalar] (355-366) *)
  Definition element_map {U} (f : T -> res U) a : res (matrix U) :=
    do l <- mapM f (ravel a); reshape (nrows a) (ncols a) l.
  (** matrix_algebra.py:329-333 [_substitute]; [found] looks the matrix itself up in
      the mapping *)
  Definition msubstitute (found : matrix T -> option (matrix T)) (f : T -> res T) a : res (matrix T) :=
    match found a with Some b => Ok b | None => element_map f a end.

  (** numpy's indices may be negative *)
  Definition norm_index (n : nat) (i : Z) : res nat :=
    if ((0 <=? i) && (i <? Z.of_nat n))%Z then Ok (Z.to_nat i)
    else if ((- Z.of_nat n <=? i) && (i <? 0))%Z then Ok (Z.to_nat (i + Z.of_nat n))
    else Err IndexError.
  (** matrix_algebra.py:279-283 [__getitem__]: [m[i, j]] is an entry; [m[i]] and
      [m[i, :]], [m[:, j]] are one-dimensional arrays, which [Matrix] makes columns *)
  Definition getitem a (i j : Z) : res T :=
    do i' <- norm_index (nrows a) i; do j' <- norm_index (ncols a) j;
    do r <- of_option IndexError (nth_error (rows a) i'); of_option IndexError (nth_error r j').
  Definition get_row a (i : Z) : res (matrix T) :=
    do i' <- norm_index (nrows a) i; do r <- of_option IndexError (nth_error (rows a) i'); matrix_init (V1 r).
  Definition get_col a (j : Z) : res (matrix T) :=
    do j' <- norm_index (ncols a) j;
    do l <- mapM (fun r => of_option IndexError (nth_error r j')) (rows a); matrix_init (V1 l).

  (** matrix_algebra.py:99-109 [is_zero]: [is0 o] is [o.is_zero], or [o == 0] for an
      entry without that attribute *)
  Definition mis_zero (is0 : T -> bool) a : bool := forallb is0 (ravel a).
  (** matrix_algebra.py:111-114 [_get_instance_key] (the same data are hashed in 116-120) *)
  Definition instance_key a : list T * (nat * nat) := (ravel a, (nrows a, ncols a)).
  (** matrix_algebra.py:122-125 [__eq__] for two matrices; [eqb] compares entries *)
  Fixpoint all_eq (eqb : T -> T -> bool) (l l' : list T) : bool :=
    match l, l' with
    | x :: r, y :: r' => eqb x y && all_eq eqb r r'
    | [], [] => true
    | _, _ => false
    end.
  Definition matrix_eq (eqb : T -> T -> bool) a b : bool :=
    (nrows a =? nrows b) && (ncols a =? ncols b) && all_eq eqb (ravel a) (ravel b).

  (** [zip] of all the lists: as long as the shortest list; nothing for no lists *)
  Fixpoint zip_star {U} (ls : list (list U)) : list (list U) :=
    match ls with
    | [] => []
    | [l] => map (fun x => [x]) l
    | l :: rest => map (fun p => fst p :: snd p) (combine l (zip_star rest))
    end.
  (** matrix_algebra.py:302-318 [series_expand]; [f] is the [series_expand] of an entry *)
  Definition mseries {U} (f : T -> res (list U)) a : res (list (matrix U)) :=
    do ls <- mapM f (ravel a); mapM (reshape (nrows a) (ncols a)) (zip_star ls).

  (** matrix_algebra.py:335-343 [free_symbols]; [None]: no such attribute *)
  Definition mfree (fs : T -> option (list nat)) a : list nat :=
    flat_map (fun o => match fs o with Some l => l | None => [] end) (ravel a).
  (** matrix_algebra.py:345-353 [space] *)
  Definition mspace (str_of : SortModel.elt -> list nat) (iter : list hs -> list hs) (sp : T -> option hs) a : res hs :=
    match flat_map (fun o => match sp o with Some h => [HS h] | None => [] end) (ravel a) with
    | [] => Ok Trivial
    | l => prod_create str_of iter l
    end.
End Entries.
Arguments input : clear implicits.

(** ** Arithmetic: an entry is an operator, a number stands for that multiple of the
    identity (as in MatModel.v) *)
Section Arith.
  Context {M : calgebra}.
  Notation A := (A M). Notation mat := (matrix A).
  Implicit Types a b : mat.

  (** numpy broadcasting: unequal lengths are allowed if one of them is 1 *)
  Definition bdim (n m : nat) : res nat :=
    if n =? m then Ok n else if n =? 1 then Ok m else if m =? 1 then Ok n else Err ValueError.
  Definition bidx (n i : nat) : nat := if n =? 1 then 0 else i.
  Definition badd a b : res mat :=
    do n <- bdim (nrows a) (nrows b); do m <- bdim (ncols a) (ncols b);
    Ok (tab n m (fun i j => aadd (ent a (bidx (nrows a) i) (bidx (ncols a) j)) (ent b (bidx (nrows b) i) (bidx (ncols b) j)))).

  (** the other operand: a matrix, or one value (a number or an operator) *)
  Inductive operand := OMat (b : mat) | OVal (x : A).
  (** matrix_algebra.py:127-131 [__add__], 133-134 [__radd__] (Python comes here only
      for operands that are not matrices) *)
  Definition add a (o : operand) : res mat :=
    match o with
    | OMat b => badd a b
    | OVal x => Ok (tab (nrows a) (ncols a) (fun i j => aadd (ent a i j) x))
    end.
  Definition radd (x : A) a : mat := tab (nrows a) (ncols a) (fun i j => aadd x (ent a i j)).
  (** matrix_algebra.py:136-140 [__mul__], 142-143 [__rmul__] *)
  Definition mul a (o : operand) : res mat :=
    match o with
    | OMat b => mmul a b
    | OVal x => Ok (tab (nrows a) (ncols a) (fun i j => amul (ent a i j) x))
    end.
  Definition rmul (x : A) a : mat := tab (nrows a) (ncols a) (fun i j => amul x (ent a i j)).
  (** the number -1 *)
  Definition minus1 : A := smul (kopp k1) a1.
  (** matrix_algebra.py:145-146 [__sub__], 148-149 [__rsub__], 151-152 [__neg__] *)
  Definition sub a (o : operand) : res mat :=
    match o with
    | OMat b => add a (OMat (rmul minus1 b))
    | OVal x => add a (OVal (amul minus1 x))
    end.
  Definition rsub a (x : A) : res mat := add (rmul minus1 a) (OVal x).
  Definition neg a : mat := rmul minus1 a.
  (** matrix_algebra.py:154-158 [__truediv__]; [inv c] is [sympify(1) / c]. [None]: the
      divisor is not a scalar *)
  Definition truediv (inv : K M -> K M) a (c : option (K M)) : res mat :=
    match c with
    | Some c => mul a (OVal (smul (inv c) a1))
    | None => Err NotImplementedError
    end.

  (** matrix_algebra.py:382-385 [diagm], with numpy's [diag] for a list [v]: an array of
      zeros of size [n = len(v) + abs(k)] in which every [n+1]-th place, counted from [k]
      (from [-k*n] for negative [k]), is an entry of [v] *)
  Fixpoint fill_flat (v : list A) (n p : nat) (f : nat -> nat -> A) : nat -> nat -> A :=
    match v with
    | [] => f
    | x :: v' => fill_flat v' n (p + S n) (set_entry f (p / n) (p mod n) x)
    end.
  Definition diagm (v : list A) (k : Z) : mat :=
    let n := length v + Z.to_nat (Z.abs k) in
    let start := if (0 <=? k)%Z then Z.to_nat k else Z.to_nat (- k) * n in
    tab n n (fill_flat v n start (fun _ _ => a0)).

  (** *** Entries with their kind. A number has an attribute [real], or is a sympy
      expression ([as_real_imag]), or has only [conjugate]; an operator has none of them. *)
  Inductive kind := HasReal | Sympy | OnlyConj.
  Inductive entry := MNum (k : kind) (c : K M) | MOp (x : A).
  (** real and imaginary part of a number *)
  Definition re_part (c : K M) : K M := kmul khalf (kadd c (kconj c)).
  Definition im_part (c : K M) : K M := kmul (kmul khalf (kopp iu)) (kadd c (kopp (kconj c))).

  (** matrix_algebra.py:167-184 [conjugate]. numpy asks every entry for its method
      [conjugate]; NoConjugateMatrix is modelled as PlainException *)
  Definition conj_entry (o : entry) : res entry :=
    match o with MNum k c => Ok (MNum k (kconj c)) | MOp _ => Err PlainException end.
  Definition mconj (a : matrix entry) : res (matrix entry) := element_map conj_entry a.
  (** matrix_algebra.py:186-220 [real] *)
  Definition re_entry (o : entry) : res entry :=
    match o with
    | MNum HasReal c => Ok (MNum HasReal (re_part c))
    | MNum Sympy c => Ok (MNum Sympy (re_part c))
    | MNum OnlyConj c => Ok (MNum OnlyConj (kmul khalf (kadd (kconj c) c)))
    | MOp _ => Err PlainException
    end.
  Definition mreal (a : matrix entry) : res (matrix entry) := element_map re_entry a.
  (** matrix_algebra.py:222-254 [imag]; line 245 divides [conj(val) - val] by [2*I] *)
  Definition im_entry (o : entry) : res entry :=
    match o with
    | MNum HasReal c => Ok (MNum HasReal (im_part c))
    | MNum Sympy c => Ok (MNum Sympy (im_part c))
    | MNum OnlyConj c => Ok (MNum OnlyConj (kmul (kmul khalf (kopp iu)) (kadd (kconj c) (kopp c))))
    | MOp _ => Err PlainException
    end.
  Definition mimag (a : matrix entry) : res (matrix entry) := element_map im_entry a.
End Arith.
Arguments operand : clear implicits.
Arguments entry : clear implicits.
