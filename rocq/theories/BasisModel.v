(** Model of bases, dimensions and labels: hilbert_space_algebra.py (LocalSpace,
    TrivialSpace, ProductSpace), BasisKet of state_algebra.py, SpinSpace of
    library/spin_algebra.py, and the index ranges of utils/indices.py. *)
From Verif Require Import Prelude SortModel HilbertModel.

Notation str := (list nat).

(** LocalSpace.__init__, lines 219-276: the basis from [basis] and [dimension].
    Simplification: [dimension] is a natural number. *)
Definition init_basis (basis : option (list str)) (dimension : option nat) : res (option (list str)) :=
  match basis, dimension with
  | None, None => Ok None
  | None, Some n => Ok (Some (map str_of_nat (seq 0 n)))
  | Some b, None => Ok (Some b)
  | Some b, Some n => if n =? length b then Ok (Some b) else Err ValueError
  end.
Definition local_init (label : str) (basis : option (list str)) (dimension : option nat)
    (ids : list (str * str)) (order : option Z) : res local :=
  if label_ok label then
    do b <- init_basis basis dimension;
    Ok (mk_local order (Lit label) b ids)
  else Err ValueError.

(** basis_labels: 388-398 (LocalSpace), 554-557 (TrivialSpace), 727-740
    (ProductSpace; built in __init__, 671-679) *)
Definition local_labels (s : local) : res (list str) := of_option BasisNotSetError (l_basis s).
(** itertools.product: the last factor runs fastest *)
Fixpoint cartesian {A} (ls : list (list A)) : list (list A) :=
  match ls with
  | [] => [[]]
  | l :: ls' => flat_map (fun x => map (cons x) (cartesian ls')) l
  end.
Definition comma : nat := 44.
(** [",".join(l)] *)
Fixpoint join (l : list str) : str :=
  match l with
  | [] => []
  | s :: l' => match l' with [] => s | _ => s ++ comma :: join l' end
  end.
(** [s.split(",")] *)
Fixpoint split (s : str) : list str :=
  match s with
  | [] => [[]]
  | c :: s' =>
    if c =? comma then [] :: split s'
    else match split s' with
         | [] => [[c]]
         | w :: ws => (c :: w) :: ws
         end
  end.
Definition basis_labels (h : hs) : res (list str) :=
  match h with
  | Trivial => Ok [str_of_nat 0]
  | Full => Err BasisNotSetError
  | Local s => local_labels s
  | Prod l => do ls <- mapM local_labels l; Ok (map join (cartesian ls))
  end.

(** dimension: 401-411, 530-532, 108-113, 664-670 and 756-766 *)
Definition local_dim (s : local) : res nat := do b <- local_labels s; Ok (length b).
Definition dimension (h : hs) : res nat :=
  match h with
  | Trivial => Ok 1
  | Full => Err BasisNotSetError
  | Local s => local_dim s
  | Prod l => do ds <- mapM local_dim l; Ok (fold_left Nat.mul ds 1)
  end.

(** _unpack_basis_label_or_index, lines 312-364, for str and int *)
Inductive lbl := Idx (i : Z) | Lab (s : str).
Fixpoint str_index (x : str) (l : list str) : option nat :=
  match l with
  | [] => None
  | y :: l' => if str_eqb x y then Some 0 else option_map S (str_index x l')
  end.
Definition str_of_Z (z : Z) : str :=
  if (z <? 0)%Z then 45 :: str_of_nat (Z.to_nat (- z)) else str_of_nat (Z.to_nat z).
Definition unpack (s : local) (a : lbl) : res (str * Z) :=
  match a with
  | Lab x =>
    do b <- local_labels s;
    do i <- of_option ValueError (str_index x b);
    Ok (x, Z.of_nat i)
  | Idx i =>
    if (i <? 0)%Z then Err ValueError
    else
      match l_basis s with
      | Some b =>
        if (Z.of_nat (length b) <=? i)%Z then Err ValueError
        else do x <- of_option IndexError (nth_error b (Z.to_nat i)); Ok (x, i)
      | None => Ok (str_of_Z i, i)
      end
  end.

(** BasisKet.__init__, state_algebra.py:284-288. [args] (291-296) is the label
    if the space has a basis and the index otherwise. *)
Record ket := mk_ket { k_space : local; k_label : str; k_index : Z }.
Definition basis_ket (s : local) (a : lbl) : res ket :=
  do li <- unpack s a; Ok (mk_ket s (fst li) (snd li)).

(** basis_state: LocalSpace 370-384, ProductSpace 742-754 (kets of the factors);
    basis_states: 366-369 and 710-725 *)
Definition local_basis_state (s : local) (a : lbl) : res ket :=
  match basis_ket s a with
  | Err ValueError => match a with Idx _ => Err IndexError | Lab _ => Err KeyError end
  | r => r
  end.
Definition local_basis_states (s : local) : res (list ket) :=
  do b <- local_labels s; mapM (fun x => basis_ket s (Lab x)) b.
Fixpoint zip {A B} (l : list A) (l' : list B) : list (A * B) :=
  match l, l' with
  | x :: l1, y :: l2 => (x, y) :: zip l1 l2
  | _, _ => []
  end.
Definition kets_of (l : list local) (labels : list str) : res (list ket) :=
  mapM (fun p => basis_ket (fst p) (Lab (snd p))) (zip l labels).
(** Python list indexing: negative indices count from the end *)
Definition py_nth {A} (l : list A) (i : Z) : option A :=
  if (0 <=? i)%Z then nth_error l (Z.to_nat i)
  else if (- Z.of_nat (length l) <=? i)%Z then nth_error l (Z.to_nat (Z.of_nat (length l) + i)) else None.
Definition prod_basis_state (l : list local) (a : lbl) : res (list ket) :=
  match a with
  | Idx i =>
    do ls <- mapM local_labels l;
    do labels <- of_option IndexError (py_nth (cartesian ls) i);
    match kets_of l labels with Err ValueError => Err IndexError | r => r end
  | Lab x =>
    let labels := split x in
    if negb (length labels =? length l) then Err KeyError
    else match kets_of l labels with Err ValueError => Err KeyError | r => r end
  end.
Definition prod_basis_states (l : list local) : res (list (list ket)) :=
  do ls <- mapM local_labels l; mapM (kets_of l) (cartesian ls).

(** next_basis_label_or_index: LocalSpace 442-486, for str and int *)
Definition next_label (s : local) (a : lbl) (n : Z) : res lbl :=
  match a with
  | Idx i =>
    let i' := (i + n)%Z in
    if (i' <? 0)%Z then Err IndexError
    else match l_basis s with
         | Some b => if (Z.of_nat (length b) <=? i')%Z then Err IndexError else Ok (Idx i')
         | None => Ok (Idx i')
         end
  | Lab x =>
    do b <- local_labels s;
    do i <- of_option ValueError (str_index x b);
    let i' := (Z.of_nat i + n)%Z in
    if (i' <? 0)%Z || (Z.of_nat (length b) <=? i')%Z then Err IndexError
    else do y <- of_option IndexError (nth_error b (Z.to_nat i')); Ok (Lab y)
  end.

(** ** SpinSpace, spin_algebra.py:72-103, with spin [s2 / 2] *)
(** SpinIndex._static_render (utils/indices.py:356-372) of [m2 / 2] *)
Definition slash2 : str := [47; 50].
Definition render_half (m2 : Z) : str :=
  if Z.even m2 then
    let m := (m2 / 2)%Z in
    if (0 <? m)%Z then 43 :: str_of_Z m else str_of_Z m
  else (if (0 <? m2)%Z then 43 :: str_of_Z m2 else str_of_Z m2) ++ slash2.
(** the default basis labels; ValueError for spin <= 0 (88-89) *)
Definition spin_basis (s2 : Z) : res (list str) :=
  if (s2 + 1 <=? 1)%Z then Err ValueError
  else Ok (map (fun n => render_half (- s2 + 2 * Z.of_nat n)) (seq 0 (Z.to_nat (s2 + 1)))).

(** ** Index ranges, utils/indices.py *)

(** Python's [range(start, stop, step)] (step <> 0): length, elements and
    membership as computed by CPython (Objects/rangeobject.c:
    compute_range_length, range_contains_long) *)
Definition range_len (start stop step : Z) : nat :=
  if (0 <? step)%Z then
    if (start <? stop)%Z then Z.to_nat (1 + (stop - 1 - start) / step) else 0
  else
    if (stop <? start)%Z then Z.to_nat (1 + (start - 1 - stop) / (- step)) else 0.
Definition range_list (start stop step : Z) : list Z :=
  map (fun k => start + Z.of_nat k * step)%Z (seq 0 (range_len start stop step)).
Definition range_contains (start stop step v : Z) : bool :=
  (if (0 <? step)%Z then (start <=? v)%Z && (v <? stop)%Z else (v <=? start)%Z && (stop <? v)%Z)
  && ((v - start) mod step =? 0)%Z.

(** IndexOverList (431-459), IndexOverRange (463-502), IndexOverFockSpace
    (506-549) without their symbol *)
Inductive irange := OverList (l : list Z) | OverRange (start to step : Z) | OverFock (dim : option nat).
Definition range_stop (to step : Z) : Z := if (0 <=? step)%Z then (to + 1)%Z else (to - 1)%Z.
(** the values yielded by [iter()]; [None] for the endless iteration (518-522) *)
Definition irange_values (r : irange) : res (option (list Z)) :=
  match r with
  | OverList l => Ok (Some l)
  | OverRange a b s =>
    if (s =? 0)%Z then Err ValueError else Ok (Some (range_list a (range_stop b s) s))
  | OverFock (Some n) => Ok (Some (map Z.of_nat (seq 0 n)))
  | OverFock None => Ok None
  end.
(** [len()]: TypeError for the endless range *)
Definition irange_len (r : irange) : res nat :=
  match r with
  | OverList l => Ok (length l)
  | OverRange a b s => if (s =? 0)%Z then Err ValueError else Ok (range_len a (range_stop b s) s)
  | OverFock (Some n) => Ok n
  | OverFock None => Err TypeError
  end.
(** [val in range] *)
Definition irange_contains (r : irange) (v : Z) : res bool :=
  match r with
  | OverList l => Ok (existsb (Z.eqb v) l)
  | OverRange a b s =>
    if (s =? 0)%Z then Err ValueError else Ok (range_contains a (range_stop b s) s v)
  | OverFock (Some n) => Ok ((0 <=? v)%Z && (v <? Z.of_nat n)%Z)
  | OverFock None => Ok (0 <=? v)%Z
  end.
(** piecewise_one at an integer: 1 or 0; SymPy's FiniteSet.contains and the
    closed Interval(0, dim) *)
Definition irange_one (r : irange) (v : Z) : res Z :=
  match r with
  | OverList l => Ok (if existsb (Z.eqb v) l then 1 else 0)%Z
  | OverRange a b s =>
    if (s =? 0)%Z then Err ValueError
    else Ok (if existsb (Z.eqb v) (range_list a (range_stop b s) s) then 1 else 0)%Z
  | OverFock (Some n) => Ok (if (0 <=? v)%Z && (v <=? Z.of_nat n)%Z then 1 else 0)%Z
  | OverFock None => Ok (if (0 <=? v)%Z then 1 else 0)%Z
  end.

(** TrivialSpace.basis_state, hilbert_space_algebra.py:542-562: [tt] is TrivialKet. The
    error message formats a non-zero label with "%d", which itself raises TypeError. *)
Definition trivial_basis_state (a : lbl) : res unit :=
  match a with
  | Idx i => if (i =? 0)%Z then Ok tt else Err IndexError
  | Lab x => if str_eqb x (str_of_nat 0) then Ok tt else Err TypeError
  end.

(** BasisKet.create (basis_ket_zero_outside_hs, algebraic_properties.py:620-632);
    [None] is ZeroKet *)
Definition ket_create (s : local) (a : lbl) : res (option ket) :=
  match a with
  | Idx i =>
    if (i <? 0)%Z || match l_basis s with Some b => (Z.of_nat (length b) <=? i)%Z | None => false end
    then Ok None
    else do k <- basis_ket s a; Ok (Some k)
  | Lab _ => do k <- basis_ket s a; Ok (Some k)
  end.
(** BasisKet.next and prev, state_algebra.py:321-365, for kets without a symbolic
    label; [None] is ZeroKet *)
Definition ket_next (k : ket) (n : Z) : res (option ket) :=
  match next_label (k_space k) (Idx (k_index k)) n with
  | Ok a => do k' <- basis_ket (k_space k) a; Ok (Some k')
  | Err IndexError => Ok None
  | Err e => Err e
  end.
Definition ket_prev (k : ket) (n : Z) : res (option ket) := ket_next k (- n).

(** SpinSpace.next_basis_label_or_index, spin_algebra.py:136-154, for str and
    int: like LocalSpace's, but an index is answered with a label *)
Definition spin_next_label (b : list str) (a : lbl) (n : Z) : res str :=
  let pick i' :=
    if (i' <? 0)%Z || (Z.of_nat (length b) <=? i')%Z then Err IndexError
    else of_option IndexError (nth_error b (Z.to_nat i')) in
  match a with
  | Idx i => pick (i + n)%Z
  | Lab x => do i <- of_option ValueError (str_index x b); pick (Z.of_nat i + n)%Z
  end.

(** Symbolic labels of basis states (utils/indices.py:231-384) after all index
    symbols were replaced: FockIndex(expr) renders to int(expr); FockLabel(expr, hs) to
    hs.basis_labels[expr]; SpinIndex to _static_render. SymbolicLabelBase's
    classes that carry [hs] need it as second argument of the constructor (attr.ib
    without default), which next_basis_label_or_index does not pass (503). *)
Definition fock_label_render (s : local) (i : Z) : res str :=
  do b <- local_labels s; of_option IndexError (py_nth b i).
Inductive symlabel := FockIndexL (shift : Z) | FockLabelL (shift : Z) (s : local) | SpinIndexL (shift : Z) (s2 : Z).
(** SymbolicLabelBase branch of next_basis_label_or_index (502-503; spin_algebra.py:153-154)
    on labels [i + shift] for an index symbol [i] *)
Definition next_symbolic (a : symlabel) (n : Z) : res symlabel :=
  match a with
  | FockIndexL i => Ok (FockIndexL (i + n))
  | FockLabelL _ _ | SpinIndexL _ _ => Err TypeError
  end.
