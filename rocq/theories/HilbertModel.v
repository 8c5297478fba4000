(** Model of /repo/src/qnet/algebra/core/hilbert_space_algebra.py: LocalSpace,
    TrivialSpace, FullSpace, ProductSpace, and of the order classes of
    /repo/src/qnet/utils/ordering.py that use them. *)
From Verif Require Import Prelude SortModel.

(** Labels of local spaces: strings, or symbolic StrLabels *)
Inductive hlabel := Lit (s : list nat) | Sym (n : nat).

(** LocalSpace.__init__, lines 219-296. [dimension] is always the length of the
    basis (lines 262-269); [order_index = None] is infinity (241-243).
    Simplification: the subclass SpinSpace is not distinguished. *)
Record local := mk_local {
  l_order : option Z;
  l_label : hlabel;
  l_basis : option (list (list nat));
  l_ids : list (list nat * list nat) }.

Definition str_eqb := eqb_list_nat.
Definition hlabel_eqb (a b : hlabel) : bool :=
  match a, b with
  | Lit x, Lit y => str_eqb x y
  | Sym x, Sym y => x =? y
  | _, _ => false
  end.
Fixpoint list_eqb {A} (eq : A -> A -> bool) (l l' : list A) : bool :=
  match l, l' with
  | [], [] => true
  | x :: l1, y :: l2 => eq x y && list_eqb eq l1 l2
  | _, _ => false
  end.
Definition option_eqb {A} (eq : A -> A -> bool) (a b : option A) : bool :=
  match a, b with
  | Some x, Some y => eq x y
  | None, None => true
  | _, _ => false
  end.
(** Expression.__eq__ (abstract_algebra.py:363-369) on LocalSpaces: class, args
    and kwargs agree *)
Definition local_eqb (a b : local) : bool :=
  option_eqb Z.eqb (l_order a) (l_order b)
  && hlabel_eqb (l_label a) (l_label b)
  && option_eqb (list_eqb str_eqb) (l_basis a) (l_basis b)
  && list_eqb (fun p q => str_eqb (fst p) (fst q) && str_eqb (snd p) (snd q))
       (l_ids a) (l_ids b).

(** decimal digits, for [str(dimension)] *)
Fixpoint digits (fuel n : nat) : list nat :=
  match fuel with
  | 0 => []
  | S f => if n <? 10 then [48 + n] else digits f (n / 10) ++ [48 + n mod 10]
  end.
Definition str_of_nat (n : nat) : list nat := digits (S n) n.
Definition str_None : list nat := [78; 111; 110; 101].

Section Keys.
  (** Python's [str], used for objects that cannot be compared *)
  Context (str_of : elt -> list nat).

  (** LocalSpace._order_key, lines 272-274 *)
  Definition local_key (s : local) : list elt :=
    [ ENum (match l_order s with Some z => NFin z | None => NInf end);
      match l_label s with Lit x => EStr x | Sym n => EObj (str_of_nat n) end;
      EStr (match l_basis s with Some b => str_of_nat (length b) | None => str_None end);
      match l_basis s with Some b => ETup (map EStr b) | None => EObj str_None end;
      ETup (map (fun p => ETup [EStr (fst p); EStr (snd p)]) (l_ids s)) ].
  Definition local_lt (a b : local) : bool := kt_lt str_of (local_key a) (local_key b).
End Keys.

(** Hilbert spaces *)
Inductive hs := Trivial | Full | Local (s : local) | Prod (l : list local).

Definition is_sym (s : local) : bool :=
  match l_label s with Sym _ => true | _ => false end.

(** local_factors: lines 431, 571, 631 (raises AlgebraError), 783 *)
Definition local_factors (h : hs) : res (list local) :=
  match h with
  | Trivial => Ok []
  | Full => Err AlgebraError
  | Local s => Ok [s]
  | Prod l => Ok l
  end.

Definition mem (s : local) (l : list local) : bool := existsb (local_eqb s) l.

(** HilbertSpace.isdisjoint, lines 62-77 *)
Definition isdisjoint (a b : hs) : res bool :=
  match b with
  | Full => Ok false
  | _ =>
    do fa <- local_factors a;
    if existsb is_sym fa then Ok false
    else
      do fb <- local_factors b;
      if existsb is_sym fb then Ok false
      else Ok (negb (existsb (fun s => mem s fb) fa))
  end.

(** Equality (Expression.__eq__) of Hilbert spaces *)
Definition hs_eqb (a b : hs) : bool :=
  match a, b with
  | Trivial, Trivial => true
  | Full, Full => true
  | Local x, Local y => local_eqb x y
  | Prod x, Prod y => list_eqb local_eqb x y
  | _, _ => false
  end.

(** ** The label pattern of line 217:
    [^[A-Za-z0-9.+-]+(_[A-Za-z0-9().+-]+)?$] *)
Definition in_range (a b c : nat) : bool := (a <=? c) && (c <=? b).
Definition label_char (c : nat) : bool :=
  in_range 65 90 c || in_range 97 122 c || in_range 48 57 c
  || (c =? 46) || (c =? 43) || (c =? 45).
Definition label_char2 (c : nat) : bool := label_char c || (c =? 40) || (c =? 41).
Fixpoint split_us (s : list nat) : list nat * option (list nat) :=
  match s with
  | [] => ([], None)
  | c :: s' =>
    if c =? 95 then ([], Some s')
    else let (a, b) := split_us s' in (c :: a, b)
  end.
(** [$] also matches before a final newline *)
Definition chomp (s : list nat) : list nat :=
  match rev s with
  | 10 :: r => rev r
  | _ => s
  end.
Definition nonemptyb {A} (l : list A) : bool := match l with [] => false | _ => true end.
Definition label_ok (s : list nat) : bool :=
  let (a, b) := split_us (chomp s) in
  nonemptyb a && forallb label_char a
  && match b with None => true | Some t => nonemptyb t && forallb label_char2 t end.

(** LocalSpace(label), lines 219-296 with default keyword arguments *)
Definition local_of_label (s : list nat) : res local :=
  if label_ok s then Ok (mk_local None (Lit s) None []) else Err ValueError.

(** ** ProductSpace.create, lines 693-696 and the simplifications of 661-662 *)

(** an operand: a Hilbert space, or a plain str/int *)
Inductive harg := HS (h : hs) | Lbl (s : list nat).

(** assoc (algebraic_properties.py:44-54) *)
Definition assoc_arg (a : harg) : list harg :=
  match a with HS (Prod l) => map (fun s => HS (Local s)) l | _ => [a] end.
(** convert_to_spaces (449-457) *)
Definition convert_arg (a : harg) : res hs :=
  match a with
  | HS h => Ok h
  | Lbl s => do l <- local_of_label s; Ok (Local l)
  end.
(** [set(ops)]: duplicates removed *)
Fixpoint dedup (l : list hs) : list hs :=
  match l with
  | [] => []
  | h :: l' => h :: filter (fun x => negb (hs_eqb h x)) (dedup l')
  end.

Section Create.
  Context (str_of : elt -> list nat).
  (** the iteration order of Python sets *)
  Context (iter : list hs -> list hs).

  (** _order_key: TrivialSpace 527, FullSpace 616, ProductSpace 680-681 *)
  Definition underscore : elt := EStr [95].
  Definition space_key (h : hs) : list elt :=
    match h with
    | Trivial => [ENum (NFin (-2)); underscore]
    | Full => [ENum (NFin (-1)); underscore]
    | Local s => local_key s
    | Prod l => flat_map local_key l
    end.
  Definition space_lt (a b : hs) : bool := kt_lt str_of (space_key a) (space_key b).

  (** idem (93-104) *)
  Definition idem (ops : list hs) : list hs := pysorted space_lt (iter (dedup ops)).

  (** ProductSpace.__init__, lines 664-682: distinct operands. After the
      simplifications all operands are LocalSpaces. *)
  Definition unlocal (h : hs) : res local :=
    match h with Local s => Ok s | _ => Err Unmodelled end.
  Definition prod_init (ops : list hs) : res hs :=
    if length (dedup ops) =? length ops then do l <- mapM unlocal ops; Ok (Prod l)
    else Err ValueError.

  (** filter_neutral (121-144) *)
  Definition filter_neutral (ops : list hs) : res hs :=
    match ops with
    | [] => Ok Trivial
    | o :: _ =>
      match filter (fun x => negb (hs_eqb Trivial x)) ops with
      | [] => Ok o
      | [x] => Ok x
      | fops => prod_init fops
      end
    end.

  Definition is_full_arg (a : harg) : bool := match a with HS Full => true | _ => false end.

  Definition prod_create (args : list harg) : res hs :=
    if existsb is_full_arg args then Ok Full
    else
      match args with
      | [] => Ok Trivial
      | _ =>
        do ops <- mapM convert_arg (flat_map assoc_arg args);
        filter_neutral (idem ops)
      end.

  (** ** remove: LocalSpace 420-423, TrivialSpace 559-562, FullSpace 622-624,
      ProductSpace 767-778. [sorted] compares by [__lt__], the strict subfactor
      relation, which is false for any two LocalSpaces. *)
  Definition set_diff (l o : list local) : list local :=
    filter (fun s => negb (mem s o)) l.
  Definition set_inter (l o : list local) : list local :=
    filter (fun s => mem s o) l.
  Definition locals (l : list local) : list hs := map Local l.
  Definition create_sorted (l : list local) : res hs :=
    prod_create (map HS (pysorted (fun _ _ => false) (iter (locals l)))).
  Definition remove (a b : hs) : res hs :=
    match a with
    | Local s => if hs_eqb b a then Ok Trivial else Ok a
    | Trivial => Ok Trivial
    | Full => Err AlgebraError
    | Prod l =>
      match b with
      | Full => Ok Trivial
      | Trivial => Ok a
      | Prod o => create_sorted (set_diff l o)
      | Local s => create_sorted (set_diff l [s])
      end
    end.

  (** intersect: LocalSpace 425-428, TrivialSpace 564-567, FullSpace 632-634,
      ProductSpace 795-807 *)
  Definition intersect (a b : hs) : res hs :=
    match a with
    | Local s => do fb <- local_factors b; if mem s fb then Ok a else Ok Trivial
    | Trivial => Ok Trivial
    | Full => Ok b
    | Prod l =>
      match b with
      | Full => Ok a
      | Trivial => Ok Trivial
      | Prod o => create_sorted (set_inter l o)
      | Local s => create_sorted (set_inter l [s])
      end
    end.

  (** is_strict_subfactor_of: LocalSpace 434-440, TrivialSpace 575-580,
      FullSpace 636-639, ProductSpace 809-816. [set(a) < set(b)] *)
  Definition is_strict_subfactor_of (a b : hs) : bool :=
    match a, b with
    | Local s, Prod o => mem s o
    | Local _, Full => true
    | Local _, _ => false
    | Trivial, Trivial => false
    | Trivial, _ => true
    | Full, _ => false
    | Prod l, Prod o =>
      forallb (fun s => mem s o) l && negb (forallb (fun s => mem s l) o)
    | Prod _, Full => true
    | Prod _, _ => false
    end.
  (** __le__ (155-156): is_tensor_factor_of *)
  Definition is_tensor_factor_of (a b : hs) : bool :=
    hs_eqb a b || is_strict_subfactor_of a b.

  (** ** DisjunctCommutativeHSOrder.__lt__ (ordering.py:114-120) and
      FullCommutativeHSOrder.__lt__ (149-153), for operands given by their space
      and their expr_order_key. [None] is false. *)
  Section Operands.
    Context {A : Type} (space : A -> hs) (op_key : A -> list elt).
    Definition is_trivial (h : hs) : bool := match h with Trivial => true | _ => false end.
    Definition disjunct_ltM (x y : A) : res bool :=
      if is_trivial (space x) && is_trivial (space y)
      then Ok (kt_lt str_of (op_key x) (op_key y))
      else
        do d <- isdisjoint (space x) (space y);
        if d then Ok (space_lt (space x) (space y)) else Ok false.
    Definition full_lt (x y : A) : bool :=
      if hs_eqb (space x) (space y) then kt_lt str_of (op_key x) (op_key y)
      else space_lt (space x) (space y).

    (** orderby (algebraic_properties.py:107-118) for QuantumTimes and for
        QuantumPlus *)
    Definition orderby_times (ops : list A) : res (list A) := pysortedM disjunct_ltM ops.
    Definition orderby_plus (ops : list A) : list A := pysorted full_lt ops.
  End Operands.
End Create.
