(** Model of Sum (core/abstract_quantum_algebra.py, _sum_over_list, _sum_over_range,
    _sum_over_fockspace and Sum at its end) and of the index ranges it builds
    (utils/indices.py:431-510: validators and defaults). The term is that of IdxModel; its
    [create] is [sum_init] there. Booleans are not distinguished from other non-integers
    (isinstance accepts them as integers). *)
From Verif Require Import Prelude BasisModel IdxModel.

(** positional and keyword arguments by exact type; a Hilbert space with its dimension, if local;
    SpinSpace always has a dimension *)
Inductive space := SLocal (dim : option nat) | SSpin (dim : nat) | SProd.
Inductive value := VInt (z : Z) | VList (l : list Z) | VTuple (l : list Z) | VSpace (s : space) | VNone | VOther.
Inductive kw := KHs | KTo | KStep | KStart | KValues | KUnknown.
Definition kw_eqb (a b : kw) : bool :=
  match a, b with KHs, KHs | KTo, KTo | KStep, KStep | KStart, KStart | KValues, KValues | KUnknown, KUnknown => true | _, _ => false end.
Notation kwargs_t := (list (kw * value)).
Inductive func := FFock | FList | FRange.
(** the dispatch table, by the exact types of the positional arguments *)
Definition dispatch (args : list value) : res func :=
  match args with
  | [] => Ok FFock
  | [VSpace (SLocal _)] => Ok FFock
  | [VSpace (SSpin _)] => Ok FFock
  | [VList _] => Ok FList
  | [VTuple _] => Ok FList
  | [VInt _] => Ok FRange
  | [VInt _; VInt _] => Ok FRange
  | [VInt _; VInt _; VInt _] => Ok FRange
  | _ => Err TypeError
  end.
(** Python's binding of arguments to parameters: TypeError for too many, for a parameter given
    twice and for unknown keywords *)
Fixpoint bind_pos (params : list kw) (args : list value) : res kwargs_t :=
  match args, params with
  | [], _ => Ok []
  | v :: args', p :: params' => do r <- bind_pos params' args'; Ok ((p, v) :: r)
  | _ :: _, [] => Err TypeError
  end.
Definition kmem (k : kw) (l : list kw) : bool := existsb (kw_eqb k) l.
Definition bind_args (params : list kw) (args : list value) (kwargs : kwargs_t) : res kwargs_t :=
  do pos <- bind_pos params args;
  if forallb (fun kv => kmem (fst kv) params && negb (kmem (fst kv) (map fst pos))) kwargs then Ok (pos ++ kwargs) else Err TypeError.
Fixpoint kget (k : kw) (l : kwargs_t) : option value :=
  match l with [] => None | (k', v) :: l' => if kw_eqb k k' then Some v else kget k l' end.
(** attr.validators.instance_of(int) *)
Definition as_int (v : value) : res Z := match v with VInt z => Ok z | _ => Err TypeError end.
(** IndexOverFockSpace does not check its Hilbert space; other values than local spaces fail
    when the range is used (Unmodelled) *)
Definition fock (v : value) : res irange :=
  match v with VSpace (SLocal d) => Ok (OverFock d) | VSpace (SSpin n) => Ok (OverFock (Some n)) | _ => Err Unmodelled end.
Definition values_of (v : value) : res irange := match v with VList l | VTuple l => Ok (OverList l) | _ => Err TypeError end.
(** the range functions; [sp] is the space of the term *)
Definition make_range (f : func) (sp : space) (args : list value) (kwargs : kwargs_t) : res irange :=
  match f with
  | FFock =>
    do b <- bind_args [KHs] args kwargs;
    match kget KHs b with None | Some VNone => fock (VSpace sp) | Some v => fock v end
  | FList =>
    do b <- bind_args [KValues] args kwargs;
    match kget KValues b with Some v => values_of v | None => Err TypeError end
  | FRange =>
    do b <- bind_args [KStart; KTo; KStep] args kwargs;
    match kget KStart b, kget KTo b with
    | Some a, Some t =>
      do a' <- as_int a; do t' <- as_int t;
      do s' <- as_int (match kget KStep b with Some s => s | None => VInt 1 end);
      Ok (OverRange a' t' s')
    | _, _ => Err TypeError
    end
  end.
(** Sum(idx, *args, **kwargs): raises, or returns a function of the term and its space *)
Definition Sum (x : idx) (args : list value) (kwargs : kwargs_t) : res (space -> term -> res term) :=
  do f <- dispatch args;
  Ok (fun sp t => do r <- make_range f sp args kwargs; sum_init t [(x, r)]).
