(** Expression identity: instance keys and [==],
    /repo/src/qnet/algebra/core/abstract_algebra.py:96-101,188-199,363-373. *)
From Verif Require Import Prelude.

(** Python objects as far as [==] is concerned. [Atom]: any leaf value
    (strings, numbers, sympy objects, singletons) up to its own [==]; [Tup]: a
    tuple; [Inst c args kwargs key]: an Expression of class [c] whose
    attributes hold [args] and [kwargs] (keyword names are atoms, in sorted
    order), and whose stored [_instance_key] is [(c,) + key]. *)
Inductive obj :=
| Atom (n : nat)
| Tup (items : list obj)
| Inst (c : nat) (args : list obj) (kwargs : list (nat * obj)) (key : list obj).

(** abstract_algebra.py:188-199 _get_instance_key (without the class):
    positional arguments, then one (name, value) tuple per keyword. kwargs
    arrive as a plain dict, so nested_tuple sorts them by name. *)
Definition key_parts (args : list obj) (kwargs : list (nat * obj)) : list obj :=
  args ++ map (fun nv => Tup [Atom (fst nv); snd nv]) kwargs.

(** abstract_algebra.py:363-368 __eq__ *)
Fixpoint obj_eqb (a b : obj) : bool :=
  match a, b with
  | Atom m, Atom n => m =? n
  | Tup xs, Tup ys =>
    (fix all (xs ys : list obj) : bool :=
       match xs, ys with
       | [], [] => true
       | x :: xs', y :: ys' => obj_eqb x y && all xs' ys'
       | _, _ => false
       end) xs ys
  | Inst c _ _ xs, Inst d _ _ ys =>
    (c =? d) &&
    (fix all (xs ys : list obj) : bool :=
       match xs, ys with
       | [], [] => true
       | x :: xs', y :: ys' => obj_eqb x y && all xs' ys'
       | _, _ => false
       end) xs ys
  | _, _ => false
  end.
Fixpoint objs_eqb (xs ys : list obj) : bool :=
  match xs, ys with
  | [], [] => true
  | x :: xs', y :: ys' => obj_eqb x y && objs_eqb xs' ys'
  | _, _ => false
  end.

(** What the class's [__init__] hands on to [Expression.__init__], which
    computes [_instance_key] from it (abstract_algebra.py:96-101). *)
Definition forwarding := nat -> list obj -> list (nat * obj) -> list obj * list (nat * obj).

(** [cls( *args, **kwargs )] *)
Definition new (fw : forwarding) (c : nat) (args : list obj) (kwargs : list (nat * obj)) : obj :=
  let (a, k) := fw c args kwargs in Inst c args kwargs (key_parts a k).

(** Objects all of whose Expression parts were made by their constructors. *)
Inductive built (fw : forwarding) : obj -> Prop :=
| built_atom n : built fw (Atom n)
| built_tup xs : Forall (built fw) xs -> built fw (Tup xs)
| built_inst c args kwargs : Forall (built fw) args -> Forall (fun nv => built fw (snd nv)) kwargs ->
    built fw (new fw c args kwargs).

(** Class numbers of the circuit algebra (circuit_algebra.py). *)
Definition CLS_SYMBOL := 1. Definition CLS_SLH := 2. Definition CLS_PERM := 3.
Definition CLS_SERIES := 4. Definition CLS_CONCAT := 5. Definition CLS_FEEDBACK := 6.
Definition CLS_SINV := 7.
(** circuit_algebra.py:348 (SLH), 601 (CircuitSymbol), 718 (Component), 778
    (CPermutation), 1118 (Concatenation), abstract_algebra.py:821 (Operation:
    SeriesProduct, SeriesInverse) pass everything on; 1220-1224 (Feedback)
    passes only the circuit. *)
Definition circuit_forwarding : forwarding := fun c args kwargs =>
  if c =? CLS_FEEDBACK then (args, []) else (args, kwargs).
