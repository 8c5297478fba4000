(** Model of the rule dictionaries of the expression classes: check_rules_dict
    (utils/check_rules.py:9-76) and Expression._rules_attr, add_rule, show_rules,
    del_rules, rules (core/abstract_algebra.py:201-338). *)
From Verif Require Import Prelude.

(** the keys of the argument: strings (numbered) and other objects *)
Inductive key := KStr (n : nat) | KObj.
(** Pattern: is its head ProtoExpr, and its wildcard names *)
Record pattern := mk_pattern { p_proto : bool; p_wc : list nat }.
Inductive patv := PPat (p : pattern) | PObj.
(** callables have a list of argument names, or no signature (builtins: inspect.signature
    raises ValueError) *)
Inductive replv := RCall (f : nat) (args : list nat) | RNoSig (f : nat) | RObj.
(** the value of an item: unpacks to two, to another number of values, or not iterable *)
Inductive rulev := RPair (p : patv) (r : replv) | RLen | RNone.
Inductive item := IPair (k : key) (r : rulev) | ILen | INone.
(** the argument of check_rules_dict: a mapping, a list, an iterator, or not iterable *)
Inductive rules_arg := RMap (l : list item) | RSeq (l : list item) | RIter (l : list item) | RBad.
(** an accepted rule: pattern and callable *)
Definition rule : Type := pattern * (nat * list nat).
Definition rdict : Type := list (nat * rule).

Definition nmem (x : nat) (l : list nat) : bool := existsb (Nat.eqb x) l.
(** comparison of key views and sets *)
Definition same_names (a b : list nat) : bool := forallb (fun x => nmem x b) a && forallb (fun x => nmem x a) b.
(** the body of the loop, check_rules.py:43-75; [keys] are the names seen before *)
Definition check_item (keys : list nat) (i : item) : res (nat * rule) :=
  match i with
  | ILen => Err TypeError
  | INone => Err TypeError
  | IPair KObj _ => Err TypeError
  | IPair (KStr k) r =>
    if nmem k keys then Err ValueError
    else match r with
    | RNone => Err TypeError
    | RLen => Err ValueError (* unpacking raises ValueError, which is not caught *)
    | RPair PObj _ => Err TypeError
    | RPair (PPat p) rep =>
      if negb (p_proto p) then Err ValueError
      else match rep with
      | RObj => Err ValueError
      | RNoSig _ => Err ValueError
      | RCall f args => if same_names args (p_wc p) then Ok (k, (p, (f, args))) else Err ValueError
      end
    end
  end.
Fixpoint check_items (keys : list nat) (l : list item) : res rdict :=
  match l with
  | [] => Ok []
  | i :: l' =>
    do kr <- check_item keys i;
    do d <- check_items (fst kr :: keys) l'; Ok (kr :: d)
  end.
(** check_rules_dict; [OrderedDict(rules)] reads the argument again: an iterator is exhausted *)
Definition check_rules_dict (a : rules_arg) : res rdict :=
  match a with
  | RMap l | RSeq l => check_items [] l
  | RIter l => do _ <- check_items [] l; Ok []
  | RBad => Err TypeError
  end.

(** ** The rules of the classes *)
(** dictionaries live in a heap; [attrs c a] is the class's own attribute [a] (0 is
    _rules, 1 is _binary_rules, others do not hold rules) *)
Record store := mk_store { attrs : nat -> nat -> option nat; heap : nat -> rdict; next : nat }.
Section Classes.
  (** method resolution order, and which matching functions are among the simplifications *)
  Context (mro : nat -> list nat) (has_match has_binary : nat -> bool).
  (** attribute lookup of Python *)
  Definition getattr (s : store) (c a : nat) : res nat :=
    match find (fun d => match attrs s d a with Some _ => true | None => false end) (mro c) with
    | Some d => match attrs s d a with Some x => Ok x | None => Err AttributeError end
    | None => Err AttributeError
    end.
  (** 202-213 *)
  Definition rules_attr (c : nat) : res nat :=
    if has_match c then Ok 0 else if has_binary c then Ok 1 else Err TypeError.
  Definition pick (c : nat) (attr : option nat) : res nat :=
    match attr with Some a => Ok a | None => rules_attr c end.
  Definition has (k : key) (d : rdict) : bool := match k with KStr n => nmem n (map fst d) | KObj => false end.
  Definition put (s : store) (x : nat) (d : rdict) : store :=
    mk_store (attrs s) (fun y => if y =? x then d else heap s y) (next s).
  (** a call gives a result or an exception, and the store afterwards *)
  (** add_rule, 215-258 *)
  Definition add_rule (c : nat) (name : key) (p : patv) (r : replv) (attr : option nat) (s : store) : res unit * store :=
    match pick c attr with
    | Err e => (Err e, s)
    | Ok a =>
      match getattr s c a with
      | Err e => (Err e, s)
      | Ok x =>
        if has name (heap s x) then (Err ValueError, s)
        else match check_rules_dict (RSeq [IPair name (RPair p r)]) with
        | Err e => (Err e, s)
        | Ok d => (Ok tt, put s x (heap s x ++ d))
        end
      end
    end.
  Definition remove (n : nat) (d : rdict) : rdict := filter (fun q => negb (fst q =? n)) d.
  (** the loop of del_rules, 318-320 *)
  Fixpoint del_loop (c a : nat) (names : list key) (s : store) : res unit * store :=
    match names with
    | [] => (Ok tt, s)
    | k :: names' =>
      match getattr s c a with
      | Err e => (Err e, s)
      | Ok x =>
        match k with
        | KObj => (Err KeyError, s)
        | KStr n => if nmem n (map fst (heap s x)) then del_loop c a names' (put s x (remove n (heap s x)))
                    else (Err KeyError, s)
        end
      end
    end.
  (** del_rules, 299-320 *)
  Definition del_rules (c : nat) (names : list key) (attr : option nat) (s : store) : res unit * store :=
    match pick c attr with
    | Err e => (Err e, s)
    | Ok a =>
      match names with
      | [] =>
        match getattr s c a with
        | Err e => (Err e, s)
        | Ok _ => (Ok tt, mk_store (fun d b => if (d =? c) && (b =? a) then Some (next s) else attrs s d b)
                            (fun y => if y =? next s then [] else heap s y) (S (next s)))
        end
      | _ => del_loop c a names s
      end
    end.
  (** rules, 322-338 *)
  Definition rules (c : nat) (attr : option nat) (s : store) : res (list nat) :=
    match pick c attr with
    | Err TypeError => Ok []
    | Err e => Err e
    | Ok a => do x <- getattr s c a; Ok (map fst (heap s x))
    end.
  (** show_rules, 260-297: the rules it prints, with their names *)
  Definition show_rules (c : nat) (names : list key) (attr : option nat) (s : store) : res rdict :=
    match pick c attr with
    | Err TypeError => Ok []
    | Err e => Err e
    | Ok a =>
      do x <- getattr s c a;
      Ok (filter (fun q => match names with [] => true | _ => existsb (fun k => match k with KStr n => n =? fst q | KObj => false end) names end) (heap s x))
    end.
  Inductive call :=
  | CAdd (c : nat) (name : key) (p : patv) (r : replv) (attr : option nat)
  | CDel (c : nat) (names : list key) (attr : option nat).
  Definition run (s : store) (q : call) : store :=
    match q with
    | CAdd c n p r a => snd (add_rule c n p r a s)
    | CDel c l a => snd (del_rules c l a s)
    end.
End Classes.
