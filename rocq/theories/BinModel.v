(** Model of [match_replace_binary] and its helpers,
    /repo/src/qnet/algebra/core/algebraic_properties.py:323-421. *)
From Verif Require Import Prelude.

(** What trying one rule on a pair of operands can do
    (algebraic_properties.py:328-350): the pattern does not match; the
    replacement raises CannotSimplify; it returns a value ([None] is Python's
    None); it raises some other exception. *)
Inductive outcome (A : Type) :=
| NoMatch
| Refuses
| Replaces (r : option A)
| Raises (e : exn).
Arguments NoMatch {A}.
Arguments Refuses {A}.
Arguments Replaces {A} r.
Arguments Raises {A} e.

(** The class object [cls]: its [_binary_rules] in order, whether a value
    equals [cls._neutral_element], and [isinstance(r, cls)] together with
    [r.args]. *)
Record bincls (A : Type) := {
  binary_rules : list (A -> A -> outcome A);
  is_neutral : A -> bool;
  neutral : A;
  instance_args : A -> option (list A)
}.
Arguments binary_rules {A} b.
Arguments is_neutral {A} b.
Arguments neutral {A} b.
Arguments instance_args {A} b.

Section Bin.
  Context {A : Type} (cls : bincls A).

  (** algebraic_properties.py:323-350 _get_binary_replacement (the loop) *)
  Fixpoint try_rules (rules : list (A -> A -> outcome A)) (first second : A) : res (option A) :=
    match rules with
    | [] => Ok None
    | rule :: rest =>
      match rule first second with
      | NoMatch => try_rules rest first second
      | Refuses => try_rules rest first second
      | Replaces r => Ok r
      | Raises e => Err e
      end
    end.
  Definition get_binary_replacement (first second : A) : res (option A) :=
    try_rules (binary_rules cls) first second.

  (** Splits a list as [a[:-1]], [a[-1]] *)
  Definition split_last (a : list A) : option (list A * A) :=
    match rev a with [] => None | x :: r => Some (rev r, x) end.

  (** algebraic_properties.py:405-421 _match_replace_binary_combine. [fuel]
      bounds the recursion depth. *)
  Fixpoint mrb_combine (fuel : nat) (a b : list A) : res (list A) :=
    match fuel with
    | 0 => Err OutOfFuel
    | S fuel' =>
      match split_last a, b with
      | None, _ => Ok (a ++ b)
      | _, [] => Ok (a ++ b)
      | Some (a', x), y :: b' =>
        do r <- get_binary_replacement x y;
        match r with
        | None => Ok (a ++ b)
        | Some r =>
          if is_neutral cls r then mrb_combine fuel' a' b'
          else
            let rs := match instance_args cls r with Some args => args | None => [r] end in
            do l <- mrb_combine fuel' a' rs;
            mrb_combine fuel' l b'
        end
      end
    end.

  (** algebraic_properties.py:392-402 _match_replace_binary; the halving
      recursion is bounded by [depth], the combine recursion by [fuel]. *)
  Fixpoint mrb_reduce (depth fuel : nat) (ops : list A) : res (list A) :=
    match depth with
    | 0 => Err OutOfFuel
    | S depth' =>
      let n := length ops in
      if n <=? 1 then Ok ops
      else
        do l <- mrb_reduce depth' fuel (firstn (n / 2) ops);
        do r <- mrb_reduce depth' fuel (skipn (n / 2) ops);
        mrb_combine fuel l r
    end.

  (** algebraic_properties.py:353-389: the result is an object or a new
      operand list. *)
  Definition match_replace_binary (fuel : nat) (ops : list A) : res (A + list A) :=
    do fops <- mrb_reduce (S (length ops)) fuel ops;
    match fops with
    | [] => Ok (inl (neutral cls))
    | [x] => Ok (inl x)
    | _ => Ok (inr fops)
    end.
End Bin.
