(** Model of [Expression.create] with its instance cache,
    /repo/src/qnet/algebra/core/abstract_algebra.py:87-199. *)
From Verif Require Import Prelude.

(** [C]: classes; [AR]: positional and keyword arguments of a call; [V]:
    objects; [K]: instance keys. *)
Section Create.
  Context {C AR V K : Type}.

  (** A simplification (or [cls.__init__]) is Python code that may call
      [create] of any class any number of times, catch what that raises, and
      finally returns a finished object ([inl]), new arguments ([inr]) or
      raises. Simplification: it cannot modify rules or the cache flag. *)
  Inductive prog :=
  | PRet (r : V + AR)
  | PRaise (e : exn)
  | PCreate (c : C) (a : AR) (k : res V -> prog).

  (** What is fixed about the classes: [simplifications], [cls(...)],
      [_get_instance_key], [_instance_key] of an object (None: an object
      without one, e.g. a scalar), and the flag [_create_idempotent]. *)
  Record classes := {
    simplifications : C -> list (AR -> prog);
    instantiate : C -> AR -> prog;
    get_instance_key : C -> AR -> K;
    instance_key : V -> option K;
    create_idempotent : C -> bool
  }.
  Variable (W : classes).
  Variable (Keqb : K -> K -> bool).

  (** [cls._instances] *)
  Definition cache := list (K * V).
  Fixpoint lookup (k : K) (s : cache) : option V :=
    match s with [] => None | (k', v) :: s' => if Keqb k k' then Some v else lookup k s' end.
  (** [_instances[key] = v] *)
  Definition store (k : K) (v : V) (s : cache) : cache := (k, v) :: s.

  (** Results of a bounded-depth execution: None = recursion bound reached. *)
  Definition outcome_ := option (res V * cache).

  (** running the Python code of a simplification *)
  Fixpoint run (call : C -> AR -> cache -> outcome_) (p : prog) (s : cache)
    : option (res (V + AR) * cache) :=
    match p with
    | PRet r => Some (Ok r, s)
    | PRaise e => Some (Err e, s)
    | PCreate c a k =>
      match call c a s with
      | None => None
      | Some (r, s') => run call (k r) s'
      end
    end.

  (** abstract_algebra.py:158-159 and 177-178 [if cls.instance_caching: ...];
      160-169 and 179-182: the second key when [_create_idempotent] *)
  Definition record1 (caching : bool) (key : K) (v : V) (s : cache) : cache :=
    if caching then store key v s else s.
  Definition record2 (caching idem : bool) (key2 : option K) (v : V) (s : cache) : cache :=
    match key2 with
    | Some k2 => if idem && caching then store k2 v s else s
    | None => s
    end.

  (** abstract_algebra.py:141-186: the loop over the simplifications, then the
      instantiation *)
  Fixpoint simplify_loop (caching : bool) (call : C -> AR -> cache -> outcome_) (c : C) (key : K)
      (simps : list (AR -> prog)) (a : AR) (s : cache) : outcome_ :=
    match simps with
    | [] =>
      match run call (instantiate W c a) s with
      | None => None
      | Some (Err e, s') => Some (Err e, s')
      | Some (Ok (inr _), s') => Some (Err Unmodelled, s')
      | Some (Ok (inl v), s') =>
        Some (Ok v, record2 caching (create_idempotent W c) (Some (get_instance_key W c a)) v
                      (record1 caching key v s'))
      end
    | f :: rest =>
      match run call (f a) s with
      | None => None
      | Some (Err e, s') => Some (Err e, s')
      | Some (Ok (inr a'), s') => simplify_loop caching call c key rest a' s'
      | Some (Ok (inl v), s') =>
        Some (Ok v, record2 caching (create_idempotent W c) (instance_key W v) v
                      (record1 caching key v s'))
      end
    end.

  (** abstract_algebra.py:104-187 Expression.create; [depth] bounds nested
      create calls; [caching] is the class attribute [instance_caching] *)
  Fixpoint create (caching : bool) (depth : nat) (c : C) (a : AR) (s : cache) : outcome_ :=
    match depth with
    | 0 => None
    | S d =>
      let key := get_instance_key W c a in
      match (if caching then lookup key s else None) with
      | Some v => Some (Ok v, s)
      | None => simplify_loop caching (create caching d) c key (simplifications W c) a s
      end
    end.

  (** A session: top-level create calls, each with caching on or off
      (toolbox/core.py:13-27 no_instance_caching). Returns the results. *)
  Fixpoint session (depth : nat) (calls : list (bool * C * AR)) (s : cache)
    : option (list (res V) * cache) :=
    match calls with
    | [] => Some ([], s)
    | (b, c, a) :: rest =>
      match create b depth c a s with
      | None => None
      | Some (r, s') =>
        match session depth rest s' with
        | None => None
        | Some (rs, s'') => Some (r :: rs, s'')
        end
      end
    end.
End Create.
Arguments prog : clear implicits.
Arguments classes : clear implicits.
Arguments cache : clear implicits.
