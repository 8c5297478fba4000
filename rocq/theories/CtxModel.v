(** Model of class-level mutable state (rules, simplifications, instance
    caches) and of the context managers that protect it:
    /repo/src/qnet/algebra/toolbox/core.py:13-108 and
    /repo/src/qnet/algebra/core/abstract_algebra.py:215-320. *)
From Verif Require Import Prelude.

(** The class attributes involved. *)
Inductive attr := AInst (** _instances *) | ASimp (** simplifications *)
                | ARules (** _rules *) | ABin (** _binary_rules *).
Definition attr_eqb (a b : attr) : bool :=
  match a, b with AInst, AInst | ASimp, ASimp | ARules, ARules | ABin, ABin => true | _, _ => false end.

(** Dictionaries (and the list [simplifications]) as mutable objects. Keys
    are pairs: instance keys start with the class (abstract_algebra.py:199),
    rule names are pairs (0, name). *)
Definition key := (nat * nat)%type.
Definition dict := list (key * nat).
Definition key_eqb (a b : key) : bool := (fst a =? fst b) && (snd a =? snd b).
Definition has_key (k : key) (d : dict) : bool := existsb (fun e => key_eqb k (fst e)) d.
Definition del_key (k : key) (d : dict) : dict := filter (fun e => negb (key_eqb k (fst e))) d.

(** Python objects live in a heap; each kind of attribute has its own object
    space (a cache dict is never a rule dict). [own]: attributes stored on the
    class itself; [flag]: Expression.instance_caching. *)
Record state := {
  heap : attr -> nat -> dict;
  next : nat;
  own : attr -> nat -> option nat;
  flag : bool
}.

Section Ctx.
  (** method resolution order of each class, starting with the class *)
  Variable mro : nat -> list nat.

  Fixpoint first_own (st : state) (at_ : attr) (l : list nat) : option nat :=
    match l with
    | [] => None
    | c :: l' => match own st at_ c with Some p => Some p | None => first_own st at_ l' end
    end.
  (** [cls.attr] *)
  Definition getattr (st : state) (c : nat) (at_ : attr) : option nat := first_own st at_ (mro c).

  (** [cls.attr = p] *)
  Definition setattr (c : nat) (at_ : attr) (p : nat) (st : state) : state :=
    {| heap := heap st; next := next st; flag := flag st;
       own := fun a d => if attr_eqb a at_ && (d =? c) then Some p else own st a d |}.
  (** in-place update of an object *)
  Definition mutate (at_ : attr) (p : nat) (f : dict -> dict) (st : state) : state :=
    {| heap := fun a q => if attr_eqb a at_ && (q =? p) then f (heap st a q) else heap st a q;
       next := next st; own := own st; flag := flag st |}.
  (** a new object with the given content *)
  Definition alloc (at_ : attr) (d : dict) (st : state) : state * nat :=
    ({| heap := fun a q => if attr_eqb a at_ && (q =? next st) then d else heap st a q;
        next := S (next st); own := own st; flag := flag st |}, next st).
  Definition setflag (b : bool) (st : state) : state :=
    {| heap := heap st; next := next st; own := own st; flag := b |}.

  Definition rules_attr (binary : bool) : attr := if binary then ABin else ARules.

  (** statements of client code *)
  Inductive prim :=
  | PAddRule (binary : bool) (c name v : nat)
  | PDelRules (binary : bool) (c : nat) (names : list nat)
  | PAppendSimp (c v : nat)
  | PSetSimp (c : nat) (l : dict)
  | PStore (c k v : nat). (** create caches an instance of class c *)

  Inductive stmt :=
  | Skip
  | Seq (s1 s2 : stmt)
  | Prim (p : prim)
  | Raise (e : exn)
  | Try (s : stmt)
  | TempRules (cs : list nat) (clear : bool) (body : stmt)
  | TempCache (cs : list nat) (body : stmt)
  | NoCaching (body : stmt).

  (** abstract_algebra.py:318-320: deletion loop [del dict[name]] *)
  Fixpoint del_names (at_ : attr) (p : nat) (names : list nat) (st : state) : state * option exn :=
    match names with
    | [] => (st, None)
    | n :: ns =>
      if has_key (0, n) (heap st at_ p)
      then del_names at_ p ns (mutate at_ p (del_key (0, n)) st)
      else (st, Some KeyError)
    end.

  Definition exec_prim (p : prim) (st : state) : state * option exn :=
    match p with
    | PAddRule b c name v => (* abstract_algebra.py:216-261 *)
      match getattr st c (rules_attr b) with
      | None => (st, Some AttributeError)
      | Some q =>
        if has_key (0, name) (heap st (rules_attr b) q) then (st, Some ValueError)
        else (mutate (rules_attr b) q (fun d => d ++ [((0, name), v)]) st, None)
      end
    | PDelRules b c names => (* abstract_algebra.py:298-320 *)
      match getattr st c (rules_attr b) with
      | None => (st, Some AttributeError)
      | Some q =>
        match names with
        | [] => let (st', q') := alloc (rules_attr b) [] st in (setattr c (rules_attr b) q' st', None)
        | _ => del_names (rules_attr b) q names st
        end
      end
    | PAppendSimp c v => (* cls.simplifications.append(v) *)
      match getattr st c ASimp with
      | None => (st, Some AttributeError)
      | Some q => (mutate ASimp q (fun d => d ++ [((0, 0), v)]) st, None)
      end
    | PSetSimp c l => (* cls.simplifications = [...] on an Expression class *)
      match getattr st c ASimp with
      | None => (st, Some AttributeError)
      | Some _ => let (st', q') := alloc ASimp l st in (setattr c ASimp q' st', None)
      end
    | PStore c k v => (* abstract_algebra.py:159,178 cls._instances[key] = ... *)
      match getattr st c AInst with
      | None => (st, Some AttributeError)
      | Some q => (mutate AInst q (fun d => ((c, k), v) :: del_key (c, k) d) st, None)
      end
    end.

  (** [orig.append(cls.attr); cls.attr = <new object>]; the saved value is
      None if the attribute does not exist (AttributeError) *)
  Definition swap (at_ : attr) (content : dict -> dict) (c : nat) (st : state) : state * option nat :=
    match getattr st c at_ with
    | None => (st, None)
    | Some p => let (st', q) := alloc at_ (content (heap st at_ p)) st in (setattr c at_ q st', Some p)
    end.

  Definition saved := (nat * (option nat * option nat * option nat * option nat))%type.

  (** toolbox/core.py:77-97 loop body: instances, simplifications, _rules,
      _binary_rules; AttributeError of the first two propagates, of the last
      two is caught *)
  Definition enter_rules_one (clear : bool) (c : nat) (st : state)
    : state * (saved + exn) :=
    let (st1, i) := swap AInst (fun _ => []) c st in
    match i with
    | None => (st1, inr AttributeError)
    | Some _ =>
      let (st2, s) := swap ASimp (fun d => d) c st1 in
      match s with
      | None => (st2, inr AttributeError)
      | Some _ =>
        let (st3, r) := swap ARules (fun d => if clear then [] else d) c st2 in
        let (st4, b) := swap ABin (fun d => if clear then [] else d) c st3 in
        (st4, inl (c, (i, s, r, b)))
      end
    end.
  (** toolbox/core.py:39-42 loop body *)
  Definition enter_cache_one (c : nat) (st : state) : state * (saved + exn) :=
    let (st1, i) := swap AInst (fun _ => []) c st in
    match i with
    | None => (st1, inr AttributeError)
    | Some _ => (st1, inl (c, (i, None, None, None)))
    end.

  (** the [for cls in classes] loops; they are *outside* the try block, so an
      exception leaves the modifications made so far in place *)
  Fixpoint enter (one : nat -> state -> state * (saved + exn)) (cs : list nat) (st : state)
    : state * (list saved + exn) :=
    match cs with
    | [] => (st, inl [])
    | c :: cs' =>
      match one c st with
      | (st', inr e) => (st', inr e)
      | (st', inl x) =>
        match enter one cs' st' with
        | (st'', inr e) => (st'', inr e)
        | (st'', inl xs) => (st'', inl (x :: xs))
        end
      end
    end.

  Definition restore1 (at_ : attr) (c : nat) (p : option nat) (st : state) : state :=
    match p with None => st | Some p => setattr c at_ p st end.
  (** toolbox/core.py:101-108 and 45-47: the finally block *)
  Fixpoint restore (l : list saved) (st : state) : state :=
    match l with
    | [] => st
    | (c, (i, s, r, b)) :: l' =>
      restore l' (restore1 ABin c b (restore1 ARules c r (restore1 ASimp c s (restore1 AInst c i st))))
    end.

  Fixpoint exec (s : stmt) (st : state) : state * option exn :=
    match s with
    | Skip => (st, None)
    | Seq s1 s2 => match exec s1 st with (st', None) => exec s2 st' | r => r end
    | Prim p => exec_prim p st
    | Raise e => (st, Some e)
    | Try s => (fst (exec s st), None)
    | TempRules cs clear body =>
      match enter (enter_rules_one clear) cs st with
      | (st', inr e) => (st', Some e)
      | (st', inl l) => let (st'', e) := exec body st' in (restore l st'', e)
      end
    | TempCache cs body =>
      match enter enter_cache_one cs st with
      | (st', inr e) => (st', Some e)
      | (st', inl l) => let (st'', e) := exec body st' in (restore l st'', e)
      end
    | NoCaching body => (* toolbox/core.py:13-27 *)
      let orig := flag st in
      let (st', e) := exec body (setflag false st) in (setflag orig st', e)
    end.
End Ctx.
