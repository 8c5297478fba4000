(** Model of the pattern matching engine,
    /repo/src/qnet/algebra/pattern_matching/__init__.py. *)
From Verif Require Import Prelude.

Inductive mode := Single | OneOrMore | ZeroOrMore.
Definition nonsingle (m : mode) : bool := match m with Single => false | _ => true end.

(** A pattern is an expression to be matched exactly or a [Pattern] object
    (lines 98-232): head, args, kwargs (None = not checked), mode, wildcard
    name, conditions (numbered predicates). *)
Inductive pat (E : Type) :=
| PExpr (e : E)
| Pat (head : option nat) (args : option (list (pat E))) (kwargs : option (list (nat * pat E)))
      (md : mode) (wc : option nat) (conditions : list nat).
Arguments PExpr {E} e.
Arguments Pat {E} head args kwargs md wc conditions.

Definition mode_of {E} (p : pat E) : mode := match p with PExpr _ => Single | Pat _ _ _ m _ _ => m end.
Definition wc_of {E} (p : pat E) : option nat := match p with PExpr _ => None | Pat _ _ _ _ w _ => w end.

(** values in a MatchDict: an expression or a list of expressions *)
Inductive binding (E : Type) := BOne (e : E) | BList (l : list E).
Arguments BOne {E} e.
Arguments BList {E} l.
Definition mdict E := list (nat * binding E).

(** MatchDict.merge_lists: 0, negative, positive (lines 36-39) *)
Inductive merge := NoMerge | Append | Prepend.

(** result of a match: success with a dict, failure (success=False), or an
    exception that escapes from [match] *)
Inductive mres (E : Type) := MOk (m : mdict E) | MFail | MExc (e : exn).
Arguments MOk {E} m.
Arguments MFail {E}.
Arguments MExc {E} e.

Section Match.
  (** The expressions being matched, with [==], [.args], [.kwargs] (None: the
      attribute does not exist), [isinstance(expr, head)] and the conditions.
      Simplification: conditions do not raise. *)
  Context {E : Type} (E_eqb : E -> E -> bool) (eargs : E -> option (list E))
          (ekwargs : E -> option (list (nat * E)))
          (isinst : E -> nat -> bool) (cond : nat -> E -> bool).

  Fixpoint list_eqb (a b : list E) : bool :=
    match a, b with
    | [], [] => true
    | x :: xs, y :: ys => E_eqb x y && list_eqb xs ys
    | _, _ => false
    end.
  Definition binding_eqb (a b : binding E) : bool :=
    match a, b with
    | BOne x, BOne y => E_eqb x y
    | BList x, BList y => list_eqb x y
    | _, _ => false
    end.

  Fixpoint get (m : mdict E) (k : nat) : option (binding E) :=
    match m with [] => None | (k', v) :: m' => if k =? k' then Some v else get m' k end.
  Definition replace (m : mdict E) (k : nat) (v : binding E) : mdict E :=
    map (fun e => if fst e =? k then (k, v) else e) m.

  (** lines 61-75 MatchDict.__setitem__; None = KeyError "has already been set" *)
  Definition set_item (mg : merge) (m : mdict E) (k : nat) (v : binding E) : option (mdict E) :=
    match get m k with
    | None => Some (m ++ [(k, v)])
    | Some u =>
      match u, v, mg with
      | BList a, BList b, Append => Some (replace m k (BList (a ++ b)))
      | BList a, BList b, Prepend => Some (replace m k (BList (b ++ a)))
      | _, _, _ => if binding_eqb u v then Some m else None
      end
    end.
  (** lines 83-97 MatchDict.update *)
  Fixpoint update (mg : merge) (m : mdict E) (other : mdict E) : option (mdict E) :=
    match other with
    | [] => Some m
    | (k, v) :: o => match set_item mg m k v with None => None | Some m' => update mg m' o end
    end.

  (** lines 183-199: flags computed by Pattern.__init__ *)
  Definition has_non_single_arg (args : option (list (pat E))) : bool :=
    match args with None => false | Some ps => existsb (fun p => nonsingle (mode_of p)) ps end.
  Definition non_single_on_left (args : option (list (pat E))) : bool :=
    match args with Some (p :: _) => nonsingle (mode_of p) | _ => false end.
  Definition merge_of (args : option (list (pat E))) : merge :=
    if has_non_single_arg args then (if non_single_on_left args then Prepend else Append) else NoMerge.
  Definition iterate {A} (args : option (list (pat E))) (l : list A) : list A :=
    if non_single_on_left args then rev l else l.

  (** lines 246-268 _check_last_arg_pattern, reached when all arguments are
      consumed and [q] is the next pattern to be yielded. [q] differs from the
      pattern [cur] that consumed the last argument (the case in which a
      non-single pattern is yielded again is in [many]). [cur = false] is the
      unbound local variable of line 315 (no argument was consumed). *)
  Definition check_last (mg : merge) (cur : bool) (md : mode) (wc : option nat) (r : mdict E) : mres E :=
    if negb cur then MExc UnboundLocalError
    else match md with
         | Single => MFail
         | OneOrMore => MFail
         | ZeroOrMore =>
           match wc with
           | None => MOk r
           | Some w => match update mg r [(w, BList [])] with Some r' => MOk r' | None => MFail end
           end
         end.

  (** lines 336-349: recording the wildcard at the end of [match] *)
  Definition record (mg : merge) (md : mode) (wc : option nat) (e : E) (r : mdict E) : mres E :=
    match wc with
    | None => MOk r
    | Some w =>
      match set_item mg r w (if nonsingle md then BList [e] else BOne e) with
      | Some r' => MOk r'
      | None => MFail
      end
    end.

  (** [res.update(match_pattern(q, a))] with the check of [res.success]:
      lines 306-308 and 320-322 *)
  Definition step (mg : merge) (f : E -> mres E) (a : E) (r : mdict E) : mres E :=
    match f a with
    | MOk m => match update mg r m with Some r' => MOk r' | None => MFail end
    | x => x
    end.
  (** the loop of lines 304-308 while the generator [extended_arg_patterns]
      (lines 228-244) keeps yielding the same non-single pattern *)
  Fixpoint many (mg : merge) (f : E -> mres E) (as_ : list E) (r : mdict E) : mres E :=
    match as_ with
    | [] => MOk r
    | a :: as' => match step mg f a r with MOk r' => many mg f as' r' | x => x end
    end.
  (** lines 303-317: loop over the patterns (given by mode, wildcard and
      matching function, in iteration order) and the arguments *)
  Fixpoint loop (mg : merge) (fs : list (mode * option nat * (E -> mres E))) (cur : bool)
           (as_ : list E) (r : mdict E) : mres E :=
    match fs with
    | [] => match as_ with [] => MOk r | _ => MFail end
    | (md, wc, f) :: fs' =>
      match as_ with
      | [] => check_last mg cur md wc r
      | a :: as' =>
        if nonsingle md then many mg f as_ r
        else match step mg f a r with MOk r' => loop mg fs' true as' r' | x => x end
      end
    end.

  Fixpoint lookup (k : nat) (l : list (nat * E)) : option E :=
    match l with [] => None | (k', v) :: l' => if k =? k' then Some v else lookup k l' end.
  (** lines 318-322; [expr.kwargs] is only evaluated when [self.kwargs] is not empty *)
  Fixpoint kwloop (mg : merge) (fs : list (nat * (E -> mres E))) (have : option (list (nat * E)))
           (r : mdict E) : mres E :=
    match fs with
    | [] => MOk r
    | (k, f) :: fs' =>
      match have with
      | None => MFail
      | Some kw => match lookup k kw with
                   | None => MFail
                   | Some v => match step mg f v r with MOk r' => kwloop mg fs' have r' | x => x end
                   end
      end
    end.

  (** lines 270-349 Pattern.match and lines 612-631 match_pattern *)
  Fixpoint pmatch (p : pat E) (e : E) {struct p} : mres E :=
    match p with
    | PExpr e' => if E_eqb e' e then MOk [] else MFail
    | Pat head args kwargs md wc conds =>
      let mg := merge_of args in
      if negb (match head with None => true | Some h => isinst e h end) then MFail
      else if negb (forallb (fun c => cond c e) conds) then MFail
      else
        match
          match args with
          | None => MOk []
          | Some ps =>
            match eargs e with
            | None => MFail
            | Some as_ =>
              loop mg (iterate args (map (fun q => (mode_of q, wc_of q, pmatch q)) ps)) false
                   (iterate args as_) []
            end
          end
        with
        | MOk r =>
          match
            match kwargs with
            | None => MOk r
            | Some ks => kwloop mg (map (fun kq => (fst kq, pmatch (snd kq))) ks) (ekwargs e) r
            end
          with
          | MOk r' => record mg md wc e r'
          | x => x
          end
        | x => x
        end
    end.
End Match.

(** lines 168-226 Pattern.__init__: only the first or last argument may be
    non-single (otherwise ValueError) *)
Definition init_ok {E} (args : list (pat E)) : bool :=
  forallb (fun i => negb (nonsingle (mode_of (nth i args (Pat None None None Single None []))))
                    || (i =? 0) || (length args - 1 <=? i)) (seq 0 (length args)).
