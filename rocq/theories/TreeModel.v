(** Model of substitution and of rule application on instantiated expressions,
    /repo/src/qnet/algebra/core/abstract_algebra.py lines 387-419, 532-610,
    672-790, and of ProtoExpr / findall / finditer,
    /repo/src/qnet/algebra/pattern_matching/__init__.py lines 351-388, 527-607. *)
From Verif Require Import Prelude PatModel.

(** Left-to-right evaluation of a comprehension whose body may raise. *)
Section MapM.
  Context {A B : Type} (f : A -> res B).
  Fixpoint mapMs (l : list A) : res (list B) :=
    match l with
    | [] => Ok []
    | x :: l' => do y <- f x; do ys <- mapMs l'; Ok (y :: ys)
    end.
  (** dict comprehension {key: f(val)} *)
  Fixpoint mapMkw (l : list (nat * A)) : res (list (nat * B)) :=
    match l with
    | [] => Ok []
    | (k, x) :: l' => do y <- f x; do ys <- mapMkw l'; Ok ((k, y) :: ys)
    end.
End MapM.

(** An Expression is a class (numbered) with positional and keyword arguments;
    everything else that can be an argument (numbers, labels, ...) is a leaf.
    Simplification: SymPy leaves, on which substitution calls SymPy's [subs],
    are treated like other leaves (looked up in the map). *)
Inductive expr := Leaf (v : nat) | Node (cls : nat) (args : list expr) (kwargs : list (nat * expr)).

Fixpoint expr_eqb (a b : expr) {struct a} : bool :=
  match a, b with
  | Leaf v, Leaf w => v =? w
  | Node c l k, Node c' l' k' =>
    (c =? c')
    && (fix go l l' := match l, l' with
                       | [], [] => true
                       | x :: l, y :: l' => expr_eqb x y && go l l'
                       | _, _ => false end) l l'
    && (fix go k k' := match k, k' with
                       | [], [] => true
                       | (n, x) :: k, (n', y) :: k' => (n =? n') && expr_eqb x y && go k k'
                       | _, _ => false end) k k'
  | _, _ => false
  end.

Definition var_map := list (expr * expr).
Fixpoint vlookup (m : var_map) (e : expr) : option expr :=
  match m with [] => None | (k, v) :: m' => if expr_eqb k e then Some v else vlookup m' e end.

Section Subst.
  (** [create cls args kwargs] and which classes are singletons *)
  Context (create : nat -> list expr -> list (nat * expr) -> res expr) (singleton : nat -> bool).

  (** lines 672-691 substitute(expr, var_map): an AttributeError raised while
      substituting in [expr] is caught *)
  Definition wrap (m : var_map) (e : expr) (r : res expr) : res expr :=
    match r with
    | Err AttributeError => match vlookup m e with Some t => Ok t | None => Ok e end
    | r => r
    end.
  (** lines 387-419 Expression.substitute and _substitute(safe=False), and
      lines 672-691; a leaf has no method [substitute], so line 690 is reached *)
  Fixpoint psubstitute (m : var_map) (e : expr) {struct e} : res expr :=
    wrap m e
      match e with
      | Leaf _ => Err AttributeError
      | Node c l k =>
        match vlookup m e with
        | Some t => Ok t
        | None =>
          if singleton c then Ok e
          else do l' <- mapMs (psubstitute m) l;
               do k' <- mapMkw (psubstitute m) k;
               create c l' k'
        end
      end.

  (** lines 387-396 the method (called on an Expression) *)
  Definition substitute (m : var_map) (e : expr) : res expr :=
    match e with
    | Leaf _ => Err AttributeError
    | Node c l k =>
      match vlookup m e with
      | Some t => Ok t
      | None =>
        if singleton c then Ok e
        else do l' <- mapMs (psubstitute m) l;
             do k' <- mapMkw (psubstitute m) k;
             create c l' k'
      end
    end.
End Subst.

(** ** Rule application *)
Definition eargs_of (e : expr) : option (list expr) := match e with Leaf _ => None | Node _ l _ => Some l end.
Definition ekwargs_of (e : expr) : option (list (nat * expr)) := match e with Leaf _ => None | Node _ _ k => Some k end.

(** A rule: a matching function (see PatModel for [Pattern.match]) and a replacement *)
Definition rule := ((expr -> mres expr) * (mdict expr -> res expr))%type.

Section Apply.
  Context (create : nat -> list expr -> list (nat * expr) -> res expr) (rules : list rule).

  (** lines 694-709 _apply_rules_no_recurse *)
  Fixpoint no_recurse (rs : list rule) (e : expr) : res expr :=
    match rs with
    | [] => Ok e
    | (pat, replacement) :: rs' =>
      match pat e with
      | MExc x => Err x
      | MFail => no_recurse rs' e
      | MOk m => match replacement m with
                 | Err CannotSimplify => no_recurse rs' e
                 | r => r
                 end
      end
    end.

  (** ProtoExpr, lines 527-607 of pattern_matching *)
  Record proto := Proto { pargs : list expr; pkwargs : list (nat * expr); pcls : nat }.
  Definition getitem (p : proto) (i : nat) : option expr :=
    if i <? length (pargs p) then nth_error (pargs p) i
    else nth_error (map snd (pkwargs p)) (i - length (pargs p)).
  Fixpoint set_value {A} (i : nat) (v : A) (l : list (nat * A)) : list (nat * A) :=
    match l, i with
    | [], _ => []
    | (k, _) :: l', 0 => (k, v) :: l'
    | x :: l', S i' => x :: set_value i' v l'
    end.
  Fixpoint set_at {A} (i : nat) (v : A) (l : list A) : list A :=
    match l, i with
    | [], _ => []
    | _ :: l', 0 => v :: l'
    | x :: l', S i' => x :: set_at i' v l'
    end.
  Definition setitem (p : proto) (i : nat) (v : expr) : proto :=
    if i <? length (pargs p) then Proto (set_at i v (pargs p)) (pkwargs p) (pcls p)
    else Proto (pargs p) (set_value (i - length (pargs p)) v (pkwargs p)) (pcls p).

  (** One iteration of the [while True] loop, lines 748-788. The two Python
      lists [stack] and [path] grow and shrink together and are modelled as one
      list of pairs, top first. *)
  Inductive next := Running (st : list (proto * nat)) | Done (r : res expr).
  Definition iteration (st : list (proto * nat)) : next :=
    match st with
    | [] => Done (Err IndexError)
    | (p, i) :: rest =>
      match getitem p i with
      | None =>
        match create (pcls p) (pargs p) (pkwargs p) with
        | Err x => Done (Err x)
        | Ok e =>
          match no_recurse rules e with
          | Err x => Done (Err x)
          | Ok e' =>
            match rest with
            | [] => Done (Ok e')
            | (p', j) :: rest' => Running ((setitem p' j e', S j) :: rest')
            end
          end
        end
      | Some (Node c l k) => Running ((Proto l k c, 0) :: (p, i) :: rest)
      | Some (Leaf v) =>
        match no_recurse rules (Leaf v) with
        | Err x => Done (Err x)
        | Ok e' => Running ((setitem p i e', S i) :: rest)
        end
      end
    end.
  (** [run n st]: the result if the loop returns within [n] iterations *)
  Fixpoint run (n : nat) (st : list (proto * nat)) : option (res expr) :=
    match n with
    | 0 => None
    | S n' => match iteration st with Done r => Some r | Running st' => run n' st' end
    end.

  (** lines 712-790 _apply_rules(expr, rules), within [n] loop iterations *)
  Definition apply_rules_loop (n : nat) (e : expr) : option (res expr) :=
    match e with
    | Node c l k => run n [(Proto l k c, 0)]
    | Leaf _ => Some (no_recurse rules e)
    end.
End Apply.

(** findall / finditer, lines 351-388 of pattern_matching (generators as lists) *)
Section Find.
  Context (pat : expr -> mres expr).
  Fixpoint findall (e : expr) : res (list expr) :=
    do sub <- match e with
              | Leaf _ => Ok []
              | Node _ l k =>
                do a <- mapMs findall l;
                do b <- mapMkw findall k;
                Ok (concat a ++ concat (map snd b))
              end;
    match pat e with
    | MOk _ => Ok (sub ++ [e])
    | MFail => Ok sub
    | MExc x => Err x
    end.
  Fixpoint finditer (e : expr) : res (list (mdict expr)) :=
    do sub <- match e with
              | Leaf _ => Ok []
              | Node _ l k =>
                do a <- mapMs finditer l;
                do b <- mapMkw finditer k;
                Ok (concat a ++ concat (map snd b))
              end;
    match pat e with
    | MOk m => Ok (sub ++ [m])
    | MFail => Ok sub
    | MExc x => Err x
    end.
End Find.
