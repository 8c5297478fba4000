(** Specification of pattern matching, written as a declarative relation that
    never mentions the matching loop, the dictionary or its merge modes.

    [sigma] is an assignment of wildcard names to what they stand for. An
    expression matches a pattern under [sigma] when head, conditions and keyword
    arguments match and the positional arguments can be cut into consecutive
    segments, one per sub-pattern: exactly one argument for a single pattern, at
    least one for one-or-more, any number for zero-or-more; each argument of a
    segment matches the sub-pattern and a named sub-pattern is assigned exactly
    its segment. *)
From Verif Require Import Prelude PatModel.

Definition count_ok (m : mode) (n : nat) : Prop :=
  match m with Single => n = 1 | OneOrMore => 1 <= n | ZeroOrMore => True end.
(** what a wildcard that consumed the segment [seg] stands for *)
Definition value_of {E} (m : mode) (seg : list E) (v : binding E) : Prop :=
  match m with Single => exists a, seg = [a] /\ v = BOne a | _ => v = BList seg end.
Definition assigned {E} (sigma : nat -> option (binding E)) (wc : option nat) (m : mode) (seg : list E) : Prop :=
  match wc with
  | None => True
  | Some w => exists v, sigma w = Some v /\ value_of m seg v
  end.

Section Spec.
  Context {E : Type} (eargs : E -> option (list E)) (ekwargs : E -> option (list (nat * E)))
          (isinst : E -> nat -> bool) (cond : nat -> E -> bool)
          (sigma : nat -> option (binding E)).

  Fixpoint segmented (ps : list (mode * option nat * (E -> Prop))) (as_ : list E) : Prop :=
    match ps with
    | [] => as_ = []
    | (m, wc, P) :: ps' =>
      exists seg rest, as_ = seg ++ rest /\ count_ok m (length seg) /\ Forall P seg
                       /\ assigned sigma wc m seg /\ segmented ps' rest
    end.

  (** everything except the pattern's own wildcard *)
  Fixpoint shape (p : pat E) (e : E) {struct p} : Prop :=
    match p with
    | PExpr e' => e' = e
    | Pat head args kwargs _ _ conds =>
      match head with None => True | Some h => isinst e h = true end
      /\ Forall (fun c => cond c e = true) conds
      /\ match args with
         | None => True
         | Some ps => exists as_, eargs e = Some as_
                                  /\ segmented (map (fun q => (mode_of q, wc_of q, shape q)) ps) as_
         end
      /\ match kwargs with
         | None => True
         | Some ks =>
           Forall (fun kq => exists kw v, ekwargs e = Some kw /\ lookup (fst (fst kq)) kw = Some v
                                          /\ snd kq v
                                          /\ assigned sigma (wc_of (snd (fst kq))) (mode_of (snd (fst kq))) [v])
                  (map (fun kq => (kq, shape (snd kq))) ks)
         end
    end.

  Definition matches (p : pat E) (e : E) : Prop :=
    shape p e /\ assigned sigma (wc_of p) (mode_of p) [e].
End Spec.

(** Names of the list-valued wildcards occurring in a pattern. *)
Fixpoint list_names {E} (p : pat E) : list nat :=
  match p with
  | PExpr _ => []
  | Pat _ args kwargs md wc _ =>
    (if nonsingle md then match wc with Some w => [w] | None => [] end else [])
      ++ match args with None => [] | Some ps => concat (map list_names ps) end
      ++ match kwargs with None => [] | Some ks => concat (map (fun kq => list_names (snd kq)) ks) end
  end.

Definition disjoint (a b : list nat) : Prop := forall x, In x a -> In x b -> False.

(** Patterns inside the documented restriction: at most one argument is
    non-single, and it is the first or last one; plus: in a pattern with a
    non-single argument no name of a list-valued wildcard is used in two
    places, and the non-single argument has no list-valued wildcards inside. *)
Fixpoint pattern_ok {E} (p : pat E) : Prop :=
  match p with
  | PExpr _ => True
  | Pat _ args kwargs md wc _ =>
    let kwl := match kwargs with None => [] | Some ks => map (fun kq => list_names (snd kq)) ks end in
    let own := if nonsingle md then match wc with Some w => [w] | None => [] end else [] in
    match args with
    | None => True
    | Some ps =>
      fold_right (fun q P => pattern_ok q /\ P) True ps
      /\ (Forall (fun q => nonsingle (mode_of q) = false) ps
          \/ exists l q r, ps = l ++ q :: r /\ (l = [] \/ r = []) /\ nonsingle (mode_of q) = true
             /\ Forall (fun q => nonsingle (mode_of q) = false) (l ++ r)
             /\ list_names q = match wc_of q with Some w => [w] | None => [] end
             /\ ForallOrdPairs disjoint (own :: map list_names ps ++ kwl))
    end
    /\ match kwargs with
       | None => True
       | Some ks => fold_right (fun kq P => pattern_ok (snd kq) /\ P) True ks
       end
  end.
