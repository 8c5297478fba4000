(** How Python reads the text that srepr prints: the grammar of calls, tuples, lists
    and names, as a recursive-descent parser on tokens. [env] gives the values of the
    variables defined in the context of the evaluation; other names alone are the
    names of singletons. Parentheses around one value without a comma are not a tuple;
    positional arguments come before keyword arguments; a comma may follow the last
    argument or member. *)
From Verif Require Import Prelude SreprModel.

Definition spaceless (l : list tok) : list tok := filter (fun t => match t with TSp => false | _ => true end) l.

Section Parse.
Context (env : nat -> option px).
Fixpoint parse (fuel : nat) (ts : list tok) {struct fuel} : option (px * list tok) :=
  match fuel with
  | 0 => None
  | S f =>
    match ts with
    | TName h :: TLp :: r => match parse_args f r with Some (args, kw, r') => Some (XExpr h args kw, r') | None => None end
    | TName n :: r => Some (match env n with Some v => v | None => XSing n end, r)
    | TLeaf n :: r => Some (XLeaf n, r)
    | TStr s :: r => Some (XStr s, r)
    | TLp :: TRp :: r => Some (XTup [], r)
    | TLp :: r =>
      match parse f r with
      | Some (x, TRp :: r') => Some (x, r')
      | Some (x, TComma :: r') => match parse_members f TRp r' with Some (l, r'') => Some (XTup (x :: l), r'') | None => None end
      | _ => None
      end
    | TLb :: r => match parse_members f TRb r with Some (l, r') => Some (XList l, r') | None => None end
    | _ => None
    end
  end
with parse_members (fuel : nat) (close : tok) (ts : list tok) {struct fuel} : option (list px * list tok) :=
  match fuel with
  | 0 => None
  | S f =>
    match ts, close with
    | TRp :: r, TRp | TRb :: r, TRb => Some ([], r)
    | _, _ =>
      match parse f ts with
      | Some (x, TComma :: r) => match parse_members f close r with Some (l, r') => Some (x :: l, r') | None => None end
      | Some (x, TRp :: r) => match close with TRp => Some ([x], r) | _ => None end
      | Some (x, TRb :: r) => match close with TRb => Some ([x], r) | _ => None end
      | _ => None
      end
    end
  end
with parse_args (fuel : nat) (ts : list tok) {struct fuel} : option (list px * list (nat * px) * list tok) :=
  match fuel with
  | 0 => None
  | S f =>
    match ts with
    | TRp :: r => Some ([], [], r)
    | TKey _ :: _ => match parse_keys f ts with Some (kw, r) => Some ([], kw, r) | None => None end
    | _ =>
      match parse f ts with
      | Some (x, TComma :: r) => match parse_args f r with Some (args, kw, r') => Some (x :: args, kw, r') | None => None end
      | Some (x, TRp :: r) => Some ([x], [], r)
      | _ => None
      end
    end
  end
with parse_keys (fuel : nat) (ts : list tok) {struct fuel} : option (list (nat * px) * list tok) :=
  match fuel with
  | 0 => None
  | S f =>
    match ts with
    | TRp :: r => Some ([], r)
    | TKey k :: TEq :: r =>
      match parse f r with
      | Some (x, TComma :: r') => match parse_keys f r' with Some (kw, r'') => Some ((k, x) :: kw, r'') | None => None end
      | Some (x, TRp :: r') => Some ([(k, x)], r')
      | _ => None
      end
    | _ => None
    end
  end.
(** the value of a complete text (for any depth of recursion from some depth on) *)
Definition reads (ts : list tok) (x : px) : Prop := exists f0, forall f, f0 <= f -> parse f (spaceless ts) = Some (x, []).
End Parse.

(** the text of several lines (line ends and indentation are white space) *)
Definition text_of (l : lines) : list tok := concat (map (fun p : nat * list tok => repeat TSp (4 * fst p) ++ snd p ++ [TSp]) l).

(** the objects that are printed: the expression and, recursively, its arguments and
    the members of tuples and lists *)
Fixpoint parts (x : px) : list px :=
  x :: match x with
       | XExpr _ args kw => flat_map parts args ++ flat_map (fun p : nat * px => parts (snd p)) kw
       | XTup l | XList l => flat_map parts l
       | _ => []
       end.

(** the layout of the indented form: every argument on lines of its own, one step deeper
    than the call; commas and the closing parenthesis at ends of lines *)
Definition glue (l : lines) (t : list tok) : lines := removelast l ++ match last l (0, []) with (i, s) => [(i, s ++ t)] end.
Fixpoint commas (items : list lines) : lines :=
  match items with [] => [] | [l] => l | l :: items' => glue l [TComma] ++ commas items' end.
Definition keyed (k : nat) (l : lines) : lines := match l with [] => [] | (i, s) :: l' => (i, TKey k :: TEq :: s) :: l' end.
Fixpoint layout (n : nat) (x : px) : lines :=
  match x with
  | XExpr h args kw =>
    glue ((n, [TName h; TLp]) :: commas (map (layout (S n)) args ++ map (fun p : nat * px => keyed (fst p) (layout (S n) (snd p))) kw)) [TRp]
  | _ => [(n, flat x)]
  end.
