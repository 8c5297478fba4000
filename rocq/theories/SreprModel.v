(** srepr: printing an expression as text that Python can evaluate,
    /repo/src/qnet/printing/base.py (doprint and the cache),
    /repo/src/qnet/printing/_render_head_repr.py and
    /repo/src/qnet/printing/sreprprinter.py; the keyword arguments of Hilbert spaces,
    /repo/src/qnet/algebra/core/hilbert_space_algebra.py and
    /repo/src/qnet/algebra/library/spin_algebra.py.
    Simplifications: text is a list of tokens and spaces (names, keywords, string
    literals and the texts of numbers and SymPy objects are single tokens), a multi-line
    text is a list of lines with their indentation in units of four spaces; ndarrays are
    not modelled. *)
From Verif Require Import Prelude.

(** printed objects: instances of Singleton classes (by name); Expressions with their
    positional arguments [args] and [minimal_kwargs]; tuples; lists; numbers and SymPy
    objects; strings *)
Inductive px :=
| XSing (name : nat)
| XExpr (head : nat) (args : list px) (kw : list (nat * px))
| XTup (l : list px)
| XList (l : list px)
| XLeaf (n : nat)
| XStr (s : nat).

Inductive tok := TName (n : nat) | TKey (k : nat) | TLeaf (n : nat) | TStr (s : nat)
| TLp | TRp | TLb | TRb | TComma | TEq | TSp.

Definition is_tuple (x : px) : bool := match x with XTup _ => true | _ => false end.
(** lists (and tuples containing them) cannot be keys of a dict; strings are not cached,
    base.py:212-213 *)
Fixpoint hashable (x : px) : bool :=
  match x with XList _ => false | XTup l => forallb hashable l | _ => true end.
Definition cacheable (x : px) : bool := match x with XStr _ => false | _ => hashable x end.

(** [", ".join(l)] *)
Fixpoint join (l : list (list tok)) : list tok :=
  match l with [] => [] | [s] => s | s :: l' => s ++ TComma :: TSp :: join l' end.
(** the delimiters of a sequence: _render_head_repr.py:50-60 *)
Definition seq_text (o c : tok) (l : list (list tok)) : list tok :=
  o :: join l ++ (match l with [_] => [TComma; c] | _ => [c] end).
(** [head(args, key=value, ...)]: _render_head_repr.py:26, 36-49 *)
Definition call_text (h : nat) (args : list (list tok)) (kw : list (nat * list tok)) : list tok :=
  TName h :: TLp :: join args
  ++ (match kw with
      | [] => []
      | _ => (match args with [] => [] | _ => [TComma; TSp] end) ++ join (map (fun p => TKey (fst p) :: TEq :: snd p) kw)
      end) ++ [TRp].

Section Print.
Context (peq : px -> px -> bool).                (* Python's == (on hashable objects) *)

Definition cache := list (px * list tok).
Definition lookup {A} (c : list (px * A)) (x : px) : option A := option_map snd (find (fun p => peq (fst p) x) c).
(** [cache[expr] = res]: an equal key keeps its place, base.py:121-129 *)
Fixpoint store {A} (c : list (px * A)) (x : px) (s : A) : list (px * A) :=
  match c with
  | [] => [(x, s)]
  | p :: c' => if peq (fst p) x then (fst p, s) :: c' else p :: store c' x s
  end.

(** QnetSReprPrinter: [pr true] is doprint (base.py:172-219), [pr false] is
    emptyPrinter = render_head_repr(expr, sub_render=self.doprint)
    (sreprprinter.py:27-29, _render_head_repr.py:11-62), which renders the members of
    tuples and lists by itself and everything else by doprint *)
Fixpoint pr (cached : bool) (c : cache) (x : px) {struct x} : cache * list tok :=
  match (if cached && cacheable x then lookup c x else None) with
  | Some s => (c, s)
  | None =>
    let '(c1, s) :=
      match x with
      | XSing n => (c, [TName n])
      | XExpr h args kw =>
        let '(c1, ss) := (fix go c l := match l with
                          | [] => (c, [])
                          | y :: l' => let '(c1, s) := pr true c y in let '(c2, ss) := go c1 l' in (c2, s :: ss)
                          end) c args in
        let '(c2, ks) := (fix go c (l : list (nat * px)) := match l with
                          | [] => (c, [])
                          | (k, y) :: l' => let '(c1, s) := pr true c y in let '(c2, ss) := go c1 l' in (c2, (k, s) :: ss)
                          end) c1 kw in
        (c2, call_text h ss ks)
      | XTup l =>
        let '(c1, ss) := (fix go c l := match l with
                          | [] => (c, [])
                          | y :: l' => let '(c1, s) := pr false c y in let '(c2, ss) := go c1 l' in (c2, s :: ss)
                          end) c l in
        (c1, seq_text TLp TRp ss)
      | XList l =>
        let '(c1, ss) := (fix go c l := match l with
                          | [] => (c, [])
                          | y :: l' => let '(c1, s) := pr false c y in let '(c2, ss) := go c1 l' in (c2, s :: ss)
                          end) c l in
        (c1, seq_text TLb TRb ss)
      | XLeaf n => (c, [TLeaf n])
      | XStr s => (c, [TStr s])
      end in
    if cached && cacheable x then (store c1 x s, s) else (c1, s)
  end.

(** srepr(expr, cache=...), printing/__init__.py:494-543 *)
Definition srepr (c : cache) (x : px) : list tok := snd (pr true c x).

(** ** the indented form *)
Definition lines := list (nat * list tok).
Definition icache := list (px * lines).
Definition indent (n : nat) (l : lines) : lines := map (fun p => (n + fst p, snd p)) l.
(** textwrap.dedent removes the common indentation *)
Definition margin (l : lines) : nat := match l with [] => 0 | p :: l' => fold_left (fun m q => Nat.min m (fst q)) l' (fst p) end.
Definition dedent (l : lines) : lines := map (fun p => (fst p - margin l, snd p)) l.
(** [text + t] for a text of several lines *)
Definition add_end (l : lines) (t : list tok) : lines :=
  match rev l with [] => [] | (i, s) :: r => rev ((i, s ++ t) :: r) end.
(** drop the last character, a comma *)
Definition drop_end (l : lines) : lines :=
  match rev l with [] => [] | (i, s) :: r => rev ((i, removelast s) :: r) end.
(** ["    " * n + key + '=' + text.lstrip()] *)
Definition key_line (n k : nat) (l : lines) : lines :=
  match l with [] => [(n, [TKey k; TEq])] | (_, s) :: l' => (n, TKey k :: TEq :: s) :: l' end.

(** render_head_repr(v) with its default arguments *)
Fixpoint flat (x : px) : list tok :=
  match x with
  | XSing n => [TName n]
  | XExpr h args kw => call_text h (map flat args) (map (fun p : nat * px => (fst p, flat (snd p))) kw)
  | XTup l => seq_text TLp TRp (map flat l)
  | XList l => seq_text TLb TRb (map flat l)
  | XLeaf n => [TLeaf n]
  | XStr s => [TStr s]
  end.

(** IndentedSReprPrinter.doprint at print level [n] (base.py:172-219,
    sreprprinter.py:49-104) *)
Fixpoint ipr (n : nat) (c : icache) (x : px) {struct x} : icache * lines :=
  match (if cacheable x then lookup c x else None) with
  | Some s => (c, indent n s)
  | None =>
    let '(c1, s) :=
      match x with
      | XSing m => (c, [(n, [TName m])])
      | XExpr h args kw =>
        let '(c1, ss) := (fix go c l := match l with
                          | [] => (c, [])
                          | y :: l' => let '(c1, s) := ipr (S n) c y in let '(c2, ss) := go c1 l' in (c2, add_end s [TComma] ++ ss)
                          end) c args in
        let '(c2, ks) := (fix go c (l : list (nat * px)) := match l with
                          | [] => (c, [])
                          | (k, y) :: l' => let '(c1, s) := ipr (S n) c y in let '(c2, ss) := go c1 l' in (c2, add_end (key_line (S n) k s) [TComma] ++ ss)
                          end) c1 kw in
        let ls := (n, [TName h; TLp]) :: ss ++ ks in
        let ls := match args, kw with [], [] => ls | _, _ => drop_end ls end in
        (c2, add_end ls [TRp])
      | XTup l => (c, [(n, seq_text TLp TRp (map flat l))])
      | XList l => (c, [(n, seq_text TLb TRb (map flat l))])
      | XLeaf m => (c, [(n, [TLeaf m])])
      | XStr s => (c, [(n, [TStr s])])
      end in
    if cacheable x then (store c1 x (dedent s), s) else (c1, s)
  end.
Definition srepr_indented (c : icache) (x : px) : lines := snd (ipr 0 c x).
End Print.

(** ** the keyword arguments of Hilbert spaces *)
(** LocalSpace.__init__, hilbert_space_algebra.py:212-296: what is stored. Labels and
    identifiers are numbers; [dimension = None]: no basis. [default_basis d] are the labels
    '0', ..., 'd-1'. [order_index] None is stored as infinity. *)
Record space_args := { a_label : nat; a_basis : option (list nat); a_dim : option nat; a_ids : option (list (nat * nat)); a_order : option nat }.
Record space_obj := { o_label : nat; o_basis : option (list nat); o_dim : option nat; o_ids : list (nat * nat); o_order : option nat;
  (* the keys of minimal_kwargs *) m_basis : bool; m_dim : bool; m_ids : bool; m_order : bool }.
Section Space.
Context (default_basis : nat -> list nat) (sort_ids : list (nat * nat) -> list (nat * nat)).
Definition local_space (a : space_args) : res space_obj :=
  do bd <- match a_basis a, a_dim a with
           | None, None => Ok (None, None)
           | None, Some d => Ok (Some (default_basis d), Some d)
           | Some b, None => Ok (Some b, Some (length b))
           | Some b, Some d => if d =? length b then Ok (Some b, Some d) else Err ValueError
           end;
  let ids := match a_ids a with None => [] | Some l => sort_ids l end in
  Ok {| o_label := a_label a; o_basis := fst bd; o_dim := snd bd; o_ids := ids; o_order := a_order a;
        m_basis := match a_basis a with None => false | _ => true end; m_dim := match a_dim a with None => false | _ => true end;
        m_ids := match a_ids a with None => false | _ => true end; m_order := match a_order a with None => false | _ => true end |}.
(** the call that srepr prints *)
Definition printed_args (o : space_obj) : space_args :=
  {| a_label := o_label o; a_basis := if m_basis o then o_basis o else None; a_dim := if m_dim o then o_dim o else None;
     a_ids := if m_ids o then Some (o_ids o) else None; a_order := if m_order o then o_order o else None |}.
(** SpinSpace.__init__, spin_algebra.py:74-115, for a spin of [dim] levels: [spin_basis dim]
    are the labels of the magnetic quantum numbers. Its kwargs are spin (here: [dim]),
    local_identifiers and order_index. *)
Record spin_args := { sa_label : nat; sa_spin : nat; sa_basis : option (list nat); sa_ids : option (list (nat * nat)); sa_order : option nat }.
Record spin_obj := { so_label : nat; so_spin : nat; so_basis : list nat; so_ids : list (nat * nat); so_order : option nat; ms_ids : bool; ms_order : bool }.
Context (spin_basis : nat -> list nat).
Definition spin_space (a : spin_args) : res spin_obj :=
  let b := match sa_basis a with None => spin_basis (sa_spin a) | Some b => b end in
  if sa_spin a =? length b then
    Ok {| so_label := sa_label a; so_spin := sa_spin a; so_basis := b; so_ids := match sa_ids a with None => [] | Some l => sort_ids l end; so_order := sa_order a;
          ms_ids := match sa_ids a with None => false | _ => true end; ms_order := match sa_order a with None => false | _ => true end |}
  else Err ValueError.
Definition printed_spin_args (o : spin_obj) : spin_args :=
  {| sa_label := so_label o; sa_spin := so_spin o; sa_basis := None; sa_ids := if ms_ids o then Some (so_ids o) else None; sa_order := if ms_order o then so_order o else None |}.
End Space.
