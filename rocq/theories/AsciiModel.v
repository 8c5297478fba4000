(** The text of operators, kets and bras: QnetAsciiPrinter with the default settings.
    /repo/src/qnet/printing/asciiprinter.py, _precedence.py, base.py:148-202.
    The text is a list of symbols (tokens): a name with its space and arguments, "H" for the
    dagger, "+", "-", "*", brackets, kets and bras with their label and space, the text of a
    number. How the tokens are spelled, blanks and line breaks are not modelled, nor are
    indexed sums, derivatives, pseudo-inverses, kets with inner sums, and the unicode and
    LaTeX printers that inherit from this class. The printer's cache is transparent. *)
From Coq Require Import QArith Qcanon.
From Verif Require Import Prelude OpModel KetModel.
Local Open Scope nat_scope.

(** the label between "|" and ">": basis states of several spaces, a coherent amplitude,
    a symbol with its arguments *)
Inductive kname (S : Type) :=
| NBasis (l : list (nat * nat))
| NCoh (u : S) (ls : nat)
| NSym (label : nat) (h : list nat) (args : list S).
Arguments NBasis {S} l. Arguments NCoh {S} u ls. Arguments NSym {S} label h args.
Inductive token (S : Type) :=
| TNum (c : S)                 (* the text of a number that is not a sum and has no sign *)
| T0 | T1
| TOp (label : nat) (h : list nat) (args : list S)   (* a^(q), A^(q1*q2), D^(q)(alpha) *)
| TSig (j k l : nat)           (* |j><k|^(q) *)
| TKet (n : kname S) | TBra (n : kname S)
| TDag | TPlus | TMinus | TStar | TLp | TRp | TLb | TRb | TComma
| TTr (h : list nat)           (* tr_(q) *)
| TCC.                         (* c.c. *)
Arguments TNum {S} c. Arguments T0 {S}. Arguments T1 {S}. Arguments TOp {S} label h args. Arguments TSig {S} j k l.
Arguments TKet {S} n. Arguments TBra {S} n. Arguments TDag {S}. Arguments TPlus {S}. Arguments TMinus {S}. Arguments TStar {S}.
Arguments TLp {S}. Arguments TRp {S}. Arguments TLb {S}. Arguments TRb {S}. Arguments TComma {S}. Arguments TTr {S} h. Arguments TCC {S}.

(** labels of the local operators: fock_operators.py, spin_algebra.py, the attribute
    [_identifier] *)
Definition lab_a := 0. Definition lab_phase := 1. Definition lab_disp := 2. Definition lab_squeeze := 3.
Definition lab_jp := 4. Definition lab_jm := 5. Definition lab_jz := 6.

Section Ascii.
Context {S : scalars}.
Local Notation op := (op S).
Local Notation ket := (ket S).
Local Notation text := (list (token S)).
(** the label and the arguments (sym_args) of the symbols *)
Context (lab : nat -> nat) (sargs : nat -> list S).
(** the text of a number: a sum of signed terms; and whether precedence(c) and
    precedence(-c) are both below that of a product, asciiprinter.py:346-350 *)
Context (cterms : S -> list (bool * S)) (wrap : S -> bool).

(** precedence values of sympy: Add 40, Mul 50, Pow 60, Atom 1000 *)
Definition parens (t : text) : text := TLp :: t ++ [TRp].
(** asciiprinter.py:180-194 *)
Definition parenthesize (p level : nat) (t : text) : text := if p <? level then parens t else t.

(** asciiprinter.py:355-380: the terms with their signs, without a leading "+" *)
Definition signed (s : bool) : token S := if s then TMinus else TPlus.
Definition drop_plus (t : text) : text := match t with TPlus :: r => r | _ => t end.
Definition strip_minus (t : text) : bool * text := match t with TMinus :: r => (true, r) | _ => (false, t) end.
Definition plus_text (terms : list (nat * text)) : text :=
  drop_plus (concat (map (fun pt : nat * text => let '(s, t) := strip_minus (snd pt) in signed s :: parenthesize (fst pt) 40 t) terms)).
(** the text of a number *)
Definition num_text (c : S) : text := drop_plus (concat (map (fun sx : bool * S => [signed (fst sx); TNum (snd sx)]) (cterms c))).
Definition negative (c : S) : bool := match cterms c with (s, _) :: _ => s | [] => false end.

(** asciiprinter.py:326-353; [adj] conjugates the coefficient *)
Definition is_one_text (t : text) : bool := match t with [T1] => true | [TNum c] => seqb c s1 | _ => false end.
Definition scal_text (adj : bool) (c : S) (p : nat) (t : text) : text :=
  let t' := parenthesize p 50 t in
  if seqb c sm1 then TMinus :: t' else
  let n := num_text (if adj then sconj c else c) in
  if is_one_text t' then n else (if wrap c then parens n else n) ++ TStar :: t'.
(** asciiprinter.py:382-385 *)
Fixpoint join (sep : text) (ts : list text) : text :=
  match ts with [] => [] | [t] => t | t :: r => t ++ sep ++ join sep r end.
Definition times_text (terms : list (nat * text)) : text :=
  join [TStar] (map (fun pt => parenthesize (fst pt) 50 (snd pt)) terms).
Definition dag (d : bool) : text := if d then [TDag] else [].

(** _precedence.py:17-45, 56-61 *)
Definition oprec (e : op) : nat :=
  match e with
  | OZero | OOne | OAtom _ | OTr _ _ => 1000
  | OScal c _ => if negative c then 40 else 50
  | OPlus _ => 40
  | OTimes _ | OComm _ _ => 50
  | OAdj _ => 60
  | OPM _ _ => 39
  end.
(** asciiprinter.py:271-309, 152-178: OperatorSymbol, LocalOperator, LocalSigma *)
Definition local_text (l : nat) (h : list nat) (args : list S) (d : bool) : text := TOp l h args :: dag d.
Definition atom_text (adj : bool) (a : atom S) : text :=
  match a with
  | ASym n h => local_text (lab n) h (sargs n) adj
  | ACreate l => local_text lab_a [l] [] (negb adj)
  | ADestroy l => local_text lab_a [l] [] adj
  | ASigma j k l => if adj then [TSig k j l] else [TSig j k l]
  | APhase u l => local_text lab_phase [l] [u] adj
  | ADisp u l => local_text lab_disp [l] [u] adj
  | ASqueeze u l => local_text lab_squeeze [l] [u] adj
  | AJp l => local_text lab_jp [l] [] adj
  | AJm l => local_text lab_jm [l] [] adj
  | AJz l => local_text lab_jz [l] [] adj
  end.
(** asciiprinter.py:401-419: the adjoint of a local operator and of a symbol; the arguments
    of a symbol, and the first argument of a local operator, are left out *)
Definition adj_atom_text (adj : bool) (a : atom S) : res text :=
  let d := negb adj in
  match a with
  | ASym n h => Ok (local_text (lab n) h [] d)
  | ACreate l => Ok (local_text lab_a [l] [] (negb d))
  | ADestroy l => Ok (local_text lab_a [l] [] d)
  | ASigma _ _ _ => Err Unmodelled
  | APhase u l => Ok (local_text lab_phase [l] [] d)
  | ADisp u l => Ok (local_text lab_disp [l] [] d)
  | ASqueeze u l => Ok (local_text lab_squeeze [l] [] d)
  | AJp l => Ok (local_text lab_jp [l] [] d)
  | AJm l => Ok (local_text lab_jm [l] [] d)
  | AJz l => Ok (local_text lab_jz [l] [] d)
  end.
(** [doprint(e)], and with [adj] [doprint(e, adjoint=True)]. The printing methods of
    IdentityOperator, ZeroOperator and OperatorPlusMinusCC take no argument [adjoint].
    asciiprinter.py:311-315, 387-427 *)
Fixpoint otext (adj : bool) (e : op) : res text :=
  let go := fix go (l : list op) : res (list (nat * text)) :=
    match l with [] => Ok [] | x :: l' => do t <- otext adj x; do r <- go l'; Ok ((oprec x, t) :: r) end in
  match e with
  | OZero => if adj then Err TypeError else Ok [T0]
  | OOne => if adj then Err TypeError else Ok [T1]
  | OAtom a => Ok (atom_text adj a)
  | OScal c t => do s <- otext adj t; Ok (scal_text adj c (oprec t) s)
  | OPlus l => do ts <- go l; Ok (plus_text ts)
  | OTimes l => do ts <- go l; Ok (times_text ts)
  | OComm a b => do s <- otext false a; do t <- otext false b; Ok ([TLb] ++ s ++ [TComma] ++ t ++ [TRb] ++ dag adj)
  | OAdj (OAtom a) => adj_atom_text adj a
  | OAdj a => do s <- otext false a; Ok (if adj then s else parens s ++ [TDag])
  | OTr a h => do s <- otext adj a; Ok ([TTr h; TLb] ++ s ++ [TRb])
  | OPM plus a => if adj then Err TypeError else do s <- otext false a; Ok (parenthesize (oprec a) 39 s ++ [signed (negb plus); TCC])
  end.

(** _precedence.py:56-67 *)
Definition starts_minus (t : text) : bool := match t with TMinus :: _ => true | _ => false end.
Definition op_ket_prec (a : op) : nat := match otext false a with Ok t => if starts_minus t then 40 else 50 | Err _ => 50 end.
Definition kprec (k : ket) : nat :=
  match k with
  | KZero | KTriv | KBasis _ _ | KCoh _ _ | KSym _ _ => 1000
  | KScal c _ => if negative c then 40 else 50
  | KPlus _ => 40
  | KTensor _ => 50
  | KOp a _ => op_ket_prec a
  end.
(** asciiprinter.py:438-494 *)
Definition kt (adj : bool) (n : kname S) : text := if adj then [TBra n] else [TKet n].
Fixpoint basis_labels (l : list ket) : option (list (nat * nat)) :=
  match l with
  | [] => Some []
  | KBasis j s :: l' => match basis_labels l' with Some r => Some ((j, s) :: r) | None => None end
  | _ => None
  end.
(** [doprint(k)], and with [adj] [doprint(Bra(k))] = [doprint(k, adjoint=True)], lines 615-616.
    OperatorTimesKet: lines 496-507. The label of a product of basis states
    lists the labels in the order of the spaces; the tokens pair each label with its space *)
Fixpoint ktext (adj : bool) (k : ket) : res text :=
  let go := fix go (l : list ket) : res (list (nat * text)) :=
    match l with [] => Ok [] | x :: l' => do t <- ktext adj x; do r <- go l'; Ok ((kprec x, t) :: r) end in
  match k with
  | KZero => Ok [T0]
  | KTriv => Ok [T1]
  | KBasis j l => Ok (kt adj (NBasis [(j, l)]))
  | KCoh u l => Ok (kt adj (NCoh u l))
  | KSym n h => Ok (kt adj (NSym (lab n) h (sargs n)))
  | KScal c t => do s <- ktext adj t; Ok (scal_text adj c (kprec t) s)
  | KPlus l => do ts <- go l; Ok (plus_text ts)
  | KTensor l => match basis_labels l with Some n => Ok (kt adj (NBasis n)) | None => do ts <- go l; Ok (times_text ts) end
  | KOp a t =>
      let p := op_ket_prec a in
      do s <- otext adj a; do u <- ktext adj t;
      let s' := parenthesize (oprec a) p s in let u' := parenthesize (kprec t) p u in
      Ok (if adj then u' ++ s' else s' ++ u')
  end.
End Ascii.
