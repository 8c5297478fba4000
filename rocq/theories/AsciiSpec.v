(** Reading a text: the usual rules of precedence. "^H" binds strongest, then products and
    the application of an operator to a ket, then sums; "c.c." is the adjoint of what stands to
    its left. Independent of the printer. *)
From Coq Require Import QArith Qcanon.
From Verif Require Import Prelude AlgSpec CAlg OpModel OpSpec KetModel KetSpec AsciiModel.
Local Open Scope nat_scope.

Section Read.
  Context {S : scalars} {dim : nat -> option nat} {I : interp S dim} (W : kets I).
  (** which symbol a label with arguments stands for *)
  Context (sym_of : nat -> list S -> option nat).
  Local Notation text := (list (token S)).
  (** an operator, a ket, the bra of a ket *)
  Inductive val := VO (x : A I) | VK (v : V W) | VB (v : V W).

  Definition vadd (a b : val) : option val :=
    match a, b with
    | VO x, VO y => Some (VO (aadd x y))
    | VK x, VK y => Some (VK (va x y))
    | VB x, VB y => Some (VB (va x y))
    | _, _ => None
    end.
  Definition vneg (a : val) : val :=
    match a with VO x => VO (smul (kopp k1) x) | VK x => VK (vs (kopp k1) x) | VB x => VB (vs (kopp k1) x) end.
  Definition vdag (a : val) : val := match a with VO x => VO (star x) | VK x => VB x | VB x => VK x end.
  (** a number in front of a bra; operators act on a bra from its right *)
  Definition vmul (a b : val) : option val :=
    match a, b with
    | VO x, VO y => Some (VO (amul x y))
    | VO x, VK v => Some (VK (act x v))
    | VK u, VK v => Some (VK (vm u v))
    | VB u, VB v => Some (VB (vm u v))
    | VB u, VO x => Some (VB (act (star x) u))
    | VO x, VB u => Some (VB (act (star x) u))
    | _, _ => None
    end.
  (** a product is read from the right, a product with bras from the left *)
  Definition is_bra (a : val) : bool := match a with VB _ => true | _ => false end.
  Definition obind {X Y} (o : option X) (f : X -> option Y) : option Y := match o with Some x => f x | None => None end.
  Fixpoint rfold (l : list val) : option val :=
    match l with [] => None | [a] => Some a | a :: r => obind (rfold r) (vmul a) end.
  Fixpoint lfold (a : val) (l : list val) : option val :=
    match l with [] => Some a | b :: r => obind (vmul a b) (fun c => lfold c r) end.
  Definition product (l : list val) : option val :=
    if existsb is_bra l then match l with [] => None | a :: r => lfold a r end else rfold l.

  (** names *)
  Definition read_op (l : nat) (h : list nat) (args : list S) : option (A I) :=
    match l, h, args with
    | 0, [q], [] => Some (idestroy q)
    | 1, [q], [u] => Some (iphase (ev u) q)
    | 2, [q], [u] => Some (idisp (ev u) q)
    | 3, [q], [u] => Some (isqueeze (ev u) q)
    | 4, [q], [] => Some (ijp q)
    | 5, [q], [] => Some (ijm q)
    | 6, [q], [] => Some (ijz q)
    | _, _, _ => if l <=? 6 then None else match sym_of l args with Some n => Some (isym n h) | None => None end
    end.
  Definition read_ket (n : kname S) : option (V W) :=
    match n with
    | NBasis l => Some (vprod W (map (fun jl => ebasis (fst jl) (snd jl)) l))
    | NCoh u l => Some (act (idisp (ev u) l) (ebasis 0 l))
    | NSym l h args => match sym_of l args with Some n => Some (esym n h) | None => None end
    end.
  (** a factor may begin with this symbol *)
  Definition opens (t : token S) : bool :=
    match t with TNum _ | T0 | T1 | TOp _ _ _ | TSig _ _ _ | TKet _ | TBra _ | TLp | TLb | TTr _ => true | _ => false end.
  Fixpoint dags (v : val) (t : text) : val * text := match t with TDag :: r => dags (vdag v) r | _ => (v, t) end.

  (** sum: an optional sign, products, "+", "-", "c.c."; the first argument bounds the depth *)
  Fixpoint read_sum (n : nat) (t : text) {struct n} : option (val * text) :=
    match n with
    | 0 => None
    | Datatypes.S n =>
      match t with
      | TMinus :: r => obind (read_prod n r) (fun vr => obind (product (fst vr)) (fun v => read_more n (vneg v) (snd vr)))
      | _ => obind (read_prod n t) (fun vr => obind (product (fst vr)) (fun v => read_more n v (snd vr)))
      end
    end
  with read_more (n : nat) (acc : val) (t : text) {struct n} : option (val * text) :=
    match n with
    | 0 => None
    | Datatypes.S n =>
      match t with
      | TPlus :: TCC :: r => obind (vadd acc (vdag acc)) (fun v => read_more n v r)
      | TMinus :: TCC :: r => obind (vadd acc (vneg (vdag acc))) (fun v => read_more n v r)
      | TPlus :: r => obind (read_prod n r) (fun vr => obind (product (fst vr)) (fun v => obind (vadd acc v) (fun w => read_more n w (snd vr))))
      | TMinus :: r => obind (read_prod n r) (fun vr => obind (product (fst vr)) (fun v => obind (vadd acc (vneg v)) (fun w => read_more n w (snd vr))))
      | _ => Some (acc, t)
      end
    end
  (** the factors of a product *)
  with read_prod (n : nat) (t : text) {struct n} : option (list val * text) :=
    match n with
    | 0 => None
    | Datatypes.S n => obind (read_fac n t) (fun vr => obind (read_facs n (snd vr)) (fun fr => Some (fst vr :: fst fr, snd fr)))
    end
  with read_facs (n : nat) (t : text) {struct n} : option (list val * text) :=
    match n with
    | 0 => None
    | Datatypes.S n =>
      match t with
      | TStar :: r => read_prod n r
      | x :: _ => if opens x then read_prod n t else Some ([], t)
      | [] => Some ([], t)
      end
    end
  with read_fac (n : nat) (t : text) {struct n} : option (val * text) :=
    match n with
    | 0 => None
    | Datatypes.S n => obind (read_prim n t) (fun vr => Some (dags (fst vr) (snd vr)))
    end
  with read_prim (n : nat) (t : text) {struct n} : option (val * text) :=
    match n with
    | 0 => None
    | Datatypes.S n =>
      match t with
      | TNum c :: r => Some (VO (smul (ev c) a1), r)
      | T0 :: r => Some (VO a0, r)
      | T1 :: r => Some (VO a1, r)
      | TOp l h args :: r => obind (read_op l h args) (fun x => Some (VO x, r))
      | TSig j k l :: r => Some (VO (isigma j k l), r)
      | TKet m :: r => obind (read_ket m) (fun v => Some (VK v, r))
      | TBra m :: r => obind (read_ket m) (fun v => Some (VB v, r))
      | TLp :: r => obind (read_sum n r) (fun vr => match snd vr with TRp :: r' => Some (fst vr, r') | _ => None end)
      | TLb :: r => obind (read_sum n r) (fun vr => match snd vr with
          | TComma :: r' => obind (read_sum n r') (fun wr => match fst vr, fst wr, snd wr with
              | VO x, VO y, TRb :: r2 => Some (VO (mcomm I x y), r2) | _, _, _ => None end)
          | _ => None end)
      | TTr h :: TLb :: r => obind (read_sum n r) (fun vr => match fst vr, snd vr with VO x, TRb :: r' => Some (VO (itrace h x), r') | _, _ => None end)
      | _ => None
      end
    end.
  (** the whole text stands for [v] *)
  Definition reads (t : text) (v : val) : Prop := exists n0, forall n, n0 <= n -> read_sum n t = Some (v, []).
  Definition reads_op (t : text) (x : A I) : Prop := reads t (VO x).
  Definition reads_ket (t : text) (v : V W) : Prop := reads t (VK v).
  Definition reads_bra (t : text) (v : V W) : Prop := reads t (VB v).
End Read.
Arguments VO {S dim I W} x. Arguments VK {S dim I W} v. Arguments VB {S dim I W} v.

(** ** The expressions that are displayed faithfully *)
Section Shown.
  Context {S : scalars} (lab : nat -> nat) (sargs : nat -> list S) (cterms : S -> list (bool * S)) (wrap : S -> bool).
  (** the text of the coefficient is a single term, or it is put in parentheses *)
  Definition single (c : S) : Prop := length (cterms c) = 1.
  Definition neat (adj : bool) (c : S) : Prop := wrap c = true \/ (single (if adj then sconj c else c) /\ negative cterms (if adj then sconj c else c) = negative cterms c).
  (** not a sum written without parentheses *)
  Definition firm (adj : bool) (e : op S) : Prop := match e with OScal c OOne => single (if adj then sconj c else c) /\ negative cterms (if adj then sconj c else c) = negative cterms c | _ => True end.
  Definition no_scal (e : op S) : Prop := match e with OScal _ _ => False | _ => True end.
  (** the arguments of an adjoint symbol and of an adjoint local operator are not shown *)
  Definition bare (a : atom S) : Prop :=
    match a with ASym n _ => sargs n = [] | APhase _ _ | ADisp _ _ | ASqueeze _ _ | ASigma _ _ _ => False | _ => True end.
  (** [adj]: inside a bra, where the adjoint is displayed *)
  Fixpoint oshown (adj : bool) (e : op S) : Prop :=
    match e with
    | OZero | OOne | OAtom _ => True
    | OScal c t => neat adj c /\ no_scal t /\ oshown adj t
    | OPlus l => l <> [] /\ fold_right (fun x P => (oshown adj x /\
        match x with OPM _ _ => forall s, otext lab sargs cterms wrap false x = Ok s -> starts_minus s = false | _ => True end) /\ P) True l
    | OTimes l => 2 <= length l /\ adj = false /\ fold_right (fun x P => (oshown adj x /\ firm adj x) /\ P) True l
    | OComm a b => oshown false a /\ oshown false b
    | OAdj (OAtom a) => bare a
    | OAdj a => adj = false /\ oshown false a
    | OTr a _ => adj = false /\ oshown adj a
    | OPM _ a => oshown false a /\ match a with OPM _ _ => False | _ => True end
    end.
  Fixpoint kshown (adj : bool) (k : ket S) : Prop :=
    match k with
    | KZero | KTriv => False
    | KBasis _ _ | KCoh _ _ | KSym _ _ => True
    | KScal c t => neat adj c /\ kshown adj t
    | KPlus l => l <> [] /\ fold_right (fun x P => kshown adj x /\ P) True l
    | KTensor l => l <> [] /\ fold_right (fun x P => kshown adj x /\ P) True l
    | KOp a t => oshown adj a /\ firm adj a /\ kshown adj t /\ forall s, otext lab sargs cterms wrap false a = Ok s -> starts_minus s = false
    end.
End Shown.
(** the terms of the text of a number add up to the number; the text of -1 starts with "-" *)
Definition terms_ok {S : scalars} (R : reading S) (cterms : S -> list (bool * S)) : Prop :=
  forall c, cterms c <> [] /\ ev (r:=R) c = fold_right (fun (sx : bool * S) a => kadd (if fst sx then kopp (ev (r:=R) (snd sx)) else ev (r:=R) (snd sx)) a) k0 (cterms c)
    /\ (seqb c sm1 = true -> negative cterms c = true).
