(** What operator expressions mean: an interpretation in a complex *-algebra.
    Specification vocabulary for C30-C36; independent of the simplifier. *)
From Coq Require Import QArith Qcanon.
From Verif Require Import Prelude SortModel BinModel BinSpec AlgSpec CAlg OpModel.
Local Open Scope nat_scope.

(** ** Scalars *)
Record reading (S : scalars) := {
  cal :> calgebra;
  kQ : Qc -> K cal;                         (* rational numbers *)
  kexp : K cal -> K cal;                    (* the exponential function *)
  ksqrt : Qc -> K cal;                      (* square roots of rational numbers *)
  kQ_0 : kQ 0%Qc = k0;
  kQ_1 : kQ 1%Qc = k1;
  kQ_add : forall a b, kQ (a + b)%Qc = kadd (kQ a) (kQ b);
  kQ_mul : forall a b, kQ (a * b)%Qc = kmul (kQ a) (kQ b);
  kQ_real : forall a, kconj (kQ a) = kQ a;
  ksqrt_real : forall n : nat, kconj (ksqrt (qn n)) = ksqrt (qn n);
  kexp_conj : forall c, kconj (kexp c) = kexp (kconj c);
  (* the value of a coefficient *)
  ev : S -> K cal;
  ev_eq : forall a b, seqb a b = true -> ev a = ev b;
  ev_Q : forall q, ev (sQ q) = kQ q;
  ev_add : forall a b, ev (sadd a b) = kadd (ev a) (ev b);
  ev_sub : forall a b, ev (ssub a b) = kadd (ev a) (kopp (ev b));
  ev_mul : forall a b, ev (smult a b) = kmul (ev a) (ev b);
  ev_neg : forall a, ev (sneg a) = kopp (ev a);
  ev_div2 : forall a, ev (sdiv2 a) = kmul khalf (ev a);
  ev_conj : forall a, ev (sconj a) = kconj (ev a);
  ev_I : ev sI = iu;
  ev_exp : forall a, ev (sexp a) = kexp (ev a);
  ev_sqrt : forall q, ev (ssqrt q) = ksqrt q
}.
Arguments cal {S} r. Arguments kQ {S r}. Arguments kexp {S r}. Arguments ksqrt {S r}. Arguments ev {S r}.

(** disjoint sets of labels *)
Definition apart (h h' : list nat) : Prop := forall x, In x h -> ~ In x h'.

(** ** Operators. [dim] gives the number of levels of the local spaces. *)
Record interp (S : scalars) (dim : nat -> option nat) := {
  rd :> reading S;
  boson : nat -> Prop;                      (* labels of harmonic oscillators *)
  displ : nat -> Prop;                      (* ... on which displacements are defined *)
  spin : nat -> Prop;                       (* labels of spin spaces *)
  (* [lives h X]: the operator X acts on the local spaces in h only *)
  lives : list nat -> A rd -> Prop;
  isym : nat -> list nat -> A rd;
  icreate : nat -> A rd;
  idestroy : nat -> A rd;
  isigma : nat -> nat -> nat -> A rd;       (* |j><k| on a local space *)
  iphase : K rd -> nat -> A rd;
  idisp : K rd -> nat -> A rd;
  isqueeze : K rd -> nat -> A rd;
  ijp : nat -> A rd;
  ijm : nat -> A rd;
  ijz : nat -> A rd;
  itrace : list nat -> A rd -> A rd;        (* partial trace *)

  boson_dim : forall l, boson l -> dim l = None;
  displ_boson : forall l, displ l -> boson l;
  spin_dim : forall l, spin l -> exists n, dim l = Some n;

  (* operators on disjoint spaces commute *)
  lives_incl : forall h h' x, incl h h' -> lives h x -> lives h' x;
  lives_0 : lives [] a0;
  lives_1 : lives [] a1;
  lives_add : forall h x y, lives h x -> lives h y -> lives h (aadd x y);
  lives_mul : forall h x y, lives h x -> lives h y -> lives h (amul x y);
  lives_smul : forall h c x, lives h x -> lives h (smul c x);
  lives_star : forall h x, lives h x -> lives h (star x);
  lives_trace : forall h h' x, lives h x -> lives (sp_diff h h') (itrace h' x);
  lives_commute : forall h h' x y, lives h x -> lives h' y -> apart h h' -> amul x y = amul y x;
  lives_sym : forall n h, lives h (isym n h);
  lives_create : forall l, boson l -> lives [l] (icreate l);
  lives_destroy : forall l, boson l -> lives [l] (idestroy l);
  lives_sigma : forall j k l, lives [l] (isigma j k l);
  lives_phase : forall u l, boson l -> lives [l] (iphase u l);
  lives_disp : forall u l, displ l -> lives [l] (idisp u l);
  lives_squeeze : forall u l, boson l -> lives [l] (isqueeze u l);
  lives_jp : forall l, spin l -> lives [l] (ijp l);
  lives_jm : forall l, spin l -> lives [l] (ijm l);
  lives_jz : forall l, spin l -> lives [l] (ijz l);

  (* adjoints *)
  create_star : forall l, boson l -> star (icreate l) = idestroy l;
  sigma_star : forall j k l, star (isigma j k l) = isigma k j l;
  phase_star : forall u l, boson l -> star (iphase u l) = iphase (kopp (kconj u)) l;
  disp_star : forall u l, displ l -> star (idisp u l) = idisp (kopp u) l;
  squeeze_star : forall u l, boson l -> star (isqueeze u l) = isqueeze (kopp u) l;
  jp_star : forall l, spin l -> star (ijp l) = ijm l;
  jz_star : forall l, spin l -> star (ijz l) = ijz l;

  (* transition operators *)
  sigma_sigma : forall a b c d l,
    (forall n, dim l = Some n -> a < n /\ b < n /\ c < n /\ d < n) ->
    amul (isigma a b l) (isigma c d l) = if b =? c then isigma a d l else a0;

  (* harmonic oscillator *)
  ccr : forall l, boson l -> amul (idestroy l) (icreate l) = aadd a1 (amul (icreate l) (idestroy l));
  create_sigma : forall j k l, boson l ->
    amul (icreate l) (isigma j k l) = smul (ksqrt (qn (j + 1))) (isigma (j + 1) k l);
  destroy_sigma_0 : forall k l, boson l -> amul (idestroy l) (isigma 0 k l) = a0;
  destroy_sigma : forall j k l, boson l ->
    amul (idestroy l) (isigma (j + 1) k l) = smul (ksqrt (qn (j + 1))) (isigma j k l);
  phase_0 : forall l, boson l -> iphase k0 l = a1;
  phase_phase : forall u v l, boson l -> amul (iphase u l) (iphase v l) = iphase (kadd u v) l;
  destroy_phase : forall u l, boson l ->
    amul (idestroy l) (iphase u l) = smul (kexp (kmul iu u)) (amul (iphase u l) (idestroy l));
  phase_sigma : forall u j k l, boson l ->
    amul (iphase u l) (isigma j k l) = smul (kexp (kmul (kmul iu u) (kQ (qn j)))) (isigma j k l);
  disp_0 : forall l, displ l -> idisp k0 l = a1;
  disp_disp : forall u v l, displ l ->
    amul (idisp u l) (idisp v l)
    = smul (kexp (kmul khalf (kadd (kmul u (kconj v)) (kopp (kmul (kconj u) v))))) (idisp (kadd u v) l);
  destroy_disp : forall u l, displ l ->
    amul (idestroy l) (idisp u l) = amul (idisp u l) (aadd (idestroy l) (smul u a1));
  squeeze_0 : forall l, boson l -> isqueeze k0 l = a1;

  (* angular momentum: the levels of a space with n levels are m = 0 .. n-1 *)
  jp_sigma : forall n m k l, spin l -> dim l = Some n -> m < n ->
    amul (ijp l) (isigma m k l)
    = if m + 1 <? n then smul (ksqrt (qn ((m + 1) * (n - 1 - m)))) (isigma (m + 1) k l) else a0;
  jm_sigma : forall n m k l, spin l -> dim l = Some n -> m < n ->
    amul (ijm l) (isigma m k l)
    = if m =? 0 then a0 else smul (ksqrt (qn (m * (n - m)))) (isigma (m - 1) k l);
  jz_sigma : forall n m k l, spin l -> dim l = Some n -> m < n ->
    amul (ijz l) (isigma m k l) = smul (kQ (qn m - (qn n - 1) / qn 2)%Qc) (isigma m k l);
  jm_jp : forall l, spin l ->
    amul (ijm l) (ijp l) = aadd (smul (kQ (qz (-2))) (ijz l)) (amul (ijp l) (ijm l));
  jz_jp : forall l, spin l -> amul (ijz l) (ijp l) = aadd (amul (ijp l) (ijz l)) (ijp l)
}.
Arguments rd {S dim} i. Arguments boson {S dim i}. Arguments displ {S dim i}. Arguments spin {S dim i}.
Arguments lives {S dim i}. Arguments isym {S dim i}. Arguments icreate {S dim i}. Arguments idestroy {S dim i}.
Arguments isigma {S dim i}. Arguments iphase {S dim i}. Arguments idisp {S dim i}. Arguments isqueeze {S dim i}.
Arguments ijp {S dim i}. Arguments ijm {S dim i}. Arguments ijz {S dim i}. Arguments itrace {S dim i}.

Section Den.
  Context {S : scalars} {dim : nat -> option nat} (I : interp S dim).

  Definition atom_val (a : atom S) : A I :=
    match a with
    | ASym n h => isym n h
    | ACreate l => icreate l
    | ADestroy l => idestroy l
    | ASigma j k l => isigma j k l
    | APhase u l => iphase (ev u) l
    | ADisp u l => idisp (ev u) l
    | ASqueeze u l => isqueeze (ev u) l
    | AJp l => ijp l
    | AJm l => ijm l
    | AJz l => ijz l
    end.

  (** the sum, the product and the commutator of operators *)
  Definition msum (l : list (A I)) : A I := fold_right aadd a0 l.
  Definition mprod (l : list (A I)) : A I := fold_right amul a1 l.
  Definition mcomm (x y : A I) : A I := aadd (amul x y) (smul (kopp k1) (amul y x)).

  (** the operator an expression stands for *)
  Fixpoint value (e : op S) : A I :=
    match e with
    | OZero => a0
    | OOne => a1
    | OAtom a => atom_val a
    | OScal c t => smul (ev c) (value t)
    | OPlus l => msum (map value l)
    | OTimes l => mprod (map value l)
    | OComm a b => mcomm (value a) (value b)
    | OAdj a => star (value a)
    | OTr a h => itrace h (value a)
    | OPM true a => aadd (value a) (star (value a))
    | OPM false a => aadd (value a) (smul (kopp k1) (star (value a)))
    end.

  (** local operators are on spaces of the right kind, levels exist *)
  Definition level (l j : nat) : Prop := match dim l with Some d => j < d | None => True end.
  Definition legal_atom (a : atom S) : Prop :=
    match a with
    | ASym _ _ => True
    | ACreate l | ADestroy l | APhase _ l | ASqueeze _ l => boson (i:=I) l
    | ADisp _ l => displ (i:=I) l
    | ASigma j k l => level l j /\ level l k
    | AJp l | AJm l | AJz l => spin (i:=I) l
    end.
  Fixpoint legal (e : op S) : Prop :=
    match e with
    | OZero | OOne => True
    | OAtom a => legal_atom a
    | OScal _ t => legal t
    | OPlus l | OTimes l => fold_right (fun x P => legal x /\ P) True l
    | OComm a b => legal a /\ legal b
    | OAdj a | OTr a _ | OPM _ a => legal a
    end.

  (** [e] is a legal expression with value [v] *)
  Definition means (e : op S) (v : A I) : Prop := legal e /\ value e = v.
End Den.

(** ** Reordering: neighbours on disjoint spaces change places *)
Inductive moves {S : Type} : list (op S) -> list (op S) -> Prop :=
| mv_swap pre x y post : apart (space x) (space y) -> moves (pre ++ x :: y :: post) (pre ++ y :: x :: post)
| mv_refl l : moves l l
| mv_trans l1 l2 l3 : moves l1 l2 -> moves l2 l3 -> moves l1 l3.

(** a sorting step that never moves an operator past one that shares a local
    space with it *)
Definition order_ok {S : Type} (ord : list (op S) -> res (list (op S))) : Prop :=
  forall l l', ord l = Ok l' -> moves l l'.
