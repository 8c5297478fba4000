(** What super-operator expressions mean: linear maps on the operators of an
    interpretation (OpSpec). Specification vocabulary for C37, C39, C40; independent of
    the simplifier. *)
From Coq Require Import QArith Qcanon.
From Verif Require Import Prelude SortModel BinModel BinSpec AlgSpec CAlg OpModel OpSpec SupModel.
Local Open Scope nat_scope.

(** linear maps *)
Definition linear_map {M : algebra} (f : A M -> A M) : Prop :=
  (forall x y, f (aadd x y) = aadd (f x) (f y)) /\ (forall c x, f (smul c x) = smul c (f x)).

(** An interpretation of the super-operator symbols by linear maps. [slives h f]:
    the map f concerns the local spaces in h only. [dual] interprets SuperAdjoint, where
    [has_dual] says that there is such an operation (see [tracing] below). *)
Record sinterp (S : scalars) (dim : nat -> option nat) := {
  si :> interp S dim;
  ssym : nat -> list nat -> A si -> A si;
  has_dual : Prop;
  dual : (A si -> A si) -> A si -> A si;
  slives : list nat -> (A si -> A si) -> Prop;
  slives_ext : forall h f g, (forall x, f x = g x) -> slives h f -> slives h g;
  slives_linear : forall h f, slives h f -> linear_map f;
  slives_incl : forall h h' f, incl h h' -> slives h f -> slives h' f;
  slives_0 : slives [] (fun _ => a0);
  slives_id : slives [] (fun x => x);
  slives_add : forall h f g, slives h f -> slives h g -> slives h (fun x => aadd (f x) (g x));
  slives_smul : forall h c f, slives h f -> slives h (fun x => smul c (f x));
  slives_comp : forall h f g, slives h f -> slives h g -> slives h (fun x => f (g x));
  slives_pre : forall h a, lives h a -> slives h (fun x => amul a x);
  slives_post : forall h a, lives h a -> slives h (fun x => amul x a);
  slives_sym : forall n h, slives h (ssym n h);
  slives_commute : forall h h' f g x, slives h f -> slives h' g -> apart h h' -> f (g x) = g (f x);
  dual_ext : forall f g, (forall x, f x = g x) -> forall x, dual f x = dual g x;
  slives_dual : forall h f, has_dual -> slives h f -> slives h (dual f);
  dual_0 : forall x, has_dual -> dual (fun _ => a0) x = a0;
  dual_id : forall x, has_dual -> dual (fun y => y) x = x;
  dual_pre : forall a x, has_dual -> dual (fun y => amul a y) x = amul x a;
  dual_post : forall a x, has_dual -> dual (fun y => amul y a) x = amul a x;
  dual_add : forall h f g x, has_dual -> slives h f -> slives h g -> dual (fun y => aadd (f y) (g y)) x = aadd (dual f x) (dual g x);
  dual_comp : forall h f g x, has_dual -> slives h f -> slives h g -> dual (fun y => f (g y)) x = dual g (dual f x);
  dual_dual : forall h f x, has_dual -> slives h f -> dual (dual f) x = f x
}.
Arguments si {S dim} s. Arguments ssym {S dim s}. Arguments has_dual {S dim} s. Arguments dual {S dim s}. Arguments slives {S dim s}.

Section Den.
  Context {S : scalars} {dim : nat -> option nat} (T : sinterp S dim).

  (** the sum and the composition of maps *)
  Definition fsum (l : list (A T -> A T)) : A T -> A T := fun x => msum T (map (fun f => f x) l).
  Definition fcomp (l : list (A T -> A T)) : A T -> A T := fun x => fold_right (fun f y => f y) x l.

  (** the map a super-operator expression stands for *)
  Fixpoint svalue (s : sop S) : A T -> A T :=
    match s with
    | SZero => fun _ => a0
    | SOne => fun x => x
    | SSym n h => ssym n h
    | SPre a => fun x => amul (value T a) x
    | SPost a => fun x => amul x (value T a)
    | SScal c t => fun x => smul (ev c) (svalue t x)
    | SPlus l => fsum (map svalue l)
    | STimes l => fcomp (map svalue l)
    | SAdj t => dual (svalue t)
    end.

  Fixpoint slegal (s : sop S) : Prop :=
    match s with
    | SZero | SOne | SSym _ _ => True
    | SPre a | SPost a => legal T a
    | SScal _ t => slegal t
    | SAdj t => has_dual T /\ slegal t
    | SPlus l | STimes l => fold_right (fun x P => slegal x /\ P) True l
    end.

  (** [s] is a legal expression for the map [f] *)
  Definition smeans (s : sop S) (f : A T -> A T) : Prop := slegal s /\ forall x, svalue s x = f x.

  (** an argument that is an operator or a number, read as an operator *)
  Definition arg_value (a : arg (S:=S)) : A T := match a with AOp b => value T b | ANum c => smul (ev c) a1 end.
  Definition arg_legal (a : arg (S:=S)) : Prop := match a with AOp b => legal T b | ANum _ => True end.

  (** expressions that stand for applications of super-operators to operators *)
  Record apps_ok (app : sop S -> op S -> option (op S)) (unapp : op S -> option (sop S * op S)) : Prop := {
    app_ok : forall s b e, app s b = Some e -> slegal s -> legal T b -> means T e (svalue s (value T b));
    unapp_ok : forall e s b, unapp e = Some (s, b) -> legal T e ->
      slegal s /\ legal T b /\ value T e = svalue s (value T b)
  }.

  (** a trace on the operators, for which [dual] is the adjoint of maps:
      Tr[M L(N)] = Tr[L*(M) N] *)
  Record tracing := {
    tr : A T -> K T;
    tr_add : forall x y, tr (aadd x y) = kadd (tr x) (tr y);
    tr_smul : forall c x, tr (smul c x) = kmul c (tr x);
    tr_cyclic : forall x y, tr (amul x y) = tr (amul y x);
    tr_faithful : forall x, (forall m, tr (amul m x) = k0) -> x = a0;
    tr_has_dual : has_dual T;
    tr_dual : forall h f m n, slives h f -> tr (amul m (f n)) = tr (amul (dual f m) n)
  }.
End Den.
Arguments tr {S dim T} t.

(** sums of multiples of [SPre(A)], [SPost(B)] and [SPre(A)*SPost(B)] *)
Inductive two_sided {S : scalars} (P : op S -> Prop) : sop S -> Prop :=
| ts_zero : two_sided P SZero
| ts_one : two_sided P SOne
| ts_pre a : P a -> two_sided P (SPre a)
| ts_post a : P a -> two_sided P (SPost a)
| ts_scal c t : two_sided P t -> two_sided P (SScal c t)
| ts_plus l : (forall x, In x l -> two_sided P x) -> two_sided P (SPlus l)
| ts_times a b : P a -> P b -> two_sided P (STimes [SPre a; SPost b]).

(** ** Reordering the factors of a product: neighbours on disjoint spaces, or a
    multiplication from the left and one from the right, change places *)
Definition left_right {S : Type} (x y : sop S) : bool :=
  match x, y with SPre _, SPost _ | SPost _, SPre _ => true | _, _ => false end.
Definition may_swap {S : Type} (x y : sop S) : Prop := apart (sspace x) (sspace y) \/ left_right x y = true.
Inductive smoves {S : Type} : list (sop S) -> list (sop S) -> Prop :=
| smv_swap pre x y post : may_swap x y -> smoves (pre ++ x :: y :: post) (pre ++ y :: x :: post)
| smv_refl l : smoves l l
| smv_trans l1 l2 l3 : smoves l1 l2 -> smoves l2 l3 -> smoves l1 l3.
Definition sorder_ok {S : Type} (ord : list (sop S) -> res (list (sop S))) : Prop :=
  forall l l', ord l = Ok l' -> smoves l l'.

(** the master equation: -i[H, rho] + sum over the collapse operators C of
    C rho C* - (C*C rho + rho C*C)/2 *)
Section Master.
  Context {M : calgebra}.
  Definition dissipator (c rho : A M) : A M :=
    aadd (amul (amul c rho) (star c))
         (smul (kopp k1) (smul khalf (aadd (amul (amul (star c) c) rho) (amul rho (amul (star c) c))))).
  Definition generator (h : A M) (cs : list (A M)) (rho : A M) : A M :=
    aadd (smul (kopp iu) (aadd (amul h rho) (smul (kopp k1) (amul rho h))))
         (fold_right (fun c s => aadd (dissipator c rho) s) a0 cs).
End Master.
