(** What kets mean: vectors with a tensor product, on which the operators of an
    interpretation (OpSpec) act, with inner and outer products. Specification vocabulary
    for C43; independent of the simplifier. *)
From Coq Require Import QArith Qcanon.
From Verif Require Import Prelude AlgSpec CAlg OpModel OpSpec OpForms KetModel.
Local Open Scope nat_scope.

(** the same set of labels *)
Definition same_set (h h' : list nat) : Prop := forall x, In x h <-> In x h'.

Record kets {S : scalars} {dim : nat -> option nat} (I : interp S dim) := {
  V : Type;
  vz : V;                                   (* zero *)
  v1 : V;                                   (* the trivial ket *)
  va : V -> V -> V;
  vs : K I -> V -> V;
  vm : V -> V -> V;                         (* tensor product *)
  act : A I -> V -> V;
  on : list nat -> V -> Prop;               (* [on h x]: x is a ket on the local spaces h *)
  inner : list nat -> V -> V -> K I;        (* <x|y> of kets on h *)
  outer : list nat -> V -> V -> A I;        (* |x><y| of kets on h *)
  ebasis : nat -> nat -> V;                 (* basis states *)
  esym : nat -> list nat -> V;              (* symbols *)

  va_comm : forall x y, va x y = va y x;
  va_assoc : forall x y z, va x (va y z) = va (va x y) z;
  va_0 : forall x, va vz x = x;
  vs_1 : forall x, vs k1 x = x;
  vs_0 : forall x, vs k0 x = vz;
  vs_mul : forall c d x, vs (kmul c d) x = vs c (vs d x);
  vs_add : forall c d x, vs (kadd c d) x = va (vs c x) (vs d x);
  vs_addr : forall c x y, vs c (va x y) = va (vs c x) (vs c y);
  vm_comm : forall x y, vm x y = vm y x;
  vm_assoc : forall x y z, vm x (vm y z) = vm (vm x y) z;
  vm_1 : forall x, vm v1 x = x;
  vm_add : forall x y z, vm (va x y) z = va (vm x z) (vm y z);
  vm_smul : forall c x y, vm (vs c x) y = vs c (vm x y);

  act_1 : forall x, act a1 x = x;
  act_mul : forall a b x, act (amul a b) x = act a (act b x);
  act_add : forall a b x, act (aadd a b) x = va (act a x) (act b x);
  act_smul : forall c a x, act (smul c a) x = vs c (act a x);
  act_va : forall a x y, act a (va x y) = va (act a x) (act a y);
  act_vs : forall a c x, act a (vs c x) = vs c (act a x);

  on_same : forall h h' x, same_set h h' -> on h x -> on h' x;
  on_0 : forall h, on h vz;
  on_1 : on [] v1;
  on_add : forall h x y, on h x -> on h y -> on h (va x y);
  on_smul : forall h c x, on h x -> on h (vs c x);
  on_mul : forall h h' x y, apart h h' -> on h x -> on h' y -> on (h ++ h') (vm x y);
  on_act : forall h h' a x, lives h a -> incl h h' -> on h' x -> on h' (act a x);
  on_basis : forall j l, level (dim:=dim) l j -> on [l] (ebasis j l);
  on_sym : forall n h, on h (esym n h);
  (* an operator acts on the factor on its space *)
  act_local : forall h h' h'' a x y, lives h a -> incl h h' -> apart h' h'' -> on h' x -> on h'' y -> act a (vm x y) = vm (act a x) y;

  inner_same : forall h h' x y, same_set h h' -> inner h x y = inner h' x y;
  inner_add : forall h x y z, on h x -> on h y -> on h z -> inner h x (va y z) = kadd (inner h x y) (inner h x z);
  inner_smul : forall h c x y, on h x -> on h y -> inner h x (vs c y) = kmul c (inner h x y);
  inner_conj : forall h x y, on h x -> on h y -> kconj (inner h x y) = inner h y x;
  inner_act : forall h h' a x y, lives h' a -> incl h' h -> on h x -> on h y -> inner h (act a x) y = inner h x (act (star a) y);
  inner_mul : forall h h' x y x' y', apart h h' -> on h x -> on h y -> on h' x' -> on h' y' ->
    inner (h ++ h') (vm x x') (vm y y') = kmul (inner h x y) (inner h' x' y');
  inner_basis : forall j k l, level (dim:=dim) l j -> level (dim:=dim) l k -> inner [l] (ebasis j l) (ebasis k l) = if j =? k then k1 else k0;
  inner_sym : forall n h, inner h (esym n h) (esym n h) = k1;

  lives_outer : forall h x y, on h x -> on h y -> lives h (outer h x y);
  outer_apply : forall h x y z, on h x -> on h y -> on h z -> act (outer h x y) z = vs (inner h y z) x;
  outer_same : forall h h' x y, same_set h h' -> outer h x y = outer h' x y;
  outer_add : forall h x y z, on h x -> on h y -> on h z -> outer h (va x y) z = aadd (outer h x z) (outer h y z);
  outer_smul : forall h c x y, on h x -> on h y -> outer h (vs c x) y = smul c (outer h x y);
  outer_star : forall h x y, on h x -> on h y -> star (outer h x y) = outer h y x;
  outer_act : forall h h' a x y, lives h' a -> incl h' h -> on h x -> on h y -> outer h (act a x) y = amul a (outer h x y);
  outer_mul : forall h h' x y x' y', apart h h' -> on h x -> on h y -> on h' x' -> on h' y' ->
    outer (h ++ h') (vm x x') (vm y y') = amul (outer h x y) (outer h' x' y');
  outer_basis : forall j k l, level (dim:=dim) l j -> level (dim:=dim) l k -> outer [l] (ebasis j l) (ebasis k l) = isigma j k l;

  sigma_basis : forall j k m l, level (dim:=dim) l j -> level (dim:=dim) l k -> level (dim:=dim) l m ->
    act (isigma j k l) (ebasis m l) = if k =? m then ebasis j l else vz;
  (* the rotation of a coherent state by a real angle *)
  phase_coherent : forall u v l, displ (i:=I) l -> kconj u = u ->
    act (iphase u l) (act (idisp v l) (ebasis 0 l)) = act (idisp (kmul v (kexp (kmul iu u))) l) (ebasis 0 l)
}.
Arguments V {S dim I} w : rename. Arguments vz {S dim I w} : rename. Arguments v1 {S dim I w} : rename. Arguments va {S dim I w} : rename. Arguments vs {S dim I w} : rename. Arguments vm {S dim I w} : rename.
Arguments act {S dim I w} : rename. Arguments on {S dim I w} : rename. Arguments inner {S dim I w} : rename. Arguments outer {S dim I w} : rename. Arguments ebasis {S dim I w} : rename. Arguments esym {S dim I w} : rename.

Section Den.
  Context {S : scalars} {dim : nat -> option nat} {I : interp S dim} (W : kets I).
  Definition vsum (l : list (V W)) : V W := fold_right va vz l.
  Definition vprod (l : list (V W)) : V W := fold_right vm v1 l.
  (** the vector an expression stands for; a coherent state is a displaced ground state *)
  Fixpoint kvalue (k : ket S) : V W :=
    match k with
    | KZero => vz
    | KTriv => v1
    | KBasis j l => ebasis j l
    | KCoh u l => act (idisp (ev u) l) (ebasis 0 l)
    | KSym n h => esym n h
    | KScal c t => vs (ev c) (kvalue t)
    | KPlus l => vsum (map kvalue l)
    | KTensor l => vprod (map kvalue l)
    | KOp a t => act (value I a) (kvalue t)
    end.
  (** summands are kets on the same space, the factors of a product are on disjoint
      spaces, operators act on the space of the ket; ZeroKet is not part of a larger
      expression *)
  Inductive disjoint_kets : list (ket S) -> Prop :=
  | dk_nil : disjoint_kets []
  | dk_cons x l : (forall y, In y l -> apart (kspace x) (kspace y)) -> disjoint_kets l -> disjoint_kets (x :: l).
  Definition same_kets (h : list nat) (l : list (ket S)) : Prop := forall x, In x l -> x <> KZero -> same_set (kspace x) h.
  Fixpoint klegal (k : ket S) : Prop :=
    match k with
    | KZero | KTriv => True
    | KBasis j l => level (dim:=dim) l j
    | KCoh _ l => displ (i:=I) l
    | KSym _ _ => True
    | KScal _ t => t <> KZero /\ klegal t
    | KPlus l => l <> [] /\ (exists h, same_kets h l) /\ fold_right (fun x P => (x <> KZero /\ klegal x) /\ P) True l
    | KTensor l => disjoint_kets l /\ fold_right (fun x P => (x <> KZero /\ klegal x) /\ P) True l
    | KOp a t => t <> KZero /\ klegal t /\ legal I a /\ incl (space a) (kspace t)
    end.
  (** [k] is a legal expression for the ket [v] on the space [h] *)
  Definition kmeans (k : ket S) (h : list nat) (v : V W) : Prop := klegal k /\ kvalue k = v /\ (k = KZero \/ same_set (kspace k) h).
  (** the objects BraKet(a, b) and KetBra(a, b) *)
  Definition bk_ok (bk : ket S -> ket S -> S) : Prop :=
    forall a b h, klegal a -> klegal b -> same_kets h [a; b] -> ev (r:=I) (bk a b) = inner h (kvalue a) (kvalue b).
  Definition kb_ok (kb : ket S -> ket S -> op S) : Prop :=
    forall a b h, klegal a -> klegal b -> same_kets h [a; b] -> means I (kb a b) (outer h (kvalue a) (kvalue b)).

  (** Products of kets and bras. A bra stands for a linear function of kets on its space,
      an operator and a scalar for themselves. *)
  Definition apply_bra (h : list nat) (x : V W) : V W -> K I := fun y => inner h x y.
End Den.

(** kets of one local space [l], and operators on it, without tensor products *)
Fixpoint ket_of {S : scalars} (l : nat) (k : ket S) : Prop :=
  match k with
  | KZero | KTriv => True
  | KBasis _ l' | KCoh _ l' => l' = l
  | KSym _ h => h = [] \/ h = [l]
  | KScal _ t => ket_of l t
  | KPlus ks => fold_right (fun x P => ket_of l x /\ P) True ks
  | KTensor _ => False
  | KOp a t => local_to l a /\ ket_of l t
  end.
