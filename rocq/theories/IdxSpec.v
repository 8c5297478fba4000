(** The value of an expression with indexed sums, in any algebra, for given
    values of the index symbols. *)
From Coq Require Import List ZArith.
From Verif Require Import Prelude BasisModel IdxModel AlgSpec.
Import ListNotations.

Definition env := idx -> Z.
Definition upd (e : env) (x : idx) (v : Z) : env := fun y => if idx_eqb y x then v else e y.

(** the values of a range (nothing for endless and invalid ranges, which the
    theorems exclude) *)
Definition vals (r : irange) : list Z :=
  match irange_values r with Ok (Some l) => l | _ => [] end.
Definition finite_range (r : irange) : Prop := exists l, irange_values r = Ok (Some l).

Fixpoint iden (e : env) (a : iexpr) : Z :=
  match a with
  | IVar x => e x
  | IConst z => z
  | IAdd a b => iden e a + iden e b
  | IMul c a => c * iden e a
  end.

Section Den.
  Context (M : algebra).
  (** meaning of the symbols, depending on the values of their indices *)
  Context (symI : nat -> list Z -> K M) (atomI : nat -> list Z -> A M).

  Fixpoint sden (e : env) (s : scal) : K M :=
    match s with
    | SConst z => kZ z
    | SIdx a => kZ (iden e a)
    | SSym n args => symI n (map (iden e) args)
    | SDelta a b => if (iden e a =? iden e b)%Z then k1 else k0
    | SPiece r a => match irange_one r (iden e a) with Ok 1%Z => k1 | _ => k0 end
    | SAdd l => fold_right (fun s k => kadd (sden e s) k) k0 l
    | SMul l => fold_right (fun s k => kmul (sden e s) k) k1 l
    end.
  (** the sum over all values of the indices, nested *)
  Fixpoint sum_ranges (rs : list irange_of) (f : env -> A M) (e : env) : A M :=
    match rs with
    | [] => f e
    | r :: rs' => asum (fun v => sum_ranges rs' f (upd e (fst r) v)) (vals (snd r))
    end.
  Fixpoint tden (e : env) (t : term) : A M :=
    match t with
    | TAtom n args => atomI n (map (iden e) args)
    | TScale c t => smul (sden e c) (tden e t)
    | TAdd t u => aadd (tden e t) (tden e u)
    | TMul t u => amul (tden e t) (tden e u)
    | TSum t rs => sum_ranges rs (fun e' => tden e' t) e
    end.
  Definition simp_den (e : env) (s : simp) : A M :=
    match s with Done t => tden e t | Ops t rs => tden e (TSum t rs) end.
End Den.

(** primed copies of a symbol *)
Definition primed_copy (x y : idx) : Prop := fst y = fst x /\ snd x < snd y.

(** The KroneckerDeltas relate plain indices and numbers, and the two arguments of
    each have the same possible values [V]: a summation index runs over exactly the values [V], a free index has a value in [V]. *)
Definition ranges_over (V : list Z) (e : env) (rs : list irange_of) (y : idx) : Prop :=
  (exists r, In (y, r) rs /\ forall v, In v V <-> In v (vals r)) \/ (~ In y (syms rs) /\ In (e y) V).
Definition delta_arg (V : list Z) (e : env) (rs : list irange_of) (a : iexpr) : Prop :=
  match a with IVar y => ranges_over V e rs y | IConst z => In z V | _ => False end.
Fixpoint deltas_in_range (e : env) (rs : list irange_of) (s : scal) : Prop :=
  match s with
  | SDelta a b => exists V, delta_arg V e rs a /\ delta_arg V e rs b
  | SAdd l | SMul l => fold_right (fun s P => deltas_in_range e rs s /\ P) True l
  | _ => True
  end.

Definition finite_ranges (rs : list irange_of) : Prop := Forall (fun r => finite_range (snd r)) rs.
(** every sum inside the term has distinct index symbols (IndexedSum.__init__) *)
Fixpoint wf (t : term) : Prop :=
  match t with
  | TAtom _ _ => True
  | TScale _ t => wf t
  | TAdd t u | TMul t u => wf t /\ wf u
  | TSum t rs => wf t /\ NoDup (syms rs)
  end.
(** the symbol is not bound inside the term, and no primed copy of it occurs there *)
Definition primes_fresh (x : idx) (t : term) : Prop :=
  ~ In x (tbound t) /\ forall y, primed_copy x y -> ~ In y (tfree t) /\ ~ In y (tbound t).
(** one value for every index *)
Definition one_each (rs : list irange_of) (is : list nat) : Prop :=
  Forall2 (fun i r => i < length (vals (snd r))) is rs.
Definition assignment (rs : list irange_of) (is : list nat) : list (idx * Z) :=
  map (fun p => (fst (fst p), nth (snd p) (vals (snd (fst p))) 0%Z)) (combine rs is).
Definition sizes (rs : list irange_of) : list nat := map (fun r => length (vals (snd r))) rs.
