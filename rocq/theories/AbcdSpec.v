(** Specification vocabulary for C57: the operators of a symbolic SLH model, linear
    combinations, displacements. *)
From Coq Require Import QArith Qcanon.
From Verif Require Import Prelude AlgSpec CAlg MatModel SlhModel OpModel OpSpec AbcdModel.
Local Open Scope nat_scope.

Section Spec.
  Context {S : scalars} {dim : nat -> option nat} (I : interp S dim).
  Local Notation value := (value I).

  (** the SLH triple of the operators that the entries stand for *)
  Definition slh_of (s : osys S) : slh I :=
    let n := length (oS s) in
    SLH (tab n n (fun i j => value (nth j (nth i (oS s) []) OZero))) (tab n 1 (fun i _ => value (nth i (oL s) OZero))) (value (oH s)).
  (** n channels, local operators on spaces of the right kind *)
  Definition sys_ok (n : nat) (s : osys S) : Prop :=
    length (oS s) = n /\ Forall (fun r => length r = n) (oS s) /\ length (oL s) = n /\
    Forall (Forall (legal I)) (oS s) /\ Forall (legal I) (oL s) /\ legal I (oH s).
  (** [sum_k c_k x_k] *)
  Fixpoint comb (cs : list S) (xs : list (A I)) : A I :=
    match cs, xs with
    | c :: cs', x :: xs' => aadd (smul (ev c) x) (comb cs' xs')
    | _, _ => a0
    end.
  (** a summand is a number times [t] *)
  Definition term_is (t s : op S) : Prop := s = t \/ exists c, s = OScal c t.

  (** a *-homomorphism that shifts the modes by their amplitudes and leaves the other
      spaces alone *)
  Record displacement (amps : list (nat * S)) (phi : A I -> A I) : Prop := {
    d_1 : phi a1 = a1;
    d_add : forall x y, phi (aadd x y) = aadd (phi x) (phi y);
    d_mul : forall x y, phi (amul x y) = amul (phi x) (phi y);
    d_smul : forall c x, phi (smul c x) = smul c (phi x);
    d_star : forall x, phi (star x) = star (phi x);
    d_mode : forall l c, In (l, c) amps -> boson (i:=I) l -> phi (idestroy l) = aadd (idestroy l) (smul (ev c) a1);
    d_other : forall h x, lives (i:=I) h x -> (forall l c, In (l, c) amps -> ~ In l h) -> phi x = x
  }.
  (** the expression depends on the displaced modes through the ladder operators only *)
  Definition atom_ladder (labels : list nat) (a : atom S) : Prop :=
    match a with ADestroy _ | ACreate _ => True | _ => apart labels (atom_space a) end.
  Fixpoint ladder_only (labels : list nat) (e : op S) : Prop :=
    match e with
    | OZero | OOne => True
    | OAtom a => atom_ladder labels a
    | OScal _ t => ladder_only labels t
    | OPlus l | OTimes l => fold_right (fun x P => ladder_only labels x /\ P) True l
    | OComm a b => ladder_only labels a /\ ladder_only labels b
    | OAdj a | OPM _ a => ladder_only labels a
    | OTr _ _ => False
    end.
End Spec.
