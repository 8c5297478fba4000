(** The simplifier as it is, and with a check on every sorting step. Vocabulary for
    C30-C36, and a concrete environment for the examples. *)
From Coq Require Import QArith Qcanon.
From Verif Require Import Prelude ListFacts SortModel SortProofs BinModel OpModel OpSpec OpForms OpOrder OpFuel OpSx OpSites OpFock OpJet.
Local Open Scope nat_scope.

Section Run.
  Context {S : scalars} (dim : nat -> option nat) (olt : op S -> op S -> bool) (slt : list nat -> list nat -> bool).
  (** the code, with recursion depth at most [n] *)
  Definition code (n : nat) : ocreators S := creators_n dim olt slt (real_order olt slt) n.
  (** the same, giving up when the sorting of the factors of a product moves an
      operator past one that shares a local space with it *)
  Definition checked (n : nat) : ocreators S := creators_n dim olt slt (careful_order olt slt) n.
End Run.

(** ** An environment *)
Fixpoint lexlt (a b : list nat) : bool :=
  match a, b with
  | [], [] => false
  | [], _ => true
  | _, [] => false
  | x :: a', y :: b' => if x <? y then true else if y <? x then false else lexlt a' b'
  end.
Lemma lexlt_asym a : forall b, lexlt a b = true -> lexlt b a = false.
Proof.
  induction a as [|x a IH]; intros [|y b]; cbn [lexlt]; try discriminate; try reflexivity.
  destruct (Nat.ltb_spec x y), (Nat.ltb_spec y x); try lia; try discriminate; try reflexivity. apply IH.
Qed.
Lemma lexlt_neg a : forall b c, lexlt a b = false -> lexlt b c = false -> lexlt a c = false.
Proof.
  induction a as [|x a IH]; intros [|y b] [|z c]; cbn [lexlt]; try discriminate; try reflexivity.
  destruct (Nat.ltb_spec x y), (Nat.ltb_spec y x), (Nat.ltb_spec y z), (Nat.ltb_spec z y), (Nat.ltb_spec x z), (Nat.ltb_spec z x); try lia; try discriminate; try reflexivity. apply IH.
Qed.
Lemma lexlt_total a : forall b, a <> b -> lexlt a b = true \/ lexlt b a = true.
Proof.
  induction a as [|x a IH]; intros [|y b] H; cbn [lexlt]; auto; try contradiction.
  destruct (Nat.ltb_spec x y), (Nat.ltb_spec y x); auto. assert (x = y) by lia. subst y. apply IH. congruence.
Qed.
Lemma lexlt_trans a b c : lexlt a b = true -> lexlt b c = true -> lexlt a c = true.
Proof.
  intros H1 H2. destruct (lexlt a c) eqn:E; [reflexivity|]. pose proof (lexlt_asym _ _ H1) as H3. pose proof (lexlt_neg _ _ _ H3 E) as H4. congruence.
Qed.
(** expressions as lists of numbers *)
Definition atom_code (a : atom Sx) : list nat :=
  match a with
  | ASym n h => 0 :: n :: h
  | ACreate l => [1; l]
  | ADestroy l => [2; l]
  | ASigma j k l => [3; j; k; l]
  | APhase _ l => [4; l]
  | ADisp _ l => [5; l]
  | ASqueeze _ l => [6; l]
  | AJp l => [7; l]
  | AJm l => [8; l]
  | AJz l => [9; l]
  end.
Fixpoint op_code (e : op Sx) : list nat :=
  let go := fix go (l : list (op Sx)) : list nat := match l with [] => [99] | x :: l' => op_code x ++ go l' end in
  match e with
  | OZero => [10]
  | OOne => [11]
  | OAtom a => 12 :: atom_code a
  | OScal _ t => 13 :: op_code t
  | OPlus l => 14 :: go l
  | OTimes l => 15 :: go l
  | OComm a b => 16 :: op_code a ++ op_code b
  | OAdj a => 17 :: op_code a
  | OTr a h => 18 :: op_code a ++ h
  | OPM s a => 19 :: op_code a
  end.
Definition xolt (a b : op Sx) : bool := lexlt (op_code a) (op_code b).
Definition xslt (a b : list nat) : bool := lexlt a b.
Lemma good_x : good_orders xolt xslt.
Proof.
  constructor; unfold xolt, xslt; intros.
  - now apply lexlt_asym.
  - eapply lexlt_neg; eassumption.
  - now apply lexlt_total.
  - now apply lexlt_asym.
  - eapply lexlt_trans; eassumption.
Qed.
(** spaces 0 to 4 are oscillators, the spaces from 5 on have three levels *)
Definition xdim (l : nat) : option nat := if l <? 5 then None else Some 3.
Definition xboson (l : nat) : bool := l <? 5.
Lemma xboson_dim l : xboson l = true -> xdim l = None.
Proof. unfold xboson, xdim. now intros ->. Qed.
Definition xv (n : nat) : Cplx.cx := Cplx.c1.
Definition xfock : interp Sx xdim := fock (sx_reading xv) xdim xboson xboson_dim.
Definition xjet : interp Sx xdim := jet (sx_reading xv) xdim xboson xboson_dim.
Definition xcode (n : nat) : ocreators Sx := code xdim xolt xslt n.
Definition xchecked (n : nat) : ocreators Sx := checked xdim xolt xslt n.

(** symbols on spaces, and shorthands *)
Definition sym (n : nat) (h : list nat) : op Sx := OAtom (ASym n h).
Definition num (z : Z) : Sx := XQ (qz z).
Definition x_a (l : nat) : op Sx := OAtom (ADestroy l).
Definition x_ad (l : nat) : op Sx := OAtom (ACreate l).
(** a computed expression is the given one *)
Definition is_ok (r : res (op Sx)) (e : op Sx) : bool := match r with Ok e' => oeqb e' e | Err _ => false end.
Definition fails (r : res (op Sx)) (x : exn) : Prop := r = Err x.
