(** The mathematical objects the expressions stand for: algebras over a
    commutative ring of scalars (not necessarily commutative themselves), with an
    optional conjugation. These are records: every theorem quantifies over them. *)
From Coq Require Import List Setoid ZArith Ring_theory Ring.
Import ListNotations.

Record algebra := mk_algebra {
  K : Type; k0 : K; k1 : K; kadd : K -> K -> K; kmul : K -> K -> K; kopp : K -> K;
  kring : ring_theory k0 k1 kadd kmul (fun x y => kadd x (kopp y)) kopp eq;
  A : Type; a0 : A; a1 : A; aadd : A -> A -> A; amul : A -> A -> A; smul : K -> A -> A;
  aadd_comm : forall x y, aadd x y = aadd y x;
  aadd_assoc : forall x y z, aadd x (aadd y z) = aadd (aadd x y) z;
  aadd_0 : forall x, aadd a0 x = x;
  aadd_opp : forall x, aadd x (smul (kopp k1) x) = a0;
  amul_assoc : forall x y z, amul x (amul y z) = amul (amul x y) z;
  amul_1l : forall x, amul a1 x = x;
  amul_1r : forall x, amul x a1 = x;
  amul_addl : forall x y z, amul (aadd x y) z = aadd (amul x z) (amul y z);
  amul_addr : forall x y z, amul x (aadd y z) = aadd (amul x y) (amul x z);
  smul_1 : forall x, smul k1 x = x;
  smul_mul : forall c d x, smul (kmul c d) x = smul c (smul d x);
  smul_addl : forall c d x, smul (kadd c d) x = aadd (smul c x) (smul d x);
  smul_addr : forall c x y, smul c (aadd x y) = aadd (smul c x) (smul c y);
  smul_amul_l : forall c x y, amul (smul c x) y = smul c (amul x y);
  smul_amul_r : forall c x y, amul x (smul c y) = smul c (amul x y) }.

Arguments k0 {_}. Arguments k1 {_}. Arguments kadd {_}. Arguments kmul {_}. Arguments kopp {_}.
Arguments a0 {_}. Arguments a1 {_}. Arguments aadd {_}. Arguments amul {_}. Arguments smul {_}.

Section Laws.
  Context (M : algebra).
  Add Ring Kr : (kring M).
  Notation "x + y" := (aadd x y). Notation "x * y" := (amul x y).
  Implicit Types x y z : A M.
  Lemma aadd_0r x : x + a0 = x.
  Proof. rewrite aadd_comm. apply aadd_0. Qed.
  Lemma smul_0 x : smul k0 x = a0.
  Proof.
    rewrite <- (aadd_opp M x). rewrite <- (smul_1 M x) at 2. rewrite <- smul_addl.
    f_equal. ring.
  Qed.
  Lemma aadd_cancel_l z x y : z + x = z + y -> x = y.
  Proof.
    intros H. rewrite <- (aadd_0 M x), <- (aadd_0 M y).
    rewrite <- (aadd_opp M z). rewrite (aadd_comm M z), <- !aadd_assoc. now rewrite H.
  Qed.
  Lemma smul_zero c : smul c (@a0 M) = a0.
  Proof.
    transitivity (smul c (smul k0 (@a0 M))); [now rewrite smul_0|]. rewrite <- smul_mul.
    replace (kmul c k0) with (@k0 M) by ring. apply smul_0.
  Qed.
  Lemma amul_0l x : a0 * x = a0.
  Proof. transitivity (smul k0 (@a0 M) * x); [now rewrite smul_0|]. rewrite smul_amul_l. apply smul_0. Qed.
  Lemma amul_0r x : x * a0 = a0.
  Proof. transitivity (x * smul k0 (@a0 M)); [now rewrite smul_0|]. rewrite smul_amul_r. apply smul_0. Qed.
  Lemma aadd_perm4 x y z w : (x + y) + (z + w) = (x + z) + (y + w).
  Proof. rewrite !aadd_assoc. f_equal. rewrite <- !aadd_assoc. f_equal. apply aadd_comm. Qed.

  (** finite sums *)
  Definition asum {X} (f : X -> A M) (l : list X) : A M := fold_right (fun v s => f v + s) a0 l.
  Lemma asum_cons {X} (f : X -> A M) v l : asum f (v :: l) = f v + asum f l.
  Proof. reflexivity. Qed.
  Lemma asum_ext {X} (f g : X -> A M) l : (forall v, In v l -> f v = g v) -> asum f l = asum g l.
  Proof.
    induction l as [|v l IH]; intros H; [reflexivity|]. rewrite !asum_cons, (H v) by (now left).
    f_equal. apply IH. intros w Hw. apply H. now right.
  Qed.
  Lemma asum_app {X} (f : X -> A M) l l' : asum f (l ++ l') = asum f l + asum f l'.
  Proof.
    induction l as [|v l IH]; cbn [app]; [symmetry; apply aadd_0|]. rewrite !asum_cons, IH. apply aadd_assoc.
  Qed.
  Lemma asum_add {X} (f g : X -> A M) l : asum (fun v => f v + g v) l = asum f l + asum g l.
  Proof.
    induction l as [|v l IH]; [symmetry; apply aadd_0|]. rewrite !asum_cons, IH. apply aadd_perm4.
  Qed.
  Lemma asum_zero {X} (l : list X) : asum (fun _ => a0) l = a0.
  Proof. induction l; [reflexivity|]. rewrite asum_cons, IHl. apply aadd_0. Qed.
  Lemma asum_smul {X} c (f : X -> A M) l : asum (fun v => smul c (f v)) l = smul c (asum f l).
  Proof. induction l; [symmetry; apply smul_zero|]. rewrite !asum_cons, IHl. symmetry. apply smul_addr. Qed.
  Lemma asum_mul_r {X} (f : X -> A M) l y : asum (fun v => f v * y) l = asum f l * y.
  Proof. induction l; [symmetry; apply amul_0l|]. rewrite !asum_cons, IHl. symmetry. apply amul_addl. Qed.
  Lemma asum_mul_l {X} (f : X -> A M) l y : asum (fun v => y * f v) l = y * asum f l.
  Proof. induction l; [symmetry; apply amul_0r|]. rewrite !asum_cons, IHl. symmetry. apply amul_addr. Qed.
  Lemma asum_swap {X Y} (f : X -> Y -> A M) l l' :
    asum (fun v => asum (fun w => f v w) l') l = asum (fun w => asum (fun v => f v w) l) l'.
  Proof.
    induction l as [|v l IH]; [symmetry; apply asum_zero|]. rewrite asum_cons, IH.
    symmetry. exact (asum_add (fun w => f v w) (fun w => asum (fun v0 => f v0 w) l) l').
  Qed.
  Lemma asum_map {X Y} (f : Y -> A M) (g : X -> Y) l : asum f (map g l) = asum (fun v => f (g v)) l.
  Proof. induction l; cbn [map]; [reflexivity|]. rewrite !asum_cons, IHl. reflexivity. Qed.
  Lemma asum_flat_map {X Y} (f : Y -> A M) (g : X -> list Y) l :
    asum f (flat_map g l) = asum (fun v => asum f (g v)) l.
  Proof. induction l; cbn [flat_map]; [reflexivity|]. rewrite asum_app, asum_cons, IHl. reflexivity. Qed.

  (** integers as scalars *)
  Definition kpos (p : positive) : K M := Pos.iter_op kadd p k1.
  Definition kZ (z : Z) : K M :=
    match z with Z0 => k0 | Zpos p => kpos p | Zneg p => kopp (kpos p) end.
  Lemma kpos_succ p : kpos (Pos.succ p) = kadd k1 (kpos p).
  Proof.
    unfold kpos. rewrite Pos.iter_op_succ; [reflexivity|]. intros. ring.
  Qed.
  Lemma kZ_nat_S n : kZ (Z.of_nat (S n)) = kadd k1 (kZ (Z.of_nat n)).
  Proof.
    destruct n as [|n]; cbn [Z.of_nat kZ].
    - cbn. ring.
    - cbn [Pos.of_succ_nat]. apply kpos_succ.
  Qed.
  Lemma asum_const {X} x (l : list X) : asum (fun _ => x) l = smul (kZ (Z.of_nat (length l))) x.
  Proof.
    induction l as [|v l IH]; cbn [asum fold_right length].
    - cbn. symmetry. apply smul_0.
    - fold (asum (fun _ : X => x) l). rewrite IH, kZ_nat_S, smul_addl, smul_1. reflexivity.
  Qed.
End Laws.
Arguments asum {M X} f l.
Arguments kZ {M} z.

(** conjugation *)
Record star_algebra := mk_star {
  alg :> algebra;
  kconj : K alg -> K alg; star : A alg -> A alg;
  kconj_add : forall c d, kconj (kadd c d) = kadd (kconj c) (kconj d);
  kconj_mul : forall c d, kconj (kmul c d) = kmul (kconj c) (kconj d);
  kconj_conj : forall c, kconj (kconj c) = c;
  kconj_1 : kconj k1 = k1;
  star_add : forall x y, star (aadd x y) = aadd (star x) (star y);
  star_mul : forall x y, star (amul x y) = amul (star y) (star x);
  star_smul : forall c x, star (smul c x) = smul (kconj c) (star x);
  star_star : forall x, star (star x) = x;
  star_1 : star a1 = a1 }.
Arguments kconj {_}. Arguments star {_}.
