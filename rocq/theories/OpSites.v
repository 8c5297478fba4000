(** Operators on many local systems: the value of a local system is a point of a type
    [P], a state is any complex function of the configurations, an operator is a
    linear map of states together with its adjoint. *)
From Coq Require Import Reals QArith Qcanon Ring FunctionalExtensionality.
From Verif Require Import Prelude AlgSpec CAlg Cplx OpModel OpSpec.
Local Open Scope nat_scope.
Add Ring Cr1 : cring.

Lemma cx_fold_add (l : list cx) (c : cx) : cmul c (fold_right cadd c0 l) = fold_right cadd c0 (map (cmul c) l).
Proof. induction l as [|x l IH]; cbn [fold_right map]; [ring|]. rewrite <- IH. ring. Qed.

Section Sites.
  Context (P : Type).
  Definition cfg := nat -> P.
  Definition vec := cfg -> cx.
  Definition upd (c : cfg) (l : nat) (p : P) : cfg := fun x => if x =? l then p else c x.

  Definition linear {X Y : Type} (T : (X -> cx) -> Y -> cx) : Prop :=
    forall f g k x, T (fun y => cadd (cmul k (f y)) (g y)) x = cadd (cmul k (T f x)) (T g x).
  Record lop := Lop { ap :> vec -> vec; ap_lin : linear ap }.
  Lemma lop_eq (s t : lop) : (forall f x, s f x = t f x) -> s = t.
  Proof.
    destruct s as [s Hs], t as [t Ht]. cbn. intros H. assert (s = t) as ->.
    { apply functional_extensionality. intros f. apply functional_extensionality. apply H. }
    f_equal. apply functional_extensionality_dep. intros f. apply functional_extensionality_dep. intros g.
    apply functional_extensionality_dep. intros k. apply functional_extensionality_dep. intros x. apply cx_uip.
  Qed.
  Lemma lin_add (t : lop) f g x : t (fun y => cadd (f y) (g y)) x = cadd (t f x) (t g x).
  Proof.
    transitivity (t (fun y => cadd (cmul c1 (f y)) (g y)) x); [|rewrite (ap_lin t); ring].
    f_equal. apply functional_extensionality. intros y. ring.
  Qed.
  Lemma lin_0 (t : lop) x : t (fun _ => c0) x = c0.
  Proof.
    apply cx_idem. rewrite <- lin_add. f_equal. apply functional_extensionality. intros y. ring.
  Qed.
  Lemma lin_smul (t : lop) k f x : t (fun y => cmul k (f y)) x = cmul k (t f x).
  Proof.
    transitivity (t (fun y => cadd (cmul k (f y)) c0) x).
    - f_equal. apply functional_extensionality. intros y. ring.
    - rewrite (ap_lin t f (fun _ => c0)), lin_0. ring.
  Qed.

  Program Definition l0 : lop := Lop (fun _ _ => c0) _.
  Next Obligation. intros f g k x. ring. Qed.
  Program Definition l1 : lop := Lop (fun f => f) _.
  Next Obligation. intros f g k x. reflexivity. Qed.
  Program Definition ladd (s t : lop) : lop := Lop (fun f x => cadd (s f x) (t f x)) _.
  Next Obligation. intros f g k x. rewrite (ap_lin s), (ap_lin t). ring. Qed.
  Program Definition lmul (s t : lop) : lop := Lop (fun f => s (t f)) _.
  Next Obligation.
    intros f g k x. rewrite <- (ap_lin s). f_equal. apply functional_extensionality. intros y. apply (ap_lin t).
  Qed.
  Program Definition lsmul (c : cx) (t : lop) : lop := Lop (fun f x => cmul c (t f x)) _.
  Next Obligation. intros f g k x. rewrite (ap_lin t). ring. Qed.

  (** an operator and its adjoint *)
  Definition opr := (lop * lop)%type.
  Lemma opr_eq (s t : opr) : (forall f x, fst s f x = fst t f x) -> (forall f x, snd s f x = snd t f x) -> s = t.
  Proof. destruct s, t. cbn. intros H1 H2. f_equal; now apply lop_eq. Qed.
  Definition oprs : algebra.
  Proof.
    refine (mk_algebra cx c0 c1 cadd cmul copp cring opr (l0, l0) (l1, l1)
      (fun s t => (ladd (fst s) (fst t), ladd (snd s) (snd t)))
      (fun s t => (lmul (fst s) (fst t), lmul (snd t) (snd s)))
      (fun c s => (lsmul c (fst s), lsmul (cconj c) (snd s))) _ _ _ _ _ _ _ _ _ _ _ _ _ _ _).
    - intros. apply opr_eq; intros; cbn; ring.
    - intros. apply opr_eq; intros; cbn; ring.
    - intros. apply opr_eq; intros; cbn; ring.
    - intros. apply opr_eq; intros; unfold fst, snd, ladd, lsmul, l0, ap; rewrite ?cconj_m1; ring.
    - intros. apply opr_eq; intros; reflexivity.
    - intros. apply opr_eq; intros; reflexivity.
    - intros. apply opr_eq; intros; reflexivity.
    - intros x y z. apply opr_eq; intros f c; [reflexivity|]. apply (lin_add (snd z)).
    - intros x y z. apply opr_eq; intros f c; [|reflexivity]. apply (lin_add (fst x)).
    - intros x. apply opr_eq; intros; unfold fst, snd, lsmul, ap; rewrite ?cconj_1; ring.
    - intros. apply opr_eq; intros; unfold fst, snd, lsmul, ap; rewrite ?cconj_mul; ring.
    - intros. apply opr_eq; intros; unfold fst, snd, lsmul, ladd, ap; rewrite ?cconj_add; ring.
    - intros. apply opr_eq; intros; unfold fst, snd, lsmul, ladd, ap; ring.
    - intros c x y. apply opr_eq; intros f z; [reflexivity|]. apply (lin_smul (snd y)).
    - intros c x y. apply opr_eq; intros f z; [|reflexivity]. apply (lin_smul (fst x)).
  Defined.
  Definition oprs_star : star_algebra.
  Proof.
    refine (mk_star oprs cconj (fun s => (snd s, fst s)) cconj_add cconj_mul cconj_conj cconj_1 _ _ _ _ _); intros.
    - reflexivity.
    - reflexivity.
    - cbn. now rewrite cconj_conj.
    - now destruct x.
    - reflexivity.
  Defined.
  Definition oprs_c : calgebra.
  Proof.
    refine (mk_calg oprs_star ci chalf ci_sq _ chalf_2). apply cx_eq; cbn; ring.
  Defined.

  (** ** Local operators *)
  (** every row has finitely many entries *)
  Definition entries (r : list (cx * P)) (g : P -> cx) : cx := fold_right cadd c0 (map (fun wq => cmul (fst wq) (g (snd wq))) r).
  Record lo := Lo { la :> (P -> cx) -> P -> cx; la_rows : forall p, exists r, forall g, la g p = entries r g }.
  Lemma entries_lin r g h k : entries r (fun y => cadd (cmul k (g y)) (h y)) = cadd (cmul k (entries r g)) (entries r h).
  Proof. unfold entries. induction r as [|[w q] r IH]; cbn [map fold_right fst snd]; [ring|]. rewrite IH. ring. Qed.
  Lemma lo_lin (t : lo) : linear t.
  Proof. intros g h k p. destruct (la_rows t p) as [r Hr]. rewrite !Hr. apply entries_lin. Qed.
  (** one entry in each row *)
  Program Definition mono (w : P -> cx) (q : P -> P) : lo := Lo (fun g p => cmul (w p) (g (q p))) _.
  Next Obligation. exists [(w p, q p)]. intros g. unfold entries. cbn [map fold_right fst snd]. ring. Qed.

  (** a local operator acting on the local system [l] *)
  Program Definition at_ (l : nat) (t : lo) : lop := Lop (fun f c => t (fun p => f (upd c l p)) (c l)) _.
  Next Obligation. intros f g k c. apply (lo_lin t). Qed.
  Definition both (l : nat) (t t' : lo) : A oprs_c := (at_ l t, at_ l t').

  Lemma upd_same c l p : upd c l p l = p.
  Proof. unfold upd. now rewrite Nat.eqb_refl. Qed.
  Lemma upd_other c l l' p : l' <> l -> upd c l p l' = c l'.
  Proof. intros H. unfold upd. destruct (Nat.eqb_spec l' l); [contradiction|reflexivity]. Qed.
  Lemma upd_upd c l p q : upd (upd c l p) l q = upd c l q.
  Proof. apply functional_extensionality. intros x. unfold upd. destruct (x =? l); reflexivity. Qed.
  Lemma upd_id c l : upd c l (c l) = c.
  Proof. apply functional_extensionality. intros x. unfold upd. destruct (Nat.eqb_spec x l) as [-> |]; reflexivity. Qed.
  Lemma upd_comm c l l' p q : l <> l' -> upd (upd c l p) l' q = upd (upd c l' q) l p.
  Proof.
    intros H. apply functional_extensionality. intros x. unfold upd. destruct (Nat.eqb_spec x l') as [E1|], (Nat.eqb_spec x l) as [E|]; try reflexivity.
    exfalso; congruence.
  Qed.
  (** the state seen by the local system [l] *)
  Definition slice (f : vec) (c : cfg) (l : nat) : P -> cx := fun p => f (upd c l p).
  Lemma at_slice l t f c : at_ l t f c = t (slice f c l) (c l).
  Proof. reflexivity. Qed.
  Lemma at_slice2 l t u f c : at_ l t (at_ l u f) c = t (u (slice f c l)) (c l).
  Proof.
    cbn. f_equal. apply functional_extensionality. intros p. rewrite upd_same. f_equal.
    apply functional_extensionality. intros q. now rewrite upd_upd.
  Qed.
  Lemma slice_id f c l : f c = slice f c l (c l).
  Proof. unfold slice. now rewrite upd_id. Qed.
  Lemma at_comm l l' t u f c : l <> l' -> at_ l t (at_ l' u f) c = at_ l' u (at_ l t f) c.
  Proof.
    intros H. cbn. destruct (la_rows t (c l)) as [r Hr]. rewrite Hr.
    transitivity (u (fun p => entries r (fun q => f (upd (upd c l' p) l q))) (c l')).
    - clear Hr. unfold entries. induction r as [|[w q] r IH]; cbn [map fold_right fst snd].
      + symmetry. pose proof (lo_lin u (fun _ => c0) (fun _ => c0) (copp c1) (c l')) as E.
        assert ((fun y : P => cadd (cmul (copp c1) c0) c0) = fun _ => c0) as E2 by (apply functional_extensionality; intros; ring).
        cbn beta in E. rewrite E2 in E. rewrite E. ring.
      + rewrite (lo_lin u (fun p => f (upd (upd c l' p) l q)) (fun p => fold_right cadd c0 (map (fun wq => cmul (fst wq) (f (upd (upd c l' p) l (snd wq)))) r)) w), <- IH.
        f_equal. f_equal. rewrite upd_other by congruence. f_equal. apply functional_extensionality. intros p. now rewrite upd_comm.
    - f_equal. apply functional_extensionality. intros p. rewrite upd_other by congruence. symmetry. apply Hr.
  Qed.

  (** operators on the local systems in [h] only *)
  Inductive lives_in (h : list nat) : A oprs_c -> Prop :=
  | li_at l t t' : In l h -> lives_in h (both l t t')
  | li_0 : lives_in h a0
  | li_1 : lives_in h a1
  | li_add x y : lives_in h x -> lives_in h y -> lives_in h (aadd x y)
  | li_mul x y : lives_in h x -> lives_in h y -> lives_in h (amul x y)
  | li_smul c x : lives_in h x -> lives_in h (smul c x)
  | li_star x : lives_in h x -> lives_in h (star x).
  Lemma li_incl h h' x : incl h h' -> lives_in h x -> lives_in h' x.
  Proof. intros H. induction 1; try (now constructor). constructor. now apply H. Qed.
  Lemma both_comm l l' t t' u u' : l <> l' -> amul (both l t t') (both l' u u') = amul (both l' u u') (both l t t').
  Proof. intros H. apply opr_eq; intros f c; [now apply at_comm|]. apply at_comm. congruence. Qed.
  Lemma li_commute h h' x y : lives_in h x -> lives_in h' y -> apart h h' -> amul x y = amul y x.
  Proof.
    intros Hx Hy Hap. revert y Hy. induction Hx as [l t t' Hl| | |x1 x2 _ IH1 _ IH2|x1 x2 _ IH1 _ IH2|k x _ IH|x _ IH]; intros y Hy.
    - revert t t'. induction Hy as [l' u u' Hl'| | |y1 y2 _ IH1 _ IH2|y1 y2 _ IH1 _ IH2|k y _ IH|y _ IH]; intros t t'.
      + apply both_comm. intros ->. exact (Hap _ Hl Hl').
      + now rewrite amul_0l, amul_0r.
      + now rewrite amul_1l, amul_1r.
      + now rewrite amul_addl, amul_addr, IH1, IH2.
      + rewrite amul_assoc, IH1, <- amul_assoc, IH2. apply amul_assoc.
      + now rewrite smul_amul_l, smul_amul_r, IH.
      + transitivity (star (amul y (both l t' t))); [now rewrite star_mul|]. rewrite <- IH. now rewrite star_mul.
    - now rewrite amul_0l, amul_0r.
    - now rewrite amul_1l, amul_1r.
    - now rewrite amul_addl, amul_addr, IH1, IH2.
    - rewrite <- amul_assoc, (IH2 y Hy), amul_assoc, (IH1 y Hy). symmetry. apply amul_assoc.
    - now rewrite smul_amul_l, smul_amul_r, IH.
    - transitivity (star (amul (star y) x)); [now rewrite star_mul, star_star|]. rewrite <- (IH (star y)) by now constructor. now rewrite star_mul, star_star.
  Qed.
  (** an operator on several local systems: a product of local operators *)
  Definition on_all (h : list nat) (t t' : lo) : A oprs_c := fold_right (fun l x => amul (both l t t') x) a1 h.
  Lemma on_all_lives h t t' : lives_in h (on_all h t t').
  Proof.
    assert (forall h', incl h' h -> lives_in h (on_all h' t t')) as G; [|apply G; intros x Hx; exact Hx].
    induction h' as [|l h' IH]; intros Hi; [apply li_1|]. change (on_all (l :: h') t t') with (amul (both l t t') (on_all h' t t')).
    apply li_mul; [apply li_at; apply Hi; now left|]. apply IH. intros x Hx. apply Hi. now right.
  Qed.
End Sites.
Arguments slice {P}. Arguments upd {P}.

(** ** Readings of the coefficients as complex numbers *)
Record cxreading (S : scalars) := {
  cev : S -> cx;
  cev_eq : forall a b, seqb a b = true -> cev a = cev b;
  cev_Q : forall q, cev (sQ q) = cQ q;
  cev_add : forall a b, cev (sadd a b) = cadd (cev a) (cev b);
  cev_sub : forall a b, cev (ssub a b) = cadd (cev a) (copp (cev b));
  cev_mul : forall a b, cev (smult a b) = cmul (cev a) (cev b);
  cev_neg : forall a, cev (sneg a) = copp (cev a);
  cev_div2 : forall a, cev (sdiv2 a) = cmul chalf (cev a);
  cev_conj : forall a, cev (sconj a) = cconj (cev a);
  cev_I : cev sI = ci;
  cev_exp : forall a, cev (sexp a) = cexp (cev a);
  cev_sqrt : forall q, cev (ssqrt q) = csqrt q
}.
Definition site_reading {S} (r : cxreading S) (P : Type) : reading S :=
  {| cal := oprs_c P; kQ := cQ : Qc -> K (oprs_c P); kexp := cexp; ksqrt := csqrt;
     kQ_0 := cQ_0; kQ_1 := cQ_1; kQ_add := cQ_add; kQ_mul := cQ_mul;
     kQ_real := fun a => cconj_real _; ksqrt_real := fun n => cconj_real _; kexp_conj := cexp_conj;
     ev := cev S r; ev_eq := cev_eq S r; ev_Q := cev_Q S r; ev_add := cev_add S r; ev_sub := cev_sub S r;
     ev_mul := cev_mul S r; ev_neg := cev_neg S r; ev_div2 := cev_div2 S r; ev_conj := cev_conj S r;
     ev_I := cev_I S r; ev_exp := cev_exp S r; ev_sqrt := cev_sqrt S r |}.
