(** Operators on the lattice of Fock spaces that are differentiable functions of a real
    number x. Shows that the hypotheses of C54 can be met. *)
From Coq Require Import Reals QArith Qcanon Ring Lra FunctionalExtensionality.
From Verif Require Import Prelude Cplx AlgSpec CAlg OpModel OpSpec OpSites OpFock OpSx OpRun OpPi OpSeriesInst DiffModel DiffSpec DiffCode.
Local Open Scope nat_scope.
Add Ring Crd : cring.

(** ** complex functions of a real number *)
Definition has_d (f f' : R -> cx) : Prop :=
  forall x, derivable_pt_lim (fun y => cre (f y)) x (cre (f' x)) /\ derivable_pt_lim (fun y => cim (f y)) x (cim (f' x)).
Lemma has_d_const c : has_d (fun _ => c) (fun _ => c0).
Proof. intros x. split; apply derivable_pt_lim_const. Qed.
Lemma has_d_add f f' g g' : has_d f f' -> has_d g g' -> has_d (fun x => cadd (f x) (g x)) (fun x => cadd (f' x) (g' x)).
Proof. intros Hf Hg x. destruct (Hf x), (Hg x). split; now apply (derivable_pt_lim_plus (fun y => _ (f y)) (fun y => _ (g y))). Qed.
Lemma d_ext (f g : R -> R) x a b : derivable_pt_lim f x a -> (forall y, f y = g y) -> a = b -> derivable_pt_lim g x b.
Proof. intros H E <-. replace g with f; [exact H|]. now apply functional_extensionality. Qed.
Lemma has_d_mul f f' g g' : has_d f f' -> has_d g g' -> has_d (fun x => cmul (f x) (g x)) (fun x => cadd (cmul (f' x) (g x)) (cmul (f x) (g' x))).
Proof.
  intros Hf Hg x. destruct (Hf x) as [H1 H2], (Hg x) as [H3 H4]. split.
  - eapply d_ext; [exact (derivable_pt_lim_minus _ _ _ _ _ (derivable_pt_lim_mult _ _ _ _ _ H1 H3) (derivable_pt_lim_mult _ _ _ _ _ H2 H4))|reflexivity|]. cbn [cre cim cadd cmul]. ring.
  - eapply d_ext; [exact (derivable_pt_lim_plus _ _ _ _ _ (derivable_pt_lim_mult _ _ _ _ _ H1 H4) (derivable_pt_lim_mult _ _ _ _ _ H2 H3))|reflexivity|]. cbn [cre cim cadd cmul]. ring.
Qed.
Lemma has_d_conj f f' : has_d f f' -> has_d (fun x => cconj (f x)) (fun x => cconj (f' x)).
Proof. intros Hf x. destruct (Hf x) as [H1 H2]. split; [exact H1|]. exact (derivable_pt_lim_opp _ _ _ H2). Qed.
Lemma has_d_exp f f' : has_d f f' -> has_d (fun x => cexp (f x)) (fun x => cmul (f' x) (cexp (f x))).
Proof.
  intros Hf x. destruct (Hf x) as [H1 H2].
  pose proof (derivable_pt_lim_comp _ exp _ _ _ H1 (derivable_pt_lim_exp _)) as E.
  pose proof (derivable_pt_lim_comp _ cos _ _ _ H2 (derivable_pt_lim_cos _)) as C.
  pose proof (derivable_pt_lim_comp _ sin _ _ _ H2 (derivable_pt_lim_sin _)) as N. split.
  - eapply d_ext; [exact (derivable_pt_lim_mult _ _ _ _ _ E C)|reflexivity|]. unfold comp. cbn [cre cim cexp cmul]. ring.
  - eapply d_ext; [exact (derivable_pt_lim_mult _ _ _ _ _ E N)|reflexivity|]. unfold comp. cbn [cre cim cexp cmul]. ring.
Qed.
Lemma has_d_unique f f' f'' : has_d f f' -> has_d f f'' -> f' = f''.
Proof.
  intros H H'. apply functional_extensionality. intros x. destruct (H x) as [A B], (H' x) as [A' B'].
  apply cx_eq; eapply uniqueness_limite; eassumption.
Qed.
Lemma has_d_to f f' g g' : has_d f f' -> (forall x, f x = g x) -> (forall x, f' x = g' x) -> has_d g g'.
Proof. intros H E E'. replace g with f by now apply functional_extensionality. replace g' with f'; [exact H|]. now apply functional_extensionality. Qed.

(** ** the derivative of a coefficient *)
Fixpoint x_d (a : sx) : sx :=
  match a with
  | XQ _ | XI | XSqrt _ => XQ 0%Qc
  | XVar n => if n =? 0 then XQ 1%Qc else XQ 0%Qc
  | XAdd a b => x_add (x_d a) (x_d b)
  | XMul a b => x_add (x_mul (x_d a) b) (x_mul a (x_d b))
  | XConj a => x_conj (x_d a)
  | XExp b => x_mul (x_d b) a
  end.
Definition vf (a : sx) (x : R) : cx := x_val (vx x) a.
Lemma has_d_id : has_d creal (fun _ => c1).
Proof. intros x. split; [exact (derivable_pt_lim_id x)|exact (derivable_pt_lim_const 0%R x)]. Qed.
Lemma x_d_val a : has_d (vf a) (vf (x_d a)).
Proof.
  induction a; unfold vf in *; cbn [x_d x_val].
  - eapply has_d_to; [apply has_d_const|reflexivity|intros x; now rewrite cQ_0].
  - eapply has_d_to; [apply has_d_const|reflexivity|intros x; now rewrite cQ_0].
  - unfold vx. destruct (n =? 0).
    + eapply has_d_to; [apply has_d_id|reflexivity|intros x; cbn [x_val]; now rewrite cQ_1].
    + eapply has_d_to; [apply has_d_const|reflexivity|intros x; cbn [x_val]; now rewrite cQ_0].
  - eapply has_d_to; [exact (has_d_add _ _ _ _ IHa1 IHa2)|reflexivity|intros x; now rewrite x_add_val].
  - eapply has_d_to; [exact (has_d_mul _ _ _ _ IHa1 IHa2)|reflexivity|intros x; now rewrite x_add_val, !x_mul_val].
  - eapply has_d_to; [exact (has_d_conj _ _ IHa)|reflexivity|intros x; now rewrite x_conj_val].
  - eapply has_d_to; [exact (has_d_exp _ _ IHa)|reflexivity|intros x; now rewrite x_mul_val].
  - eapply has_d_to; [apply has_d_const|reflexivity|intros x; now rewrite cQ_0].
Qed.
Lemma x_free_d a : x_free a = true -> has_d (vf a) (fun _ => c0).
Proof. intros H. eapply has_d_to; [apply has_d_const| |reflexivity]. intros x. symmetry. now apply (x_free_val a x). Qed.
Fixpoint x_dn (k : nat) (a : sx) : sx := match k with 0 => a | Datatypes.S p => x_d (x_dn p a) end.

(** ** families of linear maps with finitely many entries in each row *)
Notation cf := (cfg nat).
Definition row := list (cf * (R -> cx) * (R -> cx)).
Definition at_row (r : row) (g : cf * (R -> cx) * (R -> cx) -> cx) : cx := fold_right (fun t s => cadd (g t) s) c0 r.
Definition now_ (x : R) (f : vec nat) (t : cf * (R -> cx) * (R -> cx)) : cx := cmul (snd (fst t) x) (f (fst (fst t))).
Definition der_ (x : R) (f : vec nat) (t : cf * (R -> cx) * (R -> cx)) : cx := cmul (snd t x) (f (fst (fst t))).
Definition good_row (r : row) : Prop := Forall (fun t => has_d (snd (fst t)) (snd t)) r.
Definition rep (T T' : R -> lop nat) : Prop :=
  forall c, exists r, good_row r /\ forall x f, T x f c = at_row r (now_ x f) /\ T' x f c = at_row r (der_ x f).
Lemma at_row_app r s g : at_row (r ++ s) g = cadd (at_row r g) (at_row s g).
Proof. unfold at_row. induction r as [|t r IH]; cbn [app fold_right]; [ring|]. rewrite IH. ring. Qed.
Lemma at_row_cons t r g : at_row (t :: r) g = cadd (g t) (at_row r g).
Proof. reflexivity. Qed.
Lemma rep_has T T' f c : rep T T' -> has_d (fun x => T x f c) (fun x => T' x f c).
Proof.
  intros H. destruct (H c) as (r & Hr & E). apply (has_d_to (fun x => at_row r (now_ x f)) (fun x => at_row r (der_ x f))); [|intros x; symmetry; apply E|intros x; symmetry; apply E].
  clear E. induction Hr as [|t r Ht _ IH]; cbn [at_row fold_right]; [apply has_d_const|]. apply has_d_add; [|exact IH].
  eapply has_d_to; [exact (has_d_mul _ _ _ _ Ht (has_d_const (f (fst (fst t)))))|reflexivity|]. intros x. unfold der_. ring.
Qed.
Lemma rep_unique T T' T'' : rep T T' -> rep T T'' -> forall x, T' x = T'' x.
Proof.
  intros H H' x. apply lop_eq. intros f c. exact (f_equal (fun g => g x) (has_d_unique _ _ _ (rep_has _ _ f c H) (rep_has _ _ f c H'))).
Qed.
Lemma rep_add T T' U U' : rep T T' -> rep U U' -> rep (fun x => ladd nat (T x) (U x)) (fun x => ladd nat (T' x) (U' x)).
Proof.
  intros H G c. destruct (H c) as (r & Hr & E), (G c) as (s & Hs & F). exists (r ++ s). split; [now apply Forall_app|].
  intros x f. rewrite !at_row_app. destruct (E x f), (F x f). cbn [ap ladd]. split; congruence.
Qed.
Lemma rep_0 : rep (fun _ => l0 nat) (fun _ => l0 nat).
Proof. intros c. exists []. split; [constructor|]. intros x f. split; reflexivity. Qed.
Lemma rep_1 : rep (fun _ => l1 nat) (fun _ => l0 nat).
Proof.
  intros c. exists [(c, fun _ => c1, fun _ => c0)]. split; [constructor; [exact (has_d_const c1)|constructor]|]. intros x f. unfold at_row, now_, der_.
  cbn [fold_right fst snd ap l1 l0]. split; ring.
Qed.
Definition scale_row (a a' : R -> cx) (r : row) : row :=
  map (fun t => (fst (fst t), fun x => cmul (a x) (snd (fst t) x), fun x => cadd (cmul (a' x) (snd (fst t) x)) (cmul (a x) (snd t x)))) r.
Lemma scale_good a a' r : has_d a a' -> good_row r -> good_row (scale_row a a' r).
Proof. intros Ha. unfold good_row, scale_row. rewrite Forall_map. apply Forall_impl. intros t Ht. cbn [fst snd]. now apply has_d_mul. Qed.
Lemma scale_now a a' r x f : at_row (scale_row a a' r) (now_ x f) = cmul (a x) (at_row r (now_ x f)).
Proof. unfold at_row, scale_row. induction r as [|t r IH]; cbn [map fold_right]; [ring|]. rewrite IH. unfold now_. cbn [fst snd]. ring. Qed.
Lemma scale_der a a' r x f : at_row (scale_row a a' r) (der_ x f) = cadd (cmul (a' x) (at_row r (now_ x f))) (cmul (a x) (at_row r (der_ x f))).
Proof. unfold at_row, scale_row. induction r as [|t r IH]; cbn [map fold_right]; [ring|]. rewrite IH. unfold now_, der_. cbn [fst snd]. ring. Qed.
Lemma rep_smul a a' T T' : has_d a a' -> rep T T' ->
  rep (fun x => lsmul nat (a x) (T x)) (fun x => ladd nat (lsmul nat (a' x) (T x)) (lsmul nat (a x) (T' x))).
Proof.
  intros Ha H c. destruct (H c) as (r & Hr & E). exists (scale_row a a' r). split; [now apply scale_good|]. intros x f.
  rewrite scale_now, scale_der. destruct (E x f) as [E1 E2]. cbn [ap lsmul ladd]. split; congruence.
Qed.
Lemma rep_mul T T' U U' : rep T T' -> rep U U' ->
  rep (fun x => lmul nat (T x) (U x)) (fun x => ladd nat (lmul nat (T' x) (U x)) (lmul nat (T x) (U' x))).
Proof.
  intros H G c. destruct (H c) as (r & Hr & E).
  assert (exists s, good_row s /\ forall x f, at_row r (now_ x (U x f)) = at_row s (now_ x f)
    /\ cadd (at_row r (der_ x (U x f))) (at_row r (now_ x (U' x f))) = at_row s (der_ x f)) as (s & Hs & F).
  { clear E. induction Hr as [|t r Ht _ IH].
    - exists []. split; [constructor|]. intros x f. split; [reflexivity|]. cbn. ring.
    - destruct IH as (s & Hs & F). destruct (G (fst (fst t))) as (u & Hu & E).
      exists (scale_row (snd (fst t)) (snd t) u ++ s). split; [apply Forall_app; split; [now apply scale_good|exact Hs]|].
      intros x f. destruct (F x f) as [F1 F2], (E x f) as [E1 E2]. rewrite !at_row_app, scale_now, scale_der, <- F1, <- F2, <- E1, <- E2.
      rewrite !at_row_cons. split; [reflexivity|].
      change (der_ x (U x f) t) with (cmul (snd t x) (U x f (fst (fst t)))). change (now_ x (U' x f) t) with (cmul (snd (fst t) x) (U' x f (fst (fst t)))). ring. }
  exists s. split; [exact Hs|]. intros x f. destruct (F x f) as [F1 F2]. cbn [ap lmul ladd]. rewrite <- F1, <- F2.
  destruct (E x (U x f)) as [E1 E2], (E x (U' x f)) as [E3 _]. split; congruence.
Qed.
(** one entry in each row of a local operator *)
Lemma rep_mono l (w w' : nat -> R -> cx) q : (forall n, has_d (w n) (w' n)) ->
  rep (fun x => at_ nat l (mono nat (fun n => w n x) q)) (fun x => at_ nat l (mono nat (fun n => w' n x) q)).
Proof.
  intros H c. exists [(upd c l (q (c l)), w (c l), w' (c l))]. split; [constructor; [apply H|constructor]|]. intros x f.
  unfold at_row, now_, der_. cbn [fold_right fst snd ap at_ la mono]. split; ring.
Qed.
Lemma lop_0_eq l q : at_ nat l (mono nat (fun _ => c0) q) = l0 nat.
Proof. apply lop_eq. intros f c. cbn [ap at_ la mono l0]. ring. Qed.
Lemma rep_mono_const l w q : rep (fun _ => at_ nat l (mono nat w q)) (fun _ => l0 nat).
Proof.
  pose proof (rep_mono l (fun n _ => w n) (fun _ _ => c0) q (fun n => has_d_const (w n))) as H. cbn beta in H.
  intros c. destruct (H c) as (r & Hr & E). exists r. split; [exact Hr|]. intros x f. destruct (E x f) as [E1 E2]. split; [exact E1|].
  rewrite <- E2. now rewrite lop_0_eq.
Qed.

(** ** an interpretation with other symbols *)
Definition with_syms {S : scalars} {dim} (I : interp S dim) (f : nat -> list nat -> A I) (Hf : forall n h, lives (i:=I) h (f n h)) : interp S dim.
Proof.
  refine {| rd := rd I; boson := boson (i:=I); displ := displ (i:=I); spin := spin (i:=I); lives := lives (i:=I); isym := f;
    icreate := icreate (i:=I); idestroy := idestroy (i:=I); isigma := isigma (i:=I); iphase := iphase (i:=I); idisp := idisp (i:=I);
    isqueeze := isqueeze (i:=I); ijp := ijp (i:=I); ijm := ijm (i:=I); ijz := ijz (i:=I); itrace := itrace (i:=I) |}.
  1: exact (boson_dim S dim I). 1: exact (displ_boson S dim I). 1: exact (spin_dim S dim I). 1: exact (lives_incl S dim I). 1: exact (lives_0 S dim I).
  1: exact (lives_1 S dim I). 1: exact (lives_add S dim I). 1: exact (lives_mul S dim I). 1: exact (lives_smul S dim I). 1: exact (lives_star S dim I).
  1: exact (lives_trace S dim I). 1: exact (lives_commute S dim I). 1: exact Hf.
  1: exact (lives_create S dim I). 1: exact (lives_destroy S dim I). 1: exact (lives_sigma S dim I). 1: exact (lives_phase S dim I). 1: exact (lives_disp S dim I).
  1: exact (lives_squeeze S dim I). 1: exact (lives_jp S dim I). 1: exact (lives_jm S dim I). 1: exact (lives_jz S dim I).
  1: exact (create_star S dim I). 1: exact (sigma_star S dim I). 1: exact (phase_star S dim I). 1: exact (disp_star S dim I). 1: exact (squeeze_star S dim I).
  1: exact (jp_star S dim I). 1: exact (jz_star S dim I). 1: exact (sigma_sigma S dim I). 1: exact (ccr S dim I). 1: exact (create_sigma S dim I).
  1: exact (destroy_sigma_0 S dim I). 1: exact (destroy_sigma S dim I). 1: exact (phase_0 S dim I). 1: exact (phase_phase S dim I). 1: exact (destroy_phase S dim I).
  1: exact (phase_sigma S dim I). 1: exact (disp_0 S dim I). 1: exact (disp_disp S dim I). 1: exact (destroy_disp S dim I). 1: exact (squeeze_0 S dim I).
  1: exact (jp_sigma S dim I). 1: exact (jm_sigma S dim I). 1: exact (jz_sigma S dim I). 1: exact (jm_jp S dim I). exact (jz_jp S dim I).
Defined.

(** the symbol n is a fixed operator, times a coefficient when n is odd: exp(n x) *)
Definition amp (n : nat) : sx := if Nat.odd n then x_exp (x_mul (XQ (qn n)) (XVar 0)) else XQ 1%Qc.
Definition entry (u : sx) (n : nat) : sx := XExp (XMul (XMul XI u) (XQ (qn n))).
Definition d_phase (k : nat) (u : sx) (x : R) : lo nat := mono nat (fun n => vf (x_dn k (entry u n)) x) (fun n => n).
Definition d_phase_star (k : nat) (u : sx) (x : R) : lo nat := mono nat (fun n => cconj (vf (x_dn k (entry u n)) x)) (fun n => n).
Definition sem (x : R) (a : name) (h : list nat) : A (Fx x) :=
  match a with
  | NPlain k n => smul (vf (x_dn k (amp n)) x : K (oprs_c nat)) (on_all nat h (n_sigma n 0) (n_sigma 0 n))
  | NPhase k u => match h with [l] => both nat l (d_phase k u x) (d_phase_star k u x) | _ => a0 end
  | NZero => a0
  end.
Definition dsym (x : R) (p : nat) (h : list nat) : A (Fx x) := sem x (code_name p) h.
Lemma dsym_code x a h : dsym x (name_code a) h = sem x a h.
Proof. unfold dsym. now rewrite code_name_code. Qed.
Lemma dsym_lives x p h : lives (i:=Fx x) h (dsym x p h).
Proof.
  unfold dsym, sem. destruct (code_name p) as [k n|k u|].
  - apply li_smul, on_all_lives.
  - destruct h as [|l [|l' h]]; [apply li_0| |apply li_0]. apply li_at. now left.
  - apply li_0.
Qed.
Definition Gx (x : R) : interp Sx xdim := with_syms (Fx x) (dsym x) (dsym_lives x).
Definition Dx : interp Sx xdim := pi_interp 0%R Gx.
Definition dname_x (a : atom Sx) : nat :=
  name_code match a with
  | ASym p _ => match code_name p with NPlain k n => NPlain (Datatypes.S k) n | NPhase k u => NPhase (Datatypes.S k) u | NZero => NZero end
  | APhase u _ => NPhase 1 u
  | _ => NZero
  end.
Definition sym_dep_x (p : nat) : bool :=
  match code_name p with NPlain k n => negb (x_free (amp n)) | NPhase k u => negb (x_free u) | NZero => false end.
Definition dep_x (c : Sx) : bool := negb (x_free c).

(** operators: the maps and their adjoints *)
Definition has_op (F F' : A Dx) : Prop := rep (fun x => fst (F x)) (fun x => fst (F' x)) /\ rep (fun x => snd (F x)) (fun x => snd (F' x)).
Lemma rep_to T T' U U' : rep T T' -> (forall x, T x = U x) -> (forall x, T' x = U' x) -> rep U U'.
Proof. intros H E E' c. destruct (H c) as (r & Hr & G). exists r. split; [exact Hr|]. intros x f. rewrite <- E, <- E'. apply G. Qed.
Definition Derx : derivation Dx.
Proof.
  refine {| dK := (has_d : K Dx -> K Dx -> Prop); dA := has_op |}.
  - intros q. exact (has_d_const (cQ q)).
  - split; exact rep_0.
  - split; exact rep_1.
  - intros F F' G G' [H1 H2] [H3 H4]. split; [exact (rep_add _ _ _ _ H1 H3)|exact (rep_add _ _ _ _ H2 H4)].
  - intros F F' G G' [H1 H2] [H3 H4]. split; [exact (rep_mul _ _ _ _ H1 H3)|].
    eapply rep_to; [exact (rep_mul _ _ _ _ H4 H2)|reflexivity|]. intros x. apply lop_eq. intros f c. cbn. ring.
  - intros a a' F F' Ha [H1 H2]. split; [exact (rep_smul _ _ _ _ Ha H1)|exact (rep_smul _ _ _ _ (has_d_conj _ _ Ha) H2)].
  - intros F F' [H1 H2]. now split.
  - intros h F _. split; exact rep_0.
  - intros F F' F'' [H1 H2] [H3 H4]. refine (functional_extensionality (F' : R -> A opn) F'' _). intros x.
    apply injective_projections; [exact (rep_unique _ _ _ H1 H3 x)|exact (rep_unique _ _ _ H2 H4 x)].
Defined.
Lemma Sympyx : sympy_diff Derx dep_x x_d (fun c => c).
Proof.
  constructor.
  - intros c _. exact (x_d_val c).
  - intros c H. apply (x_free_d c). unfold dep_x in H. now apply negb_false_iff.
  - reflexivity.
Qed.
Lemma has_op_to F F' G G' : has_op F F' -> (forall x, F x = G x) -> (forall x, F' x = G' x) -> has_op G G'.
Proof.
  intros [H1 H2] E E'. split.
  - exact (rep_to _ _ _ _ H1 (fun x => f_equal fst (E x)) (fun x => f_equal fst (E' x))).
  - exact (rep_to _ _ _ _ H2 (fun x => f_equal snd (E x)) (fun x => f_equal snd (E' x))).
Qed.
Lemma both_const l w q w' q' : has_op (fun _ => both nat l (mono nat w q) (mono nat w' q')) (fun _ => a0).
Proof. split; exact (rep_mono_const l _ _). Qed.
Lemma on_all_const h w q w' q' : has_op (fun _ => on_all nat h (mono nat w q) (mono nat w' q')) (fun _ => a0).
Proof.
  induction h as [|l h IH]; [exact (dA_1 _ Derx)|].
  refine (has_op_to _ _ _ _ (dA_mul _ Derx _ _ _ _ (both_const l w q w' q') IH) (fun x => eq_refl) _).
  intros x. apply opr_eq; intros f c; cbn; [ring|]. rewrite (lin_0 nat). ring.
Qed.
Lemma phase_der k u l : has_op (fun x => both nat l (d_phase k u x) (d_phase_star k u x)) (fun x => both nat l (d_phase (Datatypes.S k) u x) (d_phase_star (Datatypes.S k) u x)).
Proof.
  split.
  - exact (rep_mono l (fun n x => vf (x_dn k (entry u n)) x) (fun n x => vf (x_d (x_dn k (entry u n))) x) (fun n => n) (fun n => x_d_val _)).
  - exact (rep_mono l (fun n x => cconj (vf (x_dn k (entry u n)) x)) (fun n x => cconj (vf (x_d (x_dn k (entry u n))) x)) (fun n => n) (fun n => has_d_conj _ _ (x_d_val _))).
Qed.
Lemma phase_is u l x : both nat l (d_phase 0 u x) (d_phase_star 0 u x) = iphase (i:=Gx x) (vf u x) l.
Proof.
  apply opr_eq; intros f c; [reflexivity|]. unfold vf. cbn -[vx cexp cmul ci cQ qn Nat.eqb]. f_equal. rewrite cexp_conj. f_equal.
  rewrite !cconj_mul, cQ_conj. replace (cconj ci) with (copp ci) by (apply cx_eq; cbn; ring). unfold vf. ring.
Qed.
Lemma x_free_conj a : x_free a = true -> x_free (x_conj a) = true.
Proof. apply x_conj_free. Qed.
Lemma x_d_free a : x_free a = true -> x_free (x_d a) = true.
Proof.
  induction a; cbn [x_free x_d]; intros H; try reflexivity.
  - apply negb_true_iff in H. now rewrite H.
  - apply andb_prop in H. destruct H. apply x_add_free; auto.
  - apply andb_prop in H. destruct H. apply x_add_free; apply x_mul_free; auto.
  - apply x_conj_free; auto.
  - apply x_mul_free; [auto|exact H].
Qed.
Lemma x_dn_free k a : x_free a = true -> x_free (x_dn k a) = true.
Proof. intros H. induction k; [exact H|]. now apply x_d_free. Qed.
Lemma phase_const k u l : x_free u = true -> has_op (fun x => both nat l (d_phase k u x) (d_phase_star k u x)) (fun _ => a0).
Proof.
  intros H. refine (has_op_to _ _ _ _ (both_const l (fun n => vf (x_dn k (entry u n)) 0) (fun n => n) (fun n => cconj (vf (x_dn k (entry u n)) 0)) (fun n => n)) _ (fun x => eq_refl)).
  intros x. apply opr_eq; intros f c; cbn [fst snd both ap at_ la mono d_phase d_phase_star]; unfold vf;
    rewrite (x_free_val (x_dn k (entry u (c l))) x); try reflexivity; apply x_dn_free; cbn [x_free entry]; now rewrite H.
Qed.
Lemma plain_der k n h : has_op (fun x => smul (vf (x_dn k (amp n)) x : K (oprs_c nat)) (on_all nat h (n_sigma n 0) (n_sigma 0 n)))
  (fun x => smul (vf (x_dn (Datatypes.S k) (amp n)) x : K (oprs_c nat)) (on_all nat h (n_sigma n 0) (n_sigma 0 n))).
Proof.
  refine (has_op_to _ _ _ _ (dA_smul _ Derx _ _ _ _ (x_d_val (x_dn k (amp n))) (on_all_const h _ _ _ _)) (fun x => eq_refl) _).
  intros x. apply opr_eq; intros f c; cbn -[on_all cconj x_dn vf cadd cmul]; change (x_dn (Datatypes.S k) (amp n)) with (x_d (x_dn k (amp n))); unfold n_sigma; ring.
Qed.
Lemma plain_const k n h : x_free (amp n) = true -> has_op (fun x => smul (vf (x_dn k (amp n)) x : K (oprs_c nat)) (on_all nat h (n_sigma n 0) (n_sigma 0 n))) (fun _ => a0).
Proof.
  intros H. refine (has_op_to _ _ _ _ (dA_smul _ Derx _ _ _ _ (x_free_d _ (x_dn_free k _ H)) (on_all_const h _ _ _ _)) (fun x => eq_refl) _).
  intros x. apply opr_eq; intros f c; cbn -[on_all n_sigma cconj c0]; rewrite ?cconj_0; ring.
Qed.
Lemma Symx : symbols_diff Derx dep_x sym_dep_x sym_dep_x dname_x.
Proof.
  constructor.
  - intros a Ha. destruct a as [p h|l|l|j k l|u l|u l|u l|l|l|l];
      refine (has_op_to _ _ _ _ _ (fun x => eq_refl) (fun x => eq_sym (dsym_code x _ _))).
    + change (has_op (fun x => sem x (code_name p) h) (fun x => sem x match code_name p with NPlain k n => NPlain (Datatypes.S k) n | NPhase k u => NPhase (Datatypes.S k) u | NZero => NZero end h)).
      unfold sem. destruct (code_name p) as [k n|k u|].
      * apply plain_der.
      * destruct h as [|l [|l' h]]; [exact (dA_0 _ Derx)|apply phase_der|exact (dA_0 _ Derx)].
      * exact (dA_0 _ Derx).
    + exact (both_const l _ _ _ _).
    + exact (both_const l _ _ _ _).
    + exact (both_const l _ _ _ _).
    + refine (has_op_to _ _ _ _ (phase_der 0 u l) (phase_is u l) (fun x => eq_refl)).
    + destruct (Ha 0%R).
    + exact (both_const l _ _ _ _).
    + exact (both_const l _ _ _ _).
    + exact (both_const l _ _ _ _).
    + exact (both_const l _ _ _ _).
  - intros p h H. assert (sym_dep_x p = false) as E by now destruct H. clear H. change (has_op (fun x => dsym x p h) (fun _ => a0)).
    unfold dsym, sem. unfold sym_dep_x in E. destruct (code_name p) as [k n|k u|]; [apply negb_false_iff in E..|].
    + now apply plain_const.
    + destruct h as [|l [|l' h]]; [exact (dA_0 _ Derx)|now apply phase_const|exact (dA_0 _ Derx)].
    + exact (dA_0 _ Derx).
  - intros a Ha H. destruct a as [p h|l|l|j k l|u l|u l|u l|l|l|l]; try (exact (both_const l _ _ _ _)); [destruct H|].
    apply negb_false_iff in H. exact (has_op_to _ _ _ _ (phase_const 0 u l H) (phase_is u l) (fun x => eq_refl)).
Qed.
