(** Interpretations that depend on a parameter: the product of a family of
    interpretations is an interpretation. Its operators are operator-valued functions
    of the parameter. *)
From Coq Require Import QArith Qcanon FunctionalExtensionality Ring_theory.
From Verif Require Import Prelude AlgSpec CAlg OpModel OpSpec.
Local Open Scope nat_scope.

Ltac fx := apply functional_extensionality_dep; let x := fresh "x" in intros x.

Section PiAlg.
  Context {X : Type} (M : X -> algebra).
  Definition pi_algebra : algebra.
  Proof.
    refine {| K := forall x, K (M x); k0 := fun x => k0; k1 := fun x => k1;
      kadd := fun a b x => kadd (a x) (b x); kmul := fun a b x => kmul (a x) (b x); kopp := fun a x => kopp (a x);
      A := forall x, A (M x); a0 := fun x => a0; a1 := fun x => a1;
      aadd := fun a b x => aadd (a x) (b x); amul := fun a b x => amul (a x) (b x); smul := fun c a x => smul (c x) (a x) |}.
    - constructor; intros; fx.
      + apply (Radd_0_l (kring (M x0))). + apply (Radd_comm (kring (M x0))). + apply (Radd_assoc (kring (M x0))).
      + apply (Rmul_1_l (kring (M x0))). + apply (Rmul_comm (kring (M x0))). + apply (Rmul_assoc (kring (M x0))).
      + apply (Rdistr_l (kring (M x0))). + reflexivity. + apply (Ropp_def (kring (M x0))).
    - intros; fx; apply aadd_comm. - intros; fx; apply aadd_assoc. - intros; fx; apply aadd_0. - intros; fx; apply aadd_opp.
    - intros; fx; apply amul_assoc. - intros; fx; apply amul_1l. - intros; fx; apply amul_1r. - intros; fx; apply amul_addl. - intros; fx; apply amul_addr.
    - intros; fx; apply smul_1. - intros; fx; apply smul_mul. - intros; fx; apply smul_addl. - intros; fx; apply smul_addr.
    - intros; fx; apply smul_amul_l. - intros; fx; apply smul_amul_r.
  Defined.
End PiAlg.
Definition pi_star {X : Type} (M : X -> star_algebra) : star_algebra.
Proof.
  refine {| alg := pi_algebra (fun x => alg (M x)); kconj := fun (c : K (pi_algebra (fun x => alg (M x)))) x => kconj (c x); star := fun (a : A (pi_algebra (fun x => alg (M x)))) x => star (a x) |}.
  - intros; fx; apply kconj_add. - intros; fx; apply kconj_mul. - intros; fx; apply kconj_conj. - intros; fx; apply kconj_1.
  - intros; fx; apply star_add. - intros; fx; apply star_mul. - intros; fx; apply star_smul. - intros; fx; apply star_star. - intros; fx; apply star_1.
Defined.
Definition pi_calg {X : Type} (M : X -> calgebra) : calgebra.
Proof.
  refine {| sal := pi_star (fun x => sal (M x)); iu := (fun x => iu) : K (pi_star (fun x => sal (M x))); khalf := (fun x => khalf) : K (pi_star (fun x => sal (M x))) |}.
  - intros; fx; apply iu_sq. - intros; fx; apply iu_conj. - intros; fx; apply khalf_2.
Defined.
Definition pi_reading {X : Type} {S : scalars} (R : X -> reading S) : reading S.
Proof.
  refine {| cal := pi_calg (fun x => cal (R x)); kQ := (fun q x => kQ q) : Qc -> K (pi_calg (fun x => cal (R x)));
    kexp := (fun c x => kexp (c x)) : K (pi_calg (fun x => cal (R x))) -> K (pi_calg (fun x => cal (R x)));
    ksqrt := (fun q x => ksqrt q) : Qc -> K (pi_calg (fun x => cal (R x)));
    ev := (fun c x => ev c) : S -> K (pi_calg (fun x => cal (R x))) |}.
  - fx; apply kQ_0. - fx; apply kQ_1. - intros; fx; apply kQ_add. - intros; fx; apply kQ_mul. - intros; fx; apply kQ_real.
  - intros; fx; apply ksqrt_real. - intros; fx; apply kexp_conj. - intros a b H; fx; apply ev_eq; exact H. - intros; fx; apply ev_Q. - intros; fx; apply ev_add.
  - intros; fx; apply ev_sub. - intros; fx; apply ev_mul. - intros; fx; apply ev_neg. - intros; fx; apply ev_div2. - intros; fx; apply ev_conj.
  - intros; fx; apply ev_I. - intros; fx; apply ev_exp. - intros; fx; apply ev_sqrt.
Defined.

Section PiInterp.
  Context {X : Type} (x0 : X) {S : scalars} {dim : nat -> option nat} (I : X -> interp S dim).
  Let R := pi_reading (fun x => rd (I x)).
  Definition pi_interp : interp S dim.
  Proof.
    refine {| rd := R;
      boson := fun l => forall x, boson (i:=I x) l; displ := fun l => forall x, displ (i:=I x) l; spin := fun l => forall x, spin (i:=I x) l;
      lives := fun h (a : A R) => forall x, lives (i:=I x) h (a x);
      isym := (fun n h x => isym (i:=I x) n h) : nat -> list nat -> A R;
      icreate := (fun l x => icreate (i:=I x) l) : nat -> A R;
      idestroy := (fun l x => idestroy (i:=I x) l) : nat -> A R;
      isigma := (fun j k l x => isigma (i:=I x) j k l) : nat -> nat -> nat -> A R;
      iphase := (fun u l x => iphase (i:=I x) (u x) l) : K R -> nat -> A R;
      idisp := (fun u l x => idisp (i:=I x) (u x) l) : K R -> nat -> A R;
      isqueeze := (fun u l x => isqueeze (i:=I x) (u x) l) : K R -> nat -> A R;
      ijp := (fun l x => ijp (i:=I x) l) : nat -> A R;
      ijm := (fun l x => ijm (i:=I x) l) : nat -> A R;
      ijz := (fun l x => ijz (i:=I x) l) : nat -> A R;
      itrace := (fun h a x => itrace (i:=I x) h (a x)) : list nat -> A R -> A R |}.
    - intros l H. apply (boson_dim S dim (I x0)). apply H.
    - intros l H x. apply displ_boson, H.
    - intros l H. apply (spin_dim S dim (I x0)). apply H.
    - intros h h' a Hi H x. exact (lives_incl S dim (I x) _ _ _ Hi (H x)).
    - intros x. apply lives_0.
    - intros x. apply lives_1.
    - intros h a b Ha Hb x. apply lives_add; [apply Ha|apply Hb].
    - intros h a b Ha Hb x. apply lives_mul; [apply Ha|apply Hb].
    - intros h c a Ha x. apply lives_smul, Ha.
    - intros h a Ha x. apply lives_star, Ha.
    - intros h h' a Ha x. apply lives_trace, Ha.
    - intros h h' a b Ha Hb Hd. fx. exact (lives_commute S dim (I x) _ _ _ _ (Ha x) (Hb x) Hd).
    - intros n h x. apply lives_sym.
    - intros l H x. apply lives_create, H.
    - intros l H x. apply lives_destroy, H.
    - intros j k l x. apply lives_sigma.
    - intros u l H x. apply lives_phase, H.
    - intros u l H x. apply lives_disp, H.
    - intros u l H x. apply lives_squeeze, H.
    - intros l H x. apply lives_jp, H.
    - intros l H x. apply lives_jm, H.
    - intros l H x. apply lives_jz, H.
    - intros l H. fx. apply create_star, H.
    - intros j k l. fx. apply sigma_star.
    - intros u l H. fx. apply phase_star, H.
    - intros u l H. fx. apply disp_star, H.
    - intros u l H. fx. apply squeeze_star, H.
    - intros l H. fx. apply jp_star, H.
    - intros l H. fx. apply jz_star, H.
    - intros a b c d l H. fx. etransitivity; [exact (sigma_sigma S dim (I x) a b c d l H)|]. now destruct (b =? c).
    - intros l H. fx. apply ccr, H.
    - intros j k l H. fx. apply create_sigma, H.
    - intros k l H. fx. apply destroy_sigma_0, H.
    - intros j k l H. fx. apply destroy_sigma, H.
    - intros l H. fx. apply phase_0, H.
    - intros u v l H. fx. apply phase_phase, H.
    - intros u l H. fx. apply destroy_phase, H.
    - intros u j k l H. fx. apply phase_sigma, H.
    - intros l H. fx. apply disp_0, H.
    - intros u v l H. fx. apply disp_disp, H.
    - intros u l H. fx. apply destroy_disp, H.
    - intros l H. fx. apply squeeze_0, H.
    - intros n m k l H Hd Hm. fx. etransitivity; [exact (jp_sigma S dim (I x) n m k l (H x) Hd Hm)|]. now destruct (m + 1 <? n).
    - intros n m k l H Hd Hm. fx. etransitivity; [exact (jm_sigma S dim (I x) n m k l (H x) Hd Hm)|]. now destruct (m =? 0).
    - intros n m k l H Hd Hm. fx. exact (jz_sigma S dim (I x) n m k l (H x) Hd Hm).
    - intros l H. fx. apply jm_jp, H.
    - intros l H. fx. apply jz_jp, H.
  Defined.
  (** values are taken pointwise *)
  Lemma pi_value : forall (e : op S) x, value pi_interp e x = value (I x) e.
  Proof.
    fix IH 1. intros [| |a|c t|l|l|a b|a|a h|s a] x; cbn [value].
    - reflexivity.
    - reflexivity.
    - destruct a; reflexivity.
    - change (smul (ev c) (value pi_interp t) x) with (smul (ev (r:=I x) c) (value pi_interp t x)). now rewrite IH.
    - induction l as [|y l IHl]; [reflexivity|]. cbn [map]. change (aadd (value pi_interp y x) (msum pi_interp (map (value pi_interp) l) x) = aadd (value (I x) y) (msum (I x) (map (value (I x)) l))). now rewrite IH, IHl.
    - induction l as [|y l IHl]; [reflexivity|]. cbn [map]. change (amul (value pi_interp y x) (mprod pi_interp (map (value pi_interp) l) x) = amul (value (I x) y) (mprod (I x) (map (value (I x)) l))). now rewrite IH, IHl.
    - change (mcomm (I x) (value pi_interp a x) (value pi_interp b x) = mcomm (I x) (value (I x) a) (value (I x) b)). now rewrite !IH.
    - change (star (value pi_interp a x) = star (value (I x) a)). now rewrite IH.
    - change (itrace h (value pi_interp a x) = itrace (i:=I x) h (value (I x) a)). now rewrite IH.
    - destruct s.
      + change (aadd (value pi_interp a x) (star (value pi_interp a x)) = aadd (value (I x) a) (star (value (I x) a))). now rewrite IH.
      + change (aadd (value pi_interp a x) (smul (kopp k1) (star (value pi_interp a x))) = aadd (value (I x) a) (smul (kopp k1) (star (value (I x) a)))). now rewrite IH.
  Qed.
End PiInterp.
