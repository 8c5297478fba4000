(** The SLH formalism and the one-point interpretation are models of circuit
    expressions in the sense of CSimpSpec. *)
From Verif Require Import Prelude ListFacts PermModel PermSpec PermProofs1 PermProofs4 CircModel CircProofs2 CSimpModel CSimpSpec CSimpProofs3 CSimpProofs5.
From Verif Require Import AlgSpec CAlg NcRing MatModel SlhModel MatSpec MatProofs SlhProofs1 SlhProofs2 SlhProofs3 SlhProofs4 SlhProofs5 SlhProofs6 SlhProofs7 SlhProofs8.

Section Inst.
  Context (M : calgebra).
  Notation slh := (slh M).
  Implicit Types (a b c : slh) (n m : nat).
  (** closing the loop between the last output and the last input of the
      (n+1)-channel system [a]: 1 - S_nn has an inverse [y] *)
  Definition closes n a b : Prop := exists y, invs (Sf a n n) y /\ b = fbl n a y.

  Lemma catl_catl_of (l : list (nat * slh)) : catl_of (cat (M:=M)) (prm []) l = catl l.
  Proof.
    induction l as [|[n a] l IH]; cbn [catl_of catl]; [exact (prm_ident 0)|]. now rewrite IH.
  Qed.
  Lemma id1 : prm [0] = ident 1 :> slh.
  Proof. exact (prm_ident 1). Qed.
  Lemma id0 : prm [] = ident 0 :> slh.
  Proof. exact (prm_ident 0). Qed.
  Lemma Sf_cat1_ser n a b : Sf (ser (S n) (cat n 1 a (ident 1)) b) n n = Sf b n n.
  Proof. rewrite Sf_ser by lia. rewrite mv_col. exact (mv_cat1_n n a (fun k => Sf b k n)). Qed.
  Lemma Sf_ser_cat1 n a b : Sf (ser (S n) b (cat n 1 a (ident 1))) n n = Sf b n n.
  Proof.
    rewrite Sf_ser by lia. unfold mm. rewrite sm_S. rewrite sm_zero.
    - rewrite Sf_cat1_nn, amul_1r. apply aadd_0.
    - intros k Hk. rewrite Sf_cat1_col by exact Hk. apply amul_0r.
  Qed.
  Lemma Sf_sinv n a i j : i < n -> j < n -> Sf (sinv n a) i j = star (Sf a j i).
  Proof. intros. unfold sinv. now rewrite Sf_mkS. Qed.

  Definition slh_model : cmodel.
  Proof.
    refine {| dom := slh; mok := phys (M:=M); mser := ser (M:=M); mcat := cat (M:=M); minv := sinv (M:=M); mprm := prm (M:=M);
              mfb := closes |}.
    - intros n a b. apply phys_ser.
    - intros n m a b. apply phys_cat.
    - intros n a. apply phys_sinv.
    - intros p. apply phys_prm.
    - intros n a b Ha (y & Hy & ->). now apply phys_fbl.
    - intros n a b c (_ & Ha & _) _ _. now apply ser_assoc.
    - intros n a (Ha & _). rewrite prm_ident. now apply ident_l.
    - intros n a (Ha & _). rewrite prm_ident. now apply ident_r.
    - intros n1 n2 n3 a b c _ _ _. apply cat_assoc.
    - intros n a (Ha & _). rewrite id0. now apply cat_ident0_l.
    - intros n a (Ha & _). rewrite id0. now apply cat_ident0_r.
    - intros n m a b c d _ _ _ _. apply interchange.
    - intros p q. apply prm_ser.
    - intros p q. apply cat_prm.
    - intros l bp _ Hp Hl. rewrite !catl_catl_of. rewrite id0. exact (nat_block l bp Hp Hl).
    - intros n a (_ & Ha & Hc & _). rewrite prm_ident. now apply sinv_l.
    - intros n a (_ & Ha & Hc & _). rewrite prm_ident. now apply sinv_r.
    - intros n a b c _ (y & Hy & ->) (y' & Hy' & ->). f_equal. exact (invs_unique _ _ _ Hy Hy').
    - intros n1 n2 a b c _ _ (y & Hy & ->). exists (fbl n2 b y). split; [|apply fb_cat]. exists y. split; [|reflexivity].
      rewrite Sf_cat in Hy by lia. now rewrite fcat_rr in Hy.
    - intros n a b c (_ & Ha & _) _ (y & Hy & ->). rewrite id1 in *. exists (fbl n b y). split; [|now apply fb_ser_l].
      exists y. split; [|reflexivity]. now rewrite Sf_cat1_ser in Hy.
    - intros n a b c _ (_ & Hb & _) (y & Hy & ->). rewrite id1 in *. rewrite Sf_ser_cat1 in Hy. exists (fbl n b y).
      split; [|now apply fb_ser_r]. exists y. now split.
    - intros n p c Hp Hl (y & Hy & ->). now apply fb_prm.
    - intros n a b (Hs & Hi & Hc & Hh) (y & Hy & ->). exists (star y). split; [|symmetry; now apply fb_sinv].
      rewrite Sf_sinv by lia. now apply invs_star.
  Defined.

  (** SLH objects as literals of circuit expressions *)
  Context (inv : A M -> res (K M)) (slh_eq : slh -> slh -> bool).
  Definition slh_lits : lits slh := {|
    x_dim := slh_cdim (M:=M); x_eq := slh_eq; x_ser := series_with_slh (M:=M); x_cat := concatenate_slh (M:=M);
    x_inv := slh_series_inverse (M:=M); x_fb := slh_feedback (M:=M) inv |}.
  Context (Hinv : sound_inv inv) (Heq : forall s t, slh_eq s t = true -> s = t).

  Lemma slh_feedback_closes n a o i r b : phys (S n) a -> o <= n -> i <= n -> slh_feedback inv a o i = Ok r ->
    loop slh_model n a o i b -> r = b.
  Proof.
    intros Ha Ho Hi H (y & Hy & ->). rewrite (slh_feedback_ok inv n a o i) in H by (try assumption; apply Ha).
    step H w Ew. injection H as <-. change (mports slh_model n a o i) with (ports n a o i) in *. f_equal.
    apply (invs_unique (Sf (ports n a o i) n n)); [|exact Hy]. apply invs_scal. apply Hinv. exact Ew.
  Qed.
  Lemma slh_feedback_loop n a o i r : phys (S n) a -> o <= n -> i <= n -> slh_feedback inv a o i = Ok r ->
    loop slh_model n a o i r.
  Proof.
    intros Ha Ho Hi H. rewrite (slh_feedback_ok inv n a o i) in H by (try assumption; apply Ha).
    step H w Ew. injection H as <-. exists (smul w a1). split; [|reflexivity]. apply invs_scal. apply Hinv. exact Ew.
  Qed.

  Lemma slh_lits_sound : lits_sound slh_model slh_lits (fun s => s).
  Proof.
    constructor; cbn [slh_lits x_dim x_eq x_ser x_cat x_inv x_fb slh_model mok mser mcat minv dom].
    - exact Heq.
    - intros n s t r _ (Hs & _) (Ht & _) H. rewrite (series_ok s t n Hs Ht) in H. injection H as <-.
      split; [apply system_cdim, ser_system|reflexivity].
    - intros n m s t r _ _ (Hs & _) (Ht & _) H. rewrite (concat_ok s t n m Hs Ht) in H. injection H as <-.
      split; [apply system_cdim, cat_system|reflexivity].
    - intros n s r _ (Hs & _) H. rewrite (sinv_ok s n Hs) in H. injection H as <-.
      split; [apply system_cdim, sinv_system|reflexivity].
    - intros n s r o i b _ Hs Ho Hi Hl H. pose proof (slh_feedback_closes n s o i r b Hs Ho Hi H Hl) as E. split; [|exact E].
      subst r. destruct Hl as (y & _ & ->). apply system_cdim, fbl_system.
  Qed.
End Inst.

(** the interpretation that keeps only the numbers of channels *)
Definition dim_model : cmodel.
Proof.
  refine {| dom := option nat; mok := fun n a => a = Some n; mser := fun n _ _ => Some n; mcat := fun n m _ _ => Some (n + m);
            minv := fun n _ => Some n; mprm := fun p => Some (length p); mfb := fun n _ b => b = Some n |}; intros; subst;
    rewrite ?seq_length; try reflexivity; try (f_equal; lia).
  - rewrite comp_length. congruence.
  - f_equal. symmetry. apply PermProofs3.concatenate_side.
  - now exists (Some n2).
  - now exists (Some n).
  - now exists (Some n).
  - f_equal. unfold fb_perm. rewrite map_length, seq_length. lia.
Defined.
