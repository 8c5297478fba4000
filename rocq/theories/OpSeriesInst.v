(** A representation with a parameter: operators on the lattice of Fock spaces
    that are functions of a real number x, and a SymPy that expands polynomial
    coefficients. Shows that the hypotheses of C33 can be met. *)
From Coq Require Import Reals QArith Qcanon Ring Lra FunctionalExtensionality.
From Verif Require Import Prelude Cplx AlgSpec CAlg OpModel OpSpec OpSites OpFock OpSx OpRun OpPi OpSeriesModel OpSeriesSpec.
Local Open Scope nat_scope.
Add Ring Cri : cring.

(** symbol 0 is the parameter; all the other symbols are 1 *)
Definition vx (x : R) (n : nat) : cx := if n =? 0 then creal x else c1.
Definition Fx (x : R) : interp Sx xdim := fock (sx_reading (vx x)) xdim xboson xboson_dim.
Definition Px : interp Sx xdim := pi_interp 0%R Fx.

(** ** polynomials that vanish have no coefficients *)
Fixpoint evalc (zs : list cx) (x : R) : cx := match zs with [] => c0 | z :: l => cadd z (cmul (creal x) (evalc l x)) end.
Fixpoint spread (p : R) (zs : list cx) : list cx := match zs with [] => [] | z :: l => cmul (creal (p - 1)) z :: spread (2 * p) l end.
Lemma spread_eval zs : forall p x, evalc (spread p zs) x = cadd (cmul (creal p) (evalc zs (2 * x))) (copp (evalc zs x)).
Proof.
  induction zs as [|z l IH]; intros p x; cbn [evalc spread]; [ring|]. rewrite IH.
  apply cx_eq; cbn [cre cim cadd cmul copp creal]; ring.
Qed.
Lemma spread_length zs : forall p, length (spread p zs) = length zs.
Proof. induction zs; intros; cbn; congruence. Qed.
Lemma cmul_real_0 r z : r <> 0%R -> cmul (creal r) z = c0 -> z = c0.
Proof.
  intros H E. pose proof (f_equal cre E) as E1. pose proof (f_equal cim E) as E2. cbn [cre cim cmul creal c0] in E1, E2.
  apply cx_eq; cbn [cre cim c0].
  - apply (Rmult_eq_reg_l r); [lra|exact H].
  - apply (Rmult_eq_reg_l r); [lra|exact H].
Qed.
Lemma spread_zero zs : forall p, (1 < p)%R -> Forall (fun z => z = c0) (spread p zs) -> Forall (fun z => z = c0) zs.
Proof.
  induction zs as [|z l IH]; intros p Hp H; [constructor|]. cbn [spread] in H. constructor.
  - exact (cmul_real_0 (p - 1) z ltac:(lra) (Forall_inv H)).
  - exact (IH (2 * p)%R ltac:(lra) (Forall_inv_tail H)).
Qed.
Lemma evalc_zeros zs x : Forall (fun z => z = c0) zs -> evalc zs x = c0.
Proof. induction 1 as [|z l Hz _ IH]; [reflexivity|]. cbn [evalc]. rewrite Hz, IH. ring. Qed.
Lemma evalc_zero n : forall zs, length zs = n -> (forall x, x <> 0%R -> evalc zs x = c0) -> Forall (fun z => z = c0) zs.
Proof.
  induction n as [|n IH]; intros [|z l] Hn H; try discriminate; [constructor|].
  assert (Forall (fun z => z = c0) l) as Hl.
  { apply (spread_zero l 2 ltac:(lra)). apply IH; [rewrite spread_length; now injection Hn|].
    intros x Hx. apply (cmul_real_0 x); [exact Hx|]. rewrite spread_eval.
    pose proof (H x Hx) as H1. pose proof (H (2 * x)%R ltac:(lra)) as H2. cbn [evalc] in H1, H2.
    pose proof (f_equal cre H1) as A1. pose proof (f_equal cim H1) as B1. pose proof (f_equal cre H2) as A2. pose proof (f_equal cim H2) as B2.
    cbn [cre cim cadd cmul creal c0] in A1, B1, A2, B2. apply cx_eq; cbn [cre cim cadd cmul creal c0 copp]; lra. }
  constructor; [|exact Hl]. specialize (H 1%R ltac:(lra)). cbn [evalc] in H. rewrite (evalc_zeros l _ Hl) in H. rewrite <- H. ring.
Qed.

(** ** the same for operators *)
Notation opn := (oprs_c nat).
Fixpoint evalo (cs : list (A opn)) (x : R) : A opn := match cs with [] => a0 | c :: l => aadd c (smul (creal x : K opn) (evalo l x)) end.
Lemma evalo_fst cs x f k : fst (evalo cs x) f k = evalc (map (fun t : A opn => fst t f k) cs) x.
Proof. induction cs as [|c l IH]; [reflexivity|]. cbn [map evalo evalc]. rewrite <- IH. reflexivity. Qed.
Lemma evalo_snd cs x f k : snd (evalo cs x) f k = evalc (map (fun t : A opn => snd t f k) cs) x.
Proof.
  induction cs as [|c l IH]; [reflexivity|]. cbn [map evalo evalc]. rewrite <- IH.
  change (cadd (snd c f k) (cmul (cconj (creal x)) (snd (evalo l x) f k)) = cadd (snd c f k) (cmul (creal x) (snd (evalo l x) f k))). now rewrite cconj_real.
Qed.
Lemma evalo_zero cs : (forall x, evalo cs x = a0) -> Forall (fun c => c = a0) cs.
Proof.
  intros H. rewrite Forall_forall. intros c Hc. apply opr_eq; intros f k.
  - assert (Forall (fun z => z = c0) (map (fun t : A opn => fst t f k) cs)) as E.
    { eapply evalc_zero; [reflexivity|]. intros x _. rewrite <- evalo_fst, H. reflexivity. }
    rewrite Forall_forall in E. apply (E (fst c f k)). apply in_map_iff. now exists c.
  - assert (Forall (fun z => z = c0) (map (fun t : A opn => snd t f k) cs)) as E.
    { eapply evalc_zero; [reflexivity|]. intros x _. rewrite <- evalo_snd, H. reflexivity. }
    rewrite Forall_forall in E. apply (E (snd c f k)). apply in_map_iff. now exists c.
Qed.
Lemma evalo_zeros cs x : Forall (fun c => c = a0) cs -> evalo cs x = a0.
Proof. induction 1 as [|c l Hc _ IH]; [reflexivity|]. cbn [evalo]. rewrite Hc, IH, smul_zero. apply aadd_0. Qed.
Fixpoint addo (cs ds : list (A opn)) : list (A opn) :=
  match cs, ds with [], _ => ds | _, [] => cs | c :: cs', d :: ds' => aadd c d :: addo cs' ds' end.
Fixpoint mulo (cs ds : list (A opn)) : list (A opn) :=
  match cs with [] => [] | c :: cs' => addo (map (amul c) ds) (a0 :: mulo cs' ds) end.
Lemma addo_eval cs : forall ds x, evalo (addo cs ds) x = aadd (evalo cs x) (evalo ds x).
Proof.
  induction cs as [|c cs IH]; intros [|d ds] x; cbn [addo evalo]; rewrite ?aadd_0, ?aadd_0r; try reflexivity.
  rewrite IH, smul_addr. apply aadd_perm4.
Qed.
Lemma mapl_eval c ds x : evalo (map (amul c) ds) x = amul c (evalo ds x).
Proof. induction ds as [|d ds IH]; cbn [map evalo]; [now rewrite amul_0r|]. now rewrite IH, amul_addr, smul_amul_r. Qed.
Lemma mulo_eval cs ds x : evalo (mulo cs ds) x = amul (evalo cs x) (evalo ds x).
Proof.
  induction cs as [|c cs IH]; cbn [mulo]; [cbn [evalo]; now rewrite amul_0l|]. rewrite addo_eval, mapl_eval. cbn [evalo].
  now rewrite IH, aadd_0, amul_addl, smul_amul_l.
Qed.
Lemma star_eval (cs : list (A opn)) x : evalo (map star cs) x = star (evalo cs x).
Proof.
  induction cs as [|c cs IH]; [reflexivity|]. cbn [map evalo]. rewrite IH, star_add, star_smul. f_equal. f_equal. symmetry. exact (cconj_real x).
Qed.

Definition cst_x (a : A Px) : Prop := exists c : A opn, forall x, a x = c.
Definition reg_x (a : A Px) : Prop := exists cs : list (A opn), forall x, a x = evalo cs x.
Definition pt_x : K Px := fun x => creal x.
Definition Paramx : param Px.
Proof.
  refine {| pt := pt_x; cst := cst_x; reg := reg_x |}.
  - exact (functional_extensionality (kconj pt_x : R -> cx) pt_x (fun x => cconj_real x)).
  - now exists (a0 : A opn).
  - now exists (a1 : A opn).
  - intros a b [c Hc] [d Hd]. exists (aadd c d). intros x. change (aadd (a:=opn) (a x) (b x) = aadd c d). now rewrite Hc, Hd.
  - intros a b [c Hc] [d Hd]. exists (amul c d). intros x. change (amul (a:=opn) (a x) (b x) = amul c d). now rewrite Hc, Hd.
  - intros a [c Hc]. exists (smul (kopp k1 : K opn) c). intros x. change (smul (a:=opn) (kopp k1 : K opn) (a x) = smul (kopp k1 : K opn) c). now rewrite Hc.
  - intros a [c Hc]. exists (star c). intros x. change (star (s:=opn) (a x) = star c). now rewrite Hc.
  - intros a [c Hc]. exists [c]. intros x. rewrite Hc. cbn [evalo]. now rewrite smul_zero, aadd_0r.
  - intros a b [c Hc] [d Hd]. exists (addo c d). intros x. rewrite addo_eval. change (aadd (a:=opn) (a x) (b x) = aadd (evalo c x) (evalo d x)). now rewrite Hc, Hd.
  - intros a b [c Hc] [d Hd]. exists (mulo c d). intros x. rewrite mulo_eval. change (amul (a:=opn) (a x) (b x) = amul (evalo c x) (evalo d x)). now rewrite Hc, Hd.
  - intros a [c Hc]. exists (a0 :: c). intros x. cbn [evalo]. rewrite aadd_0. change (smul (a:=opn) (creal x : K opn) (a x) = smul (creal x : K opn) (evalo c x)). now rewrite Hc.
  - intros a [c Hc]. exists (map star c). intros x. rewrite star_eval. change (star (s:=opn) (a x) = star (evalo c x)). now rewrite Hc.
  - intros a b [c Hc] [d Hd] E. assert (forall x, evalo (c :: d) x = a0) as H.
    { intros x. cbn [evalo]. rewrite <- Hd, <- (Hc x). exact (f_equal (fun g => g x) E). }
    apply evalo_zero in H. split.
    + refine (functional_extensionality (a : R -> A opn) (fun _ => a0) _). intros x. rewrite Hc. exact (Forall_inv H).
    + refine (functional_extensionality (b : R -> A opn) (fun _ => a0) _). intros x. rewrite Hd. exact (evalo_zeros d x (Forall_inv_tail H)).
Defined.

(** ** a SymPy for polynomials *)
Fixpoint x_free (a : sx) : bool :=
  match a with
  | XQ _ | XI | XSqrt _ => true
  | XVar n => negb (n =? 0)
  | XAdd a b | XMul a b => x_free a && x_free b
  | XConj a | XExp a => x_free a
  end.
Fixpoint x_addp (cs ds : list sx) : list sx :=
  match cs, ds with [], _ => ds | _, [] => cs | c :: cs', d :: ds' => x_add c d :: x_addp cs' ds' end.
Fixpoint x_mulp (cs ds : list sx) : list sx :=
  match cs with [] => [] | c :: cs' => x_addp (map (x_mul c) ds) (XQ 0%Qc :: x_mulp cs' ds) end.
(** the coefficients of a polynomial in the parameter *)
Fixpoint x_poly (a : sx) : option (list sx) :=
  match a with
  | XVar n => Some (if n =? 0 then [XQ 0%Qc; XQ 1%Qc] else [XVar n])
  | XQ _ | XI | XSqrt _ => Some [a]
  | XAdd a b => match x_poly a, x_poly b with Some c, Some d => Some (x_addp c d) | _, _ => None end
  | XMul a b => match x_poly a, x_poly b with Some c, Some d => Some (x_mulp c d) | _, _ => None end
  | XConj a => match x_poly a with Some c => Some (map x_conj c) | None => None end
  | XExp b => if x_free b then Some [a] else None
  end.
Fixpoint numbered (k : nat) (cs : list sx) : list (sx * option Z) :=
  match cs with
  | [] => []
  | c :: l => if x_is 0 c then numbered (k + 1) l else (c, Some (Z.of_nat k)) :: numbered (k + 1) l
  end.
Definition x_terms (c : Sx) (order : nat) : list (Sx * option Z) :=
  match x_poly c with Some cs => numbered 0 cs | None => [(c, None)] end.

Lemma x_add_free a b : x_free a = true -> x_free b = true -> x_free (x_add a b) = true.
Proof.
  intros Ha Hb. unfold x_add. destruct (x_is 0 a); [exact Hb|]. destruct (x_is 0 b); [exact Ha|].
  destruct a; cbn [x_free] in *; rewrite ?Ha, ?Hb; try reflexivity. destruct b; cbn [x_free] in *; rewrite ?Hb; reflexivity.
Qed.
Lemma x_mul_free a b : x_free a = true -> x_free b = true -> x_free (x_mul a b) = true.
Proof.
  intros Ha Hb. unfold x_mul. destruct (x_is 0 a); [reflexivity|]. destruct (x_is 0 b); [reflexivity|].
  destruct (x_is 1 a); [exact Hb|]. destruct (x_is 1 b); [exact Ha|].
  destruct a; try (cbn [x_free] in *; rewrite ?Ha, ?Hb; reflexivity).
  - destruct b; cbn [x_free] in *; rewrite ?Hb; reflexivity.
  - destruct b; cbn [x_free] in *; rewrite ?Hb; try reflexivity. now destruct (qeqb q q0 && Qle_bool 0 q).
Qed.
Lemma x_conj_free a : x_free a = true -> x_free (x_conj a) = true.
Proof.
  induction a; cbn [x_free x_conj]; intros H; try assumption; try reflexivity; auto.
  - apply andb_prop in H. destruct H. apply x_add_free; auto.
  - apply andb_prop in H. destruct H. apply x_mul_free; auto.
Qed.
Lemma x_addp_free cs : forall ds, Forall (fun c => x_free c = true) cs -> Forall (fun c => x_free c = true) ds -> Forall (fun c => x_free c = true) (x_addp cs ds).
Proof.
  induction cs as [|c cs IH]; intros [|d ds] H1 H2; cbn [x_addp]; try assumption.
  constructor; [exact (x_add_free _ _ (Forall_inv H1) (Forall_inv H2))|]. exact (IH _ (Forall_inv_tail H1) (Forall_inv_tail H2)).
Qed.
Lemma x_mulp_free cs ds : Forall (fun c => x_free c = true) cs -> Forall (fun c => x_free c = true) ds -> Forall (fun c => x_free c = true) (x_mulp cs ds).
Proof.
  induction cs as [|c cs IH]; intros H1 H2; cbn [x_mulp]; [constructor|]. apply x_addp_free.
  - rewrite Forall_map. apply Forall_impl with (2 := H2). intros d Hd. exact (x_mul_free _ _ (Forall_inv H1) Hd).
  - constructor; [reflexivity|]. exact (IH (Forall_inv_tail H1) H2).
Qed.
Lemma x_free_val a x : x_free a = true -> x_val (vx x) a = x_val (vx 0%R) a.
Proof.
  induction a; cbn [x_free x_val]; intros H; try reflexivity.
  - unfold vx. destruct (n =? 0); [discriminate|reflexivity].
  - apply andb_prop in H. destruct H. now rewrite IHa1, IHa2.
  - apply andb_prop in H. destruct H. now rewrite IHa1, IHa2.
  - now rewrite IHa.
  - now rewrite IHa.
Qed.
Lemma x_poly_free a : forall cs, x_poly a = Some cs -> Forall (fun c => x_free c = true) cs.
Proof.
  induction a; intros cs; cbn [x_poly].
  - intros [= <-]. now repeat constructor.
  - intros [= <-]. now repeat constructor.
  - intros [= <-]. destruct (Nat.eqb_spec n 0) as [->|Hn]; [now repeat constructor|]. constructor; [|constructor]. cbn [x_free]. now apply negb_true_iff, Nat.eqb_neq.
  - destruct (x_poly a1) as [c|]; [|discriminate]. destruct (x_poly a2) as [d|]; [|discriminate]. intros [= <-]. apply x_addp_free; [now apply IHa1|now apply IHa2].
  - destruct (x_poly a1) as [c|]; [|discriminate]. destruct (x_poly a2) as [d|]; [|discriminate]. intros [= <-]. apply x_mulp_free; [now apply IHa1|now apply IHa2].
  - destruct (x_poly a) as [c|]; [|discriminate]. intros [= <-]. rewrite Forall_map. apply Forall_impl with (2 := IHa c eq_refl). intros d Hd. now apply x_conj_free.
  - destruct (x_free a) eqn:E; [|discriminate]. intros [= <-]. constructor; [exact E|constructor].
  - intros [= <-]. now repeat constructor.
Qed.
Definition vals (x : R) (cs : list sx) : cx := evalc (map (x_val (vx x)) cs) x.
Lemma vals_add x cs : forall ds, vals x (x_addp cs ds) = cadd (vals x cs) (vals x ds).
Proof.
  induction cs as [|c cs IH]; intros [|d ds]; unfold vals in *; cbn [x_addp map evalc]; try ring. rewrite IH, x_add_val. ring.
Qed.
Lemma vals_scale x c ds : vals x (map (x_mul c) ds) = cmul (x_val (vx x) c) (vals x ds).
Proof. induction ds as [|d ds IH]; unfold vals in *; cbn [map evalc]; [ring|]. rewrite IH, x_mul_val. ring. Qed.
Lemma vals_mul x cs ds : vals x (x_mulp cs ds) = cmul (vals x cs) (vals x ds).
Proof.
  induction cs as [|c cs IH]; cbn [x_mulp]; [unfold vals; cbn [map evalc]; ring|]. rewrite vals_add, vals_scale.
  unfold vals in *. cbn [map evalc x_val]. rewrite IH, cQ_0. ring.
Qed.
Lemma vals_conj x cs : vals x (map x_conj cs) = cconj (vals x cs).
Proof.
  induction cs as [|c cs IH]; unfold vals in *; cbn [map evalc]; [symmetry; exact (cconj_real 0)|]. rewrite IH, x_conj_val, cconj_add, cconj_mul, cconj_real. reflexivity.
Qed.
Lemma x_poly_val a x : forall cs, x_poly a = Some cs -> x_val (vx x) a = vals x cs.
Proof.
  induction a; intros cs; cbn [x_poly].
  - intros [= <-]. unfold vals. cbn [map evalc]. ring.
  - intros [= <-]. unfold vals. cbn [map evalc]. ring.
  - intros [= <-]. destruct (Nat.eqb_spec n 0) as [->|Hn]; unfold vals; cbn [map evalc x_val]; [|ring]. rewrite cQ_0, cQ_1. unfold vx. cbn [Nat.eqb]. ring.
  - destruct (x_poly a1) as [c|]; [|discriminate]. destruct (x_poly a2) as [d|]; [|discriminate]. intros [= <-]. cbn [x_val]. now rewrite vals_add, (IHa1 c), (IHa2 d).
  - destruct (x_poly a1) as [c|]; [|discriminate]. destruct (x_poly a2) as [d|]; [|discriminate]. intros [= <-]. cbn [x_val]. now rewrite vals_mul, (IHa1 c), (IHa2 d).
  - destruct (x_poly a) as [c|]; [|discriminate]. intros [= <-]. cbn [x_val]. now rewrite vals_conj, (IHa c).
  - destruct (x_free a) eqn:E; [|discriminate]. intros [= <-]. unfold vals. cbn [map evalc]. ring.
  - intros [= <-]. unfold vals. cbn [map evalc]. ring.
Qed.
Lemma low_numbered order cs : forall k, low_terms (S:=Sx) order (numbered k cs) = numbered k (firstn (order + 1 - k) cs).
Proof.
  induction cs as [|c cs IH]; intros k; [now rewrite firstn_nil|]. cbn [numbered]. destruct (le_lt_dec k order) as [Hk|Hk].
  - replace (order + 1 - k) with (Datatypes.S (order + 1 - (k + 1))) by lia. cbn [firstn numbered]. destruct (x_is 0 c); [apply IH|].
    cbn [low_terms]. destruct (Z.leb_spec (Z.of_nat k) (Z.of_nat order)); [|lia]. now rewrite IH.
  - replace (order + 1 - k) with 0 by lia. cbn [firstn]. destruct (x_is 0 c).
    + rewrite IH. now replace (order + 1 - (k + 1)) with 0 by lia.
    + cbn [low_terms]. destruct (Z.leb_spec (Z.of_nat k) (Z.of_nat order)); [lia|reflexivity].
Qed.
Lemma numbered_increasing cs : forall k j, (j < Z.of_nat k)%Z -> increasing (S:=Sx) j (numbered k cs).
Proof.
  induction cs as [|c cs IH]; intros k j Hj; [exact Logic.I|]. cbn [numbered]. destruct (x_is 0 c); [apply IH; lia|].
  cbn [increasing]. split; [exact Hj|]. apply IH. lia.
Qed.
Lemma numbered_In cs : forall k t, In t (numbered k cs) -> In (fst t) cs.
Proof.
  induction cs as [|c cs IH]; intros k t; cbn [numbered]; [intros []|]. destruct (x_is 0 c).
  - intros H. right. exact (IH _ _ H).
  - intros [<-|H]; [now left|]. right. exact (IH _ _ H).
Qed.
Lemma cst_free a : x_free a = true -> cst Paramx (smul (ev (r:=Px) (a : Sx)) a1).
Proof.
  intros H. exists (smul (x_val (vx 0%R) a : K opn) a1). intros x. change (smul (a:=opn) (x_val (vx x) a : K opn) a1 = smul (x_val (vx 0%R) a : K opn) a1).
  now rewrite (x_free_val a x H).
Qed.
Fixpoint cpow (x : cx) (n : nat) : cx := match n with 0 => c1 | Datatypes.S m => cmul x (cpow x m) end.
Lemma kpow_at n x : kpow (pt Paramx) n x = cpow (creal x) n.
Proof. induction n as [|n IH]; [reflexivity|]. cbn [kpow cpow]. rewrite <- IH. reflexivity. Qed.
Lemma cpow_S x n : cpow x (n + 1) = cmul x (cpow x n).
Proof. now rewrite Nat.add_1_r. Qed.
Lemma sm_add (a b : cx) : smul (a:=opn) (cadd a b : K opn) a1 = aadd (smul (a : K opn) a1) (smul (b : K opn) a1).
Proof. exact (smul_addl opn a b a1). Qed.
Lemma terms_at cs x : forall k, msum Px (map (term_value Paramx) (numbered k cs)) x = smul (a:=opn) (cmul (cpow (creal x) k) (vals x cs) : K opn) a1.
Proof.
  induction cs as [|c cs IH]; intros k; cbn [numbered].
  - unfold vals. cbn [map evalc]. replace (cmul (cpow (creal x) k) c0) with (k0 : K opn) by (cbn; ring). now rewrite smul_0.
  - assert (vals x (c :: cs) = cadd (x_val (vx x) c) (cmul (creal x) (vals x cs))) as -> by reflexivity.
    destruct (x_is 0 c) eqn:E.
    + rewrite IH, cpow_S. rewrite (x_is_eq _ _ E). cbn [x_val]. rewrite cQ_0. f_equal. ring.
    + cbn [map]. change (msum Px (?a :: ?l) x) with (aadd (a:=opn) (a x) (msum Px l x)). rewrite IH, cpow_S.
      assert (term_value Paramx (c, Some (Z.of_nat k)) x = smul (a:=opn) (cpow (creal x) k : K opn) (smul (x_val (vx x) c : K opn) a1)) as ->.
      { unfold term_value. cbn [fst snd]. rewrite Nat2Z.id, <- kpow_at. reflexivity. }
      replace (cmul (cpow (creal x) k) (cadd (x_val (vx x) c) (cmul (creal x) (vals x cs)))) with
        (cadd (cmul (cpow (creal x) k) (x_val (vx x) c)) (cmul (cmul (creal x) (cpow (creal x) k)) (vals x cs))) by ring.
      rewrite sm_add. f_equal. symmetry. exact (smul_mul opn _ _ _).
Qed.
Lemma vals_split x cs : forall m, vals x cs = cadd (vals x (firstn m cs)) (cmul (cpow (creal x) m) (vals x (skipn m cs))).
Proof.
  induction cs as [|c cs IH]; intros [|m]; cbn [firstn skipn]; try (unfold vals; cbn [map evalc cpow]; ring).
  change (vals x (c :: ?l)) with (cadd (x_val (vx x) c) (cmul (creal x) (vals x l))). rewrite (IH m). cbn [cpow]. ring.
Qed.
Lemma reg_vals cs : Forall (fun c => x_free c = true) cs -> reg Paramx (fun x => smul (a:=opn) (vals x cs : K opn) a1).
Proof.
  intros H. exists (map (fun c => smul (x_val (vx 0%R) c : K opn) a1) cs). intros x. induction H as [|c cs Hc _ IH].
  - cbn [map evalo]. unfold vals. cbn [map evalc]. now rewrite smul_0.
  - cbn [map evalo]. rewrite <- IH. change (vals x (c :: cs)) with (cadd (x_val (vx x) c) (cmul (creal x) (vals x cs))).
    rewrite sm_add, (x_free_val c x Hc). f_equal. exact (smul_mul opn _ _ _).
Qed.
(** this SymPy meets its contract *)
Lemma sympy_x order c : sympy_ok Paramx x_terms order c.
Proof.
  unfold sympy_ok, x_terms. destruct (x_poly c) as [cs|] eqn:E.
  - rewrite low_numbered, Nat.sub_0_r. set (m := order + 1). intros _. pose proof (x_poly_free _ _ E) as Hf. repeat split.
    + apply numbered_increasing. lia.
    + rewrite Forall_forall. intros t Ht. apply numbered_In in Ht. apply cst_free. rewrite Forall_forall in Hf. apply Hf.
      rewrite <- (firstn_skipn m cs). apply in_or_app. now left.
    + exists (fun x => smul (a:=opn) (vals x (skipn m cs) : K opn) a1). split.
      * apply reg_vals. rewrite Forall_forall in *. intros d Hd. apply Hf. rewrite <- (firstn_skipn m cs). apply in_or_app. now right.
      * refine (functional_extensionality (_ : R -> A opn) (_ : R -> A opn) _). intros x.
        change (smul (a:=opn) (x_val (vx x) c : K opn) a1 = aadd (a:=opn) (msum Px (map (term_value Paramx) (numbered 0 (firstn m cs))) x)
          (smul (a:=opn) (kpow (pt Paramx) (Datatypes.S order) x : K opn) (smul (vals x (skipn m cs) : K opn) a1))).
        rewrite terms_at, kpow_at, (x_poly_val c x cs E), (vals_split x cs m). rewrite sm_add. f_equal.
        -- f_equal. cbn [cpow]. ring.
        -- subst m. rewrite Nat.add_1_r. exact (smul_mul opn _ _ _).
  - cbn [low_terms]. intros H. destruct (Forall_inv H) as [o [Ho _]]. discriminate.
Qed.
Lemma atoms_x : atoms_ok Paramx x_free.
Proof.
  intros a Ha. exists (atom_val (Fx 0%R) a). intros x. destruct a as [n h|l|l|j k l|c l|c l|c l|l|l|l]; try reflexivity.
  - change (atom_val Px (APhase (S:=Sx) c l) x) with (iphase (i:=Fx x) (x_val (vx x) c) l). rewrite (x_free_val c x Ha). reflexivity.
Qed.
