(** C49, C50 for finite-level systems (expressions built from transition operators between
    existing levels, LvlSpec): the conversions give the matrix of the expression also when
    products have factors on several local spaces, and they commute with the arithmetic
    of operators: sums, multiples, products, adjoints, commutators and expansions.
    [mat_of h e], [stands_for h v F]: see ConvSpec; [code], [checked]: see OpRun. *)
From Coq Require Import Bool QArith Qcanon.
From Verif Require Import Prelude ListFacts SortModel SortProofs BinModel AlgSpec CAlg OpModel OpSpec OpForms OpProofs1 OpProofs2 OpProofs3 OpFuel OpOrder OpLocal OpClosed OpSiteSpec OpSx OpSites OpRun.
From Verif Require Import ConvModel ConvSpec ConvProofs1 ConvProofs2 ConvProofs3 QutipModel QutipSpec QutipProofs LvlInst LvlSpec LvlProofs Properties_Op1 Properties_Op2 Properties_Sites Properties_Conv Properties_Qutip.
Local Open Scope nat_scope.

Section Lvl.
Context {S : scalars} (r : reading S) (dim : nat -> option nat) (olt : op S -> op S -> bool) (slt : list nat -> list nat -> bool).
Local Notation code := (code dim olt slt).
Local Notation checked := (checked dim olt slt).
Local Notation mat_of := (mat_of r dim false).
Local Notation stands_for := (stands_for r dim).
Local Notation size := (size dim).
Local Notation level_ops := (level_ops dim).

(** ** spaces *)
Lemma code_within h n : fineK (within (fun p => In p h)) (code n).
Proof.
  apply creators_fine; [apply within_closed|]. intros es Hes. split; [discriminate|]. intros fs E. injection E as <-. rewrite Forall_forall in *. intros x Hx. apply Hes. now apply pysorted_In in Hx.
Qed.
Lemma plus_space h n a b e : incl (space a) h -> incl (space b) h -> k_plus (code n) [a; b] = Ok e -> incl (space e) h.
Proof. intros Ia Ib H. exact (proj2 (f_plus _ _ (code_within h n) [a; b] ltac:(repeat constructor; assumption)) e H). Qed.
Lemma scal_space h n c a e : incl (space a) h -> k_scal (code n) c a = Ok e -> incl (space e) h.
Proof. intros Ia H. exact (proj2 (f_scal _ _ (code_within h n) c a Ia) e H). Qed.
Lemma times_space h n l e : Forall (fun x => incl (space x) h) l -> k_times (code n) l = Ok e -> incl (space e) h.
Proof. intros Ia H. exact (proj2 (f_times _ _ (code_within h n) l Ia) e H). Qed.
Lemma comm_space h n a b e : incl (space a) h -> incl (space b) h -> k_comm (code n) a b = Ok e -> incl (space e) h.
Proof. intros Ia Ib H. exact (proj2 (f_comm _ _ (code_within h n) a b Ia Ib) e H). Qed.
Lemma adj_space h n a e : incl (space a) h -> oadj (code n) a = Ok e -> incl (space e) h.
Proof. intros Ia H. exact (proj2 (oadj_fine _ (within_closed _) _ (code_within h n) a Ia) e H). Qed.
Lemma expand_space h n m a e : incl (space a) h -> expand (code n) m a = Ok e -> incl (space e) h.
Proof. intros Ia H. exact (proj2 (expand_fine _ (within_closed _) _ (code_within h n) m a Ia) e H). Qed.

(** ** the matrix is an invariant of simplification *)
Lemma legal_ops h (Hn : NoDup h) (e : op S) : level_ops e -> legal (lvl_interp r dim h Hn) e.
Proof. apply (level_ops_legal r dim h Hn). Qed.
Lemma ops_legal h (Hn : NoDup h) (e : op S) : legal (lvl_interp r dim h Hn) e -> level_ops e.
Proof. apply (level_ops_legal r dim h Hn). Qed.
Ltac by_value Hn V := apply (of_mat_inj r dim); rewrite <- (value_mat r dim _ Hn) by first [assumption | now apply legal_ops]; rewrite V.
Ltac inv_value Hn := rewrite (value_mat r dim _ Hn) by first [assumption | now apply legal_ops].

Theorem C49_simplified_sum h n a b e : NoDup h -> level_ops a -> level_ops b -> incl (space a) h -> incl (space b) h ->
  k_plus (code n) [a; b] = Ok e -> level_ops e /\ meq r (size h) (mat_of h e) (madd r (mat_of h a) (mat_of h b)).
Proof.
  intros Hn La Lb Ia Ib H. pose proof (plus_space h n a b e Ia Ib H) as Ie. destruct (C30_sum_value (lvl_interp r dim h Hn) olt slt n [a; b] e) as [Le Ve]; [repeat constructor; now apply legal_ops|exact H|].
  apply ops_legal in Le. split; [exact Le|]. by_value Hn Ve. cbn [map]. rewrite msum_2. inv_value Hn. rewrite (value_mat r dim h Hn b Ib (legal_ops h Hn b Lb)). apply (add_of r dim h).
Qed.
Theorem C49_simplified_multiple h n c a e : NoDup h -> level_ops a -> incl (space a) h ->
  k_scal (code n) c a = Ok e -> level_ops e /\ meq r (size h) (mat_of h e) (mscale r (ev c) (mat_of h a)).
Proof.
  intros Hn La Ia H. pose proof (scal_space h n c a e Ia H) as Ie. destruct (C30_multiple_value (lvl_interp r dim h Hn) olt slt n c a e) as [Le Ve]; [now apply legal_ops|exact H|].
  apply ops_legal in Le. split; [exact Le|]. by_value Hn Ve. inv_value Hn. apply (smul_of r dim h).
Qed.
(** products: [checked] gives up when the sorting of factors exchanges two factors that share a
    local space; otherwise it does what the code does *)
Theorem C49_simplified_product h n a b e : NoDup h -> level_ops a -> level_ops b -> incl (space a) h -> incl (space b) h ->
  k_times (checked n) [a; b] = Ok e ->
  k_times (code n) [a; b] = Ok e /\ level_ops e /\ meq r (size h) (mat_of h e) (mmul r (size h) (mat_of h a) (mat_of h b)).
Proof.
  intros Hn La Lb Ia Ib H. destruct (C34_product_value (lvl_interp r dim h Hn) olt slt n [a; b] e) as [Ec [Le Ve]]; [repeat constructor; now apply legal_ops|exact H|].
  pose proof (times_space h n [a; b] e ltac:(repeat constructor; assumption) Ec) as Ie.
  apply ops_legal in Le. split; [exact Ec|]. split; [exact Le|]. by_value Hn Ve. cbn [map]. rewrite mprod_2. inv_value Hn. rewrite (value_mat r dim h Hn b Ib (legal_ops h Hn b Lb)). apply (mul_of r dim h).
Qed.
(** nothing needs to be checked when every factor acts on one local space, in any order *)
Theorem C49_simplified_sites_product h n l e : site_order olt slt -> NoDup h -> Forall tidy l -> Forall level_ops l -> Forall (fun x => incl (space x) h) l ->
  k_times (code n) l = Ok e ->
  level_ops e /\ meq r (size h) (mat_of h e) (mat_of h (OTimes l)).
Proof.
  intros Ho Hn Ht Hl Hs H. pose proof (times_space h n l e Hs H) as Ie. assert (Forall (legal (lvl_interp r dim h Hn)) l) as HL by (rewrite Forall_forall in *; intros x Hx; apply legal_ops; now apply Hl).
  destruct (C34_sites_product_value (lvl_interp r dim h Hn) olt slt Ho n l e Ht HL H) as [_ [Le Ve]].
  apply ops_legal in Le. split; [exact Le|]. by_value Hn Ve. change (mprod (lvl_interp r dim h Hn) (map (value (lvl_interp r dim h Hn)) l)) with (value (lvl_interp r dim h Hn) (OTimes l)).
  apply value_mat; [|apply legal_times; exact HL]. intros y Hy. cbn [space] in Hy. apply space_list_In in Hy. destruct Hy as [x [Hx Hy]]. rewrite Forall_forall in Hs. exact (Hs x Hx y Hy).
Qed.
Theorem C49_simplified_adjoint h n a e : NoDup h -> level_ops a -> incl (space a) h ->
  oadj (checked n) a = Ok e -> oadj (code n) a = Ok e /\ level_ops e /\ meq r (size h) (mat_of h e) (mherm r (mat_of h a)).
Proof.
  intros Hn La Ia H. destruct (C32_adjoint_value (lvl_interp r dim h Hn) olt slt n a e) as [Ec [Le Ve]]; [now apply legal_ops|exact H|].
  pose proof (adj_space h n a e Ia Ec) as Ie.
  apply ops_legal in Le. split; [exact Ec|]. split; [exact Le|]. by_value Hn Ve. inv_value Hn. apply (star_of r dim h).
Qed.
Theorem C49_simplified_expand h n m a e : NoDup h -> level_ops a -> incl (space a) h ->
  expand (checked n) m a = Ok e -> expand (code n) m a = Ok e /\ level_ops e /\ meq r (size h) (mat_of h e) (mat_of h a).
Proof.
  intros Hn La Ia H. destruct (C31_expand_value (lvl_interp r dim h Hn) olt slt n m a e) as [Ec [Le Ve]]; [now apply legal_ops|exact H|].
  pose proof (expand_space h n m a e Ia Ec) as Ie.
  apply ops_legal in Le. split; [exact Ec|]. split; [exact Le|]. by_value Hn Ve. now inv_value Hn.
Qed.
Theorem C49_simplified_commutator h n a b e : NoDup h -> level_ops a -> level_ops b -> incl (space a) h -> incl (space b) h ->
  k_comm (checked n) a b = Ok e ->
  k_comm (code n) a b = Ok e /\ level_ops e
  /\ meq r (size h) (mat_of h e) (madd r (mmul r (size h) (mat_of h a) (mat_of h b)) (mscale r (kopp k1) (mmul r (size h) (mat_of h b) (mat_of h a)))).
Proof.
  intros Hn La Lb Ia Ib H. destruct (C36_commutator_value (lvl_interp r dim h Hn) olt slt n a b e) as [Ec [Le Ve]]; [now apply legal_ops|now apply legal_ops|exact H|].
  pose proof (comm_space h n a b e Ia Ib Ec) as Ie.
  apply ops_legal in Le. split; [exact Ec|]. split; [exact Le|]. by_value Hn Ve. inv_value Hn. rewrite (value_mat r dim h Hn b Ib (legal_ops h Hn b Lb)).
  cbn [aadd amul smul lvl_interp rd lvl_reading cal lvl_calg sal lvl_star alg lvl_alg]. rewrite !mul_of. rewrite (smul_of r dim h). apply (add_of r dim h).
Qed.

(** ** the conversions give the matrix, whatever the form of the expression *)
Lemma ops_scal c (t : op S) : level_ops (OScal c t) -> level_ops t.
Proof. now intros H. Qed.
Lemma ops_list (l : list (op S)) : level_ops (OTimes l) -> Forall level_ops l.
Proof. cbn [LvlSpec.level_ops]. induction l as [|x l IH]; intros H; constructor; [apply H|apply IH, H]. Qed.
Lemma ops_expand n m (l : list (op S)) se : level_ops (OTimes l) -> expand (checked n) m (OTimes l) = Ok se ->
  level_ops se /\ forall h, NoDup h -> incl (space (OTimes l)) h -> meq r (size h) (mat_of h se) (mat_of h (OTimes l)).
Proof.
  intros Hl H. split.
  - apply (ops_legal [] (NoDup_nil _)). exact (proj1 (proj2 (C31_expand_value (lvl_interp r dim [] (NoDup_nil _)) olt slt n m (OTimes l) se (legal_ops [] (NoDup_nil _) _ Hl) H))).
  - intros h Hn Hi. exact (proj2 (proj2 (C49_simplified_expand h n m (OTimes l) se Hn Hl Hi H))).
Qed.
Lemma le_expand n m (e : op S) : le (expand (checked n) m e) (expand (code n) m e).
Proof. apply expand_mono; [apply checked_le|apply Nat.le_refl]. Qed.

Theorem C49_convert_any n m k e h v : NoDup h -> level_ops e ->
  conv r dim (expand (checked n) m) k e h = Ok v ->
  conv r dim (expand (code n) m) k e h = Ok v /\ stands_for h v (mat_of h e).
Proof.
  intros Hn Hl H. split.
  - exact (le_ok _ _ _ (conv_mono r dim _ _ (le_expand n m) k e h) H).
  - apply stands_for_stands. refine (conv_good r dim false (expand (checked n) m) level_ops _ _ _ _ _ _ k e h v H Hn Hl).
    + intros a Ha. destruct a; exact Ha || exact Logic.I.
    + intros c t. apply ops_scal.
    + intros t Ht. exact Ht.
    + intros l. apply ops_list.
    + intros l Ht _. now apply ops_list.
    + intros l se Ht _. now apply ops_expand.
Qed.
Theorem C50_convert_any is_num n m k e h v : NoDup h -> level_ops e ->
  conv_q r dim is_num (fun _ => None) (expand (checked n) m) k e h = Ok v ->
  conv_q r dim is_num (fun _ => None) (expand (code n) m) k e h = Ok v /\ stands_for h v (mat_of h e).
Proof.
  intros Hn Hl H. split.
  - exact (le_ok _ _ _ (convq_mono r dim _ _ (le_expand n m) is_num _ k e h) H).
  - apply stands_for_stands. refine (convq_good r dim false is_num (expand (checked n) m) level_ops _ _ _ _ _ k e h v H Hn Hl).
    + intros a Ha. destruct a; try contradiction; first [exact Logic.I | left; exact Logic.I | now left | now right].
    + intros c t. apply ops_scal.
    + intros l. apply ops_list.
    + intros l Ht _. now apply ops_list.
    + intros l se Ht _. now apply ops_expand.
Qed.
End Lvl.

(** ** a two- and a three-level system *)
Definition lv (j k l : nat) : op Sx := OAtom (ASigma j k l).
(** (|0><1| on the first + |0><1| on the second) (|1><0| on the first + |2><1| on the second) *)
Definition lv_e : op Sx := OTimes [OPlus [lv 0 1 0; lv 0 1 1]; OPlus [lv 1 0 0; lv 2 1 1]].
Example C49_ex_any_ops : level_ops cdim lv_e /\ existsb (fun o : op Sx => 1 <? length (space o)) [OPlus [lv 0 1 0; lv 0 1 1]; OPlus [lv 1 0 0; lv 2 1 1]] = true.
Proof. split; [cbn; repeat split; lia|reflexivity]. Qed.
Example C49_ex_any : match conv xr cdim (expand (checked cdim xolt xslt 6) 6) 8 lv_e [0; 1] with Ok (SMat _ n _) => n =? 6 | _ => false end = true
  /\ match conv_q xr cdim all_num (fun _ => None) (expand (checked cdim xolt xslt 6) 6) 8 lv_e [0; 1] with Ok (SMat _ n _) => n =? 6 | _ => false end = true.
Proof. split; vm_compute; reflexivity. Qed.
Example C49_ex_simplified : is_ok (k_times (checked cdim xolt xslt 6) [lv 2 1 1; OTimes [lv 0 1 0; lv 1 0 1]]) (OTimes [lv 0 1 0; lv 2 0 1]) = true
  /\ incl (space (OTimes [lv 0 1 0; lv 1 0 1])) [0; 1].
Proof. split; [vm_compute; reflexivity|]. intros x Hx. exact Hx. Qed.

Print Assumptions C49_simplified_sum.
Print Assumptions C49_simplified_multiple.
Print Assumptions C49_simplified_product.
Print Assumptions C49_simplified_sites_product.
Print Assumptions C49_simplified_adjoint.
Print Assumptions C49_simplified_expand.
Print Assumptions C49_simplified_commutator.
Print Assumptions C49_convert_any.
Print Assumptions C50_convert_any.
