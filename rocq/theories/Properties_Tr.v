(** C41 Partial traces. [itrace h] is the partial trace over the local spaces with the
    labels [h]; [trace_laws] (TrSpec) says what a partial trace is, and TrInst proves
    these laws for the partial trace of registers of n-level systems. [monitor]
    (TrModel) accepts a product if no factor that is taken out of the trace is moved past
    a factor sharing a space with it, and a rotation moves operators on the traced space
    only. [no_monitor] is the code. *)
From Coq Require Import Reals QArith Qcanon Lra.
From Verif Require Import Prelude ListFacts SortModel SortProofs BinModel AlgSpec CAlg Cplx OpModel OpSpec OpForms OpProofs1 OpProofs2 OpProofs3 OpFuel OpOrder OpLocal OpSx OpSites OpRun.
From Verif Require Import Properties_Op1 TrModel TrSpec TrProofs TrInst.
Local Open Scope nat_scope.

Section Tr.
  Context {S : scalars} {dim : nat -> option nat} (I : interp S dim) (T : trace_laws I).
  Context (olt : op S -> op S -> bool) (slt : list nat -> list nat -> bool).
  Local Notation code := (code dim olt slt).
  Local Notation checked := (checked dim olt slt).
  Local Notation legal := (legal I).
  Local Notation value := (value I).

  (** ** The value of a partial trace *)
  Theorem C41_trace_value n m h e e' : legal e -> trace_create dim (checked n) monitor m h e = Ok e' ->
    trace_create dim (code n) no_monitor m h e = Ok e' /\ legal e' /\ value e' = itrace h (value e).
  Proof.
    intros He H. split.
    - exact (le_ok _ _ _ (trace_mono dim _ _ (checked_le (dim:=dim) olt slt n) monitor m h e) H).
    - exact (trace_sound I T _ (checked_sound I olt slt n) m h e e' He H).
  Qed.
  (** expanding a partial trace *)
  Theorem C41_expand_value n m h e e' : legal e -> expand_trace dim (checked n) monitor m h e = Ok e' ->
    expand_trace dim (code n) no_monitor m h e = Ok e' /\ legal e' /\ value e' = itrace h (value e).
  Proof.
    intros He H. unfold expand_trace in *. destruct (expand (checked n) m e) as [x|] eqn:E; [|discriminate H]. cbn [bind] in H.
    destruct (C31_expand_value I olt slt n m e x He E) as [-> [Lx Vx]]. cbn [bind]. rewrite <- Vx. now apply C41_trace_value.
  Qed.
  (** Operators on one local space: the code as it is *)
  Theorem C41_local_value l n m h e e' : good_orders olt slt -> local_to l e -> legal e -> trace_create dim (code n) no_monitor m h e = Ok e' ->
    legal e' /\ value e' = itrace h (value e).
  Proof.
    intros Ho Hl He H. destruct (trace_agree l dim _ _ (local_agree l dim olt slt Ho n) m h e Hl) as [E _].
    exact (trace_sound I T _ (checked_sound I olt slt n) m h e e' He (eq_trans E H)).
  Qed.
  (** the only thing the code looks at beyond the factors' spaces is the dimension, and an
      unknown dimension is an error *)
  Theorem C41_unknown_dimension n m l a k : dim l = None -> a <> l ->
    trace_create dim (code n) no_monitor (1 + m) [l] OOne = Err BasisNotSetError
    /\ trace_create dim (code n) no_monitor (1 + m) [l] (OAtom (ASym k [a])) = Err BasisNotSetError.
  Proof.
    intros Hd Ha. split; cbn [trace_create Nat.add trace_step sp_dim bind]; [now rewrite Hd|].
    unfold factor_for_trace. cbn [space atom_space eqb_list_nat sp_mem existsb]. destruct (Nat.eqb_spec a l); [contradiction|]. cbn [andb].
    destruct (Nat.eqb_spec l a); [congruence|]. cbn [orb negb]. now rewrite Hd.
  Qed.
End Tr.

(** Products of operators that act on one local space each pass the monitor *)
Lemma sites_pulls {S : scalars} ls (l : list (op S)) : Forall (fun x => exists k, incl (space x) [k]) l -> pulls ls l = true.
Proof.
  induction 1 as [|x l [k Hk] Hl IH]; [reflexivity|]. cbn [pulls]. rewrite IH. cbn [andb]. destruct (sp_mem ls (space x)) eqn:E; [|reflexivity].
  apply sp_mem_In in E. pose proof (Hk _ E) as [->|[]]. apply forallb_forall. intros o Ho. destruct (sp_mem ls (space o)) eqn:Eo; [reflexivity|]. cbn [orb].
  apply sp_disjoint_apart. intros i Hi Hj. destruct (Hk _ Hi) as [->|[]]. apply sp_mem_In in Hj. congruence.
Qed.
Lemma first_sigma_split {S : scalars} (l : list (op S)) : forall j b f, first_sigma l = Some (j, (b, f)) -> l = b ++ f.
Proof.
  assert (forall x (l : list (op S)), (forall j b f, first_sigma l = Some (j, (b, f)) -> l = b ++ f) -> forall j b f,
    match first_sigma l with Some (j, (before, from)) => Some (j, (x :: before, from)) | None => None end = Some (j, (b, f)) -> x :: l = b ++ f) as G.
  { intros x l0 IH j b f. destruct (first_sigma l0) as [[j' [b' f']]|] eqn:E; [|discriminate]. intros [= <- <- <-]. cbn. f_equal. now apply (IH j'). }
  induction l as [|x l IH]; intros j b f; [discriminate|]. cbn [first_sigma].
  destruct x as [| |a|c t|es|es|a a'|a|a h|s a]; try (apply G; exact IH). destruct a; try (apply G; exact IH). intros [= <- <- <-]. reflexivity.
Qed.
Theorem C41_monitor_sites {S : scalars} ls (l : list (op S)) : Forall (fun x => space x = [] \/ exists k, space x = [k]) l -> monitor ls l = true.
Proof.
  intros H. unfold monitor. rewrite sites_pulls.
  - cbn [andb]. unfold turns. destruct (first_sigma _) as [[j [b f]]|] eqn:E; [|reflexivity].
    apply first_sigma_split in E. assert (only ls b = true) as ->; [|reflexivity]. apply forallb_forall. intros o Ho.
    assert (In o (filter (fun o => sp_mem ls (space o)) l)) as Hf by (rewrite E; apply in_or_app; now left).
    apply filter_In in Hf. destruct Hf as [Hi Hm]. rewrite Forall_forall in H. apply sp_mem_In in Hm. destruct (H o Hi) as [Es|[k Es]]; rewrite Es in *; [destruct Hm|].
    destruct Hm as [->|[]]. cbn. now rewrite Nat.eqb_refl.
  - apply (Forall_impl _ (P:=fun x => space x = [] \/ exists k, space x = [k])); [|exact H]. intros x [E|[k E]]; [exists 0|exists k]; rewrite E; [intros i []|apply incl_refl].
Qed.

(** The laws hold for the partial trace of every register of n-level systems *)
Theorem C41_register_laws {S : scalars} n (r : cxreading S) F HF : trace_laws (register n r F HF).
Proof. apply register_laws. Qed.

(** ** Where the code is wrong: registers of two-level systems *)
Definition two : cxreading Sx := sx_reading xv.
Local Notation A2 := (A (site_reading two (lev 2))).
Local Notation u := (mu 2 : nat -> nat -> nat -> A2).
(** A_{01} acts as |0><1| on site 1, B_1 as |1><0| *)
Definition F2 (m : nat) (h : list nat) : A2 := if sp_mem 1 h then (if m =? 0 then u 0 1 1 else if m =? 1 then u 1 0 1 else a1) else a1.
Lemma F2_reg m h : reg (M:=site_reading two (lev 2)) (mu 2) h (F2 m h).
Proof.
  unfold F2. destruct (sp_mem 1 h) eqn:E; [|apply rg_1]. apply sp_mem_In in E. destruct (m =? 0); [now apply rg_u|]. destruct (m =? 1); [now apply rg_u|apply rg_1].
Qed.
Definition reg2 : interp Sx (levels 2) := register 2 two F2 F2_reg.
Definition reg2_laws : trace_laws reg2 := register_laws 2 two F2 F2_reg.
Definition K2 (n : nat) : ocreators Sx := code (levels 2) xolt xslt n.
Definition C2 (n : nat) : ocreators Sx := checked (levels 2) xolt xslt n.
Definition zero_cfg : cfg (lev 2) := fun _ => exist _ 0 eq_refl.

Definition at0 (x : A reg2) : cx := ap (lev 2) (fst x) (fun _ => c1) zero_cfg.
Lemma u00_11 (c : cx) : c <> c0 -> smul (a:=reg2) c (mu 2 0 0 1) <> smul (a:=reg2) c (mu 2 1 1 1).
Proof.
  intros Hc E. apply (f_equal at0) in E.
  assert (cmul c c1 = cmul c c0) as E2.
  { etransitivity; [|etransitivity; [exact E|]]; unfold at0; cbn -[cmul cadd]; ring. }
  apply Hc. transitivity (cmul c c1); [ring|]. rewrite E2. ring.
Qed.
Lemma two_not_0 : kQ (r:=reg2) (qn 2) <> c0.
Proof. intros E. apply (f_equal cre) in E. cbn in E. unfold Q2R in E. cbn in E. lra. Qed.
Lemma tr_outside l x : l <> 1 -> lives (i:=reg2) [1] x -> itrace (i:=reg2) [l] x = smul (kQ (r:=reg2) (qn 2)) x.
Proof.
  intros Hl Hx. transitivity (itrace (i:=reg2) [l] (amul x a1)); [f_equal; symmetry; apply (amul_1r reg2)|].
  rewrite (tr_left reg2 reg2_laws l [1] x a1); [|intros [E|[]]; congruence|exact Hx].
  rewrite (tr_one reg2 reg2_laws l 2 eq_refl), smul_amul_r. f_equal. apply (amul_1r reg2).
Qed.

Lemma u_lives j k : lives (i:=reg2) [1] (mu 2 j k 1).
Proof. apply rg_u. now left. Qed.

(** A_{01} B_1 *)
Definition po_e : op Sx := OTimes [sym 0 [0; 1]; sym 1 [1]].
Definition po_r : op Sx := OTimes [sym 1 [1]; OTr (sym 0 [0; 1]) [0]].
(** tr_0(A_{01} B_1) is written B_1 tr_0(A_{01}): the factors are swapped *)
Theorem C41_pull_out_refuted :
  k_times (K2 5) [sym 0 [0; 1]; sym 1 [1]] = Ok po_e /\ legal reg2 po_e
  /\ trace_create (levels 2) (K2 5) no_monitor 5 [0] po_e = Ok po_r
  /\ value reg2 po_r <> itrace (i:=reg2) [0] (value reg2 po_e).
Proof.
  split; [vm_compute; reflexivity|]. split; [cbn; repeat split; auto|]. split; [vm_compute; reflexivity|].
  change (value reg2 po_r) with (amul (a:=reg2) (mu 2 1 0 1) (amul (itrace (i:=reg2) [0] (mu 2 0 1 1)) a1)).
  change (value reg2 po_e) with (amul (a:=reg2) (mu 2 0 1 1) (amul (a:=reg2) (mu 2 1 0 1) a1)).
  rewrite !(amul_1r reg2). rewrite (tr_outside 0 (mu 2 0 1 1)); [|discriminate|apply u_lives].
  assert (forall a b c d, a < 2 -> b < 2 -> c < 2 -> d < 2 -> amul (a:=reg2) (mu 2 a b 1) (mu 2 c d 1) = if b =? c then mu 2 a d 1 else a0) as M by (intros; now apply mu_mul).
  rewrite smul_amul_r, !M by lia. cbn [Nat.eqb]. rewrite tr_outside; [|discriminate|apply u_lives].
  intros E. symmetry in E. revert E. apply u00_11, two_not_0.
Qed.
(** A_{01} sigma_{00}(0) B_{01} C_2 *)
Definition ro_l : list (op Sx) := [sym 0 [0; 1]; OAtom (ASigma 0 0 0); sym 1 [0; 1]; sym 2 [2]].
Definition ro_e : op Sx := OTimes ro_l.
Definition ro_r : op Sx := OTimes [OTr (OTimes [OAtom (ASigma 0 0 0); sym 1 [0; 1]; sym 0 [0; 1]; OAtom (ASigma 0 0 0)]) [0]; sym 2 [2]].
(** inside the trace over space 0, A_{01} sigma B_{01} becomes sigma B_{01} A_{01} sigma *)
Theorem C41_rotation_refuted :
  k_times (K2 8) ro_l = Ok ro_e /\ legal reg2 ro_e
  /\ trace_create (levels 2) (K2 8) no_monitor 8 [0] ro_e = Ok ro_r
  /\ value reg2 ro_r <> itrace (i:=reg2) [0] (value reg2 ro_e).
Proof.
  split; [vm_compute; reflexivity|]. split; [cbn; repeat split; auto|]. split; [vm_compute; reflexivity|].
  change (value reg2 ro_r) with (amul (itrace (i:=reg2) [0] (amul (a:=reg2) (mu 2 0 0 0) (amul (a:=reg2) (mu 2 1 0 1) (amul (a:=reg2) (mu 2 0 1 1) (amul (a:=reg2) (mu 2 0 0 0) a1))))) (amul (a:=reg2) a1 a1)).
  change (value reg2 ro_e) with (amul (a:=reg2) (mu 2 0 1 1) (amul (a:=reg2) (mu 2 0 0 0) (amul (a:=reg2) (mu 2 1 0 1) (amul (a:=reg2) a1 a1)))).
  rewrite !(amul_1r reg2).
  assert (forall a b c d l, a < 2 -> b < 2 -> c < 2 -> d < 2 -> amul (a:=reg2) (mu 2 a b l) (mu 2 c d l) = if b =? c then mu 2 a d l else a0) as M by (intros; now apply mu_mul).
  assert (forall a b c d, amul (a:=reg2) (mu 2 a b 0) (mu 2 c d 1) = amul (a:=reg2) (mu 2 c d 1) (mu 2 a b 0)) as Q by (intros; now apply mu_comm).
  assert (forall a b, amul (a:=reg2) (mu 2 a a 1) (itrace (i:=reg2) [0] (mu 2 b b 0)) = itrace (i:=reg2) [0] (amul (a:=reg2) (mu 2 a a 1) (mu 2 b b 0))) as L.
  { intros a b. symmetry. apply (tr_left reg2 reg2_laws 0 [1]); [intros [E|[]]; discriminate E|apply u_lives]. }
  assert (itrace (i:=reg2) [0] (mu 2 0 0 0) = a1) as T1 by (apply (tr_sigma reg2 reg2_laws 0 0 0); cbv; lia).
  assert (amul (a:=reg2) (mu 2 0 0 0) (amul (a:=reg2) (mu 2 1 0 1) (amul (a:=reg2) (mu 2 0 1 1) (mu 2 0 0 0))) = amul (a:=reg2) (mu 2 1 1 1) (mu 2 0 0 0)) as ->.
  { rewrite (amul_assoc reg2 (mu 2 1 0 1)), M by lia. cbn [Nat.eqb]. rewrite (amul_assoc reg2 (mu 2 0 0 0)), Q, <- (amul_assoc reg2), M by lia. reflexivity. }
  assert (amul (a:=reg2) (mu 2 0 1 1) (amul (a:=reg2) (mu 2 0 0 0) (mu 2 1 0 1)) = amul (a:=reg2) (mu 2 0 0 1) (mu 2 0 0 0)) as ->.
  { rewrite Q, (amul_assoc reg2), M by lia. reflexivity. }
  rewrite <- !L, T1, !(amul_1r reg2). intros E. symmetry in E. revert E. rewrite <- (smul_1 reg2 (mu 2 0 0 1)), <- (smul_1 reg2 (mu 2 1 1 1)).
  apply u00_11. intros E. apply (f_equal cre) in E. cbn in E. lra.
Qed.

(** ** Examples *)
(** tr_0 of A_0 A'_0 B_1 + 3 B_1 *)
Definition tx_e : op Sx := OPlus [OTimes [sym 3 [0]; sym 4 [0]; sym 1 [1]]; OScal (OpRun.num 3) (sym 1 [1])].
Example C41_trace_example :
  k_plus (K2 8) [tx_e] = Ok tx_e /\ legal reg2 tx_e
  /\ is_ok (trace_create (levels 2) (C2 8) monitor 8 [0] tx_e)
       (OPlus [OScal (OpRun.num 6) (sym 1 [1]); OTimes [OTr (OTimes [sym 3 [0]; sym 4 [0]]) [0]; sym 1 [1]]]) = true
  /\ value reg2 (sym 1 [1]) <> a0.
Proof.
  split; [vm_compute; reflexivity|]. split; [cbn; repeat split; auto|]. split; [vm_compute; reflexivity|].
  intros E. apply (f_equal (fun x : A reg2 => ap (lev 2) (fst x) (fun _ => c1) (fun _ => exist _ 1 eq_refl))) in E.
  assert (c1 = c0) as E2 by (etransitivity; [|etransitivity; [exact E|]]; cbn -[cmul cadd]; ring). apply (f_equal cre) in E2. cbn in E2. lra.
Qed.
(** with a transition: A_0 sigma_{01}(0) C_1 A'_0 *)
Example C41_rotation_example :
  is_ok (do e <- k_times (C2 8) [sym 3 [0]; OAtom (ASigma 0 1 0); sym 1 [1]; sym 4 [0]]; trace_create (levels 2) (C2 8) monitor 8 [0] e)
    (OTimes [OTr (OTimes [OAtom (ASigma 0 1 0); sym 4 [0]; sym 3 [0]; OAtom (ASigma 0 0 0)]) [0]; sym 1 [1]]) = true.
Proof. vm_compute. reflexivity. Qed.
(** two spaces, one after the other *)
Example C41_two_spaces_example :
  is_ok (do e <- k_times (C2 8) [OAtom (ASigma 0 0 0); OAtom (ASigma 1 1 1); sym 1 [2]]; trace_create (levels 2) (C2 8) monitor 8 [0; 1] e) (sym 1 [2]) = true
  /\ is_ok (expand_trace (levels 2) (C2 8) monitor 8 [0; 1] (OTimes [OPlus [OAtom (ASigma 0 0 0); OOne]; sym 1 [2]])) (OScal (OpRun.num 6) (sym 1 [2])) = true.
Proof. vm_compute. split; reflexivity. Qed.
Example C41_local_example :
  local_to 0 (OTimes [sym 3 [0]; sym 4 [0]]) /\ is_ok (trace_create (levels 2) (K2 8) no_monitor 8 [0] (OTimes [OAdj (sym 3 [0]); sym 4 [0]])) (OTr (OTimes [OAdj (sym 3 [0]); sym 4 [0]]) [0]) = true
  /\ is_ok (trace_create (levels 2) (K2 8) no_monitor 8 [1] (OTimes [OAdj (sym 3 [0]); sym 4 [0]])) (OScal (OpRun.num 2) (OTimes [OAdj (sym 3 [0]); sym 4 [0]])) = true.
Proof. vm_compute. repeat split; auto. Qed.
Example C41_unknown_dimension_example : xdim 0 = None /\ fails (trace_create xdim (xcode 5) no_monitor 5 [0] OOne) BasisNotSetError.
Proof. split; reflexivity. Qed.
Example C41_sites_example : monitor 0 [sym 0 [0]; sym 1 [1]; OAtom (ASigma 0 1 0); sym 1 [2]] = true /\ monitor 0 [sym 0 [0; 1]; sym 1 [1]] = false
  /\ monitor 0 ro_l = false.
Proof. repeat split. Qed.

Print Assumptions C41_trace_value.
Print Assumptions C41_expand_value.
Print Assumptions C41_local_value.
Print Assumptions C41_unknown_dimension.
Print Assumptions C41_monitor_sites.
Print Assumptions C41_register_laws.
Print Assumptions C41_pull_out_refuted.
Print Assumptions C41_rotation_refuted.
