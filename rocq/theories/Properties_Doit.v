(** C59 [doit] writes an operator in a more explicit form, [rewrite_with_operator_pm_cc] in
    a shorter one; both keep the operator. [code], [checked]: see OpRun. *)
From Coq Require Import Reals QArith Qcanon.
From Verif Require Import Prelude ListFacts SortModel SortProofs BinModel AlgSpec CAlg OpModel OpSpec OpForms OpProofs1 OpProofs2 OpProofs3 OpFuel OpOrder OpLocal OpSx OpRun.
From Verif Require Import Properties_Op1 TrModel TrSpec TrProofs DoitModel DoitSpec DoitProofs1 DoitProofs2 DoitProofs3 DoitLocal DoitTrace.
Local Open Scope nat_scope.

Section Doit.
  Context {S : scalars} {dim : nat -> option nat} (I : interp S dim).
  Context (olt : op S -> op S -> bool) (slt : list nat -> list nat -> bool).
  Local Notation op := (op S).
  Local Notation code := (code dim olt slt).
  Local Notation checked := (checked dim olt slt).
  Local Notation legal := (legal I).
  Local Notation value := (value I).
  (** [e.doit(classes, recursive)] as it is, [OperatorTrace.create] with depth at most [k] *)
  Definition doit_code (n k m : nat) (cl : classes) (r : bool) (e : op) : res op :=
    doit (code n) (trace_create dim (code n) no_monitor k) m cl r e.
  Definition pm_code (n k m : nat) (e : op) : res op :=
    rewrite_pm dim olt slt (real_order olt slt) (fun K => trace_create dim K no_monitor k) n m e.

  (** ** doit keeps the operator, whatever the classes, recursive or not *)
  Theorem C59_doit_value n k m cl r e e' : legal e ->
    doit (checked n) no_trace m cl r e = Ok e' ->
    doit_code n k m cl r e = Ok e' /\ legal e' /\ value e' = value e.
  Proof.
    intros HL H. split.
    - refine (le_ok _ _ _ (doit_mono _ _ (checked_le (dim:=dim) olt slt n) _ _ _ m m cl r e (Nat.le_refl m)) H). intros. left. now right.
    - refine (doit_sound I _ (checked_sound I olt slt n) no_trace _ m cl r e e' HL H). intros ? ? ? ? E. discriminate E.
  Qed.
  Theorem C59_doit_trace_value n k m cl r e e' : trace_laws I -> legal e ->
    doit (checked n) (trace_create dim (checked n) monitor k) m cl r e = Ok e' ->
    doit_code n k m cl r e = Ok e' /\ legal e' /\ value e' = value e.
  Proof.
    intros T HL H. split.
    - refine (le_ok _ _ _ (doit_mono _ _ (checked_le (dim:=dim) olt slt n) _ _ _ m m cl r e (Nat.le_refl m)) H).
      intros. apply trace_mono, checked_le.
    - refine (doit_sound I _ (checked_sound I olt slt n) _ _ m cl r e e' HL H). intros h x x'. apply (trace_sound I T _ (checked_sound I olt slt n)).
  Qed.
  (** on one local space nothing needs to be checked *)
  Theorem C59_local_doit_value l n k m cl r e e' : trace_laws I -> good_orders olt slt -> local_to l e -> legal e ->
    doit_code n k m cl r e = Ok e' -> local_to l e' /\ legal e' /\ value e' = value e.
  Proof.
    intros T Ho Hl HL H.
    destruct (doit_agree l _ _ (local_agree l dim olt slt Ho n) _ _ (fun h x => trace_agree l dim _ _ (local_agree l dim olt slt Ho n) k h x) m cl r e Hl) as [E G].
    unfold doit_code, OpRun.code in H. rewrite <- E in H. split; [now apply G|].
    refine (doit_sound I _ (checked_sound I olt slt n) _ _ m cl r e e' HL H). intros h x x'. apply (trace_sound I T _ (checked_sound I olt slt n)).
  Qed.
  (** ** what doit leaves: a recursive doit leaves no expression of the given classes *)
  Theorem C59_doit_explicit n k m cl e e' : doit_code n k m cl true e = Ok e' -> explicit cl e' = true.
  Proof.
    assert (goodK cl (code n)) as HK.
    { apply creators_good. intros es Hes. unfold real_order. apply fines_ok. rewrite Forall_forall in *. intros x Hx. apply Hes. now apply pysorted_In in Hx. }
    intros H. refine (doit_expl cl _ HK _ _ m e e' H). intros h x x'. now apply trace_expl.
  Qed.
  (** doing it again changes nothing *)
  Theorem C59_doit_again n k m cl e e' : (forall a b : S, seqb a b = true -> a = b) ->
    doit_code n k m cl true e = Ok e' -> doit_code n k m cl true e' = Ok e'.
  Proof.
    intros Hs H. destruct (doit_again Hs _ _ cl m e e' H) as [m' [Hm E]].
    refine (le_ok _ _ _ (doit_mono _ _ _ _ _ _ m' m cl true e' Hm) E); [|intros; apply le_refl]. constructor; intros; apply le_refl.
  Qed.
  (** a commutator is written out as A B - B A, a sum with its conjugate as A + A^dag *)
  Theorem C59_doit_commutator n k m a b p q e :
    k_times (code n) [a; b] = Ok p -> k_times (code n) [b; a] = Ok q -> osub (code n) p q = Ok e ->
    oeqb e (OComm a b) = false ->
    doit_code n k (1 + m) all_classes false (OComm a b) = Ok e.
  Proof.
    intros Hp Hq He Hne. unfold doit_code. cbn [Nat.add doit doit1 all_classes in_comm]. unfold written_out. rewrite Hp. cbn [bind]. rewrite Hq. cbn [bind]. rewrite He. cbn [bind orb]. now rewrite Hne.
  Qed.
  Theorem C59_doit_cc n k m s a a' e :
    oadj (code n) a = Ok a' -> (if s : bool then k_plus (code n) [a; a'] else osub (code n) a a') = Ok e ->
    oeqb e (OPM s a) = false ->
    doit_code n k (1 + m) all_classes false (OPM s a) = Ok e.
  Proof.
    intros Ha He Hne. unfold doit_code. cbn [Nat.add doit doit1 all_classes in_pm]. rewrite Ha. cbn [bind]. rewrite He. cbn [bind]. rewrite Hne. reflexivity.
  Qed.
  (** ** rewrite_with_operator_pm_cc keeps the operator *)
  Lemma pm_checked_le n : leK (pm_creators_n dim olt slt (careful_order olt slt) n) (pm_creators_n dim olt slt (real_order olt slt) n).
  Proof. apply pm_creators_mono; [apply careful_real|apply Nat.le_refl]. Qed.
  Theorem C59_rewrite_value n k m e e' : legal e ->
    rewrite_pm dim olt slt (careful_order olt slt) (fun _ => no_trace) n m e = Ok e' ->
    pm_code n k m e = Ok e' /\ legal e' /\ value e' = value e.
  Proof.
    intros HL H. split.
    - refine (le_ok _ _ _ (rebuild_mono _ _ (pm_checked_le n) _ _ _ m m e (Nat.le_refl m)) H). intros. left. now right.
    - refine (rebuild_sound I _ (pm_creators_sound I olt slt _ (careful_order_ok olt slt) n) no_trace _ m e e' HL H). intros ? ? ? ? E. discriminate E.
  Qed.
  Theorem C59_local_rewrite_value l n k m e e' : trace_laws I -> good_orders olt slt -> local_to l e -> legal e ->
    pm_code n k m e = Ok e' -> local_to l e' /\ legal e' /\ value e' = value e.
  Proof.
    intros T Ho Hl HL H. pose proof (pm_local_agree l dim olt slt Ho n) as HA.
    destruct (rebuild_agree l _ _ HA _ _ (fun h x => trace_agree l dim _ _ HA k h x) m e Hl) as [E G].
    unfold pm_code, rewrite_pm in H. rewrite <- E in H. split; [now apply G|].
    pose proof (pm_creators_sound I olt slt _ (careful_order_ok olt slt) n) as HK.
    refine (rebuild_sound I _ HK _ _ m e e' HL H). intros h x x'. apply (trace_sound I T _ HK).
  Qed.
  (** A + A^dag becomes "A + c.c.", or "A^dag + c.c.", whatever the order *)
  Theorem C59_rewrite_pair n k m (x : nat) h (l : list op) :
    let a : op := OAtom (ASym x h) in
    seqb (s1 : S) s1 = true ->
    l = [a; OAdj a] \/ l = [OAdj a; a] ->
    exists b, (b = a \/ b = OAdj a) /\ pm_code (3 + n) k (3 + m) (OPlus l) = Ok (OPM true b).
  Proof.
    intros a H1 Hl. assert (oeqb a a = true) as Haa by (assert (eqb_list_nat h h = true) as Eh by (clear; induction h as [|y h IH]; [reflexivity|]; cbn [eqb_list_nat]; now rewrite Nat.eqb_refl, IH); cbn [oeqb a atom_eqb]; now rewrite Nat.eqb_refl, Eh).
    assert (forall t K, scal_step (S:=S) K s1 t = Ok t) as Hsc by (intros t K; unfold scal_step; now rewrite H1).
    set (K := pm_creators_n dim olt slt (real_order olt slt) (2 + n)).
    assert (forall u v, (u = a /\ v = OAdj a) \/ (u = OAdj a /\ v = a) -> match_replace_binary (pm_cls K) (2 + n) [u; v] = Ok (inl (OPM true u))) as Hpair.
    { intros u v Huv. unfold match_replace_binary. cbn [length mrb_reduce Nat.leb Nat.div Nat.divmod fst firstn skipn bind Nat.add mrb_combine split_last rev app].
      unfold get_binary_replacement. cbn [pm_cls binary_rules try_rules]. unfold pm1, if_adjoint.
      destruct Huv as [[-> ->]|[-> ->]]; cbn [oadj atom_adj a]; fold a; [rewrite Haa|change (oeqb (OAdj a) (OAdj a)) with (oeqb a a); rewrite Haa]; reflexivity. }
    assert (forall es, es = [a; OAdj a] \/ es = [OAdj a; a] -> collect_summands K es = Ok es) as Hcol.
    { intros es [-> | ->]; unfold collect_summands, collect; cbn [fold_left coeff_term cmap_add oeqb a mapM bind]; unfold K; cbn [pm_creators_n k_scal Nat.add mapM]; rewrite !Hsc; reflexivity. }
    assert (exists u v, pysorted (ofull_lt olt slt) l = [u; v] /\ ((u = a /\ v = OAdj a) \/ (u = OAdj a /\ v = a))) as [u [v [Es Huv]]].
    { pose proof (pysorted_perm (ofull_lt olt slt) l) as Hp. destruct Hl as [-> | ->]; apply Permutation.Permutation_length_2_inv in Hp; destruct Hp as [-> | ->];
        [exists a, (OAdj a)|exists (OAdj a), a|exists (OAdj a), a|exists a, (OAdj a)]; (split; [reflexivity|auto]). }
    exists u. split; [tauto|]. unfold pm_code, rewrite_pm. set (K3 := pm_creators_n dim olt slt (real_order olt slt) (3 + n)). set (tr := trace_create dim K3 no_monitor k).
    change (bind (mapM (rebuild_e K3 tr (2 + m)) l) (k_plus K3) = Ok (OPM true u)).
    assert (mapM (rebuild_e K3 tr (2 + m)) l = Ok l) as El by (destruct Hl as [-> | ->]; reflexivity).
    rewrite El. cbn [bind]. change (pm_plus_step olt slt K (2 + n) l = Ok (OPM true u)). unfold pm_plus_step.
    replace (flat_plus l) with l by (destruct Hl as [-> | ->]; reflexivity). rewrite Es, Hcol by (destruct Huv as [[-> ->]|[-> ->]]; auto). cbn [bind]. now rewrite Hpair.
  Qed.
End Doit.

(** ** Examples *)
Definition dA : op Sx := sym 1 [0].
Definition dB : op Sx := sym 2 [0].
Definition dC : op Sx := sym 3 [0].
Definition neg (e : op Sx) : op Sx := OScal (num (-1)) e.
Definition xdoit := doit_code (S:=Sx) (dim:=xdim) xolt xslt.
Definition xpm := pm_code (S:=Sx) (dim:=xdim) xolt xslt.
Lemma Sx_eq (a b : Sx) : seqb a b = true -> a = b.
Proof. apply sx_eqb_eq. Qed.
(** i [A, [B, C]] + (A - c.c.) *)
Definition d_nested : op Sx := OPlus [OScal (XI : Sx) (OComm dA (OComm dB dC)); OPM false dA].
Definition d_bc : op Sx := OPlus [neg (OTimes [dC; dB]); OTimes [dB; dC]].
Definition d_written : op Sx := OPlus [dA; OScal (XI : Sx) (OPlus [neg (OTimes [d_bc; dA]); OTimes [dA; d_bc]]); neg (OAdj dA)].
Example C59_ex_doit :
  legal xfock d_nested /\ local_to 0 d_nested /\ explicit all_classes d_nested = false
  /\ is_ok (doit (xchecked 12) no_trace 16 all_classes true d_nested) d_written = true
  /\ is_ok (xdoit 12 3 16 all_classes true d_nested) d_written = true
  /\ is_ok (xdoit 12 3 16 all_classes true d_written) d_written = true.
Proof. repeat split; try (vm_compute; reflexivity); cbn; auto. Qed.
(** only the commutators, not recursively: the inner one stays *)
Example C59_ex_classes :
  is_ok (xdoit 9 3 9 {| in_comm := true; in_pm := false |} false d_nested)
    (OPlus [OScal (XI : Sx) (OPlus [neg (OTimes [OComm dB dC; dA]); OTimes [dA; OComm dB dC]]); OPM false dA]) = true.
Proof. vm_compute. reflexivity. Qed.
(** the hypotheses of [C59_doit_commutator] and [C59_doit_cc] *)
Example C59_ex_steps :
  is_ok (xdoit 9 3 1 all_classes false (OComm dA dB)) (OPlus [neg (OTimes [dB; dA]); OTimes [dA; dB]]) = true
  /\ is_ok (xdoit 9 3 1 all_classes false (OPM true dA)) (OPlus [dA; OAdj dA]) = true.
Proof. split; vm_compute; reflexivity. Qed.
(** i A + i A^dag + B *)
Example C59_ex_rewrite :
  legal xfock (OPlus [dB; OScal (XI : Sx) dA; OScal (XI : Sx) (OAdj dA)])
  /\ is_ok (rewrite_pm xdim xolt xslt (careful_order xolt xslt) (fun _ => no_trace) 9 9 (OPlus [dB; OScal (XI : Sx) dA; OScal (XI : Sx) (OAdj dA)]))
       (OPlus [dB; OScal (XI : Sx) (OPM true dA)]) = true
  /\ is_ok (xpm 9 3 9 (OPlus [neg dA; OAdj dA])) (OPM false (OAdj dA)) = true
  /\ seqb (s1 : Sx) s1 = true.
Proof. repeat split; try (vm_compute; reflexivity); cbn; auto. Qed.
(** ... and back *)
Example C59_ex_back :
  is_ok (do e <- xpm 9 3 9 (OPlus [OAdj dA; dA]); xdoit 9 3 9 all_classes true e) (OPlus [dA; OAdj dA]) = true.
Proof. vm_compute. reflexivity. Qed.
(** Only neighbours in the sorted sum are tried, and a difference only with the negated
    operand first: A - A^dag in this order stays as it is. *)
Theorem C59_rewrite_all_refuted :
  is_ok (xpm 9 3 9 (OPlus [dA; neg (OAdj dA)])) (OPlus [dA; neg (OAdj dA)]) = true
  /\ is_ok (xpm 9 3 9 (OPlus [dA; dB; OAdj dA])) (OPlus [dA; dB; OAdj dA]) = true.
Proof. split; vm_compute; reflexivity. Qed.

Print Assumptions C59_doit_value.
Print Assumptions C59_doit_trace_value.
Print Assumptions C59_local_doit_value.
Print Assumptions C59_doit_explicit.
Print Assumptions C59_doit_again.
Print Assumptions C59_doit_commutator.
Print Assumptions C59_doit_cc.
Print Assumptions C59_rewrite_value.
Print Assumptions C59_local_rewrite_value.
Print Assumptions C59_rewrite_pair.
Print Assumptions C59_rewrite_all_refuted.
