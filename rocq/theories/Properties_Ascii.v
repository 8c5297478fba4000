(** C58. The plain text of an operator, a ket and a bra ([qnet.ascii(e)], [str(e)]) read by the
    usual rules of precedence (AsciiSpec) stands for the expression. *)
From Coq Require Import Reals QArith Qcanon Ring.
From Verif Require Import Prelude ListFacts BinModel AlgSpec CAlg NcRing OpModel OpSpec OpProofs1 OpProofs2 OpProofs3 KetModel KetSpec KetProofs1 AsciiModel AsciiSpec AsciiProofs1 AsciiProofs2 AsciiProofs3 AsciiProofs4.
From Verif Require Import Cplx OpSites OpSx OpRun TrInst KetInst KetInst2 Properties_Ket.
Local Open Scope nat_scope.

Section C58.
  Context {S : scalars} {dim : nat -> option nat} {I : interp S dim} (W : kets I).
  (** labels and arguments of the symbols; no two symbols have the same, and none is labelled
      like a ladder operator, phase, ... *)
  Context (lab : nat -> nat) (sargs : nat -> list S) (sym_of : nat -> list S -> option nat).
  Context (cterms : S -> list (bool * S)) (wrap : S -> bool).
  Definition distinct_labels : Prop := forall n, 7 <= lab n /\ sym_of (lab n) (sargs n) = Some n.
  Local Notation otext := (otext lab sargs cterms wrap). Local Notation ktext := (ktext lab sargs cterms wrap).
  Local Notation oshown := (oshown lab sargs cterms wrap). Local Notation kshown := (kshown lab sargs cterms wrap).

  (** the text of an operator stands for the operator *)
  Theorem C58_operator (e : op S) s : distinct_labels -> terms_ok I cterms -> legal I e -> oshown false e -> otext false e = Ok s -> reads_op W sym_of s (value I e).
  Proof.
    intros Hs Hc HL HS E. destruct (op_shows W lab sargs sym_of Hs cterms wrap Hc e false s HL HS E) as [HT _]. specialize (HT [] eq_refl). rewrite app_nil_r in HT. exact HT.
  Qed.
  Theorem C58_ket (k : ket S) s : distinct_labels -> terms_ok I cterms -> klegal (I:=I) k -> kshown false k -> ktext false k = Ok s -> reads_ket W sym_of s (kvalue W k).
  Proof.
    intros Hs Hc HL HS E. destruct (ket_shows W lab sargs sym_of Hs cterms wrap Hc k false s HL HS E) as [HT _]. specialize (HT [] eq_refl). rewrite app_nil_r in HT. exact HT.
  Qed.
  (** [Bra(k)] *)
  Theorem C58_bra (k : ket S) s : distinct_labels -> terms_ok I cterms -> klegal (I:=I) k -> kshown true k -> ktext true k = Ok s -> reads_bra W sym_of s (kvalue W k).
  Proof.
    intros Hs Hc HL HS E. destruct (ket_shows W lab sargs sym_of Hs cterms wrap Hc k true s HL HS E) as [HT _]. specialize (HT [] eq_refl). rewrite app_nil_r in HT. exact HT.
  Qed.
  Lemma reads_unique s v w : reads W sym_of s v -> reads W sym_of s w -> v = w.
  Proof. intros [n H] [m G]. specialize (H (n + m) ltac:(lia)). specialize (G (n + m) ltac:(lia)). congruence. Qed.
  (** expressions with the same text are the same operator, the same ket *)
  Theorem C58_same_text (e f : op S) s : distinct_labels -> terms_ok I cterms -> legal I e -> legal I f -> oshown false e -> oshown false f ->
    otext false e = Ok s -> otext false f = Ok s -> value I e = value I f.
  Proof.
    intros Hs Hc Le Lf Se Sf Ee Ef. pose proof (reads_unique s _ _ (C58_operator e s Hs Hc Le Se Ee) (C58_operator f s Hs Hc Lf Sf Ef)) as E. now injection E.
  Qed.
  Theorem C58_same_ket_text adj (k l : ket S) s : distinct_labels -> terms_ok I cterms -> klegal (I:=I) k -> klegal (I:=I) l -> kshown adj k -> kshown adj l ->
    ktext adj k = Ok s -> ktext adj l = Ok s -> kvalue W k = kvalue W l.
  Proof.
    intros Hs Hc Le Lf Se Sf Ee Ef. destruct adj.
    - pose proof (reads_unique s _ _ (C58_bra k s Hs Hc Le Se Ee) (C58_bra l s Hs Hc Lf Sf Ef)) as E. now injection E.
    - pose proof (reads_unique s _ _ (C58_ket k s Hs Hc Le Se Ee) (C58_ket l s Hs Hc Lf Sf Ef)) as E. now injection E.
  Qed.
  (** printing does not fail *)
  Theorem C58_prints (e : op S) : oshown false e -> exists s, otext false e = Ok s.
  Proof.
    induction e as [| |a|c t IH|l IH|l IH|a b IHa IHb|a IH|a h IH|b a IH] using op_ind'; intros HS.
    - now eexists.
    - now eexists.
    - now eexists.
    - destruct HS as (_ & _ & HS). destruct (IH HS) as [s E]. cbn [AsciiModel.otext]. rewrite E. now eexists.
    - destruct (oshown_plus lab sargs cterms wrap false l HS) as [_ HF]. rewrite otext_plus. assert (exists ts, mapM (lt1 lab sargs cterms wrap false) l = Ok ts) as [ts ->]; [|now eexists].
      clear HS. induction l as [|x l IHl]; [now exists []|]. apply Forall_cons_iff in IH, HF. destruct IH as [Hx IH], HF as [[Sx' _] HF]. destruct (Hx Sx') as [s E]. destruct (IHl IH HF) as [ts Et]. cbn [mapM]. unfold lt1 at 1. rewrite E, Et. now eexists.
    - destruct (oshown_times lab sargs cterms wrap false l HS) as (_ & _ & HF). rewrite otext_times. assert (exists ts, mapM (lt1 lab sargs cterms wrap false) l = Ok ts) as [ts ->]; [|now eexists].
      clear HS. induction l as [|x l IHl]; [now exists []|]. apply Forall_cons_iff in IH, HF. destruct IH as [Hx IH], HF as [[Sx' _] HF]. destruct (Hx Sx') as [s E]. destruct (IHl IH HF) as [ts Et]. cbn [mapM]. unfold lt1 at 1. rewrite E, Et. now eexists.
    - destruct HS as [Sa Sb]. destruct (IHa Sa) as [s Es], (IHb Sb) as [t Et]. cbn [AsciiModel.otext]. rewrite Es, Et. now eexists.
    - destruct a; cbn [AsciiSpec.oshown] in HS; try (destruct HS as [_ HS]; destruct (IH HS) as [s E]; cbn [AsciiModel.otext] in *; rewrite E; now eexists).
      destruct a; try contradiction; now eexists.
    - destruct HS as [_ HS]. destruct (IH HS) as [s E]. cbn [AsciiModel.otext]. rewrite E. now eexists.
    - destruct HS as [HS _]. destruct (IH HS) as [s E]. cbn [AsciiModel.otext]. rewrite E. now eexists.
  Qed.
  Theorem C58_prints_ket (k : ket S) : kshown false k -> exists s, ktext false k = Ok s.
  Proof.
    induction k as [| |j l|u l|n h|c t IH|l IH|l IH|a t IH] using ket_ind'; intros HS; try (now eexists).
    - destruct HS as [_ HS]. destruct (IH HS) as [s E]. cbn [AsciiModel.ktext]. rewrite E. now eexists.
    - destruct HS as [_ HS]. apply kshown_list in HS. rewrite ktext_plus. assert (exists ts, mapM (kt1 lab sargs cterms wrap false) l = Ok ts) as [ts ->]; [|now eexists].
      induction l as [|x l IHl]; [now exists []|]. apply Forall_cons_iff in IH, HS. destruct IH as [Hx IH], HS as [Sx' HS]. destruct (Hx Sx') as [s E]. destruct (IHl IH HS) as [ts Et]. cbn [mapM]. unfold kt1 at 1. rewrite E, Et. now eexists.
    - destruct HS as [_ HS]. apply kshown_list in HS. rewrite ktext_tensor. destruct (basis_labels l); [now eexists|]. assert (exists ts, mapM (kt1 lab sargs cterms wrap false) l = Ok ts) as [ts ->]; [|now eexists].
      induction l as [|x l IHl]; [now exists []|]. apply Forall_cons_iff in IH, HS. destruct IH as [Hx IH], HS as [Sx' HS]. destruct (Hx Sx') as [s E]. destruct (IHl IH HS) as [ts Et]. cbn [mapM]. unfold kt1 at 1. rewrite E, Et. now eexists.
    - destruct HS as (Sa & _ & HS & _). destruct (IH HS) as [s E]. destruct (C58_prints a Sa) as [t0 Et]. cbn [AsciiModel.ktext]. rewrite Et, E. now eexists.
  Qed.

  (** ** Expressions that are not displayed faithfully. [sg j k] is |j><k| on the space 0. *)
  Definition sg (j k : nat) : op S := OAtom (ASigma j k 0).
  Add Ring Kr58 : (kring I).
  Context (Hk : @k1 I <> k0) (H0 : level (dim:=dim) 0 0) (H1 : level (dim:=dim) 0 1).
  Ltac reads_now := exists 30; intros nn Hnn; replace nn with (30 + (nn - 30)) by lia; generalize (nn - 30); intros mm.
  Lemma e_nz (c : K I) j : level (dim:=dim) 0 j -> vs c (ebasis (w:=W) j 0) = vz -> c = k0.
  Proof.
    intros Hj E. pose proof (on_basis I W j 0 Hj) as Hon. apply (f_equal (inner [0] (ebasis j 0))) in E. rewrite (inner_smul I W [0] c) in E by exact Hon. rewrite (inner_basis I W j j 0 Hj Hj), Nat.eqb_refl, (inner_z W) in E by exact Hon.
    transitivity (kmul c k1); [ring|exact E].
  Qed.
  Lemma sg_e j k m : level (dim:=dim) 0 j -> level (dim:=dim) 0 k -> level (dim:=dim) 0 m -> act (isigma (i:=I) j k 0) (ebasis (w:=W) m 0) = if k =? m then ebasis j 0 else vz.
  Proof. intros. now apply (sigma_basis I W). Qed.
  Lemma eb_nz j : level (dim:=dim) 0 j -> ebasis (w:=W) j 0 <> vz.
  Proof. intros Hj E. apply Hk, (e_nz k1 j Hj). now rewrite (vs_1 I W). Qed.

  (** (-A + B)|psi> is displayed as "-A + B |psi>", _precedence.py:64-67 *)
  Theorem C58_operator_sum_on_ket_refuted c : seqb c sm1 = true ->
    let k := KOp (OPlus [OScal c (sg 0 0); sg 0 1]) (KBasis 1 0) in
    klegal (I:=I) k /\ exists s, ktext false k = Ok s /\ forall v, ~ reads W sym_of s v.
  Proof.
    intros Ec k. split; [split; [discriminate|]; split; [exact H1|]; split; [cbn; repeat split; assumption|]; intros x Hx; exact Hx|].
    assert (ktext false k = Ok [TMinus; TSig 0 0 0; TPlus; TSig 0 1 0; TKet (NBasis [(1, 0)])]) as E.
    { unfold k. cbn [AsciiModel.ktext AsciiModel.otext]. unfold op_ket_prec. cbn [AsciiModel.otext]. unfold scal_text. rewrite Ec. cbn. now destruct (negative cterms c). }
    eexists. split; [exact E|]. intros v [n0 Hn]. specialize (Hn (n0 + 10) ltac:(lia)). rewrite (Nat.add_comm n0 10) in Hn. discriminate Hn.
  Qed.
  (** (-A + B + c.c.) + C is displayed as "-(A + B + c.c.) + C", asciiprinter.py:363-373 *)
  Theorem C58_cc_sum_refuted c : seqb c sm1 = true ->
    let e := OPlus [OPM true (OPlus [OScal c (sg 1 1); sg 0 0]); sg 0 1] in
    legal I e /\ exists s v, otext false e = Ok s /\ reads_op W sym_of s v /\ v <> value I e.
  Proof.
    intros Ec e. split; [cbn; repeat split; assumption|].
    assert (otext false e = Ok [TMinus; TLp; TSig 1 1 0; TPlus; TSig 0 0 0; TPlus; TCC; TRp; TPlus; TSig 0 1 0]) as E.
    { unfold e. cbn [AsciiModel.otext sg]. unfold scal_text. rewrite Ec. cbn. now destruct (negative cterms c). }
    eexists. eexists. split; [exact E|]. split; [reads_now; cbn; reflexivity|]. intros Ev. apply (f_equal (fun x => act (w:=W) x (ebasis 0 0))) in Ev.
    cbn [e OpSpec.value map msum fold_right sg atom_val] in Ev. rewrite (ev_eq S I _ _ Ec), (ev_sm1 I) in Ev. rewrite !star_add, !star_smul, !(sigma_star S dim I), star_0 in Ev.
    repeat (rewrite (act_add I W) in Ev || rewrite (act_smul I W) in Ev || rewrite (act_0 W) in Ev || rewrite sg_e in Ev by assumption). cbn [Nat.eqb] in Ev.
    repeat (rewrite (va_0r W) in Ev || rewrite (vs_z W) in Ev || rewrite (va_0 I W) in Ev || rewrite (vs_addr I W) in Ev).
    set (e0 := ebasis (w:=W) 0 0) in *. assert (forall c d, va (vs c e0) (vs d e0) = vs (kadd c d) e0) as Hva by (intros; symmetry; apply (vs_add I W)).
    assert (va (vs k1 e0) (vs k1 e0) = va (vs (kopp k1) e0) (vs (kopp k1) e0)) as G by (rewrite Ev, (vs_1 I W); reflexivity). rewrite !Hva in G.
    assert (vs (kadd (kadd k1 k1) (kadd k1 k1)) e0 = vz) as Z.
    { transitivity (va (vs (kadd k1 k1) e0) (vs (kadd k1 k1) e0)); [symmetry; apply Hva|]. rewrite G at 1. rewrite Hva. transitivity (vs k0 e0); [f_equal; ring|apply (vs_0 I W)]. }
    apply e_nz in Z; [|exact H0]. apply Hk. transitivity (kmul (kadd khalf khalf) (kadd khalf (@khalf I))); [rewrite khalf_2; ring|].
    transitivity (kmul (kadd (kadd k1 k1) (kadd k1 k1)) (kmul khalf (@khalf I))); [ring|]. rewrite Z. ring.
  Qed.
  (** Bra(A B |psi>) is displayed as "<psi| A^H * B^H", asciiprinter.py:382-385, 496-507 *)
  Theorem C58_bra_product_refuted : let k := KOp (OTimes [sg 0 1; sg 1 0]) (KBasis 0 0) in
    klegal (I:=I) k /\ exists s v, ktext true k = Ok s /\ reads_bra W sym_of s v /\ v <> kvalue W k.
  Proof.
    intros k. split; [split; [discriminate|]; split; [exact H0|]; split; [cbn; repeat split; assumption|]; intros x Hx; exact Hx|].
    eexists. eexists. split; [reflexivity|]. split; [reads_now; cbn; reflexivity|]. cbn [k KetSpec.kvalue OpSpec.value map mprod fold_right sg atom_val fst snd vprod]. intros E.
    rewrite !(sigma_star S dim I), (vm_1r W), !(act_mul I W), (act_1 I W), !sg_e in E by assumption. cbn [Nat.eqb] in E. rewrite (act_z W) in E. rewrite sg_e in E by assumption. cbn [Nat.eqb] in E. now apply (eb_nz 0 H0).
  Qed.
  (** a coefficient x + y that is a sum but is not put in parentheses, asciiprinter.py:348 *)
  Theorem C58_sum_coefficient_refuted c x y : cterms c = [(false, x); (false, y)] -> wrap c = false -> seqb c sm1 = false -> ev (r:=I) c = kadd (ev x) (ev y) -> ev (r:=I) x <> k0 ->
    let e := OScal c (sg 0 1) in
    legal I e /\ exists s v, otext false e = Ok s /\ reads_op W sym_of s v /\ v <> value I e.
  Proof.
    intros Ec Ew Em Ev Hx e. split; [cbn; now split|]. assert (otext false e = Ok [TNum x; TPlus; TNum y; TStar; TSig 0 1 0]) as E.
    { unfold e. cbn [AsciiModel.otext sg atom_text bind]. unfold scal_text, num_text. rewrite Em, Ew, Ec. reflexivity. }
    eexists. eexists. split; [exact E|]. split; [reads_now; cbn; reflexivity|]. intros Eq0. apply (f_equal (fun x => act (w:=W) x (ebasis 0 0))) in Eq0. cbn [e OpSpec.value sg atom_val] in Eq0.
    repeat (rewrite (act_add I W) in Eq0 || rewrite (act_smul I W) in Eq0 || rewrite (act_mul I W) in Eq0 || rewrite sg_e in Eq0 by assumption). cbn [Nat.eqb] in Eq0.
    rewrite !(act_1 I W), !(vs_z W), (va_0r W) in Eq0. now apply Hx, (e_nz _ 0).
  Qed.
  (** printing Bra((A + 1)|psi>) raises, asciiprinter.py:311-315 *)
  Theorem C58_bra_identity_refuted : let k := KOp (OPlus [sg 0 1; OOne]) (KBasis 0 0) in
    klegal (I:=I) k /\ (exists s, ktext false k = Ok s) /\ ktext true k = Err TypeError.
  Proof.
    intros k. split; [split; [discriminate|]; split; [exact H0|]; split; [cbn; repeat split; assumption|]; intros x Hx; exact Hx|]. split; [now eexists|reflexivity].
  Qed.
  (** the adjoint of a symbol is displayed without its arguments, asciiprinter.py:410-412 *)
  Theorem C58_adjoint_arguments_refuted n m h : lab n = lab m -> otext false (OAdj (OAtom (ASym n h))) = otext false (OAdj (OAtom (ASym m h))).
  Proof. intros E. cbn. now rewrite E. Qed.
  (** a symbol with the label of a ladder operator *)
  Theorem C58_label_refuted n l : lab n = lab_a -> sargs n = [] -> otext false (OAtom (ASym n [l])) = otext false (OAtom (ADestroy l)).
  Proof. intros E1 E2. cbn. now rewrite E1, E2. Qed.
End C58.

(** ** Examples *)
(** numbers displayed as one term, -1 as "-1" *)
Definition one_term {S : scalars} (c : S) : list (bool * S) := if seqb c sm1 then [(true, s1)] else [(false, c)].
Lemma one_term_ok {S : scalars} (R : reading S) : terms_ok R one_term.
Proof.
  intros c. unfold one_term, negative. destruct (seqb c sm1) eqn:E; (split; [discriminate|]; split; [|now rewrite ?E]); cbn [fold_right fst snd].
  - rewrite (ev_eq S R _ _ E). unfold sm1, s1, qz. rewrite !(ev_Q S R). transitivity (kopp (kQ (r:=R) 1%Qc)).
    + pose proof (kQ_add S R 1%Qc (Q2Qc (inject_Z (-1)))) as H. replace (1 + Q2Qc (inject_Z (-1)))%Qc with 0%Qc in H by (apply Qc_is_canon; reflexivity). rewrite (kQ_0 S R) in H.
      pose proof (kring R) as Kr. transitivity (kadd (kadd (kopp (kQ 1%Qc)) (kQ 1%Qc)) (kQ (r:=R) (Q2Qc (inject_Z (-1))))).
      * rewrite (Radd_comm Kr (kopp _)), (Ropp_def Kr). symmetry. apply (Radd_0_l Kr).
      * rewrite <- (Radd_assoc Kr), <- H, (Radd_comm Kr), (Radd_0_l Kr). reflexivity.
    + pose proof (kring R) as Kr. rewrite (Radd_comm Kr), (Radd_0_l Kr). reflexivity.
  - pose proof (kring R) as Kr. rewrite (Radd_comm Kr), (Radd_0_l Kr). reflexivity.
Qed.
Definition lab7 (n : nat) : nat := 7 + n.
Definition no_args {S : scalars} (n : nat) : list S := [].
Definition sym7 {S : scalars} (l : nat) (args : list S) : option nat := match args with [] => if l <? 7 then None else Some (l - 7) | _ => None end.
Lemma sym7_ok {S : scalars} : distinct_labels (S:=S) lab7 no_args sym7.
Proof. intros n. unfold lab7, no_args, sym7. split; [lia|]. destruct (Nat.ltb_spec (7 + n) 7); [lia|]. f_equal. lia. Qed.
(** a register of two-level systems *)
Definition I2 := register 2 cs_reading F1 F1_reg.
Definition wr0 (c : Cs) : bool := false.
Lemma seqb_Cs (a b : cx) : seqb (s:=Cs) a b = true -> a = b.
Proof. change (seqb (s:=Cs) a b) with (if cx_dec a b then true else false). destruct (cx_dec a b) as [H|H]; [intros _; exact H|intros H'; discriminate H']. Qed.
Definition sgc (j k : nat) : op Cs := sg (S:=Cs) j k.
Definition symc (n : nat) (h : list nat) : op Cs := OAtom (ASym n h).
Example C58_hypotheses :
  let e : op Cs := OPlus [OScal ci (OTimes [sgc 0 1; OPlus [symc 0 [1]; sgc 1 0]]); OPM true (symc 1 [1]); OComm (sgc 0 0) (OAdj (OPlus [sgc 0 1; OOne]))] in
  let k : ket Cs := KPlus [KTensor [KBasis 0 0; KSym 0 [1]]; KScal ci (KOp (OPlus [sgc 0 1; sgc 1 0]) (KTensor [KBasis 1 0; KBasis 1 1]))] in
  distinct_labels (S:=Cs) lab7 no_args sym7 /\ terms_ok I2 one_term /\ legal I2 e /\ oshown lab7 no_args one_term wr0 false e
  /\ klegal (I:=I2) k /\ kshown lab7 no_args one_term wr0 false k /\ kshown lab7 no_args one_term wr0 true k /\ @k1 I2 <> k0.
Proof.
  intros e k. split; [apply sym7_ok|]. split; [apply one_term_ok|]. split; [cbn; repeat split; lia|]. assert (forall adj, neat (S:=Cs) one_term wr0 adj ci) as Hn.
  { intros adj. right. assert (forall z : Cs, seqb z sm1 = false -> single one_term z /\ negative one_term z = false) as Hz by (intros z Hz; unfold single, negative, one_term; rewrite Hz; now split).
    assert (seqb (s:=Cs) ci sm1 = false) as E1.
    { destruct (seqb (s:=Cs) ci sm1) eqn:E; [|reflexivity]. exfalso. apply seqb_Cs, (f_equal cim) in E. exact (Rgt_not_eq _ _ Rlt_0_1 E). }
    assert (seqb (s:=Cs) (sconj (s:=Cs) ci) sm1 = false) as E2.
    { destruct (seqb (s:=Cs) (sconj (s:=Cs) ci) sm1) eqn:E; [|reflexivity]. exfalso. apply seqb_Cs, (f_equal cim) in E. apply (Rlt_not_eq _ _ (Ropp_lt_gt_0_contravar 1 Rlt_0_1)). exact E. }
    destruct (Hz _ E1) as [Z1 Z2]. destruct (Hz _ E2) as [Z3 Z4]. destruct adj; [split; [exact Z3|rewrite Z4, Z2; reflexivity]|split; [exact Z1|reflexivity]]. }
  split; [cbn -[one_term]; repeat split; try discriminate; try lia; try exact (Hn false); intros s E; injection E as <-; reflexivity|]. split.
  - assert (apart [0] [1]) as Q by (intros x [<-|[]] [H|[]]; discriminate H).
    assert (forall a b : ket Cs, apart (kspace a) (kspace b) -> disjoint_kets [a; b]) as D by (intros a b H; constructor; [intros y [<-|[]]; exact H|]; constructor; [intros y []|constructor]).
    split; [discriminate|]. split.
    + exists [0; 1]. intros x [<-|[<-|[]]] _ y; cbn [kspace sp_union fold_right]; cbn; split; intros H; exact H.
    + cbn. repeat split; try discriminate; try lia; try (apply D; exact Q). intros x [<-|[]]. now left.
  - split; [cbn -[one_term]; repeat split; try discriminate; try exact (Hn false); intros s E; injection E as <-; reflexivity|].
    split; [cbn -[one_term]; repeat split; try discriminate; try exact (Hn true); intros s E; injection E as <-; reflexivity|].
    intros E. apply (f_equal cre) in E. cbn in E. exact (Rgt_not_eq _ _ Rlt_0_1 E).
Qed.
(** i*A*(B + C^H)^H - A|psi>, and the bra *)
Definition wrx (c : Sx) : bool := false.
Example C58_text_example :
  otext lab7 no_args one_term wrx false (OPlus [OScal (XI : Sx) (OTimes [sym 0 [1]; OAdj (OPlus [x_ad 2; OAdj (sym 1 [1])])]); OScal (OpRun.num (-1)) (x_a 2)])
  = Ok [TNum (XI : Sx); TStar; TOp 7 [1] []; TStar; TLp; TOp 0 [2] []; TDag; TPlus; TOp 8 [1] []; TDag; TRp; TDag; TMinus; TOp 0 [2] []]
  /\ ktext lab7 no_args one_term wrx false (KOp (OPlus [sym 0 [1]; x_a 1]) (KPlus [KSym 0 [1]; KBasis (S:=Sx) 2 1]))
  = Ok [TLp; TOp 7 [1] []; TPlus; TOp 0 [1] []; TRp; TLp; TKet (NSym 7 [1] []); TPlus; TKet (NBasis [(2, 1)]); TRp]
  /\ ktext lab7 no_args one_term wrx true (KScal (XVar 3 : Sx) (KOp (x_a 1) (KSym 0 [1])))
  = Ok [TNum (XConj (XVar 3) : Sx); TStar; TBra (NSym 7 [1] []); TOp 0 [1] []; TDag].
Proof. repeat split; vm_compute; reflexivity. Qed.

Print Assumptions C58_operator. Print Assumptions C58_ket. Print Assumptions C58_bra. Print Assumptions C58_same_text. Print Assumptions C58_same_ket_text. Print Assumptions C58_prints. Print Assumptions C58_prints_ket.
Print Assumptions C58_operator_sum_on_ket_refuted. Print Assumptions C58_cc_sum_refuted. Print Assumptions C58_bra_product_refuted. Print Assumptions C58_sum_coefficient_refuted. Print Assumptions C58_bra_identity_refuted.
Print Assumptions C58_adjoint_arguments_refuted. Print Assumptions C58_label_refuted. Print Assumptions C58_hypotheses.
