(** C40 super-operators. [code] and [real_sorder] are the simplifier as it is;
    [checked] and [careful_sorder] the same, undefined where the sorting of the factors of
    a product moves one past another that need not commute with it. *)
From Coq Require Import QArith Qcanon.
From Verif Require Import Prelude ListFacts SortModel SortProofs BinModel AlgSpec CAlg CInst OpModel OpSpec OpForms OpProofs1 OpProofs2 OpProofs3 OpFuel OpOrder OpLocal OpSx OpRun.
From Verif Require Import SupModel SupSpec SupProofs1 SupProofs2 SupProofs3 SupOrder SupProofs4 SupProofs5 SupLocal SupInst Properties_Op1.
Local Open Scope nat_scope.

Section Sup.
  Context {S : scalars} {dim : nat -> option nat} (T : sinterp S dim).
  Context (olt : op S -> op S -> bool) (slt : list nat -> list nat -> bool) (solt : sop S -> sop S -> bool).
  Local Notation code := (code dim olt slt).
  Local Notation checked := (checked dim olt slt).
  Local Notation real := (real_sorder solt slt).
  Local Notation careful := (careful_sorder solt slt).
  Local Notation legal := (legal T).
  Local Notation value := (value T).
  Local Notation slegal := (slegal T).
  Local Notation svalue := (svalue T).

  Lemma sound n : soundK T (checked n).
  Proof. apply checked_sound. Qed.
  Lemma careful_le l : le (careful l) (real l).
  Proof. apply scareful_real. Qed.

  (** every legal expression is a linear map *)
  Theorem C40_linear s : slegal s ->
    (forall x y, svalue s (aadd x y) = aadd (svalue s x) (svalue s y)) /\ (forall c x, svalue s (smul c x) = smul c (svalue s x)).
  Proof. apply svalue_linear. Qed.
  (** sums, differences and multiples, always *)
  Theorem C40_sum_value l : Forall slegal l ->
    slegal (super_plus solt slt l) /\ forall x, svalue (super_plus solt slt l) x = msum T (map (fun s => svalue s x) l).
  Proof. intros H. destruct (super_plus_sound T solt slt l H) as [L V]. split; [exact L|]. intros x. rewrite V. unfold fsum. now rewrite map_map. Qed.
  Theorem C40_difference_value s t : slegal s -> slegal t ->
    slegal (super_sub solt slt s t) /\ forall x, svalue (super_sub solt slt s t) x = aadd (svalue s x) (smul (kopp k1) (svalue t x)).
  Proof. apply super_sub_sound. Qed.
  Theorem C40_multiple_value c s : slegal s ->
    slegal (super_scal c s) /\ forall x, svalue (super_scal c s) x = smul (ev c) (svalue s x).
  Proof. intros H. exact (super_scal_sound T s c H). Qed.
  (** SPre.create(A) and SPost.create(A) *)
  Theorem C40_pre_value a : legal a -> slegal (pre_create a) /\ forall x, svalue (pre_create a) x = amul (value a) x.
  Proof. apply pre_create_sound. Qed.
  Theorem C40_post_value a : legal a -> slegal (post_create a) /\ forall x, svalue (post_create a) x = amul x (value a).
  Proof. apply post_create_sound. Qed.

  (** products are compositions *)
  Theorem C40_product_value n m l e : Forall slegal l -> super_times (checked n) careful m l = Ok e ->
    super_times (code n) real m l = Ok e /\ slegal e /\ forall x, svalue e x = fold_right (fun s y => svalue s y) x l.
  Proof.
    intros Hl H. split.
    - exact (le_ok _ _ _ (stimes_mono _ _ (checked_le (dim:=dim) olt slt n) _ _ careful_le m m l (Nat.le_refl m)) H).
    - destruct (super_times_sound T _ (sound n) _ (careful_sorder_ok solt slt) m l e Hl H) as [L V]. split; [exact L|]. intros x. rewrite V.
      unfold fcomp. clear. induction l as [|s l IH]; [reflexivity|]. cbn [map fold_right]. now rewrite IH.
  Qed.
  (** the products of two multiplications, as they come out: [SPre(A)*SPost(B)] and
      [SPost(B)*SPre(A)] are the same expression; [SPre(A)*SPre(B)] is SPre of the
      product A*B, [SPost(A)*SPost(B)] is SPost of B*A *)
  Theorem C40_pre_post n m a b :
    super_times (code n) real (2 + m) [SPre a; SPost b] = Ok (STimes [SPre a; SPost b])
    /\ super_times (code n) real (2 + m) [SPost b; SPre a] = Ok (STimes [SPre a; SPost b]).
  Proof. split; reflexivity. Qed.
  Theorem C40_pre_pre n m a b p : sp_disjoint (space a) (space b) = false -> k_times (code n) [a; b] = Ok p ->
    super_times (code n) real (3 + m) [SPre a; SPre b] = Ok (pre_create p).
  Proof. apply times_pre_pre. Qed.
  Theorem C40_post_post n m a b p : sp_disjoint (space a) (space b) = false -> k_times (code n) [b; a] = Ok p ->
    super_times (code n) real (3 + m) [SPost a; SPost b] = Ok (post_create p).
  Proof. apply times_post_post. Qed.

  (** ** Application to an operator *)
  Theorem C40_apply_value app unapp n m s b e : apps_ok T app unapp -> slegal s -> legal b ->
    super_apply (checked n) careful app unapp m s b = Ok e ->
    super_apply (code n) real app unapp m s b = Ok e /\ legal e /\ value e = svalue s (value b).
  Proof.
    intros Ha Hs Hb H. split.
    - exact (le_ok _ _ _ (sapply_mono _ _ (checked_le (dim:=dim) olt slt n) _ _ careful_le app unapp m m s b (Nat.le_refl m)) H).
    - exact (super_apply_sound T _ (sound n) _ (careful_sorder_ok solt slt) app unapp Ha m s b e Hs Hb H).
  Qed.
  (** application of a product is application of the factors, one after the other *)
  Theorem C40_apply_composes app unapp n m s t b p y e e' : apps_ok T app unapp -> slegal s -> slegal t -> legal b ->
    super_times (checked n) careful m [s; t] = Ok p -> super_apply (checked n) careful app unapp m p b = Ok e ->
    super_apply (checked n) careful app unapp m t b = Ok y -> super_apply (checked n) careful app unapp m s y = Ok e' ->
    value e = value e'.
  Proof.
    intros Ha Hs Ht Hb Hp He Hy He'. destruct (C40_product_value n m [s; t] p) as [_ [Lp Vp]]; [now repeat constructor|exact Hp|].
    destruct (C40_apply_value app unapp n m p b e Ha Lp Hb He) as [_ [_ V]]. destruct (C40_apply_value app unapp n m t b y Ha Ht Hb Hy) as [_ [Ly Vy]].
    destruct (C40_apply_value app unapp n m s y e' Ha Hs Ly He') as [_ [_ V']]. rewrite V, V', Vy, Vp. reflexivity.
  Qed.
  (** sums and multiples of multiplications by operators on one local space, applied to
      an operator on that space: nothing needs to be checked *)
  Theorem C40_local_apply_value l app unapp n m s b e : apps_ok T app unapp -> (forall x, local_to l x -> unapp x = None) -> good_orders olt slt ->
    two_sided (local_to l) s -> local_to l b -> slegal s -> legal b ->
    super_apply (code n) real app unapp m s b = Ok e -> local_to l e /\ legal e /\ value e = svalue s (value b).
  Proof.
    intros Ha Hu Ho Hs Hb Ls Lb H. destruct (apply_agree l solt slt _ _ (local_agree l dim olt slt Ho n) app unapp Hu m s b Hs Hb) as [E G].
    unfold OpRun.code in H. rewrite <- E in H. split; [now apply G|].
    exact (super_apply_sound T _ (sound n) _ (careful_sorder_ok solt slt) app unapp Ha m s b e Ls Lb H).
  Qed.

  (** ** Expansion *)
  Theorem C40_expand_value n m s s' : slegal s -> sexpand solt slt (checked n) careful m s = Ok s' ->
    sexpand solt slt (code n) real m s = Ok s' /\ slegal s' /\ forall x, svalue s' x = svalue s x.
  Proof.
    intros Hs H. split.
    - exact (le_ok _ _ _ (sexpand_mono solt slt _ _ (checked_le (dim:=dim) olt slt n) _ _ careful_le m m s (Nat.le_refl m)) H).
    - exact (sexpand_sound T solt slt _ (sound n) _ (careful_sorder_ok solt slt) m s s' Hs H).
  Qed.

  (** ** Adjoints: Tr[M L(N)] = Tr[L*(M) N], wherever an adjoint is returned *)
  Theorem C40_adjoint_trace (W : tracing T) n m s s' : slegal s -> sadj (checked n) careful m s = Ok (Some s') ->
    sadj (code n) real m s = Ok (Some s') /\ slegal s'
    /\ forall x y, tr W (amul x (svalue s y)) = tr W (amul (svalue s' x) y).
  Proof.
    intros Hs H. split.
    - exact (le_ok _ _ _ (sadj_mono _ _ (checked_le (dim:=dim) olt slt n) _ _ careful_le m m (Nat.le_refl m) s) H).
    - destruct (sadj_sound T _ (sound n) _ (careful_sorder_ok solt slt) (tr_has_dual T W) m s _ Hs H s' eq_refl) as [L V]. split; [exact L|].
      intros x y. rewrite V. apply (tr_dual T W (sspace s)). now apply svalue_lives.
  Qed.
  Theorem C40_adjoint_pre n m a : sadj (code n) real m (SPre a) = Ok (Some (SPost a)) /\ sadj (code n) real m (SPost a) = Ok (Some (SPre a)).
  Proof. split; reflexivity. Qed.
  Theorem C40_adjoint_of_adjoint n m s : sadj (code n) real m (SAdj s) = Ok (Some s).
  Proof. reflexivity. Qed.
  (** A multiple has no adjoint: [c * L] gives None, whatever c and L *)
  Theorem C40_adjoint_multiple_refuted n m c t : sadj (code n) real m (SScal c t) = Ok None.
  Proof. reflexivity. Qed.
End Sup.

(** ** Examples: a two-level system *)
Definition gcode : nat -> ocreators Gs := code gdim (fun _ _ => false) xslt.
Definition gchecked : nat -> ocreators Gs := checked gdim (fun _ _ => false) xslt.
Definition gsolt (a b : sop Gs) : bool := false.
Definition gsym (n : nat) (h : list nat) : op Gs := OAtom (ASym n h).
Definition gsig (j k : nat) : op Gs := OAtom (ASigma j k 0).
Definition gnum (z : Z) : Gs := Gq (qz z) 0.
Lemma good_g : good_orders (fun _ _ : op Gs => false) xslt.
Proof. constructor; intros; try discriminate; try reflexivity; [now apply lexlt_total|now apply lexlt_asym|eapply lexlt_trans; eassumption]. Qed.
Definition is_sop (r : res (sop Gs)) (e : sop Gs) : bool := match r with Ok e' => sop_eqb e' e | Err _ => false end.
Definition is_gop (r : res (op Gs)) (e : op Gs) : bool := match r with Ok e' => oeqb e' e | Err _ => false end.
(** the symbol 4 stands for the application of the super-operator symbol 1 to the
    operator symbol 3 *)
Definition gapp (s : sop Gs) (b : op Gs) : option (op Gs) :=
  if sop_eqb s (SSym 1 [0]) && oeqb b (gsym 3 [0]) then Some (gsym 4 [0]) else None.
Definition gunapp (e : op Gs) : option (sop Gs * op Gs) :=
  if oeqb e (gsym 4 [0]) then Some (SSym 1 [0], gsym 3 [0]) else None.
Example C40_ex_apps : apps_ok qubit_s gapp gunapp.
Proof.
  constructor.
  - intros s b e H _ _. unfold gapp in H. destruct (sop_eqb s _) eqn:E1; [|discriminate]. destruct (oeqb b _) eqn:E2; [|discriminate]. injection H as <-.
    split; [exact Logic.I|]. rewrite (sop_eqb_value qubit_s _ _ E1), (oeqb_value qubit_s _ _ E2). reflexivity.
  - intros e s b H _. unfold gunapp in H. destruct (oeqb e _) eqn:E; [|discriminate]. injection H as <- <-. split; [exact Logic.I|]. split; [exact Logic.I|].
    rewrite (oeqb_value qubit_s _ _ E). reflexivity.
Qed.
(** a product of multiplications and a symbol, sorted and combined *)
Definition ex_factors : list (sop Gs) := [SPost (gsym 2 [0]); SPre (gsym 1 [0]); SScal (gnum 2) (SPre (gsym 3 [0])); SSym 1 [0]].
Example C40_ex_product : Forall (slegal qubit_s) ex_factors
  /\ is_sop (super_times (gchecked 9) (careful_sorder gsolt xslt) 9 ex_factors)
       (SScal (gnum 2) (STimes [SPre (OTimes [gsym 1 [0]; gsym 3 [0]]); SPost (gsym 2 [0]); SSym 1 [0]])) = true.
Proof. split; [repeat constructor|vm_compute; reflexivity]. Qed.
(** applications: of a sum of products, and with an application left over *)
Example C40_ex_apply :
  is_gop (super_apply (gchecked 9) (careful_sorder gsolt xslt) gapp gunapp 9
            (SPlus [SPost (gsym 2 [0]); STimes [SPre (gsym 1 [0]); SPost (gsym 2 [0])]]) (OScal (gnum 3) (gsym 3 [0])))
    (OPlus [OScal (gnum 3) (OTimes [gsym 3 [0]; gsym 2 [0]]); OScal (gnum 3) (OTimes [gsym 1 [0]; gsym 3 [0]; gsym 2 [0]])]) = true
  /\ is_gop (super_apply (gchecked 9) (careful_sorder gsolt xslt) gapp gunapp 9 (STimes [SSym 1 [0]; SPre (gsym 3 [0])]) OOne) (gsym 4 [0]) = true.
Proof. split; vm_compute; reflexivity. Qed.
Example C40_ex_local :
  two_sided (local_to 0) (SPlus [SPost (gsym 2 [0]); SScal (gnum 2) (STimes [SPre (gsym 1 [0]); SPost (gsym 2 [0])])])
  /\ local_to (S:=Gs) 0 (gsym 3 [0]) /\ good_orders (fun _ _ : op Gs => false) xslt
  /\ apps_ok qubit_s (fun _ _ => None) (fun _ => None)
  /\ match super_apply (gcode 9) (real_sorder gsolt xslt) (fun _ _ => None) (fun _ => None) 9
       (SPlus [SPost (gsym 2 [0]); SScal (gnum 2) (STimes [SPre (gsym 1 [0]); SPost (gsym 2 [0])])]) (gsym 3 [0]) with Ok _ => true | _ => false end = true.
Proof.
  split; [|split; [now right|split; [exact good_g|split; [constructor; discriminate|vm_compute; reflexivity]]]].
  apply ts_plus. intros x [<- |[<- |[]]]; [apply ts_post; now right|apply ts_scal, ts_times; now right].
Qed.
(** (A_1 + A_2) (S_1 + SPost(A_3)) multiplied out *)
Example C40_ex_expand :
  slegal qubit_s (STimes [SPre (OPlus [gsym 1 [0]; gsym 2 [0]]); SPlus [SSym 1 [0]; SPost (gsym 3 [0])]])
  /\ is_sop (sexpand gsolt xslt (gchecked 9) (careful_sorder gsolt xslt) 9 (STimes [SPre (OPlus [gsym 1 [0]; gsym 2 [0]]); SPlus [SSym 1 [0]; SPost (gsym 3 [0])]]))
       (SPlus [STimes [SPre (gsym 1 [0]); SSym 1 [0]]; STimes [SPre (gsym 1 [0]); SPost (gsym 3 [0])];
               STimes [SPre (gsym 2 [0]); SSym 1 [0]]; STimes [SPre (gsym 2 [0]); SPost (gsym 3 [0])]]) = true.
Proof. split; [cbn; auto 10|vm_compute; reflexivity]. Qed.
(** the adjoint of a sum with a product; the trace of 2x2 matrices *)
Definition ex_sum : sop Gs := SPlus [SSym 0 [0]; STimes [SPre (gsym 1 [0]); SSym 1 [0]; SPost (gsym 3 [0])]].
Example C40_ex_adjoint :
  slegal qubit_s ex_sum /\ inhabited (tracing qubit_s)
  /\ match sadj (gchecked 9) (careful_sorder gsolt xslt) 9 ex_sum with
     | Ok (Some s) => sop_eqb s (SPlus [SAdj (SSym 0 [0]); STimes [SPre (gsym 3 [0]); SAdj (SSym 1 [0]); SPost (gsym 1 [0])]])
     | _ => false end = true.
Proof. split; [cbn; auto 10|split; [exact (inhabits qubit_tr)|vm_compute; reflexivity]]. Qed.
Example C40_ex_pre : sp_disjoint (space (gsym 1 [0])) (space (gsym 2 [0])) = false
  /\ is_gop (k_times (gcode 9) [gsym 1 [0]; gsym 2 [0]]) (OTimes [gsym 1 [0]; gsym 2 [0]]) = true.
Proof. split; vm_compute; reflexivity. Qed.

(** ** What fails *)
(** The adjoint of a sum with a multiple among its summands, such as any commutator
    [A, .] = SPre(A) - SPost(A), is not defined *)
Theorem C40_adjoint_sum_refuted :
  is_sop (Ok (commutator_super gsolt xslt (gsym 1 [0]))) (SPlus [SPre (gsym 1 [0]); SScal (gnum (-1)) (SPost (gsym 1 [0]))]) = true
  /\ sadj (gcode 9) (real_sorder gsolt xslt) 9 (commutator_super gsolt xslt (gsym 1 [0])) = Err AssertionError.
Proof. split; vm_compute; reflexivity. Qed.
(** A multiplication is moved past a symbol on the same space: the factors S, SPost(A),
    T, SPre(C), SPre(B) with C on another space are sorted to SPre(C), S, SPre(B),
    SPost(A), T. (The label 1 comes before the label 0 here.) *)
Definition mv_factors : list (sop Gs) := [SSym 0 [0]; SPost (gsym 3 [0]); SSym 2 [0]; SPre (gsym 1 [1]); SPre (gsym 1 [0])].
Definition mv_result : sop Gs := STimes [SPre (gsym 1 [1]); SSym 0 [0]; SPre (gsym 1 [0]); SPost (gsym 3 [0]); SSym 2 [0]].
Theorem C40_sorting_refuted :
  Forall (slegal qubit_s) mv_factors
  /\ exists e, super_times (gcode 9) (real_sorder gsolt (fun a b => xslt b a)) 9 mv_factors = Ok e
       /\ svalue qubit_s e a1 <> fcomp qubit_s (map (svalue qubit_s) mv_factors) a1.
Proof.
  split; [repeat constructor|].
  assert (is_sop (super_times (gcode 9) (real_sorder gsolt (fun a b => xslt b a)) 9 mv_factors) mv_result = true) as H by (vm_compute; reflexivity).
  destruct (super_times _ _ _ mv_factors) as [e|] eqn:E; [|discriminate H]. cbn [is_sop] in H. exists e. split; [reflexivity|].
  rewrite (sop_eqb_value qubit_s _ _ H). intros G.
  assert (q2_eqb (svalue qubit_s mv_result (@a1 qubit_s)) (fcomp qubit_s (map (svalue qubit_s) mv_factors) (@a1 qubit_s)) = false) as N by (vm_compute; reflexivity).
  rewrite G in N. assert (forall x, q2_eqb x x = true) as R.
  { intros x. unfold q2_eqb, gq_eqb. repeat match goal with |- context [Qc_eq_dec ?a ?a] => destruct (Qc_eq_dec a a) as [_|F]; [|now elim F] end. reflexivity. }
  rewrite R in N. discriminate N.
Qed.
(** A product that turns out to be zero is not recognised: SPre(|0><1|) SPost(A)
    SPre(|0><1|) is a product with the factor ZeroSuperOperator *)
Theorem C40_zero_product_refuted :
  is_sop (super_times (gcode 9) (real_sorder gsolt xslt) 9 [SPre (gsig 0 1); SPost (gsym 3 [0]); SPre (gsig 0 1)]) (STimes [SZero; SPost (gsym 3 [0])]) = true.
Proof. vm_compute. reflexivity. Qed.

Print Assumptions C40_linear.
Print Assumptions C40_sum_value.
Print Assumptions C40_difference_value.
Print Assumptions C40_multiple_value.
Print Assumptions C40_pre_value.
Print Assumptions C40_post_value.
Print Assumptions C40_product_value.
Print Assumptions C40_pre_post.
Print Assumptions C40_pre_pre.
Print Assumptions C40_post_post.
Print Assumptions C40_apply_value.
Print Assumptions C40_apply_composes.
Print Assumptions C40_local_apply_value.
Print Assumptions C40_expand_value.
Print Assumptions C40_adjoint_trace.
Print Assumptions C40_adjoint_pre.
Print Assumptions C40_adjoint_of_adjoint.
Print Assumptions C40_adjoint_multiple_refuted.
Print Assumptions C40_adjoint_sum_refuted.
Print Assumptions C40_sorting_refuted.
Print Assumptions C40_zero_product_refuted.
