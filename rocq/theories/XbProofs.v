(** Proofs for XbModel: the expansion of an operator in a basis. *)
From Coq Require Import QArith Qcanon Sorted.
From Verif Require Import Prelude ListFacts SortModel BinModel AlgSpec CAlg OpModel OpSpec OpForms OpProofs1 OpProofs2 OpProofs3 OpFuel CSimpProofs5.
From Verif Require Import KetModel KetSpec KetProofs1 KetProofs2 KetFuel XbModel.
Local Open Scope nat_scope.

Section Xb.
  Context {S : scalars} {dim : nat -> option nat} {I : interp S dim} (W : kets I).
  Local Notation op := (op S).
  Local Notation ket := (ket S).
  Add Ring Kxb : (kring I).
  Local Notation A := (A I).
  Local Notation kvalue := (kvalue W).
  Local Notation klegal := (klegal (I:=I)).
  Local Notation kat := (kat (I:=I)).

  Lemma all_in {X} (f : X -> bool) l : (forall y, In y l -> f y = true) -> filter f l = l.
  Proof. induction l as [|x l IH]; intros H; [reflexivity|]. cbn [filter]. rewrite (H x) by now left. rewrite IH; [reflexivity|]. intros y Hy. apply H. now right. Qed.
  Lemma regroup (t D p U q s : A) : aadd (aadd t D) (aadd (aadd p U) (aadd q s)) = aadd (aadd t p) (aadd q (aadd D (aadd U s))).
  Proof.
    rewrite <- !(aadd_assoc I). f_equal. rewrite (aadd_assoc I D p), (aadd_comm I D p), <- (aadd_assoc I). f_equal.
    rewrite (aadd_assoc I U q), (aadd_comm I U q), <- (aadd_assoc I q), !(aadd_assoc I D q), (aadd_comm I D q). symmetry. apply aadd_assoc.
  Qed.
  (** ** sums over pairs *)
  Section Pairs.
    Context {X : Type} (T : nat * X -> nat * X -> A).
    Definition entries (herm : bool) (L : list (nat * X)) (x : nat * X) : list (bool * A) :=
      map (fun y => (fst x =? fst y, T x y)) (filter (fun y => negb ((fst y <? fst x) && herm)) L).
    Definition part (b : bool) (E : list (bool * A)) : A := msum I (map snd (filter (fun t => Bool.eqb (fst t) b) E)).
    Definition total (E : list (bool * A)) : A := msum I (map snd E).
    Lemma part_app b E F : part b (E ++ F) = aadd (part b E) (part b F).
    Proof. unfold part. now rewrite filter_app, map_app, msum_app. Qed.
    Lemma total_app E F : total (E ++ F) = aadd (total E) (total F).
    Proof. unfold total. now rewrite map_app, msum_app. Qed.
    Lemma parts E : aadd (part true E) (part false E) = total E.
    Proof.
      induction E as [|[[] v] E IH]; [apply aadd_0|..].
      - change (part true ((true, v) :: E)) with (aadd v (part true E)). change (part false ((true, v) :: E)) with (part false E). change (total ((true, v) :: E)) with (aadd v (total E)). now rewrite <- IH, aadd_assoc.
      - change (part true ((false, v) :: E)) with (part true E). change (part false ((false, v) :: E)) with (aadd v (part false E)). change (total ((false, v) :: E)) with (aadd v (total E)).
        rewrite <- IH, !(aadd_assoc I). f_equal. apply aadd_comm.
    Qed.
    Definition full (L L' : list (nat * X)) : A := asum (fun x => asum (fun y => T x y) L') L.
    Lemma total_entries L' x : total (entries false L' x) = asum (fun y => T x y) L'.
    Proof.
      unfold total, entries. rewrite map_map. cbn [snd]. rewrite msum_map. f_equal. induction L' as [|y L' IH]; [reflexivity|]. cbn [filter]. rewrite Bool.andb_false_r. cbn [negb]. now rewrite IH.
    Qed.
    Lemma total_full L L' : total (flat_map (entries false L') L) = full L L'.
    Proof. induction L as [|x L IH]; [reflexivity|]. cbn [flat_map]. rewrite total_app, total_entries, IH. reflexivity. Qed.

    Definition below (x : nat * X) (L : list (nat * X)) : Prop := forall y, In y L -> fst x < fst y.
    Fixpoint ascending (L : list (nat * X)) : Prop := match L with [] => True | x :: L' => below x L' /\ ascending L' end.
    Lemma first_row x L : below x L -> entries true (x :: L) x = (true, T x x) :: map (fun y => (false, T x y)) L.
    Proof.
      intros H. unfold entries. cbn [filter]. rewrite Nat.ltb_irrefl. cbn [andb negb map]. rewrite Nat.eqb_refl. f_equal.
      rewrite (all_in (fun y : nat * X => negb ((fst y <? fst x) && true)) L).
      - apply map_ext_in. intros y Hy. specialize (H y Hy). destruct (Nat.eqb_spec (fst x) (fst y)) as [E|_]; [lia|reflexivity].
      - intros y Hy. specialize (H y Hy). destruct (Nat.ltb_spec (fst y) (fst x)); [lia|reflexivity].
    Qed.
    Lemma other_rows x L l : below x l -> flat_map (entries true (x :: L)) l = flat_map (entries true L) l.
    Proof.
      induction l as [|y l IH]; intros H; [reflexivity|]. cbn [flat_map]. rewrite IH by (intros z Hz; apply H; now right). f_equal. unfold entries. cbn [filter].
      specialize (H y (or_introl eq_refl)). destruct (Nat.ltb_spec (fst x) (fst y)); [reflexivity|lia].
    Qed.
    Lemma part_false_row x L : part false (map (fun y => (false, T x y)) L) = asum (fun y => T x y) L /\ part true (map (fun y => (false, T x y)) L) = a0.
    Proof.
      unfold part. induction L as [|y L [IH1 IH2]]; [split; reflexivity|]. cbn [map filter fst Bool.eqb]. split; [|exact IH2]. cbn [map snd]. rewrite msum_cons, IH1. reflexivity.
    Qed.
    Lemma upper_in L : (forall x y, In x L -> In y L -> star (T x y) = T y x) -> ascending L ->
      aadd (part true (flat_map (entries true L) L)) (aadd (part false (flat_map (entries true L) L)) (star (part false (flat_map (entries true L) L)))) = full L L.
    Proof.
      induction L as [|x L IH]; intros T_star H; [rewrite star_0; change (full [] []) with (@a0 I); change (part _ _) with (@a0 I); now rewrite !(aadd_0 I)|].
      destruct H as [Hx HL]. cbn [flat_map]. rewrite (first_row x L Hx), (other_rows x L L Hx).
      change ((true, T x x) :: map (fun y => (false, T x y)) L) with ([(true, T x x)] ++ map (fun y => (false, T x y)) L).
      rewrite !part_app. destruct (part_false_row x L) as [-> ->]. change (part true [(true, T x x)]) with (msum I [T x x]). change (part false [(true, T x x)]) with (@a0 I). rewrite msum_1.
      specialize (IH (fun x y Hx Hy => T_star x y (or_intror Hx) (or_intror Hy)) HL). set (D := part true (flat_map (entries true L) L)) in *. set (U := part false (flat_map (entries true L) L)) in *. clearbody D U.
      assert (full (x :: L) (x :: L) = aadd (aadd (T x x) (asum (fun y => T x y) L)) (aadd (asum (fun y => T y x) L) (full L L))) as ->.
      { unfold full. rewrite asum_cons, asum_cons. f_equal. rewrite <- asum_add. apply asum_ext. intros y _. apply asum_cons. }
      rewrite <- IH. rewrite !(aadd_0 I), !(aadd_0r I), !star_add, star_asum.
      assert (asum (fun y => star (T x y)) L = asum (fun y => T y x) L) as -> by (apply asum_ext; intros y Hy; apply T_star; [now left|now right]).
      apply regroup.
    Qed.
  End Pairs.

  (** ** the terms *)
  Context (K : ocreators S) (Q : kcreators S) (HK : soundK I K) (HQ : soundQ W Q) (kb : ket -> ket -> op) (Hkb : kb_ok W kb).
  Context (sexpand : S -> res S) (Hexp : forall c c', sexpand c = Ok c' -> ev (r:=I) c' = ev c).
  Definition proj (h : list nat) (k : ket) : A := outer (w:=W) h (kvalue k) (kvalue k).
  Lemma same_two h (a b : ket) : kat h a -> kat h b -> same_kets h [a; b].
  Proof. intros [_ Ha] [_ Hb] x [<-|[<-|[]]] Hx; [destruct Ha as [->|Ha]|destruct Hb as [->|Hb]]; try assumption; now elim Hx. Qed.
  Lemma element_value h a ki kj c : legal I a -> incl (space a) h -> kat h ki -> kat h kj -> matrix_element K Q sexpand a ki kj = Ok c ->
    ev (r:=I) c = inner h (kvalue ki) (act (value I a) (kvalue kj)).
  Proof.
    intros La Hi Hki Hkj H. unfold matrix_element in H. cbn [mul_op] in H. destruct (oadj K a) as [a'|] eqn:E; [|discriminate H]. cbn [bind] in H.
    destruct (oadj_sound I K HK a a' La E) as [La' Va']. destruct (kc_op Q a' ki) as [k'|] eqn:E1; [|discriminate H]. cbn [bind rmap state_mul] in H.
    destruct (kc_bk Q k' kj) as [c0|] eqn:E2; [|discriminate H]. cbn [bind rmap] in H.
    destruct (proj1 (kmeans_kat W k' h _) (q_op W Q HQ a' ki k' h La' Hki E1)) as [Hk' Vk'].
    rewrite (Hexp _ _ H). rewrite (q_bk W Q HQ k' kj c0 h (proj1 Hk') (proj1 Hkj) (same_two h k' kj Hk' Hkj) E2), Vk', Va'.
    rewrite (inner_act I W h (space a)); [|apply (lives_star _ _ I); now apply value_lives|exact Hi|now apply kat_on|now apply kat_on]. now rewrite star_star.
  Qed.
  Lemma sandwich h a ki kj : legal I a -> incl (space a) h -> kat h ki -> kat h kj ->
    amul (proj h ki) (amul (value I a) (proj h kj)) = smul (inner h (kvalue ki) (act (value I a) (kvalue kj))) (outer (w:=W) h (kvalue ki) (kvalue kj)).
  Proof.
    intros La Hi Hki Hkj. pose proof (kat_on W h ki Hki) as Oi. pose proof (kat_on W h kj Hkj) as Oj. pose proof (value_lives I a La) as Hl.
    pose proof (on_act I W _ _ _ _ Hl Hi Oj) as Oa. unfold proj.
    rewrite <- (outer_act I W h (space a)) by assumption. rewrite <- (outer_act I W h h) by first [assumption | now apply (lives_outer I W) | now intros z].
    rewrite (outer_apply I W h) by assumption. now apply (outer_smul I W).
  Qed.
  Lemma term_value h a ki kj e : legal I a -> incl (space a) h -> kat h ki -> kat h kj -> xterm K Q kb sexpand a ki kj = Ok e ->
    means I e (amul (proj h ki) (amul (value I a) (proj h kj))).
  Proof.
    intros La Hi Hki Hkj H. unfold xterm in H. destruct (matrix_element K Q sexpand a ki kj) as [c|] eqn:E; [|discriminate H]. cbn [bind] in H.
    unfold kb_new in H. destruct (same_space [ki; kj]); [|discriminate H]. cbn [bind] in H. destruct (Hkb ki kj h (proj1 Hki) (proj1 Hkj) (same_two h ki kj Hki Hkj)) as [Lk Vk].
    destruct (s_scal I K HK c (kb ki kj) e Lk H) as [Le Ve]. split; [exact Le|]. rewrite Ve, Vk, (sandwich h a ki kj La Hi Hki Hkj). now rewrite (element_value h a ki kj c La Hi Hki Hkj E).
  Qed.

  (** ** the rows *)
  Section Rows.
    Context (h : list nat) (a : op) (La : legal I a) (Hi : incl (space a) h).
    Definition entry (x y : nat * ket) : A := amul (proj h (snd x)) (amul (value I a) (proj h (snd y))).
    Definition fits (e : bool * A) (t : bool * op) : Prop := fst e = fst t /\ means I (snd t) (snd e).
    Lemma row_fits herm states i ki row : Forall (kat h) states -> kat h ki -> xrow K Q kb sexpand a herm states i ki = Ok row ->
      Forall2 fits (entries entry herm (combine (seq 0 (length states)) states) (i, ki)) row.
    Proof.
      intros Hs Hki. unfold xrow, entries. cbn [fst].
      assert (Forall (fun p : nat * ket => kat h (snd p)) (filter (fun y : nat * ket => negb ((fst y <? i) && herm)) (combine (seq 0 (length states)) states))) as HL.
      { apply Forall_forall. intros [j k] Hj. apply filter_In in Hj. destruct Hj as [Hj _]. apply in_combine_r in Hj. rewrite Forall_forall in Hs. now apply Hs. }
      revert row. induction HL as [|[j k] L Hk HL IH]; intros row H; [injection H as <-; constructor|].
      cbn [mapM] in H. destruct (xterm K Q kb sexpand a ki (snd (j, k))) as [t|] eqn:E; [|discriminate H]. cbn [bind] in H.
      destruct (mapM _ L) as [ts|] eqn:E1; [|discriminate H]. cbn [bind] in H. injection H as <-. cbn [map]. constructor; [|now apply IH].
      split; [reflexivity|]. cbn [snd]. exact (term_value h a ki k t La Hi Hki Hk E).
    Qed.
    Lemma rows_fit herm states L rows : Forall (kat h) states -> Forall (fun p : nat * ket => kat h (snd p)) L ->
      mapM (fun ik => xrow K Q kb sexpand a herm states (fst ik) (snd ik)) L = Ok rows ->
      Forall2 fits (flat_map (entries entry herm (combine (seq 0 (length states)) states)) L) (concat rows).
    Proof.
      intros Hs HL. revert rows. induction HL as [|[i k] L Hk HL IH]; intros rows H; [injection H as <-; constructor|].
      cbn [mapM] in H. destruct (xrow K Q kb sexpand a herm states (fst (i, k)) (snd (i, k))) as [r|] eqn:E; [|discriminate H]. cbn [bind] in H.
      destruct (mapM _ L) as [rs|] eqn:E1; [|discriminate H]. cbn [bind] in H. injection H as <-. cbn [flat_map concat].
      apply Forall2_app; [exact (row_fits herm states i k r Hs Hk E)|now apply IH].
    Qed.
    Lemma parts_value b E all : Forall2 fits E all ->
      let l := map snd (filter (fun t => Bool.eqb (fst t) b) (filter (fun t => not_zero (snd t)) all)) in
      Forall (legal I) l /\ msum I (map (value I) l) = part b E.
    Proof.
      induction 1 as [|[f v] [g e] E all Hf _ IH]; [split; [constructor|reflexivity]|]. destruct Hf as [Hf [Le Ve]]. cbn [fst snd] in Hf, Le, Ve. subst g.
      cbn zeta in *. destruct IH as [IH1 IH2]. cbn [filter snd]. unfold part. cbn [filter fst]. fold (part b E).
      assert (part b ((f, v) :: E) = aadd (if Bool.eqb f b then v else a0) (part b E)) as Hp.
      { unfold part. cbn [filter fst]. destruct (Bool.eqb f b); [reflexivity|symmetry; apply aadd_0]. }
      change (map snd (if Bool.eqb f b then (f, v) :: filter (fun y1 => Bool.eqb (fst y1) b) E else filter (fun y2 => Bool.eqb (fst y2) b) E)) with (map snd (filter (fun y : bool * A => Bool.eqb (fst y) b) ((f, v) :: E))).
      fold (part b ((f, v) :: E)). rewrite Hp. change (not_zero e) with (negb (oeqb e OZero)). destruct (oeqb e OZero) eqn:Z; cbn [negb].
      - assert (v = a0) as -> by (rewrite <- Ve; now rewrite (oeqb_value I _ _ Z)). split; [exact IH1|]. rewrite IH2. destruct (Bool.eqb f b); symmetry; apply aadd_0.
      - cbn [filter fst]. destruct (Bool.eqb f b); [|split; [exact IH1|rewrite IH2; symmetry; apply aadd_0]]. cbn [map snd]. split; [now constructor|]. rewrite msum_cons, IH2. now rewrite Ve.
    Qed.
  End Rows.

  (** ** the whole expansion *)
  Definition span (h : list nat) (states : list ket) : A := asum (proj h) states.
  Lemma asum_snd {X} (f : X -> A) (l : list X) n : asum (fun p : nat * X => f (snd p)) (combine (seq n (length l)) l) = asum f l.
  Proof. revert n. induction l as [|x l IH]; intros n; [reflexivity|]. cbn [length seq combine]. rewrite !asum_cons, IH. reflexivity. Qed.
  Lemma full_span h a states : full (entry h a) (combine (seq 0 (length states)) states) (combine (seq 0 (length states)) states) = amul (span h states) (amul (value I a) (span h states)).
  Proof.
    unfold full, entry, span. transitivity (asum (fun x : nat * ket => amul (proj h (snd x)) (amul (value I a) (asum (proj h) states))) (combine (seq 0 (length states)) states)).
    - apply asum_ext. intros x _. rewrite asum_mul_l, asum_mul_l. do 2 f_equal. apply (asum_snd (proj h)).
    - rewrite asum_mul_r. f_equal. apply (asum_snd (proj h)).
  Qed.
  Lemma ascending_combine {X} (l : list X) n : ascending (combine (seq n (length l)) l) /\ forall p, In p (combine (seq n (length l)) l) -> n <= fst p.
  Proof.
    revert n. induction l as [|x l IH]; intros n; [split; [exact Logic.I|intros p []]|]. cbn [length seq combine]. destruct (IH (Datatypes.S n)) as [H1 H2]. split.
    - split; [|exact H1]. intros y Hy. specialize (H2 y Hy). cbn [fst]. lia.
    - intros p [<-|Hp]; [cbn [fst]; lia|]. specialize (H2 p Hp). lia.
  Qed.
  Lemma proj_star h k : kat h k -> star (proj h k) = proj h k.
  Proof. intros Hk. apply (outer_star I W); now apply kat_on. Qed.
  Lemma all_kat h (states : list ket) n : Forall (kat h) states -> Forall (fun p : nat * ket => kat h (snd p)) (combine (seq n (length states)) states).
  Proof. intros H. apply Forall_forall. intros [j k] Hj. apply in_combine_r in Hj. rewrite Forall_forall in H. now apply H. Qed.
  Lemma filter_id {X} (f g : X -> bool) l : (forall x, f x = g x) -> filter f l = filter g l.
  Proof. intros H. now apply filter_ext. Qed.
  Lemma entry_star h a : star (value I a) = value I a -> forall L, Forall (fun p : nat * ket => kat h (snd p)) L ->
    forall x y, In x L -> In y L -> star (entry h a x y) = entry h a y x.
  Proof.
    intros Ha L HL x y Hx Hy. rewrite Forall_forall in HL. unfold entry. rewrite !star_mul, Ha, !proj_star by now apply HL. symmetry. apply amul_assoc.
  Qed.
  Theorem given_value h a states herm r : legal I a -> incl (space a) h -> Forall (kat h) states -> (herm = true -> star (value I a) = value I a) ->
    expand_in_basis K Q kb sexpand dim a (Some states) herm = Ok r -> means I r (amul (span h states) (amul (value I a) (span h states))).
  Proof.
    intros La Hi Hs Hh H. unfold expand_in_basis in H. cbn [bind] in H.
    destruct (mapM _ (combine _ states)) as [rows|] eqn:E; [|discriminate H]. cbn [bind] in H.
    pose proof (rows_fit h a La Hi herm states _ rows Hs (all_kat h states 0 Hs) E) as HF. set (all := concat rows) in *. clearbody all. clear E.
    pose proof (parts_value true _ all HF) as [L1 V1]. pose proof (parts_value false _ all HF) as [L2 V2].
    rewrite (filter_id (fun t : bool * op => Bool.eqb (fst t) true) fst) in L1, V1 by (intros [[] z]; reflexivity).
    rewrite (filter_id (fun t : bool * op => Bool.eqb (fst t) false) (fun t => negb (fst t))) in L2, V2 by (intros [[] z]; reflexivity).
    cbn zeta in H. set (diag := map snd (filter fst (filter (fun t : bool * op => not_zero (snd t)) all))) in *.
    set (terms := map snd (filter (fun t => negb (fst t)) (filter (fun t : bool * op => not_zero (snd t)) all))) in *. clearbody diag terms.
    rewrite <- full_span. destruct herm.
    - destruct (k_plus K diag) as [d|] eqn:Ed; [|discriminate H]. cbn [bind] in H. destruct (s_plus I K HK diag d L1 Ed) as [Ld Vd]. rewrite V1 in Vd.
      pose proof (proj1 (ascending_combine states 0)) as Hasc. specialize (Hh eq_refl).
      pose proof (upper_in (entry h a) (combine (seq 0 (length states)) states) (entry_star h a Hh _ (all_kat h states 0 Hs)) Hasc) as HU.
      destruct terms as [|t0 ts].
      + injection H as <-. split; [exact Ld|]. cbn [map] in V2. change (msum I []) with (@a0 I) in V2. rewrite <- V2, star_0, !(aadd_0r I) in HU. now rewrite Vd.
      + destruct (k_plus K (t0 :: ts)) as [t|] eqn:Et; [|discriminate H]. cbn [bind] in H. destruct (s_plus I K HK _ t L2 Et) as [Lt Vt]. rewrite V2 in Vt.
        destruct (s_plus I K HK [d; OPM true t] r) as [Lr Vr]; [constructor; [exact Ld|constructor; [exact Lt|constructor]]|exact H|]. split; [exact Lr|].
        rewrite Vr. cbn [map]. rewrite msum_2. cbn [value]. rewrite Vd, Vt. exact HU.
    - destruct (k_plus K diag) as [d|] eqn:Ed; [|discriminate H]. cbn [bind] in H. destruct (s_plus I K HK diag d L1 Ed) as [Ld Vd].
      destruct (k_plus K terms) as [t|] eqn:Et; [|discriminate H]. cbn [bind] in H. destruct (s_plus I K HK terms t L2 Et) as [Lt Vt].
      destruct (s_plus I K HK [d; t] r) as [Lr Vr]; [constructor; [exact Ld|constructor; [exact Lt|constructor]]|exact H|]. split; [exact Lr|].
      rewrite Vr. cbn [map]. rewrite msum_2, Vd, Vt, V1, V2, parts. apply total_full.
  Qed.
End Xb.
