(** Proofs for C69. *)
From Coq Require Import ZArith Ring_theory Ring.
From Verif Require Import Prelude ListFacts SortModel BinModel OpModel ScalarModel ScalarSpec ScalarProofs OpSeriesModel SserModel SserSpec.
Local Open Scope nat_scope.

Ltac step H x E := match type of H with bind ?m _ = Ok _ => destruct m as [x|] eqn:E; [cbn [bind] in H|discriminate H] end.

Section Alg.
  Context {V : pyvals} {M : smeaning V} (P : sparam M).
  Add Ring Sr1 : (qring V M).
  Local Notation R := (sK M).
  Local Notation "x + y" := (qadd x y). Local Notation "x * y" := (qmul x y).
  Local Notation poly := (polynomial P). Local Notation x0 := (spt P).
  Lemma poly_gen (cs : list R) j : ssum M (map (fun nc => qtimes x0 (fst nc) * snd nc) (combine (seq j (length cs)) cs)) = qtimes x0 j * poly cs.
  Proof.
    unfold polynomial. revert j. induction cs as [|c cs IH]; intros j; cbn [length seq combine map].
    - unfold ssum; cbn [fold_right]. ring.
    - unfold ssum in *. cbn [fold_right fst snd]. rewrite (IH (S j)), (IH 1). cbn [qtimes]. ring.
  Qed.
  Lemma poly_cons c cs : poly (c :: cs) = c + x0 * poly cs.
  Proof.
    unfold polynomial at 1. cbn [length seq combine map]. unfold ssum. cbn [fold_right fst snd qtimes].
    pose proof (poly_gen cs 1) as H. unfold ssum in H. rewrite H. cbn [qtimes]. ring.
  Qed.
  Lemma poly_nil : poly [] = q0. Proof. reflexivity. Qed.
  Lemma exp_nil v : sreg P v -> expands P v [].
  Proof. intros H. split; [constructor|]. exists v. split; [exact H|]. rewrite poly_nil. cbn [length qtimes]. ring. Qed.
  Lemma exp_nil_inv v : expands P v [] -> sreg P v.
  Proof. intros [_ [r [H ->]]]. rewrite poly_nil. cbn [length qtimes]. replace (q0 + q1 * r) with r by ring. exact H. Qed.
  Lemma exp_cons v c cs : scst P c -> expands P v cs -> expands P (c + x0 * v) (c :: cs).
  Proof.
    intros Hc [Hcs [r [Hr ->]]]. split; [now constructor|]. exists r. split; [exact Hr|]. rewrite poly_cons. cbn [length qtimes]. ring.
  Qed.
  Lemma exp_cons_inv v c cs : expands P v (c :: cs) -> scst P c /\ exists u, v = c + x0 * u /\ expands P u cs.
  Proof.
    intros [Hcs [r [Hr ->]]]. split; [exact (Forall_inv Hcs)|]. exists (poly cs + qtimes x0 (length cs) * r). split.
    - rewrite poly_cons. cbn [length qtimes]. ring.
    - split; [exact (Forall_inv_tail Hcs)|]. now exists r.
  Qed.
  Lemma exp_reg cs : forall v, expands P v cs -> sreg P v.
  Proof.
    induction cs as [|c cs IH]; intros v H; [now apply exp_nil_inv|]. apply exp_cons_inv in H. destruct H as [Hc [u [-> Hu]]].
    apply sreg_add; [now apply s_reg|]. apply sreg_mul; [apply sreg_pt|]. now apply IH.
  Qed.
  Lemma exp_unique cs : forall ds v, expands P v cs -> expands P v ds -> length cs = length ds -> cs = ds.
  Proof.
    induction cs as [|c cs IH]; intros [|d ds] v Hc Hd El; try discriminate; [reflexivity|].
    apply exp_cons_inv in Hc. destruct Hc as [Hc [u [Eu Hu]]]. apply exp_cons_inv in Hd. destruct Hd as [Hd [w [Ew Hw]]].
    assert ((c + qopp d) + x0 * (u + qopp w) = q0) as E.
    { transitivity ((c + x0 * u) + qopp (d + x0 * w)); [ring|]. rewrite <- Eu, <- Ew. ring. }
    assert (sreg P (u + qopp w)) as Rg.
    { apply sreg_add; [eapply exp_reg; eassumption|]. replace (qopp w) with (qopp q1 * w) by ring. apply sreg_mul; [apply s_reg, s_opp, s_1|eapply exp_reg; eassumption]. }
    destruct (s_split _ P _ _ (s_add _ P _ _ Hc (s_opp _ P _ Hd)) Rg E) as [E1 E2].
    assert (forall x y : R, x + qopp y = q0 -> x = y) as sub0.
    { intros x y H. transitivity ((x + qopp y) + y); [ring|]. rewrite H. ring. }
    apply sub0 in E1, E2. subst d w. f_equal. apply (IH ds u Hu Hw). now injection El.
  Qed.
  Lemma exp_add cs : forall ds u v, expands P u cs -> expands P v ds -> length cs = length ds -> expands P (u + v) (map (fun p => fst p + snd p) (combine cs ds)).
  Proof.
    induction cs as [|c cs IH]; intros [|d ds] u v Hu Hv El; try discriminate; cbn [combine map fst snd].
    - apply exp_nil, sreg_add; now apply exp_nil_inv.
    - apply exp_cons_inv in Hu, Hv. destruct Hu as [Hc [u' [-> Hu]]], Hv as [Hd [v' [-> Hv]]].
      replace (c + x0 * u' + (d + x0 * v')) with ((c + d) + x0 * (u' + v')) by ring. apply exp_cons; [now apply s_add|]. apply IH; try assumption. now injection El.
  Qed.
  Lemma exp_zero n : expands P q0 (repeat q0 n).
  Proof.
    induction n as [|n IH]; cbn [repeat]; [apply exp_nil, s_reg, s_0|]. pose proof (exp_cons q0 q0 _ (s_0 _ P) IH) as H.
    replace (q0 + x0 * q0) with (@q0 V M) in H by ring. exact H.
  Qed.
  Lemma exp_const v n : scst P v -> expands P v (v :: repeat q0 n).
  Proof. intros H. pose proof (exp_cons q0 v _ H (exp_zero n)) as E. replace (v + x0 * q0) with v in E by ring. exact E. Qed.
  Lemma exp_constmul c cs : forall v, scst P c -> expands P v cs -> expands P (c * v) (map (qmul c) cs).
  Proof.
    induction cs as [|d cs IH]; intros v Hc Hv; cbn [map].
    - apply exp_nil, sreg_mul; [now apply s_reg|now apply exp_nil_inv].
    - apply exp_cons_inv in Hv. destruct Hv as [Hd [u [-> Hu]]]. replace (c * (d + x0 * u)) with (c * d + x0 * (c * u)) by ring. apply exp_cons; [now apply s_mul|]. now apply IH.
  Qed.
  Lemma exp_firstn cs : forall n v, expands P v cs -> expands P v (firstn n cs).
  Proof.
    induction cs as [|d cs IH]; intros n v Hv; [now rewrite firstn_nil|]. destruct n; cbn [firstn].
    - apply exp_nil. eapply exp_reg; eassumption.
    - apply exp_cons_inv in Hv. destruct Hv as [Hd [u [-> Hu]]]. apply exp_cons; [exact Hd|]. now apply IH.
  Qed.
  Lemma cauchy_S c cs ds n : cauchy (M:=M) (c :: cs) ds (S n) = c * nth (S n) ds q0 + cauchy cs ds n.
  Proof.
    unfold cauchy. change (seq 0 (S (S n))) with (0 :: seq 1 (S n)). cbn [map]. unfold ssum. cbn [fold_right]. rewrite Nat.sub_0_r. cbn [nth].
    f_equal. rewrite <- (seq_shift (S n) 0), map_map. reflexivity.
  Qed.
  Lemma cauchy_0 c cs ds : cauchy (M:=M) (c :: cs) ds 0 = c * nth 0 ds q0.
  Proof. unfold cauchy. cbn [seq map nth Nat.sub]. unfold ssum. cbn [fold_right]. ring. Qed.
  Lemma cauchy_firstn cs ds n m : n < m -> cauchy (M:=M) cs (firstn m ds) n = cauchy cs ds n.
  Proof.
    intros H. unfold cauchy. f_equal. apply map_ext_in. intros k Hk. f_equal. apply in_seq in Hk.
    rewrite <- (firstn_skipn m ds) at 2. destruct (Nat.lt_ge_cases (n - k) (length (firstn m ds))) as [Hl|Hl]; [now rewrite app_nth1|].
    rewrite nth_overflow by exact Hl. rewrite firstn_length in Hl. rewrite app_nth2 by (rewrite firstn_length; lia).
    rewrite skipn_all2 by lia. symmetry. apply nth_overflow. apply Nat.le_0_l.
  Qed.
  Lemma map_nth_seq (ds : list R) (f : R -> R) : map (fun n => f (nth n ds q0)) (seq 0 (length ds)) = map f ds.
  Proof. induction ds as [|d ds IH]; [reflexivity|]. cbn [length seq map nth]. f_equal. rewrite <- seq_shift, map_map. exact IH. Qed.
  Lemma exp_mul cs : forall ds u v, expands P u cs -> expands P v ds -> length cs = length ds -> expands P (u * v) (map (cauchy cs ds) (seq 0 (length cs))).
  Proof.
    induction cs as [|c cs IH]; intros ds u v Hu Hv El.
    - destruct ds; [|discriminate]. cbn [length seq map]. apply exp_nil, sreg_mul; now apply exp_nil_inv.
    - apply exp_cons_inv in Hu. destruct Hu as [Hc [u' [-> Hu]]]. replace ((c + x0 * u') * v) with (c * v + (q0 + x0 * (u' * v))) by ring.
      pose proof (exp_constmul c ds v Hc Hv) as H1.
      assert (length cs = length (firstn (length cs) ds)) as El2 by (rewrite firstn_length; cbn [length] in El; lia).
      pose proof (exp_cons _ q0 _ (s_0 _ P) (IH (firstn (length cs) ds) u' v Hu (exp_firstn ds _ v Hv) El2)) as H2.
      assert (length (map (qmul c) ds) = length (q0 :: map (cauchy cs (firstn (length cs) ds)) (seq 0 (length cs)))) as El3.
      { cbn [length]. rewrite !map_length, seq_length. now rewrite <- El. }
      pose proof (exp_add _ _ _ _ H1 H2 El3) as H3.
      replace (map (cauchy (c :: cs) ds) (seq 0 (length (c :: cs)))) with
        (map (fun p : R * R => fst p + snd p) (combine (map (qmul c) ds) (q0 :: map (cauchy cs (firstn (length cs) ds)) (seq 0 (length cs))))); [exact H3|].
      destruct ds as [|d ds]; [discriminate|]. injection El as El. cbn [map combine length seq fst snd]. rewrite cauchy_0. cbn [nth]. f_equal; [ring|].
      rewrite <- seq_shift, map_map. rewrite El.
      transitivity (map (fun n => c * nth n ds q0 + cauchy cs (d :: ds) n) (seq 0 (length ds))).
      + rewrite <- (map_nth_seq ds (qmul c)).
        assert (forall ns, Forall (fun n => n < length ds) ns ->
          map (fun p : R * R => fst p + snd p) (combine (map (fun n => c * nth n ds q0) ns) (map (cauchy cs (firstn (length ds) (d :: ds))) ns)) = map (fun n => c * nth n ds q0 + cauchy cs (d :: ds) n) ns) as G.
        { intros ns Hn. induction ns as [|n ns IHn]; [reflexivity|]. cbn [map combine fst snd]. rewrite (cauchy_firstn cs (d :: ds) n (length ds)) by exact (Forall_inv Hn).
          f_equal. apply IHn. exact (Forall_inv_tail Hn). }
        apply G. rewrite Forall_forall. intros n Hn. apply in_seq in Hn. lia.
      + apply map_ext. intros n. now rewrite cauchy_S.
  Qed.
  Lemma qtimes_add x a b : qtimes (M:=M) x (Nat.add a b) = qtimes x a * qtimes x b.
  Proof. induction a as [|a IH]; cbn [qtimes Nat.add]; [ring|]. rewrite IH. ring. Qed.
  Lemma poly_zeros n : poly (repeat q0 n) = q0.
  Proof. induction n as [|n IH]; [reflexivity|]. cbn [repeat]. rewrite poly_cons, IH. ring. Qed.
  Lemma poly_shift n cs : poly (repeat q0 n ++ cs) = qtimes x0 n * poly cs.
  Proof. induction n as [|n IH]; cbn [repeat app qtimes]; [ring|]. rewrite poly_cons, IH. ring. Qed.
  Lemma map_repeat' {X Y} (f : X -> Y) x n : map f (repeat x n) = repeat (f x) n.
  Proof. induction n; cbn [repeat map]; congruence. Qed.
End Alg.

Section Sound.
  Context {V : pyvals} {M : smeaning V} (P : sparam M) (K : screators V) (HK : soundS M K).
  Context (vsympy : V -> bool) (terms : V -> nat -> list (V * option Z)) (vint : V -> res Z) (aseries : nat -> res (list (scal V))) (order : nat).
  Context (X : expander P vsympy terms aseries order).
  Add Ring Sr2 : (qring V M).
  Local Notation R := (sK M).
  Local Notation x0 := (spt P).
  Local Notation slegal := (slegal M). Local Notation sden := (sden M). Local Notation vden := (vden M).
  Local Notation term_loop := (term_loop order).
  Local Notation sseries := (sseries K vsympy terms vint aseries order).

  Lemma loop_nonsingular l : forall next r, term_loop next l = Ok r -> Forall (nonsingular (V:=V)) (low_terms order l).
  Proof.
    induction l as [|[c [o|]] l IH]; intros next r H; cbn [SserModel.term_loop low_terms] in *; [constructor| |discriminate].
    destruct (Z.ltb_spec o 0) as [Ho|Ho]; [discriminate|]. destruct (Z.ltb_spec (Z.of_nat order) o) as [Hb|Hb].
    - destruct (Z.leb_spec o (Z.of_nat order)); [lia|constructor].
    - destruct (Z.leb_spec o (Z.of_nat order)); [|lia]. step H r' Er. constructor; [exists o; split; [reflexivity|exact Ho]|]. eapply IH; eassumption.
  Qed.
  Lemma loop_sound l : forall next r, term_loop next l = Ok r -> next <= Nat.add order 1 ->
    increasing (Z.of_nat next - 1) (low_terms order l) -> Forall (fun t => scst P (vden (fst t))) (low_terms order l) ->
    Nat.add (length r) next = Nat.add order 1 /\ Forall (scst P) (map vden r) /\
    qmul (qtimes x0 next) (polynomial P (map vden r)) = ssum M (map (term_value P) (low_terms order l)).
  Proof.
    assert (forall n, map vden (repeat (vZ 0) n) = repeat q0 n) as E0 by (intros n; rewrite map_repeat'; f_equal; apply vden_0).
    assert (forall n, Forall (scst P) (map vden (repeat (vZ 0) n))) as Hz.
    { intros n. rewrite E0. rewrite Forall_forall. intros x Hx. apply repeat_spec in Hx. subst x. apply s_0. }
    induction l as [|[c [o|]] l IH]; intros next r H Hn Hi Hc; cbn [SserModel.term_loop low_terms] in *; [| |discriminate].
    - injection H as <-. rewrite repeat_length. split; [lia|]. split; [apply Hz|]. rewrite E0, poly_zeros. unfold ssum. cbn [map fold_right]. ring.
    - destruct (Z.ltb_spec o 0) as [Ho|Ho]; [discriminate|]. destruct (Z.ltb_spec (Z.of_nat order) o) as [Hb|Hb].
      + destruct (Z.leb_spec o (Z.of_nat order)); [lia|]. injection H as <-. rewrite repeat_length. split; [lia|]. split; [apply Hz|]. rewrite E0, poly_zeros. unfold ssum. cbn [map fold_right]. ring.
      + destruct (Z.leb_spec o (Z.of_nat order)); [|lia]. step H r' Er. injection H as <-. cbn [increasing] in Hi. destruct Hi as [Hi1 Hi2].
        assert (Nat.add (Z.to_nat o) 1 <= Nat.add order 1) as Hn' by lia.
        assert (increasing (Z.of_nat (Nat.add (Z.to_nat o) 1) - 1) (low_terms order l)) as Hi3 by (replace (Z.of_nat (Nat.add (Z.to_nat o) 1) - 1)%Z with o by lia; exact Hi2).
        destruct (IH _ _ Er Hn' Hi3 (Forall_inv_tail Hc)) as [El [Lr Vr]]. rewrite app_length, repeat_length. cbn [length]. split; [lia|].
        rewrite map_app. cbn [map]. split; [apply Forall_app; split; [apply Hz|]; constructor; [exact (Forall_inv Hc)|exact Lr]|].
        rewrite E0, poly_shift, poly_cons. unfold ssum in *. cbn [map fold_right]. rewrite <- Vr. unfold term_value at 1. cbn [fst snd].
        assert (qtimes (M:=M) x0 (Z.to_nat o) = qmul (qtimes x0 next) (qtimes x0 (Z.to_nat o - next))) as Eo by (rewrite <- qtimes_add; f_equal; lia).
        rewrite (qtimes_add _ (Z.to_nat o) 1), !Eo. cbn [qtimes]. ring.
  Qed.
  Definition good (e : scal V) (l : list (scal V)) : Prop := length l = S order /\ Forall slegal l /\ expands P (sden e) (map sden l).
  Lemma fix_entry_ok v : slegal v -> slegal (fix_entry v) /\ sden (fix_entry v) = sden v.
  Proof.
    intros L. unfold fix_entry. destruct (s_is 0 v) eqn:E0; [split; [exact Logic.I|symmetry; exact (s_is_0 M _ E0)]|].
    destruct (s_is 1 v) eqn:E1; [split; [exact Logic.I|symmetry; exact (s_is_1 M _ E1)]|]. now split.
  Qed.
  Lemma good_fix e l : good e l -> good e (map fix_entry l).
  Proof.
    intros [El [L H]]. split; [now rewrite map_length|]. assert (Forall slegal (map fix_entry l) /\ map sden (map fix_entry l) = map sden l) as [L' ->].
    { clear El H. induction L as [|v l Hv _ [IH1 IH2]]; [now split; [constructor|]|]. destruct (fix_entry_ok _ Hv) as [A B]. cbn [map]. split; [now constructor|]. now rewrite B, IH2. }
    now split.
  Qed.
  Lemma create_list l : forall l', mapM create l = Ok l' -> Forall slegal l' /\ map sden l' = map vden l.
  Proof.
    induction l as [|v l IH]; intros l' H; cbn [mapM] in H; [injection H as <-; now split; [constructor|]|]. step H c Ec. step H l1 El. injection H as <-.
    destruct (IH _ eq_refl) as [A B]. destruct (create_sound M _ _ Ec) as [C D]. cbn [map]. split; [now constructor|]. now rewrite D, B.
  Qed.
  Lemma const_good e : slegal e -> scst P (sden e) -> good e (e :: repeat SZero order).
  Proof.
    intros L C. split; [cbn [length]; now rewrite repeat_length|]. split.
    - constructor; [exact L|]. rewrite Forall_forall. intros x Hx. apply repeat_spec in Hx. now subst x.
    - cbn [map]. rewrite map_repeat'. now apply exp_const.
  Qed.
  Lemma value_good v l : value_series vsympy terms order v = Ok l -> good (SVal v) l.
  Proof.
    intros H. unfold value_series in H. destruct (vsympy v) eqn:Ev.
    - step H r Er. destruct (x_terms _ _ _ _ _ X v Ev (loop_nonsingular _ _ _ Er)) as [Hi [Hc [rem [Hr E]]]].
      destruct (loop_sound _ 0 _ Er ltac:(lia) Hi Hc) as [El [Lr Vr]]. destruct (create_list _ _ H) as [L D].
      assert (length l = length r) as Ell by (apply (f_equal (@length _)) in D; now rewrite !map_length in D).
      split; [lia|]. split; [exact L|]. rewrite D. split; [exact Lr|]. exists rem. split; [exact Hr|]. rewrite map_length. replace (length r) with (S order) by lia.
      cbn [ScalarSpec.sden]. rewrite E. f_equal. rewrite <- Vr. cbn [qtimes]. ring.
    - injection H as <-. apply const_good; [exact Logic.I|]. exact (x_number _ _ _ _ _ X v Ev).
  Qed.
  Lemma sum_from_sound l r : Forall slegal l -> sum_from K l = Ok r -> slegal r /\ sden r = ssum M (map sden l).
  Proof.
    intros L H. destruct l as [|x l]; [discriminate H|]. cbn [sum_from] in H. pose proof (Forall_inv L) as Lx. apply Forall_inv_tail in L.
    change (ssum M (map sden (x :: l))) with (qadd (sden x) (ssum M (map sden l))). revert x Lx H. induction l as [|y l IH]; intros x Lx H; cbn [foldM] in H.
    - injection H as <-. split; [exact Lx|]. unfold ssum. cbn [map fold_right]. ring.
    - change (ssum M (map sden (y :: l))) with (qadd (sden y) (ssum M (map sden l))). destruct (s_is 0 y) eqn:E0; cbn [bind] in H.
      + destruct (IH (Forall_inv_tail L) _ Lx H) as [A B]. split; [exact A|]. rewrite B, (s_is_0 M _ E0). ring.
      + destruct (x_add K x (Obj y)) as [z|] eqn:Ez; [cbn [bind] in H|discriminate H]. destruct (x_add_sound M K HK x (Obj y) z Lx (Forall_inv L) Ez) as [Lz Vz].
        destruct (IH (Forall_inv_tail L) _ Lz H) as [A B]. split; [exact A|]. rewrite B, Vz. cbn [ScalarSpec.oden]. ring.
  Qed.
  Lemma entry_sound c1 c2 n k v : Forall slegal c1 -> Forall slegal c2 -> prod_entry K c1 c2 n k = Ok v ->
    slegal v /\ sden v = qmul (nth k (map sden c1) q0) (nth (n - k) (map sden c2) q0).
  Proof.
    intros H1 H2 H. unfold prod_entry in H. destruct (nth_error c1 k) as [a|] eqn:E1; [|discriminate]. cbn [of_option bind] in H.
    destruct (nth_error c2 (n - k)) as [b|] eqn:E2; [|discriminate]. cbn [of_option bind] in H.
    rewrite (nth_error_nth (map sden c1) k q0 (map_nth_error sden k c1 E1)), (nth_error_nth (map sden c2) (n - k) q0 (map_nth_error sden (n - k) c2 E2)).
    apply nth_error_In in E1, E2. rewrite Forall_forall in H1, H2. destruct (s_is 0 a) eqn:Ea; cbn [orb] in H.
    - injection H as <-. split; [exact Logic.I|]. cbn [ScalarSpec.sden]. rewrite (s_is_0 M _ Ea). ring.
    - destruct (s_is 0 b) eqn:Eb.
      + injection H as <-. split; [exact Logic.I|]. cbn [ScalarSpec.sden]. rewrite (s_is_0 M _ Eb). ring.
      + exact (x_mul_sound M K HK a (Obj b) v (H1 _ E1) (H2 _ E2) H).
  Qed.
  Lemma combine_sound c1 c2 r : Forall slegal c1 -> Forall slegal c2 -> combine_series K order c1 c2 = Ok r ->
    length r = S order /\ Forall slegal r /\ map sden r = map (cauchy (map sden c1) (map sden c2)) (seq 0 (S order)).
  Proof.
    intros H1 H2 H. unfold combine_series in H. set (ns := seq 0 (S order)) in *. assert (length ns = S order) as <- by apply seq_length. clearbody ns. revert r H.
    induction ns as [|n ns IH]; intros r H; cbn [mapM] in H; [injection H as <-; split; [reflexivity|split; [constructor|reflexivity]]|].
    step H v Ev. step H r' Er. injection H as <-. destruct (IH r' eq_refl) as [El [L E]].
    step Ev ss Es. assert (Forall slegal ss /\ map sden ss = map (fun k => qmul (nth k (map sden c1) q0) (nth (n - k) (map sden c2) q0)) (seq 0 (S n))) as [Ls Vs].
    { clear - HK H1 H2 Es. revert ss Es. generalize (seq 0 (S n)). intros ks. induction ks as [|k ks IHk]; intros ss Es; cbn [mapM] in Es; [injection Es as <-; split; [constructor|reflexivity]|].
      step Es v Ev. step Es vs Evs. injection Es as <-. destruct (IHk vs eq_refl) as [L V']. destruct (entry_sound _ _ _ _ _ H1 H2 Ev) as [Lv Vv].
      split; [now constructor|]. cbn [map]. now rewrite Vv, V'. }
    destruct (sum_from_sound _ _ Ls Ev) as [Lv Vv]. split; [cbn [length]; now rewrite El|]. split; [now constructor|]. cbn [map]. f_equal; [|exact E]. rewrite Vv. unfold cauchy. now rewrite <- Vs.
  Qed.
  Lemma good_mul x y e c1 c2 r : good x c1 -> good y c2 -> sden e = qmul (sden x) (sden y) -> combine_series K order c1 c2 = Ok r -> good e r.
  Proof.
    intros [E1 [L1 H1]] [E2 [L2 H2]] Ev Er. destruct (combine_sound _ _ _ L1 L2 Er) as [El [Lr Vr]]. split; [exact El|]. split; [exact Lr|]. rewrite Vr, Ev.
    assert (length (map sden c1) = length (map sden c2)) as E3 by (rewrite !map_length; congruence). pose proof (exp_mul P _ _ _ _ H1 H2 E3) as H. now rewrite map_length, E1 in H.
  Qed.
  Lemma zip_length {Y} n (ls : list (list Y)) : ls <> [] -> Forall (fun l => length l = n) ls -> length (zip_all ls) = n.
  Proof.
    induction ls as [|l ls IH]; intros Hn H; [contradiction|]. cbn [zip_all]. destruct ls as [|l2 ls]; [rewrite map_length; exact (Forall_inv H)|].
    rewrite map_length, combine_length, IH; [|discriminate|exact (Forall_inv_tail H)]. rewrite (Forall_inv H). lia.
  Qed.
  Lemma zip_legal ls : Forall (Forall slegal) ls -> Forall (Forall slegal) (zip_all ls).
  Proof.
    induction ls as [|l ls IH]; intros H; [constructor|]. cbn [zip_all]. specialize (IH (Forall_inv_tail H)). destruct ls as [|l2 ls].
    - pose proof (Forall_inv H) as Hl. rewrite Forall_forall in *. intros c Hc. apply in_map_iff in Hc. destruct Hc as [x [<- Hx]]. constructor; [now apply Hl|constructor].
    - pose proof (Forall_inv H) as Hl. rewrite Forall_forall in *. intros c Hc. apply in_map_iff in Hc. destruct Hc as [[x xs] [<- Hx]].
      constructor; [apply Hl; eapply in_combine_l; exact Hx|]. apply IH. eapply in_combine_r; exact Hx.
  Qed.
  Lemma ssum_1 (v : R) : ssum M [v] = v.
  Proof. unfold ssum. cbn [fold_right]. ring. Qed.
  Lemma zip_exp es : forall ls, Forall2 good es ls -> es <> [] -> expands P (ssum M (map sden es)) (map (fun t => ssum M (map sden t)) (zip_all ls)).
  Proof.
    induction es as [|e es IH]; intros ls H Hn; [contradiction|]. inversion H as [|? l ? ls' He Hes]; subst ls. cbn [zip_all]. destruct He as [El [Ll Hl]].
    destruct es as [|e2 es].
    - inversion Hes; subst ls'. rewrite map_map. cbn [map]. rewrite ssum_1. erewrite map_ext; [exact Hl|]. intros w. apply ssum_1.
    - destruct ls' as [|l2 ls]; [inversion Hes|]. specialize (IH _ Hes ltac:(discriminate)).
      set (Z := zip_all (l2 :: ls)) in *. assert (length Z = S order) as EZ.
      { apply zip_length; [discriminate|]. clear - Hes. induction Hes as [|? ? ? ? H1 H2 IHH]; constructor; [apply H1|exact IHH]. }
      assert (length (map sden l) = length (map (fun t => ssum M (map sden t)) Z)) as E2 by (rewrite !map_length; congruence).
      pose proof (exp_add P _ _ _ _ Hl IH E2) as HE.
      change (ssum M (map sden (e :: e2 :: es))) with (qadd (sden e) (ssum M (map sden (e2 :: es)))).
      replace (map (fun t => ssum M (map sden t)) (map (fun p : scal V * list (scal V) => fst p :: snd p) (combine l Z))) with
        (map (fun p : R * R => qadd (fst p) (snd p)) (combine (map sden l) (map (fun t => ssum M (map sden t)) Z))); [exact HE|].
      clearbody Z. clear. revert Z. induction l as [|x l IHl]; intros [|z Z]; try reflexivity. cbn [map combine fst snd]. f_equal. apply IHl.
  Qed.
  Lemma legal_repeat b n : slegal b -> slegal (STimes (repeat b n)).
  Proof. intros L. cbn [ScalarSpec.slegal]. induction n; cbn [repeat fold_right]; [exact Logic.I|now split]. Qed.
  Lemma proper_repeat (b : scal V) n : sproper b -> sproper (STimes (repeat b n)).
  Proof. intros L. cbn [sproper]. induction n; cbn [repeat fold_right]; [exact Logic.I|now split]. Qed.
  Lemma den_repeat b n : sden (STimes (repeat b n)) = qtimes (sden b) n.
  Proof. cbn [ScalarSpec.sden]. induction n; cbn [repeat map sprod fold_right qtimes]; [reflexivity|]. now rewrite <- IHn. Qed.
  Lemma proper_list (l : list (scal V)) : fold_right (fun x Q => sproper x /\ Q) True l <-> Forall sproper l.
  Proof. induction l as [|x l IH]; cbn [fold_right]; [split; constructor|]. rewrite IH. split; [intros [? ?]; now constructor|]. intros H; split; [exact (Forall_inv H)|exact (Forall_inv_tail H)]. Qed.
  Lemma is_den z x : s_is z x = true -> sden x = vden (vZ z).
  Proof.
    destruct x; cbn [s_is]; intros H; try discriminate.
    - apply Z.eqb_eq in H. subst z. symmetry. apply vden_0.
    - apply Z.eqb_eq in H. subst z. symmetry. apply vden_1.
    - cbn [ScalarSpec.sden]. now apply vden_eq.
  Qed.
  Lemma series_good n : forall e l, slegal e -> sproper e -> sseries n e = Ok l -> good e l.
  Proof.
    induction n as [|p IH]; intros e l L Pr H; [discriminate H|]. cbn [SserModel.sseries] in H.
    match type of H with bind ?m _ = _ => destruct m as [l1|] eqn:E; [cbn [bind] in H; injection H as <-|discriminate H] end. apply good_fix.
    destruct e as [| |v|k|es|es|b x].
    - injection E as <-. apply const_good; [exact Logic.I|apply s_0].
    - injection E as <-. apply const_good; [exact Logic.I|apply s_1].
    - now apply value_good.
    - destruct (x_atoms _ _ _ _ _ X k l1 E) as [A [B C]]. now split.
    - step E ls Els. cbn [ScalarSpec.slegal sproper] in L, Pr. destruct Pr as [Hn Pr]. apply (legal_list M) in L. apply proper_list in Pr.
      assert (Forall2 good es ls) as G.
      { clear - IH L Pr Els. revert ls Els. induction es as [|y es IHe]; intros ls Els; cbn [mapM] in Els; [injection Els as <-; constructor|].
        step Els a Ea. step Els r Er. injection Els as <-. constructor; [exact (IH _ _ (Forall_inv L) (Forall_inv Pr) Ea)|]. exact (IHe (Forall_inv_tail L) (Forall_inv_tail Pr) _ eq_refl). }
      pose proof (zip_exp es ls G Hn) as HE.
      assert (length (zip_all ls) = S order) as El.
      { apply zip_length; [destruct G; [contradiction|discriminate]|]. clear - G. induction G as [|? ? ? ? H1 H2 IHH]; constructor; [apply H1|exact IHH]. }
      assert (Forall (Forall slegal) (zip_all ls)) as LZ.
      { apply zip_legal. clear - G. induction G as [|? ? ? ? H1 H2 IHH]; constructor; [apply H1|exact IHH]. }
      assert (Forall slegal l1 /\ map sden l1 = map (fun t => ssum M (map sden t)) (zip_all ls)) as [L1 V1].
      { clear - HK LZ E. revert l1 E. induction (zip_all ls) as [|t Z IHZ]; intros l1 E; cbn [mapM] in E; [injection E as <-; now split; [constructor|]|].
        step E a Ea. step E r Er. injection E as <-. destruct (IHZ (Forall_inv_tail LZ) _ eq_refl) as [A B].
        destruct (so_plus M K HK (map Obj t) a) as [La Va]; [|exact Ea|].
        { pose proof (Forall_inv LZ) as Lt. rewrite Forall_forall in *. intros o Ho. apply in_map_iff in Ho. destruct Ho as [w [<- Hw]]. exact (Lt w Hw). }
        rewrite map_map in Va. cbn [map]. split; [now constructor|]. rewrite Va, B. reflexivity. }
      split; [|split; [exact L1|]].
      + apply (f_equal (@length _)) in V1. rewrite !map_length in V1. congruence.
      + rewrite V1. exact HE.
    - cbn [ScalarSpec.slegal sproper] in L, Pr. apply (legal_list M) in L. apply proper_list in Pr. destruct es as [|y [|z es]]; try discriminate E.
      assert (forall c1 c2 r, sseries p y = Ok c1 -> sseries p (STimes (z :: es)) = Ok c2 -> combine_series K order c1 c2 = Ok r -> good (STimes (y :: z :: es)) r) as G3.
      { intros c1 c2 r E1 E2 Er. apply (good_mul y (STimes (z :: es)) _ c1 c2); [exact (IH _ _ (Forall_inv L) (Forall_inv Pr) E1)| |reflexivity|exact Er].
        apply (IH _ _); [|cbn [sproper]; apply proper_list; exact (Forall_inv_tail Pr)|exact E2]. cbn [ScalarSpec.slegal]. apply (legal_list M). exact (Forall_inv_tail L). }
      destruct es as [|w es].
      + step E c1 E1. step E c2 E2. apply (good_mul y z _ c1 c2); [exact (IH _ _ (Forall_inv L) (Forall_inv Pr) E1)| |cbn [ScalarSpec.sden map sprod fold_right]; ring|exact E].
        exact (IH _ _ (Forall_inv (Forall_inv_tail L)) (Forall_inv (Forall_inv_tail Pr)) E2).
      + step E c1 E1. step E c2 E2. exact (G3 c1 c2 l1 eq_refl eq_refl E).
    - step E z Ez. destruct (s_is z x) eqn:Ex; cbn [andb] in E; [|discriminate E]. destruct (Z.ltb_spec 0 z) as [Hz|Hz]; [|discriminate E]. destruct (Z.eqb_spec z 1); [discriminate E|].
      destruct L as [Lb [Lx _]]. destruct Pr as [Pb Px]. pose proof (IH _ _ (legal_repeat b (Z.to_nat z) Lb) (proper_repeat b (Z.to_nat z) Pb) E) as [G1 [G2 G3]].
      split; [exact G1|]. split; [exact G2|]. rewrite den_repeat in G3. cbn [ScalarSpec.sden]. rewrite (is_den _ _ Ex), <- (Z2Nat.id z) by lia.
      now rewrite (x_nat _ _ _ _ _ X), (x_pow _ _ _ _ _ X).
  Qed.
End Sound.
