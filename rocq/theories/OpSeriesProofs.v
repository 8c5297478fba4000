(** Proofs about power series of operators. *)
From Coq Require Import QArith Qcanon.
From Verif Require Import Prelude ListFacts CSimpProofs5 BinModel AlgSpec CAlg OpModel OpSpec OpForms OpProofs1 OpProofs2 OpProofs3 OpFuel OpOrder OpForm OpLocal OpSeriesModel OpSeriesSpec.
Local Open Scope nat_scope.

Section Alg.
  Context {S : scalars} {dim : nat -> option nat} {I : interp S dim} (P : param I).
  Add Ring Kr : (kring I).
  Local Notation "x + y" := (aadd x y). Local Notation "x * y" := (amul x y).
  Local Notation x0 := (pt P).
  Local Notation poly := (polynomial P).

  Lemma kpow_S (n : nat) : kpow x0 (Datatypes.S n) = kmul x0 (kpow x0 n).
  Proof. reflexivity. Qed.
  Lemma poly_gen (cs : list (A I)) j :
    msum I (map (fun nc => smul (kpow x0 (fst nc)) (snd nc)) (combine (seq j (length cs)) cs)) = smul (kpow x0 j) (poly cs).
  Proof.
    unfold polynomial. revert j. induction cs as [|c cs IH]; intros j; cbn [length seq combine map]; [symmetry; apply smul_zero|].
    unfold msum in *. cbn [fold_right fst snd]. rewrite (IH (Datatypes.S j)), (IH 1), smul_addr.
    rewrite <- !smul_mul. f_equal; f_equal; cbn [kpow]; ring.
  Qed.
  Lemma poly_nil : poly [] = a0.
  Proof. reflexivity. Qed.
  Lemma poly_cons c cs : poly (c :: cs) = c + smul x0 (poly cs).
  Proof.
    unfold polynomial at 1. cbn [length seq combine map]. unfold msum. cbn [fold_right fst snd kpow]. rewrite smul_1. f_equal.
    pose proof (poly_gen cs 1) as H. unfold msum in H. rewrite H. f_equal. cbn [kpow]. ring.
  Qed.

  Lemma exp_nil v : reg P v -> expands P v [].
  Proof. intros H. split; [constructor|]. exists v. split; [exact H|]. rewrite poly_nil. cbn [length kpow]. now rewrite smul_1, aadd_0. Qed.
  Lemma exp_nil_inv v : expands P v [] -> reg P v.
  Proof. intros [_ [r [H ->]]]. rewrite poly_nil. cbn [length kpow]. now rewrite smul_1, aadd_0. Qed.
  Lemma exp_cons v c cs : cst P c -> expands P v cs -> expands P (c + smul x0 v) (c :: cs).
  Proof.
    intros Hc [Hcs [r [Hr ->]]]. split; [now constructor|]. exists r. split; [exact Hr|]. rewrite poly_cons. cbn [length kpow].
    now rewrite smul_addr, <- smul_mul, aadd_assoc.
  Qed.
  Lemma exp_cons_inv v c cs : expands P v (c :: cs) -> cst P c /\ exists u, v = c + smul x0 u /\ expands P u cs.
  Proof.
    intros [Hcs [r [Hr ->]]]. split; [exact (Forall_inv Hcs)|]. exists (poly cs + smul (kpow x0 (length cs)) r). split.
    - rewrite poly_cons. cbn [length kpow]. now rewrite smul_addr, <- smul_mul, aadd_assoc.
    - split; [exact (Forall_inv_tail Hcs)|]. now exists r.
  Qed.
  Lemma exp_reg cs : forall v, expands P v cs -> reg P v.
  Proof.
    induction cs as [|c cs IH]; intros v H; [now apply exp_nil_inv|]. apply exp_cons_inv in H. destruct H as [Hc [u [-> Hu]]].
    apply reg_add; [now apply reg_cst|]. apply reg_pt. now apply IH.
  Qed.

  (** expansions are unique *)
  Lemma exp_unique cs : forall ds v, expands P v cs -> expands P v ds -> length cs = length ds -> cs = ds.
  Proof.
    induction cs as [|c cs IH]; intros [|d ds] v Hc Hd El; try discriminate; [reflexivity|].
    apply exp_cons_inv in Hc. destruct Hc as [Hc [u [Eu Hu]]]. apply exp_cons_inv in Hd. destruct Hd as [Hd [w [Ew Hw]]].
    assert ((c + smul (kopp k1) d) + smul x0 (u + smul (kopp k1) w) = a0) as E.
    { rewrite smul_addr, aadd_perm4. rewrite <- Eu. rewrite <- smul_mul. replace (kmul x0 (kopp k1)) with (kmul (@kopp I k1) x0) by ring.
      rewrite smul_mul, <- smul_addr, <- Ew. apply aadd_opp. }
    assert (reg P (u + smul (kopp k1) w)) as R.
    { apply reg_add; [eapply exp_reg; eassumption|]. replace (smul (kopp k1) w) with (smul (kopp k1) a1 * w) by (rewrite smul_amul_l, amul_1l; reflexivity).
      apply reg_mul; [apply reg_cst, cst_neg, cst_1|eapply exp_reg; eassumption]. }
    assert (cst P (c + smul (kopp k1) d)) as C by (apply cst_add; [exact Hc|now apply cst_neg]).
    destruct (pt_split _ P _ _ C R E) as [E1 E2].
    assert (forall x y : A I, x + smul (kopp k1) y = a0 -> x = y) as sub0.
    { intros x y H. apply (aadd_cancel_l I (smul (kopp k1) y)). rewrite aadd_comm, H. rewrite aadd_comm. symmetry. apply aadd_opp. }
    apply sub0 in E1, E2. subst d w. f_equal. apply (IH ds u Hu Hw). now injection El.
  Qed.

  (** sums, zero, multiples by constants *)
  Lemma exp_add cs : forall ds u v, expands P u cs -> expands P v ds -> length cs = length ds ->
    expands P (u + v) (map (fun p => fst p + snd p) (combine cs ds)).
  Proof.
    induction cs as [|c cs IH]; intros [|d ds] u v Hu Hv El; try discriminate; cbn [combine map fst snd].
    - apply exp_nil, reg_add; now apply exp_nil_inv.
    - apply exp_cons_inv in Hu, Hv. destruct Hu as [Hc [u' [-> Hu]]], Hv as [Hd [v' [-> Hv]]].
      rewrite aadd_perm4, <- smul_addr. apply exp_cons; [now apply cst_add|]. apply IH; try assumption. now injection El.
  Qed.
  Lemma exp_zero n : expands P a0 (repeat a0 n).
  Proof.
    induction n as [|n IH]; cbn [repeat]; [apply exp_nil, reg_cst, cst_0|]. pose proof (exp_cons a0 a0 _ (cst_0 _ P) IH) as H.
    now rewrite smul_zero, aadd_0 in H.
  Qed.
  Lemma exp_const v n : cst P v -> expands P v (v :: repeat a0 n).
  Proof. intros H. pose proof (exp_cons a0 v _ H (exp_zero n)) as E. now rewrite smul_zero, aadd_0r in E. Qed.
  Lemma exp_constmul c cs : forall v, cst P c -> expands P v cs -> expands P (c * v) (map (amul c) cs).
  Proof.
    induction cs as [|d cs IH]; intros v Hc Hv; cbn [map].
    - apply exp_nil, reg_mul; [now apply reg_cst|now apply exp_nil_inv].
    - apply exp_cons_inv in Hv. destruct Hv as [Hd [u [-> Hu]]]. rewrite amul_addr, smul_amul_r. apply exp_cons; [now apply cst_mul|]. now apply IH.
  Qed.
  Lemma exp_star cs : forall v, expands P v cs -> expands P (star v) (map star cs).
  Proof.
    induction cs as [|d cs IH]; intros v Hv; cbn [map].
    - apply exp_nil, reg_star. now apply exp_nil_inv.
    - apply exp_cons_inv in Hv. destruct Hv as [Hd [u [-> Hu]]]. rewrite star_add, star_smul, pt_real. apply exp_cons; [now apply cst_star|]. now apply IH.
  Qed.
  (** truncation *)
  Lemma exp_firstn cs : forall n v, expands P v cs -> expands P v (firstn n cs).
  Proof.
    induction cs as [|d cs IH]; intros n v Hv; [now rewrite firstn_nil|]. destruct n; cbn [firstn].
    - apply exp_nil. eapply exp_reg; eassumption.
    - apply exp_cons_inv in Hv. destruct Hv as [Hd [u [-> Hu]]]. apply exp_cons; [exact Hd|]. now apply IH.
  Qed.

  (** products *)
  Lemma cauchy_S c cs ds n : cauchy (I:=I) (c :: cs) ds (Datatypes.S n) = c * nth (Datatypes.S n) ds a0 + cauchy cs ds n.
  Proof.
    unfold cauchy. change (seq 0 (Datatypes.S (Datatypes.S n))) with (0 :: seq 1 (Datatypes.S n)). cbn [map]. unfold msum. cbn [fold_right]. rewrite Nat.sub_0_r. cbn [nth].
    f_equal. rewrite <- (seq_shift (Datatypes.S n) 0), map_map. reflexivity.
  Qed.
  Lemma cauchy_0 c cs ds : cauchy (I:=I) (c :: cs) ds 0 = c * nth 0 ds a0.
  Proof. unfold cauchy. cbn [seq map nth Nat.sub]. unfold msum. cbn [fold_right]. apply aadd_0r. Qed.
  Lemma cauchy_firstn cs ds n m : n < m -> cauchy (I:=I) cs (firstn m ds) n = cauchy cs ds n.
  Proof.
    intros H. unfold cauchy. f_equal. apply map_ext_in. intros k Hk. f_equal. apply in_seq in Hk.
    rewrite <- (firstn_skipn m ds) at 2. destruct (Nat.lt_ge_cases (n - k) (length (firstn m ds))) as [Hl|Hl]; [now rewrite app_nth1|].
    rewrite nth_overflow by exact Hl. rewrite firstn_length in Hl. rewrite app_nth2 by (rewrite firstn_length; lia).
    rewrite skipn_all2 by lia. symmetry. apply nth_overflow. apply Nat.le_0_l.
  Qed.
  Lemma map_nth_seq (ds : list (A I)) (f : A I -> A I) : map (fun n => f (nth n ds a0)) (seq 0 (length ds)) = map f ds.
  Proof.
    induction ds as [|d ds IH]; [reflexivity|]. cbn [length seq map nth]. f_equal. rewrite <- seq_shift, map_map. exact IH.
  Qed.
  Lemma exp_mul cs : forall ds u v, expands P u cs -> expands P v ds -> length cs = length ds ->
    expands P (u * v) (map (cauchy cs ds) (seq 0 (length cs))).
  Proof.
    induction cs as [|c cs IH]; intros ds u v Hu Hv El.
    - destruct ds; [|discriminate]. cbn [length seq map]. apply exp_nil, reg_mul; now apply exp_nil_inv.
    - apply exp_cons_inv in Hu. destruct Hu as [Hc [u' [-> Hu]]]. rewrite amul_addl, smul_amul_l.
      pose proof (exp_constmul c ds v Hc Hv) as H1.
      assert (length cs = length (firstn (length cs) ds)) as El2 by (rewrite firstn_length; cbn [length] in El; lia).
      pose proof (exp_cons _ a0 _ (cst_0 _ P) (IH (firstn (length cs) ds) u' v Hu (exp_firstn ds _ v Hv) El2)) as H2. rewrite aadd_0 in H2.
      assert (length (map (amul c) ds) = length (a0 :: map (cauchy cs (firstn (length cs) ds)) (seq 0 (length cs)))) as El3.
      { cbn [length]. rewrite !map_length, seq_length. now rewrite <- El. }
      pose proof (exp_add _ _ _ _ H1 H2 El3) as H3.
      replace (map (cauchy (c :: cs) ds) (seq 0 (length (c :: cs)))) with
        (map (fun p : A I * A I => fst p + snd p) (combine (map (amul c) ds) (a0 :: map (cauchy cs (firstn (length cs) ds)) (seq 0 (length cs))))); [exact H3|].
      destruct ds as [|d ds]; [discriminate|]. injection El as El. cbn [map combine length seq fst snd]. rewrite aadd_0r, cauchy_0. cbn [nth]. f_equal.
      rewrite <- seq_shift, map_map. rewrite El.
      transitivity (map (fun n => c * nth n ds a0 + cauchy cs (d :: ds) n) (seq 0 (length ds))).
      + rewrite <- (map_nth_seq ds (amul c)).
        assert (forall ns, Forall (fun n => n < length ds) ns ->
          map (fun p : A I * A I => fst p + snd p) (combine (map (fun n => c * nth n ds a0) ns) (map (cauchy cs (firstn (length ds) (d :: ds))) ns)) = map (fun n => c * nth n ds a0 + cauchy cs (d :: ds) n) ns) as G.
        { intros ns Hn. induction ns as [|n ns IHn]; [reflexivity|]. cbn [map combine fst snd]. rewrite (cauchy_firstn cs (d :: ds) n (length ds)) by exact (Forall_inv Hn).
          f_equal. apply IHn. exact (Forall_inv_tail Hn). }
        apply G. rewrite Forall_forall. intros n Hn. apply in_seq in Hn. lia.
      + apply map_ext. intros n. now rewrite cauchy_S.
  Qed.
End Alg.

Section Sound.
  Context {S : scalars} {dim : nat -> option nat} {I : interp S dim} (P : param I).
  Context (terms : S -> nat -> list (S * option Z)) (free : S -> bool) (K : ocreators S) (HK : soundK I K) (order : nat).
  Context (Hterms : forall c, sympy_ok P terms order c) (Hfree : atoms_ok P free).
  Add Ring Kr2 : (kring I).
  Local Notation op := (op S).
  Local Notation legal := (legal I).
  Local Notation value := (value I).
  Local Notation means := (means I).
  Local Notation x0 := (pt P).

  Definition optval (v : option op) : A I := match v with None => a0 | Some e => value e end.
  Definition optlegal (v : option op) : Prop := match v with None => True | Some e => legal e end.
  Lemma is_zero_value e : is_zero e = true -> value e = a0.
  Proof. now destruct e. Qed.
  Lemma stable_sound l : Forall optlegal l -> Forall legal (stable l) /\ map value (stable l) = map optval l.
  Proof.
    induction l as [|v l IH]; intros H; [split; [constructor|reflexivity]|]. destruct (IH (Forall_inv_tail H)) as [L V]. pose proof (Forall_inv H) as Hv. cbn [stable map].
    destruct v as [e|]; cbn [optval].
    - rewrite <- V. destruct (is_zero e) eqn:E; (split; [constructor; [first [exact Hv|exact Logic.I]|exact L]|]); [|reflexivity]. now rewrite (is_zero_value e E).
    - rewrite <- V. split; [constructor; [exact Logic.I|exact L]|reflexivity].
  Qed.
  Lemma stable_length (l : list (option op)) : length (stable l) = length l.
  Proof. apply map_length. Qed.
  Lemma stable_ops_sound l : Forall legal l -> Forall legal (stable_ops l) /\ map value (stable_ops l) = map value l.
  Proof.
    intros H. destruct (stable_sound (map Some l)) as [L V]; [|split; [exact L|]].
    - rewrite Forall_forall in *. intros v Hv. apply in_map_iff in Hv. destruct Hv as [e [<- He]]. now apply H.
    - unfold stable_ops. rewrite V, map_map. reflexivity.
  Qed.
  Lemma stable_ops_length (l : list op) : length (stable_ops l) = length l.
  Proof. unfold stable_ops. now rewrite stable_length, map_length. Qed.

  Lemma add_to_sound acc x e : optlegal acc -> legal x -> add_to K acc x = Ok e -> means e (aadd (optval acc) (value x)).
  Proof.
    intros Ha Hx H. destruct acc as [a|]; cbn [add_to optval] in *.
    - now apply (m_plus2 I K HK).
    - step H z Ez. destruct (s_scal I K HK _ _ _ (Logic.I : legal OOne) Ez) as [Lz Vz]. destruct (m_plus2 I K HK _ _ _ Hx Lz H) as [Le Ve].
      split; [exact Le|]. rewrite Ve, Vz. unfold s0. rewrite (ev_Q S I), kQ_0, smul_0. now rewrite aadd_comm.
  Qed.
  Lemma sum_loop_sound rest : forall acc r, optlegal acc -> Forall optlegal rest ->
    foldM (fun acc s => match s with None => Ok acc | Some p => do r <- add_to K acc p; Ok (Some r) end) acc rest = Ok r ->
    optlegal r /\ optval r = aadd (optval acc) (msum I (map optval rest)).
  Proof.
    induction rest as [|v rest IH]; cbn [foldM]; intros acc r Ha Hr H.
    - injection H as <-. split; [exact Ha|]. cbn [map]. unfold msum. cbn [fold_right]. now rewrite aadd_0r.
    - pose proof (Forall_inv Hr) as Hv. destruct v as [p|]; cbn [bind] in H.
      + destruct (add_to K acc p) as [e|] eqn:E; [|discriminate]. cbn [bind] in H. destruct (add_to_sound _ _ _ Ha Hv E) as [Le Ve].
        destruct (IH (Some e) r Le (Forall_inv_tail Hr) H) as [L V]. split; [exact L|]. rewrite V. cbn [optval map]. rewrite Ve. unfold msum. cbn [fold_right]. now rewrite aadd_assoc.
      + destruct (IH acc r Ha (Forall_inv_tail Hr) H) as [L V]. split; [exact L|]. rewrite V. cbn [map optval]. unfold msum. cbn [fold_right]. now rewrite aadd_0.
  Qed.

  Section Prod.
    Context {X : Type} (zero : X -> bool) (mul : X -> op -> res op) (Q : X -> Prop) (va : X -> A I).
    Context (Hzero : forall a, zero a = true -> va a = a0).
    Context (Hmul : forall a b e, Q a -> legal b -> mul a b = Ok e -> means e (amul (va a) (value b))).
    Lemma prod_summand_sound c1 c2 n k v : Forall Q c1 -> Forall legal c2 -> prod_summand zero mul c1 c2 n k = Ok v ->
      optlegal v /\ optval v = amul (nth k (map va c1) a0) (nth (n - k) (map value c2) a0).
    Proof.
      intros H1 H2 H. unfold prod_summand in H. destruct (nth_error c1 k) as [a|] eqn:E1; [|discriminate]. cbn [of_option bind] in H.
      destruct (nth_error c2 (n - k)) as [b|] eqn:E2; [|discriminate]. cbn [of_option bind] in H.
      rewrite (nth_error_nth (map va c1) k a0 (map_nth_error va k c1 E1)), (nth_error_nth (map value c2) (n - k) a0 (map_nth_error value (n - k) c2 E2)).
      apply nth_error_In in E1, E2. rewrite Forall_forall in H1, H2.
      destruct (zero a) eqn:Ea; cbn [orb] in H.
      - injection H as <-. split; [exact Logic.I|]. cbn [optval]. rewrite (Hzero _ Ea). symmetry. apply amul_0l.
      - destruct (is_zero b) eqn:Eb.
        + injection H as <-. split; [exact Logic.I|]. cbn [optval]. rewrite (is_zero_value _ Eb). symmetry. apply amul_0r.
        + step H p Ep. injection H as <-. exact (Hmul _ _ _ (H1 _ E1) (H2 _ E2) Ep).
    Qed.
    Lemma combine_prod_sound c1 c2 r : Forall Q c1 -> Forall legal c2 -> combine_prod K order zero mul c1 c2 = Ok r ->
      length r = Datatypes.S order /\ Forall optlegal r /\ map optval r = map (cauchy (map va c1) (map value c2)) (seq 0 (Datatypes.S order)).
    Proof.
      intros H1 H2 H. unfold combine_prod in H. set (ns := seq 0 (Datatypes.S order)) in *.
      assert (length ns = Datatypes.S order) as <- by apply seq_length. clearbody ns. revert r H.
      induction ns as [|n ns IH]; intros r H; cbn [mapM] in H; [injection H as <-; split; [reflexivity|split; [constructor|reflexivity]]|].
      step H v Ev. step H r' Er. injection H as <-. destruct (IH r' eq_refl) as [El [L V]].
      step Ev ss Es. assert (Forall optlegal ss /\ map optval ss = map (fun k => amul (nth k (map va c1) a0) (nth (n - k) (map value c2) a0)) (seq 0 (Datatypes.S n))) as [Ls Vs].
      { clear - HK H1 H2 Es Hzero Hmul. revert ss Es. generalize (seq 0 (Datatypes.S n)). intros ks. induction ks as [|k ks IHk]; intros ss Es; cbn [mapM] in Es; [injection Es as <-; split; [constructor|reflexivity]|].
        step Es v Ev. step Es vs Evs. injection Es as <-. destruct (IHk vs eq_refl) as [L V]. destruct (prod_summand_sound _ _ _ _ _ H1 H2 Ev) as [Lv Vv].
        split; [now constructor|]. cbn [map]. now rewrite Vv, V. }
      destruct ss as [|x rest]; [discriminate Ev|]. destruct (sum_loop_sound _ _ _ (Forall_inv Ls) (Forall_inv_tail Ls) Ev) as [Lv Vv].
      split; [cbn [length]; now rewrite El|]. split; [now constructor|]. cbn [map]. f_equal; [|exact V]. rewrite Vv. unfold cauchy. rewrite <- Vs. reflexivity.
    Qed.
  End Prod.

  (** coefficients *)
  Definition sval (c : S) : A I := smul (ev c) a1.
  Lemma sval_0 : sval s0 = a0.
  Proof. unfold sval, s0. rewrite (ev_Q S I), kQ_0. apply smul_0. Qed.
  Lemma kpow_add a b : kpow x0 (Nat.add a b) = kmul (kpow x0 a) (kpow x0 b).
  Proof. induction a as [|a IH]; cbn [kpow Nat.add]; [ring|]. rewrite IH. ring. Qed.
  Lemma poly_zeros n : polynomial P (repeat a0 n) = a0.
  Proof. induction n as [|n IH]; [reflexivity|]. cbn [repeat]. rewrite poly_cons, IH, smul_zero. apply aadd_0. Qed.
  Lemma poly_shift n cs : polynomial P (repeat a0 n ++ cs) = smul (kpow x0 n) (polynomial P cs).
  Proof.
    induction n as [|n IH]; cbn [repeat app kpow]; [symmetry; apply smul_1|]. rewrite poly_cons, IH, aadd_0. now rewrite smul_mul.
  Qed.
  Lemma map_repeat {X Y} (f : X -> Y) x n : map f (repeat x n) = repeat (f x) n.
  Proof. induction n; cbn [repeat map]; congruence. Qed.
  Lemma loop_nonsingular l : forall next r, scalar_loop order next l = Ok r -> Forall (nonsingular (S:=S)) (low_terms order l).
  Proof.
    induction l as [|[c [o|]] l IH]; intros next r H; cbn [scalar_loop low_terms] in *; [constructor| |discriminate].
    destruct (Z.ltb_spec o 0) as [Ho|Ho]; [discriminate|]. destruct (Z.ltb_spec (Z.of_nat order) o) as [Hb|Hb].
    - destruct (Z.leb_spec o (Z.of_nat order)); [lia|constructor].
    - destruct (Z.leb_spec o (Z.of_nat order)); [|lia]. step H r' Er. constructor; [exists o; split; [reflexivity|exact Ho]|]. eapply IH; eassumption.
  Qed.
  Lemma loop_sound l : forall next r, scalar_loop order next l = Ok r -> next <= Nat.add order 1 ->
    increasing (Z.of_nat next - 1) (low_terms order l) -> Forall (fun t => cst P (sval (fst t))) (low_terms order l) ->
    Nat.add (length r) next = Nat.add order 1 /\ Forall (cst P) (map sval r) /\
    smul (kpow x0 next) (polynomial P (map sval r)) = msum I (map (term_value P) (low_terms order l)).
  Proof.
    assert (forall n, Forall (cst P) (map sval (repeat s0 n))) as Hz.
    { intros n. rewrite map_repeat, sval_0. rewrite Forall_forall. intros x Hx. apply repeat_spec in Hx. subst x. apply cst_0. }
    induction l as [|[c [o|]] l IH]; intros next r H Hn Hi Hc; cbn [scalar_loop low_terms] in *; [| |discriminate].
    - injection H as <-. rewrite repeat_length. split; [lia|]. split; [apply Hz|]. rewrite map_repeat, sval_0, poly_zeros. apply smul_zero.
    - destruct (Z.ltb_spec o 0) as [Ho|Ho]; [discriminate|]. destruct (Z.ltb_spec (Z.of_nat order) o) as [Hb|Hb].
      + destruct (Z.leb_spec o (Z.of_nat order)); [lia|]. injection H as <-. rewrite repeat_length. split; [lia|]. split; [apply Hz|]. rewrite map_repeat, sval_0, poly_zeros. apply smul_zero.
      + destruct (Z.leb_spec o (Z.of_nat order)); [|lia]. step H r' Er. injection H as <-. cbn [increasing] in Hi. destruct Hi as [Hi1 Hi2].
        assert (Nat.add (Z.to_nat o) 1 <= Nat.add order 1) as Hn' by lia.
        assert (increasing (Z.of_nat (Nat.add (Z.to_nat o) 1) - 1) (low_terms order l)) as Hi3 by (replace (Z.of_nat (Nat.add (Z.to_nat o) 1) - 1)%Z with o by lia; exact Hi2).
        destruct (IH _ _ Er Hn' Hi3 (Forall_inv_tail Hc)) as [El [Lr Vr]]. rewrite app_length, repeat_length. cbn [length]. split; [lia|].
        rewrite map_app. cbn [map]. split; [apply Forall_app; split; [apply Hz|]; constructor; [exact (Forall_inv Hc)|exact Lr]|].
        rewrite map_repeat, sval_0, poly_shift, poly_cons, <- smul_mul, <- kpow_add. replace (Nat.add next (Z.to_nat o - next)) with (Z.to_nat o) by lia.
        rewrite smul_addr. unfold msum. cbn [map fold_right]. f_equal. unfold msum in Vr. rewrite <- Vr, kpow_add. cbn [kpow]. rewrite <- !smul_mul. f_equal. ring.
  Qed.
  Lemma scalar_series_sound c l : scalar_series terms order c = Ok l ->
    length l = Datatypes.S order /\ expands P (sval c) (map sval l).
  Proof.
    intros H. unfold scalar_series in H. step H r Er. injection H as <-.
    destruct (Hterms c (loop_nonsingular _ _ _ Er)) as [Hi [Hc [rem [Hr E]]]].
    destruct (loop_sound _ 0 _ Er ltac:(lia) Hi Hc) as [El [Lr Vr]]. rewrite map_length. split; [lia|].
    assert (map sval (map (fun v => if seqb v s0 then s0 else if seqb v s1 then s1 else v) r) = map sval r) as ->.
    { rewrite map_map. apply map_ext. intros v. unfold sval. destruct (seqb v s0) eqn:E0; [now rewrite (ev_eq S I _ _ E0)|]. destruct (seqb v s1) eqn:E1; [now rewrite (ev_eq S I _ _ E1)|reflexivity]. }
    split; [exact Lr|]. exists rem. split; [exact Hr|]. rewrite map_length. replace (length r) with (Datatypes.S order) by lia. unfold sval at 1. rewrite E. f_equal.
    rewrite <- Vr. cbn [kpow]. apply smul_1.
  Qed.

  (** the main theorem *)
  Definition good_series (e : op) (l : list op) : Prop :=
    length l = Datatypes.S order /\ Forall legal l /\ expands P (value e) (map value l).
  Lemma constant_sound e : legal e -> cst P (value e) -> good_series e (constant order e).
  Proof.
    intros Hl Hc. unfold constant. destruct (stable_sound (Some e :: repeat None order)) as [L V].
    { constructor; [exact Hl|]. rewrite Forall_forall. intros v Hv. apply repeat_spec in Hv. now subst v. }
    split; [rewrite stable_length; cbn [length]; now rewrite repeat_length|]. split; [exact L|]. rewrite V. cbn [map optval]. rewrite map_repeat. now apply exp_const.
  Qed.
  Lemma zip_all_length {X} n (ls : list (list X)) : ls <> [] -> Forall (fun l => length l = n) ls -> length (zip_all ls) = n.
  Proof.
    induction ls as [|l ls IH]; intros Hn H; [contradiction|]. cbn [zip_all]. destruct ls as [|l2 ls]; [rewrite map_length; exact (Forall_inv H)|].
    rewrite map_length, combine_length, IH; [|discriminate|exact (Forall_inv_tail H)]. rewrite (Forall_inv H). lia.
  Qed.
  Lemma zip_all_legal ls : Forall (Forall legal) ls -> Forall (Forall legal) (zip_all ls).
  Proof.
    induction ls as [|l ls IH]; intros H; [constructor|]. cbn [zip_all]. specialize (IH (Forall_inv_tail H)). destruct ls as [|l2 ls].
    - pose proof (Forall_inv H) as Hl. rewrite Forall_forall in *. intros c Hc. apply in_map_iff in Hc. destruct Hc as [x [<- Hx]]. constructor; [now apply Hl|constructor].
    - pose proof (Forall_inv H) as Hl. rewrite Forall_forall in *. intros c Hc. apply in_map_iff in Hc. destruct Hc as [[x xs] [<- Hx]].
      constructor; [apply Hl; eapply in_combine_l; exact Hx|]. apply IH. eapply in_combine_r; exact Hx.
  Qed.
  Lemma zip_all_exp es : forall ls, Forall2 good_series es ls -> es <> [] ->
    expands P (msum I (map value es)) (map (fun tels => msum I (map value tels)) (zip_all ls)).
  Proof.
    induction es as [|e es IH]; intros ls H Hn; [contradiction|]. inversion H as [|? l ? ls' He Hes]; subst ls. cbn [zip_all]. destruct He as [El [Ll Hl]].
    destruct es as [|e2 es].
    - inversion Hes; subst ls'. rewrite map_map. cbn [map]. rewrite msum_1. erewrite map_ext; [exact Hl|]. intros w. apply msum_1.
    - destruct ls' as [|l2 ls]; [inversion Hes|]. specialize (IH _ Hes ltac:(discriminate)).
      set (Z := zip_all (l2 :: ls)) in *. assert (length Z = Datatypes.S order) as EZ.
      { apply zip_all_length; [discriminate|]. clear - Hes. induction Hes as [|? ? ? ? H1 H2 IHH]; constructor; [apply H1|exact IHH]. }
      assert (length (map value l) = length (map (fun tels => msum I (map value tels)) Z)) as E2 by (rewrite !map_length; congruence).
      pose proof (exp_add P _ _ _ _ Hl IH E2) as HE.
      change (msum I (map value (e :: e2 :: es))) with (aadd (value e) (msum I (map value (e2 :: es)))).
      replace (map (fun tels => msum I (map value tels)) (map (fun p : op * list op => fst p :: snd p) (combine l Z))) with
        (map (fun p : A I * A I => aadd (fst p) (snd p)) (combine (map value l) (map (fun tels => msum I (map value tels)) Z))); [exact HE|].
      clearbody Z. clear. revert Z. induction l as [|x l IHl]; intros [|z Z]; try reflexivity. cbn [map combine fst snd]. f_equal. apply IHl.
  Qed.
  Lemma good_times x l e1 c1 c2 r :
    good_series x c1 -> good_series e1 c2 -> value l = amul (value x) (value e1) ->
    combine_prod K order is_zero (fun a b => k_times K [a; b]) c1 c2 = Ok r -> good_series l (stable r).
  Proof.
    intros [E1 [L1 H1]] [E2 [L2 H2]] Ev Er.
    destruct (combine_prod_sound is_zero (fun a b => k_times K [a; b]) legal value is_zero_value (fun a b e Ha Hb H => m_times2 I K HK a b e Ha Hb H) _ _ _ L1 L2 Er) as [El [Lr Vr]].
    destruct (stable_sound _ Lr) as [Ls Vs]. split; [now rewrite stable_length|]. split; [exact Ls|]. rewrite Vs, Vr, Ev.
    assert (length (map value c1) = length (map value c2)) as E3 by (rewrite !map_length; congruence).
    pose proof (exp_mul P _ _ _ _ H1 H2 E3) as H. now rewrite map_length, E1 in H.
  Qed.
  Lemma exp_comm cs ds u v : expands P u cs -> expands P v ds -> length cs = length ds ->
    expands P (mcomm I u v) (map (fun n => msum I (map (fun k => mcomm I (nth k cs a0) (nth (n - k) ds a0)) (seq 0 (Datatypes.S n)))) (seq 0 (length cs))).
  Proof.
    intros Hu Hv El. pose proof (exp_mul P _ _ _ _ Hu Hv El) as H1. pose proof (exp_mul P _ _ _ _ Hv Hu (eq_sym El)) as H2.
    pose proof (exp_constmul P (smul (kopp k1) a1) _ _ (cst_neg _ P _ (cst_1 _ P)) H2) as H3. rewrite smul_amul_l, amul_1l in H3.
    assert (length (map (cauchy cs ds) (seq 0 (length cs))) = length (map (amul (smul (kopp k1) a1)) (map (cauchy ds cs) (seq 0 (length ds))))) as E by (rewrite !map_length, !seq_length; exact El).
    pose proof (exp_add P _ _ _ _ H1 H3 E) as H4. unfold mcomm at 1.
    match goal with |- expands P _ ?l => match type of H4 with expands P _ ?l' => replace l with l'; [exact H4|] end end.
    rewrite <- El. generalize (seq 0 (length cs)). intros ns. induction ns as [|n ns IH]; [reflexivity|]. cbn [map combine fst snd]. f_equal; [|exact IH].
    unfold cauchy. rewrite smul_amul_l, amul_1l.
    assert (forall ks (f g : nat -> A I), aadd (msum I (map f ks)) (smul (kopp k1) (msum I (map g ks))) = msum I (map (fun k => aadd (f k) (smul (kopp k1) (g k))) ks)) as G.
    { intros ks f g. induction ks as [|k ks IHk]; unfold msum in *; cbn [map fold_right]; [now rewrite smul_zero, aadd_0|]. rewrite smul_addr, aadd_perm4, IHk. reflexivity. }
    assert (msum I (map (fun k => amul (nth k ds a0) (nth (n - k) cs a0)) (seq 0 (Datatypes.S n))) = msum I (map (fun k => amul (nth (n - k) ds a0) (nth k cs a0)) (seq 0 (Datatypes.S n)))) as ->; [|apply G].
    set (h := fun k j => amul (nth k ds a0) (nth j cs a0)).
    change (msum I (map (fun k => h k (n - k)) (seq 0 (Datatypes.S n))) = msum I (map (fun k => h (n - k) k) (seq 0 (Datatypes.S n)))).
    assert (map (fun k => h (n - k) k) (seq 0 (Datatypes.S n)) = rev (map (fun k => h k (n - k)) (seq 0 (Datatypes.S n)))) as ->.
    { apply (list_eq_nth _ _ a0).
      - now rewrite rev_length, !map_length.
      - intros i Hi. rewrite map_length, seq_length in Hi. rewrite rev_nth by (rewrite map_length, seq_length; exact Hi).
        rewrite (nth_map_lt _ _ _ a0 0) by (now rewrite seq_length). rewrite (nth_map_lt _ _ _ a0 0) by (rewrite map_length, !seq_length; lia).
        rewrite map_length, seq_length, !seq_nth by lia. cbn [Nat.add]. f_equal; lia. }
    generalize (map (fun k => h k (n - k)) (seq 0 (Datatypes.S n))). intros xs. clear. unfold msum.
    induction xs as [|x xs IH]; [reflexivity|]. cbn [rev fold_right]. rewrite fold_right_app. cbn [fold_right]. rewrite aadd_0r.
    assert (forall ys y, fold_right aadd y ys = aadd (fold_right aadd (@a0 I) ys) y) as G.
    { induction ys as [|z ys IHy]; intros y; cbn [fold_right]; [now rewrite aadd_0|]. rewrite (IHy y). apply aadd_assoc. }
    rewrite (G (rev xs)), <- IH. apply aadd_comm.
  Qed.

  Local Notation series := (series terms free K order).
  Lemma series_plus_eq l : series (OPlus l) =
    do ls <- mapM series l; do r <- mapM (k_plus K) (zip_all ls); Ok (stable_ops r).
  Proof.
    cbn [OpSeriesModel.series]. f_equal. induction l as [|x l IH]; [reflexivity|]. cbn [mapM]. destruct (series x); [|reflexivity]. cbn [bind]. rewrite IH. reflexivity.
  Qed.
  Lemma series_times2 x y : series (OTimes [x; y]) =
    do c1 <- series x; do c2 <- series y;
    do r <- combine_prod K order is_zero (fun a b => k_times K [a; b]) c1 c2; Ok (stable r).
  Proof. reflexivity. Qed.
  Lemma series_times3 x y z l : series (OTimes (x :: y :: z :: l)) =
    do c1 <- series x; do c2 <- series (OTimes (y :: z :: l));
    do r <- combine_prod K order is_zero (fun a b => k_times K [a; b]) c1 c2; Ok (stable r).
  Proof. reflexivity. Qed.
  Lemma nm_list l : fold_right (fun x Q => no_minus_cc x /\ Q) True l <-> Forall (no_minus_cc (S:=S)) l.
  Proof.
    induction l as [|x l IH]; cbn [fold_right]; [split; constructor|]. rewrite IH. split.
    - intros [H1 H2]. now constructor.
    - intros H. split; [exact (Forall_inv H)|exact (Forall_inv_tail H)].
  Qed.
  Lemma pr_list l : fold_right (fun x Q => proper x /\ Q) True l <-> Forall (proper (S:=S)) l.
  Proof.
    induction l as [|x l IH]; cbn [fold_right]; [split; constructor|]. rewrite IH. split.
    - intros [H1 H2]. now constructor.
    - intros H. split; [exact (Forall_inv H)|exact (Forall_inv_tail H)].
  Qed.
  Lemma mapM_good (es : list op) ls : Forall (fun e => forall l, legal e -> no_minus_cc e -> proper e -> series e = Ok l -> good_series e l) es ->
    Forall legal es -> Forall no_minus_cc es -> Forall proper es -> mapM series es = Ok ls -> Forall2 good_series es ls.
  Proof.
    intros H. revert ls. induction H as [|e es He H IH]; intros ls HL HM HP E; cbn [mapM] in E; [injection E as <-; constructor|].
    destruct (series e) as [l|] eqn:El; [|discriminate]. cbn [bind] in E. destruct (mapM series es) as [ls'|] eqn:Els; [|discriminate]. cbn [bind] in E. injection E as <-. constructor.
    - exact (He _ (Forall_inv HL) (Forall_inv HM) (Forall_inv HP) eq_refl).
    - exact (IH _ (Forall_inv_tail HL) (Forall_inv_tail HM) (Forall_inv_tail HP) eq_refl).
  Qed.
  Theorem series_sound : forall e l, legal e -> no_minus_cc e -> proper e -> series e = Ok l -> good_series e l.
  Proof.
    induction e as [| |a|c t IH|es IH|es IH|a b IHa IHb|a IH|a h IH|s a IH] using op_ind'; intros l HL HM HP H.
    - injection H as <-. apply constant_sound; [exact HL|apply cst_0].
    - injection H as <-. apply constant_sound; [exact HL|apply cst_1].
    - cbn [OpSeriesModel.series] in H. destruct (atom_free free a) eqn:Ea; [|discriminate]. injection H as <-. apply constant_sound; [exact HL|].
      cbn [OpSpec.value]. apply Hfree. destruct a; try exact Logic.I; exact Ea.
    - cbn [OpSeriesModel.series] in H. step H ce Ec. step H te Et. step H r Er. injection H as <-.
      destruct (scalar_series_sound _ _ Ec) as [Lc Hc]. destruct (IH _ HL HM HP eq_refl) as [Lt [Gt Ht]].
      assert (forall c : S, seqb c s0 = true -> sval c = a0) as Hz by (intros c' E'; unfold sval; rewrite (ev_eq S I _ _ E'); apply sval_0).
      assert (forall (c : S) b e, True -> legal b -> k_scal K c b = Ok e -> means e (amul (sval c) (value b))) as Hm.
      { intros c' b e _ Hb He. unfold sval. rewrite smul_amul_l, amul_1l. exact (s_scal I K HK _ _ _ Hb He). }
      assert (Forall (fun _ : S => True) ce) as HT by (rewrite Forall_forall; trivial).
      destruct (combine_prod_sound (fun c => seqb c s0) (k_scal K) (fun _ => True) sval Hz Hm _ _ _ HT Gt Er) as [El [Lr Vr]].
      destruct (stable_sound _ Lr) as [Ls Vs]. split; [now rewrite stable_length|]. split; [exact Ls|]. rewrite Vs, Vr. cbn [OpSpec.value].
      replace (smul (ev c) (value t)) with (amul (sval c) (value t)) by (unfold sval; now rewrite smul_amul_l, amul_1l).
      assert (length (map sval ce) = length (map value te)) as E3 by (rewrite !map_length; congruence).
      pose proof (exp_mul P _ _ _ _ Hc Ht E3) as HE. now rewrite map_length, Lc in HE.
    - rewrite series_plus_eq in H. step H ls Els. step H r Er. injection H as <-. apply legal_plus in HL. cbn [no_minus_cc proper] in HM, HP.
      rewrite nm_list in HM. rewrite pr_list in HP. destruct HP as [HP0 HP]. pose proof (mapM_good _ _ IH HL HM HP Els) as F.
      assert (Forall (Forall legal) ls) as Lls by (clear - F; induction F as [|x y u1 u2 H1 H2 IHH]; constructor; [apply H1|exact IHH]).
      assert (es <> []) as Hne by (intros ->; cbn in HP0; lia).
      destruct (mapM_sound I (k_plus K) (Forall legal) (fun tels => msum I (map value tels)) (zip_all ls) r
                  (fun tels e HF HE => s_plus I K HK tels e HF HE) (zip_all_legal _ Lls) Er) as [Lr Vr].
      destruct (stable_ops_sound _ Lr) as [Ls Vs]. split; [|split; [exact Ls|]].
      + rewrite stable_ops_length. pose proof (f_equal (@length _) Vr) as E. rewrite !map_length in E. rewrite E. apply zip_all_length.
        * intros ->. apply Hne. now inversion F.
        * clear - F. induction F as [|x y u1 u2 H1 H2 IHH]; constructor; [apply H1|exact IHH].
      + rewrite Vs, Vr. cbn [OpSpec.value]. now apply zip_all_exp.
    - apply legal_times in HL. cbn [no_minus_cc proper] in HM, HP. rewrite nm_list in HM. rewrite pr_list in HP. destruct HP as [HP0 HP].
      revert l H HP0. induction es as [|x es IHe]; intros l H HP0; [discriminate H|]. destruct es as [|y es]; [discriminate H|].
      pose proof (Forall_inv IH) as IHx. destruct es as [|z es].
      + rewrite series_times2 in H. step H c1 E1. step H c2 E2. step H r Er. injection H as <-.

        pose proof (IHx _ (Forall_inv HL) (Forall_inv HM) (Forall_inv HP) ltac:(first [exact E1|reflexivity])) as G1.
        pose proof (Forall_inv (Forall_inv_tail IH) _ (Forall_inv (Forall_inv_tail HL)) (Forall_inv (Forall_inv_tail HM)) (Forall_inv (Forall_inv_tail HP)) ltac:(first [exact E2|reflexivity])) as G2.
        apply (good_times x (OTimes [x; y]) y c1 c2 r G1 G2); [|exact Er]. cbn [OpSpec.value map]. now rewrite mprod_2.
      + rewrite series_times3 in H. step H c1 E1. destruct (series (OTimes (y :: z :: es))) as [c2|] eqn:E2; [|discriminate]. cbn [bind] in H. step H r Er. injection H as <-.
        pose proof (IHx _ (Forall_inv HL) (Forall_inv HM) (Forall_inv HP) ltac:(first [exact E1|reflexivity])) as G1.
        pose proof (IHe (Forall_inv_tail IH) (Forall_inv_tail HL) (Forall_inv_tail HM) (Forall_inv_tail HP) _ eq_refl ltac:(cbn [length]; lia)) as G2.
        apply (good_times x (OTimes (x :: y :: z :: es)) (OTimes (y :: z :: es)) c1 c2 r G1 G2); [reflexivity|exact Er].
    - cbn [OpSeriesModel.series] in H. destruct HL as [HLa HLb], HM as [HMa HMb], HP as [HPa HPb].
      destruct (series a) as [sa|] eqn:Ea; [|discriminate]. cbn [bind] in H. destruct (series b) as [sb|] eqn:Eb; [|discriminate]. cbn [bind] in H. step H r Er. injection H as <-.
      destruct (IHa _ HLa HMa HPa eq_refl) as [Na [La Ha]]. destruct (IHb _ HLb HMb HPb eq_refl) as [Nb [Lb Hb]].
      set (ns := seq 0 (Datatypes.S order)) in *.
      set (v := fun n => msum I (map (fun k => mcomm I (nth k (map value sa) a0) (nth (n - k) (map value sb) a0)) (seq 0 (Datatypes.S n)))).
      assert (Forall legal r /\ map value r = map v ns) as [Lr Vr].
      { apply (mapM_sound I _ (fun _ => True) v ns r) in Er; [exact Er| |rewrite Forall_forall; trivial]. intros n e _ He. step He cs Ecs.
        assert (Forall legal cs /\ map value cs = map (fun k => mcomm I (nth k (map value sa) a0) (nth (n - k) (map value sb) a0)) (seq 0 (Datatypes.S n))) as [Lcs Vcs].
        { refine (mapM_sound I _ (fun _ => True) _ _ _ _ _ Ecs); [|rewrite Forall_forall; trivial]. intros k e' _ He'.
          destruct (nth_error sa k) as [x|] eqn:E1; [|discriminate]. cbn [of_option bind] in He'. destruct (nth_error sb (n - k)) as [y|] eqn:E2; [|discriminate]. cbn [of_option bind] in He'.
          rewrite (nth_error_nth (map value sa) k a0 (map_nth_error value k sa E1)), (nth_error_nth (map value sb) (n - k) a0 (map_nth_error value (n - k) sb E2)).
          apply nth_error_In in E1, E2. rewrite Forall_forall in La, Lb. exact (s_comm I K HK _ _ _ (La _ E1) (Lb _ E2) He'). }
        destruct (s_plus I K HK _ _ Lcs He) as [Le Ve]. split; [exact Le|]. rewrite Ve, Vcs. reflexivity. }
      destruct (stable_ops_sound _ Lr) as [Ls Vs]. split; [|split; [exact Ls|]].
      + rewrite stable_ops_length. pose proof (f_equal (@length _) Vr) as E. rewrite !map_length in E. rewrite E. apply seq_length.
      + rewrite Vs, Vr. cbn [OpSpec.value]. assert (length (map value sa) = length (map value sb)) as E3 by (rewrite !map_length; congruence).
        pose proof (exp_comm _ _ _ _ Ha Hb E3) as HE. now rewrite map_length, Na in HE.
    - cbn [OpSeriesModel.series] in H. destruct (series a) as [sa|] eqn:Ea; [|discriminate]. cbn [bind] in H. step H r Er. injection H as <-.
      destruct (IH _ HL HM HP eq_refl) as [Na [La Ha]].
      destruct (mapM_sound I (oadj K) legal (fun e => star (value e)) sa r (fun x e Hx He => oadj_sound I K HK x e Hx He) La Er) as [Lr Vr].
      destruct (stable_ops_sound _ Lr) as [Ls Vs]. split; [|split; [exact Ls|]].
      + rewrite stable_ops_length. pose proof (f_equal (@length _) Vr) as E. rewrite !map_length in E. congruence.
      + rewrite Vs, Vr. cbn [OpSpec.value]. rewrite <- (map_map value star). now apply exp_star.
    - discriminate H.
    - cbn [OpSeriesModel.series] in H. destruct (series a) as [sa|] eqn:Ea; [|discriminate]. cbn [bind] in H. injection H as <-. destruct HM as [-> HM].
      destruct (IH _ HL HM HP eq_refl) as [Na [La Ha]].
      assert (Forall legal (map (OPM true) sa)) as Lr by (rewrite Forall_forall in *; intros x Hx; apply in_map_iff in Hx; destruct Hx as [y [<- Hy]]; exact (La y Hy)).
      destruct (stable_ops_sound _ Lr) as [Ls Vs]. split; [rewrite stable_ops_length, map_length; exact Na|]. split; [exact Ls|].
      rewrite Vs, map_map. cbn [OpSpec.value]. pose proof (exp_star P _ _ Ha) as Hs.
      assert (length (map value sa) = length (map star (map value sa))) as E3 by (now rewrite !map_length).
      pose proof (exp_add P _ _ _ _ Ha Hs E3) as HE. rewrite map_map in HE.
      replace (map (fun x => aadd (value x) (star (value x))) sa) with (map (fun p : A I * A I => aadd (fst p) (snd p)) (combine (map value sa) (map (fun x => star (value x)) sa))); [exact HE|].
      clear. induction sa as [|x sa IHs]; [reflexivity|]. cbn [map combine fst snd]. now rewrite IHs.
  Qed.
End Sound.

(** ** Running the code instead of its careful version *)
Section Compare.
  Context {S : scalars} (terms : S -> nat -> list (S * option Z)) (free : S -> bool) (order : nat) (K K' : ocreators S).
  Lemma combine_prod_mono {X} (HK : leK K K') zero (mul mul' : X -> op S -> res (op S)) c1 c2 : (forall a b, le (mul a b) (mul' a b)) ->
    le (combine_prod K order zero mul c1 c2) (combine_prod K' order zero mul' c1 c2).
  Proof.
    intros Hm. apply le_mapM. intros n. apply le_bind.
    - apply le_mapM. intros k. unfold prod_summand. apply le_bind; [apply le_refl|]. intros a. apply le_bind; [apply le_refl|]. intros b.
      destruct (zero a || is_zero b); [apply le_refl|]. apply le_bind; [apply Hm|]. intros; apply le_refl.
    - intros [|x rest]; [apply le_refl|]. apply le_foldM. intros acc [p|]; [|apply le_refl]. apply le_bind; [|intros; apply le_refl].
      destruct acc; cbn [add_to]; [apply (m_plus K K' HK)|]. apply le_bind; [apply (m_scal K K' HK)|]. intros; apply (m_plus K K' HK).
  Qed.
  Lemma series_mono (HK : leK K K') : forall e, le (series terms free K order e) (series terms free K' order e).
  Proof.
    induction e as [| |a|c t IH|es IH|es IH|a b IHa IHb|a IH|a h IH|s a IH] using op_ind'; try apply le_refl.
    - cbn [series]. apply le_bind; [apply le_refl|]. intros. apply le_bind; [exact IH|]. intros. apply le_bind; [|intros; apply le_refl]. apply (combine_prod_mono HK). intros; apply (m_scal K K' HK).
    - rewrite !series_plus_eq. apply le_bind.
      + induction IH as [|x es Hx H IHH]; [apply le_refl|]. cbn [mapM]. apply le_bind; [exact Hx|]. intros. apply le_bind; [exact IHH|]. intros; apply le_refl.
      + intros. apply le_bind; [|intros; apply le_refl]. apply le_mapM. intros; apply (m_plus K K' HK).
    - induction es as [|x es IHe]; [apply le_refl|]. destruct es as [|y es]; [apply le_refl|]. pose proof (Forall_inv IH) as IHx. specialize (IHe (Forall_inv_tail IH)). destruct es as [|z es].
      + rewrite !series_times2. apply le_bind; [exact IHx|]. intros. apply le_bind; [exact (Forall_inv (Forall_inv_tail IH))|]. intros. apply le_bind; [|intros; apply le_refl]. apply (combine_prod_mono HK). intros; apply (m_times K K' HK).
      + rewrite !series_times3. apply le_bind; [exact IHx|]. intros. apply le_bind; [exact IHe|]. intros. apply le_bind; [|intros; apply le_refl]. apply (combine_prod_mono HK). intros; apply (m_times K K' HK).
    - cbn [series]. apply le_bind; [exact IHa|]. intros. apply le_bind; [exact IHb|]. intros. apply le_bind; [|intros; apply le_refl]. apply le_mapM. intros n. apply le_bind; [|intros; apply (m_plus K K' HK)].
      apply le_mapM. intros k. apply le_bind; [apply le_refl|]. intros. apply le_bind; [apply le_refl|]. intros; apply (m_comm K K' HK).
    - cbn [series]. apply le_bind; [exact IH|]. intros. apply le_bind; [|intros; apply le_refl]. apply le_mapM. intros; apply (oadj_mono K K' HK).
    - cbn [series]. apply le_bind; [exact IH|]. intros; apply le_refl.
  Qed.
End Compare.

Section LocalSeries.
  Context {S : scalars} (l : nat) (terms : S -> nat -> list (S * option Z)) (free : S -> bool) (order : nat) (K K' : ocreators S) (HK : agreeK l K K').
  Local Notation loc := (local_to (S:=S) l).
  Local Notation agree := (agree l). Local Notation agrees := (agrees l).
  Definition optloc (v : option (op S)) : Prop := match v with None => True | Some e => loc e end.
  Definition gagree {X} (Q : X -> Prop) (r r' : res X) : Prop := r = r' /\ forall x, r = Ok x -> Q x.
  Lemma gagree_ok {X} (Q : X -> Prop) x : Q x -> gagree Q (Ok x) (Ok x).
  Proof. intros H. split; [reflexivity|]. intros y E. now injection E as <-. Qed.
  Lemma gagree_err {X} (Q : X -> Prop) e : gagree Q (Err e) (Err e).
  Proof. split; [reflexivity|discriminate]. Qed.
  Lemma gagree_bind {X Y} (Q : X -> Prop) (R : Y -> Prop) r r' f f' : gagree Q r r' -> (forall x, Q x -> gagree R (f x) (f' x)) -> gagree R (bind r f) (bind r' f').
  Proof. intros [-> H] Hf. destruct r' as [x|e]; [apply Hf, H; reflexivity|apply gagree_err]. Qed.
  Lemma gagree_mapM {X Y} (R : Y -> Prop) (f f' : X -> res Y) xs : (forall x, In x xs -> gagree R (f x) (f' x)) -> gagree (Forall R) (mapM f xs) (mapM f' xs).
  Proof.
    induction xs as [|x xs IH]; intros H; [apply gagree_ok; constructor|]. cbn [mapM]. apply (gagree_bind R); [apply H; now left|]. intros y Hy.
    apply (gagree_bind (Forall R)); [apply IH; intros; apply H; now right|]. intros ys Hys. apply gagree_ok. now constructor.
  Qed.
  Lemma gagree_foldM {X Y} (Q : X -> Prop) (f f' : X -> Y -> res X) (R : Y -> Prop) ys : (forall x y, Q x -> R y -> gagree Q (f x y) (f' x y)) -> Forall R ys -> forall a, Q a -> gagree Q (foldM f a ys) (foldM f' a ys).
  Proof.
    intros H HR. induction HR as [|y ys Hy HR IH]; intros a Ha; cbn [foldM]; [now apply gagree_ok|]. apply (gagree_bind Q); [now apply H|]. exact IH.
  Qed.
  Lemma gagree_of r r' : agree r r' -> gagree loc r r'.
  Proof. trivial. Qed.
  Lemma gagree_nth {X} (Q : X -> Prop) xs k : Forall Q xs -> gagree Q (of_option IndexError (nth_error xs k)) (of_option IndexError (nth_error xs k)).
  Proof.
    intros H. destruct (nth_error xs k) as [x|] eqn:E; [|apply gagree_err]. apply gagree_ok. rewrite Forall_forall in H. apply H. eapply nth_error_In; exact E.
  Qed.
  Lemma combine_prod_agree {X} (Q : X -> Prop) zero (mul mul' : X -> op S -> res (op S)) c1 c2 : (forall a b, Q a -> loc b -> agree (mul a b) (mul' a b)) ->
    Forall Q c1 -> Forall loc c2 -> gagree (Forall optloc) (combine_prod K order zero mul c1 c2) (combine_prod K' order zero mul' c1 c2).
  Proof.
    intros Hm H1 H2. apply gagree_mapM. intros n _. apply (gagree_bind (Forall optloc)).
    - apply gagree_mapM. intros k _. unfold prod_summand. apply (gagree_bind Q); [now apply gagree_nth|]. intros a Ha. apply (gagree_bind loc); [now apply gagree_nth|]. intros b Hb.
      destruct (zero a || is_zero b); [now apply gagree_ok|]. apply (gagree_bind loc); [now apply Hm|]. intros p Hp. now apply gagree_ok.
    - intros [|x rest] H; [apply gagree_err|]. apply (gagree_foldM optloc _ _ optloc); [|exact (Forall_inv_tail H)|exact (Forall_inv H)].
      intros acc [p|] Ha Hp; [|now apply gagree_ok]. apply (gagree_bind loc); [|intros r Hr; now apply gagree_ok].
      destruct acc as [a|]; cbn [add_to]; [apply (a_plus l K K' HK); repeat constructor; assumption|].
      apply (gagree_bind loc); [apply (a_scal l K K' HK); exact Logic.I|]. intros z Hz. apply (a_plus l K K' HK). repeat constructor; assumption.
  Qed.
  Lemma stable_loc es : Forall optloc es -> Forall loc (stable es).
  Proof.
    intros H. unfold stable. rewrite Forall_forall in *. intros x Hx. apply in_map_iff in Hx. destruct Hx as [v [<- Hv]]. specialize (H v Hv).
    destruct v as [e|]; [|exact Logic.I]. destruct (is_zero e); [exact Logic.I|exact H].
  Qed.
  Lemma stable_ops_loc es : Forall loc es -> Forall loc (stable_ops es).
  Proof. intros H. apply stable_loc. rewrite Forall_forall in *. intros v Hv. apply in_map_iff in Hv. destruct Hv as [e [<- He]]. now apply H. Qed.
  Lemma zip_all_loc ls : Forall (Forall loc) ls -> Forall (Forall loc) (zip_all ls).
  Proof.
    induction ls as [|es ls IH]; intros H; [constructor|]. cbn [zip_all]. specialize (IH (Forall_inv_tail H)). pose proof (Forall_inv H) as Hl. destruct ls as [|l2 ls].
    - rewrite Forall_forall in *. intros c Hc. apply in_map_iff in Hc. destruct Hc as [x [<- Hx]]. constructor; [now apply Hl|constructor].
    - rewrite Forall_forall in *. intros c Hc. apply in_map_iff in Hc. destruct Hc as [[x xs] [<- Hx]].
      constructor; [apply Hl; eapply in_combine_l; exact Hx|]. apply IH. eapply in_combine_r; exact Hx.
  Qed.
  Lemma constant_loc e : loc e -> Forall loc (constant order e).
  Proof.
    intros H. apply stable_loc. constructor; [exact H|]. rewrite Forall_forall. intros v Hv. apply repeat_spec in Hv. now subst v.
  Qed.
  Lemma series_agree : forall e, loc e -> gagree (Forall loc) (series terms free K order e) (series terms free K' order e).
  Proof.
    assert (forall c1 c2, Forall loc c1 -> Forall loc c2 -> gagree (Forall loc)
      (do r <- combine_prod K order is_zero (fun a b => k_times K [a; b]) c1 c2; Ok (stable r))
      (do r <- combine_prod K' order is_zero (fun a b => k_times K' [a; b]) c1 c2; Ok (stable r))) as HT.
    { intros c1 c2 H1 H2. apply (gagree_bind (Forall optloc)); [|intros r Hr; apply gagree_ok; now apply stable_loc].
      apply (combine_prod_agree loc); [|assumption|assumption]. intros a b Ha Hb. apply (a_times l K K' HK). repeat constructor; assumption. }
    induction e as [| |a|c t IH|es IH|es IH|a b IHa IHb|a IH|a h IH|s a IH] using op_ind'; intros H.
    - apply gagree_ok. now apply constant_loc.
    - apply gagree_ok. now apply constant_loc.
    - cbn [series]. destruct (atom_free free a); [|apply gagree_err]. apply gagree_ok. now apply constant_loc.
    - cbn [series]. apply (gagree_bind (Forall (fun _ => True))); [split; [reflexivity|intros; rewrite Forall_forall; trivial]|]. intros ce _.
      apply (gagree_bind (Forall loc)); [apply IH, H|]. intros te Ht. apply (gagree_bind (Forall optloc)); [|intros r Hr; apply gagree_ok; now apply stable_loc].
      apply (combine_prod_agree (fun _ => True)); [|rewrite Forall_forall; trivial|exact Ht]. intros a b _ Hb. now apply (a_scal l K K' HK).
    - rewrite !series_plus_eq. apply loc_plus in H. apply (gagree_bind (Forall (Forall loc))).
      + apply gagree_mapM. rewrite Forall_forall in *. intros x Hx. apply IH; [exact Hx|now apply H].
      + intros ls Hls. apply (gagree_bind (Forall loc)); [|intros r Hr; apply gagree_ok; now apply stable_ops_loc]. apply gagree_mapM. intros tels Ht.
        apply (a_plus l K K' HK). pose proof (zip_all_loc _ Hls) as HZ. rewrite Forall_forall in HZ. now apply HZ.
    - apply loc_times in H. induction es as [|x es IHe]; [apply gagree_err|]. destruct es as [|y es]; [apply gagree_err|]. pose proof (Forall_inv IH (Forall_inv H)) as IHx. specialize (IHe (Forall_inv_tail IH) (Forall_inv_tail H)). destruct es as [|z es].
      + rewrite !series_times2. apply (gagree_bind (Forall loc)); [exact IHx|]. intros c1 H1.
        apply (gagree_bind (Forall loc)); [exact (Forall_inv (Forall_inv_tail IH) (Forall_inv (Forall_inv_tail H)))|]. intros c2 H2. now apply HT.
      + rewrite !series_times3. apply (gagree_bind (Forall loc)); [exact IHx|]. intros c1 H1. apply (gagree_bind (Forall loc)); [exact IHe|]. intros c2 H2. now apply HT.
    - cbn [series]. apply (gagree_bind (Forall loc)); [apply IHa, H|]. intros sa Ha. apply (gagree_bind (Forall loc)); [apply IHb, H|]. intros sb Hb.
      apply (gagree_bind (Forall loc)); [|intros r Hr; apply gagree_ok; now apply stable_ops_loc]. apply gagree_mapM. intros n _. apply (gagree_bind (Forall loc)); [|intros cs Hcs; now apply (a_plus l K K' HK)].
      apply gagree_mapM. intros k _. apply (gagree_bind loc); [now apply gagree_nth|]. intros x Hx. apply (gagree_bind loc); [now apply gagree_nth|]. intros y Hy. now apply (a_comm l K K' HK).
    - cbn [series]. apply (gagree_bind (Forall loc)); [apply IH, H|]. intros sa Ha. apply (gagree_bind (Forall loc)); [|intros r Hr; apply gagree_ok; now apply stable_ops_loc].
      apply gagree_mapM. intros x Hx. rewrite Forall_forall in Ha. apply (oadj_agree l K K' HK). now apply Ha.
    - apply gagree_err.
    - cbn [series]. apply (gagree_bind (Forall loc)); [apply IH, H|]. intros sa Ha. apply gagree_ok. apply stable_ops_loc. rewrite Forall_forall in *. intros x Hx. apply in_map_iff in Hx. destruct Hx as [y [<- Hy]]. exact (Ha y Hy).
  Qed.
End LocalSeries.
