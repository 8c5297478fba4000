(** C27 writing out indexed sums, C28 renaming of summation indices, C29 sums of
    constants and Kronecker deltas. *)
From Verif Require Import Prelude ListFacts SortModel SortProofs HilbertModel BasisModel BasisSpec BasisProofs AlgSpec AlgInst IdxModel IdxSpec IdxProofs1 IdxProofs2 IdxProofs3 IdxProofs4 IdxProofs5 IdxProofs6.

(** ** C27 *)

(** the mappings of a sum over finite ranges: in row-major order, one for every
    combination of values *)
Theorem C27_assignments n rs :
  finite_ranges rs ->
  exists l, assignments n rs = Ok l /\ length l = product_of (sizes rs)
    /\ (forall is, one_each rs is -> nth_error l (rank (sizes rs) is) = Some (assignment rs is))
    /\ (forall p, p < length l -> exists is, one_each rs is /\ rank (sizes rs) is = p
          /\ forall js, one_each rs js -> rank (sizes rs) js = p -> js = is).
Proof.
  intros Hf. exists (cartesian (choices rs)). split; [now apply assignments_ok|]. split; [apply choices_length|].
  assert (Hs : sizes rs = map (@length _) (choices rs)).
  { unfold sizes, choices. rewrite map_map. apply map_ext. intros r. now rewrite map_length. }
  split.
  - intros is Hi. rewrite Hs. apply nth_cartesian_gen.
    + unfold choices. rewrite map_length. exact (Forall2_length' _ _ _ Hi).
    + clear Hs Hf. induction Hi as [|i r is rs' H1 H2 IH]; [constructor|].
      unfold choices, assignment in *. cbn [map combine fst snd]. constructor; [|exact IH]. cbn [fst snd].
      now rewrite nth_error_map, (nth_error_nth_lt _ _ 0%Z H1).
  - intros p Hp. rewrite choices_length in Hp. fold (sizes rs) in Hp.
    assert (Hlt : forall is, one_each rs is <-> Forall2 lt is (sizes rs)).
    { intros is. unfold one_each, sizes. clear. revert is.
      induction rs as [|r rs IH]; intros is; (split; intros H; inversion H; subst; constructor; auto; now apply IH). }
    destruct (rank_onto _ _ Hp) as [is [F1 F2]]. exists is. split; [now apply Hlt|]. split; [exact F2|].
    intros js Hj E. apply (rank_inj (sizes rs)); [now apply Hlt|exact F1|congruence].
Qed.

(** [doit()] of a finite sum whose term is not itself a sum, with 1 to [limit + 1]
    terms: the explicit sum of the substituted terms in row-major order, and its
    value is the sum over all values of the indices *)
Theorem C27_doit_full limit t rs :
  finite_ranges rs -> NoDup (syms rs) -> wf t -> is_sum t = false ->
  (forall x, In x (syms rs) -> ~ In x (tbound t)) ->
  1 <= product_of (sizes rs) <= S limit ->
  exists l u us, assignments 0 rs = Ok l
    /\ Forall2 (fun a u => tsubst (consts a) t = Ok u) l (u :: us)
    /\ doit_full limit None t rs = Ok (Some (fold_left TAdd us u))
    /\ forall M symI atomI e, tden M symI atomI e (fold_left TAdd us u) = tden M symI atomI e (TSum t rs).
Proof.
  intros Hf Hn Hw Hs Hb Hlen.
  destruct (terms_ok Zalg (fun _ _ => 0%Z) (fun _ _ => 0%Z) 0 t rs Hf Hn Hw Hb) as [us [T1 [T2 _]]].
  assert (HL : length us = product_of (sizes rs)).
  { rewrite <- (Forall2_length' _ _ _ T2). apply choices_length. }
  assert (Hns : Forall (fun u => is_sum u = false) us).
  { clear - T2 Hs. induction T2 as [|a u l us H1 H2 IH]; [constructor|]. constructor; [|exact IH].
    now rewrite (tsubst_is_sum _ _ _ H1). }
  assert (Hd : doit_full limit None t rs = Ok (fold_left add_one us None)).
  { unfold doit_full. rewrite (sum_len_ok rs Hf). cbn [bind]. rewrite T1. cbn [bind]. apply doit_loop_ok; [exact Hns|]. cbn [Nat.add]. lia. }
  destruct us as [|u us]; [cbn in HL; lia|].
  assert (HF : forall us a, fold_left add_one us (Some a) = Some (fold_left TAdd us a)).
  { clear. induction us as [|v us IH]; intros a; [reflexivity|]. cbn [fold_left]. apply IH. }
  exists (cartesian (choices rs)), u, us. split; [now apply assignments_ok|]. split; [exact T2|].
  split; [rewrite Hd; cbn [fold_left]; change (add_one None u) with (Some u); now rewrite HF|].
  intros M symI atomI e.
  destruct (terms_ok M symI atomI 0 t rs Hf Hn Hw Hb) as [us' [T1' [_ T3]]].
  assert (E : us' = u :: us).
  { rewrite T1 in T1'. assert (E1 : map (@Ok term) us' = map Ok (u :: us)) by congruence.
    apply (HilbertProofs.map_inj (@Ok term)); [intros x y [= ->]; reflexivity|]. exact E1. }
  subst us'. pose proof (add_all_den M symI atomI e (u :: us) None) as Ha. cbn [fold_left oden] in Ha.
  change (add_one None u) with (Some u) in Ha. rewrite HF in Ha. cbn [oden] in Ha. rewrite Ha, aadd_0.
  rewrite (asum_Forall2 M _ _ _ _ (T3 e)). cbn [tden]. exact (asum_cartesian M rs (fun e => tden M symI atomI e t) e).
Qed.
(** more terms than the limit allows, or an endless range: InfiniteSumError *)
Theorem C27_doit_limit limit t rs :
  finite_ranges rs -> NoDup (syms rs) -> wf t -> is_sum t = false ->
  (forall x, In x (syms rs) -> ~ In x (tbound t)) ->
  S limit < product_of (sizes rs) -> doit_full limit None t rs = Err InfiniteSumError.
Proof.
  intros Hf Hn Hw Hs Hb Hlen.
  destruct (terms_ok Zalg (fun _ _ => 0%Z) (fun _ _ => 0%Z) 0 t rs Hf Hn Hw Hb) as [us [T1 [T2 _]]].
  unfold doit_full. rewrite (sum_len_ok rs Hf). cbn [bind]. rewrite T1. cbn [bind].
  apply doit_loop_limit; [|rewrite <- (Forall2_length' _ _ _ T2), choices_length; exact Hlen|lia].
  clear - T2 Hs. induction T2 as [|a u l us H1 H2 IH]; [constructor|]. constructor; [|exact IH].
  now rewrite (tsubst_is_sum _ _ _ H1).
Qed.
Theorem C27_doit_infinite limit t rs :
  Forall (fun r => finite_range (snd r) \/ irange_values (snd r) = Ok None) rs ->
  Exists (fun r => irange_values (snd r) = Ok None) rs ->
  doit_full limit None t rs = Err InfiniteSumError /\ sum_len rs = Err InfiniteSumError.
Proof.
  intros Ha He. assert (E : sum_len rs = Err InfiniteSumError).
  { unfold sum_len. match goal with |- bind ?m _ = _ => assert (Em : m = Err InfiniteSumError) end; [|now rewrite Em].
    assert (Hend : forall r, irange_values r = Ok None -> r = OverFock None).
    { intros [l|a b s|[n|]]; cbn; try discriminate; [destruct (s =? 0)%Z; discriminate|reflexivity]. }
    induction rs as [|r rs IH]; [inversion He|]. cbn [mapM].
    destruct (Forall_inv Ha) as [H1|H1].
    - rewrite (finite_len _ H1). cbn [bind]. rewrite IH; [reflexivity|exact (Forall_inv_tail Ha)|].
      inversion He as [? ? H2|? ? H2]; subst; [|exact H2]. destruct H1 as [l H1]. congruence.
    - rewrite (Hend _ H1). reflexivity. }
  split; [|exact E]. unfold doit_full. now rewrite E.
Qed.
(** [doit(max_terms=m)]: the first [m] terms, also of an endless sum; more than
    the limit is a ValueError *)
Theorem C27_max_terms limit m t rs :
  finite_ranges rs -> NoDup (syms rs) -> wf t -> is_sum t = false ->
  (forall x, In x (syms rs) -> ~ In x (tbound t)) -> 1 <= m -> 1 <= product_of (sizes rs) ->
  (limit < m -> doit_full limit (Some m) t rs = Err ValueError)
  /\ (m <= limit ->
      exists l u us, assignments 0 rs = Ok l
        /\ Forall2 (fun a u => tsubst (consts a) t = Ok u) (firstn m l) (u :: us)
        /\ doit_full limit (Some m) t rs = Ok (Some (fold_left TAdd us u))).
Proof.
  intros Hf Hn Hw Hs Hb Hm Hp.
  split; [intros H; unfold doit_full; destruct (Nat.ltb_spec limit m); [reflexivity|lia]|]. intros Hl.
  destruct (terms_ok Zalg (fun _ _ => 0%Z) (fun _ _ => 0%Z) (S m) t rs Hf Hn Hw Hb) as [us [T1 [T2 _]]].
  assert (Hns : Forall (fun u => is_sum u = false) us).
  { clear - T2 Hs. induction T2 as [|a u l us H1 H2 IH]; [constructor|]. constructor; [|exact IH].
    now rewrite (tsubst_is_sum _ _ _ H1). }
  assert (HL : length us = product_of (sizes rs)).
  { rewrite <- (Forall2_length' _ _ _ T2). apply choices_length. }
  assert (Hd : doit_full limit (Some m) t rs = Ok (fold_left add_one (firstn m us) None)).
  { unfold doit_full. destruct (Nat.ltb_spec limit m); [lia|]. rewrite T1. cbn [bind].
    rewrite doit_loop_max; [now rewrite Nat.sub_0_r|exact Hns|exact Hl|lia]. }
  assert (HT : Forall2 (fun a u => tsubst (consts a) t = Ok u) (firstn m (cartesian (choices rs))) (firstn m us)).
  { clear - T2. revert m. induction T2 as [|a u l us H1 H2 IH]; intros [|m]; try constructor; auto. }
  assert (HF : forall us a, fold_left add_one us (Some a) = Some (fold_left TAdd us a)).
  { clear. induction us as [|v us IH]; intros a; [reflexivity|]. cbn [fold_left]. apply IH. }
  destruct (firstn m us) as [|u us'] eqn:Eu.
  { destruct us; [cbn in HL; lia|]. destruct m; [lia|discriminate]. }
  exists (cartesian (choices rs)), u, us'. split; [now apply assignments_ok|]. split; [exact HT|].
  rewrite Hd. cbn [fold_left]. change (add_one None u) with (Some u). now rewrite HF.
Qed.
Theorem C27_max_terms_endless limit m t x :
  wf t -> is_sum t = false -> ~ In x (tbound t) -> 1 <= m <= limit ->
  exists u us, Forall2 (fun i u => tsubst [(x, IConst (Z.of_nat i))] t = Ok u) (seq 0 m) (u :: us)
    /\ doit_full limit (Some m) t [(x, OverFock None)] = Ok (Some (fold_left TAdd us u)).
Proof.
  intros Hw Hs Hb Hm.
  assert (Hx : exists us, map (fun i => tsubst [(x, IConst (Z.of_nat i))] t) (seq 0 (S m)) = map Ok us
             /\ Forall2 (fun i u => tsubst [(x, IConst (Z.of_nat i))] t = Ok u) (seq 0 (S m)) us).
  { induction (seq 0 (S m)) as [|i l IH]; [exists []; split; constructor|]. destruct IH as [us [I1 I2]].
    destruct (tsubst_wf [(x, IConst (Z.of_nat i))] t Hw) as [u [Eu _]].
    { intros z Hz. cbn. rewrite idx_eqb_neq; [reflexivity|]. intros ->. contradiction. }
    exists (u :: us). split; [cbn [map]; now rewrite Eu, I1|constructor; assumption]. }
  destruct Hx as [us [X1 X2]].
  assert (Hns : Forall (fun u => is_sum u = false) us).
  { clear - X2 Hs. induction X2 as [|a u l us H1 H2 IH]; [constructor|]. constructor; [|exact IH].
    now rewrite (tsubst_is_sum _ _ _ H1). }
  assert (HT : terms (S m) t [(x, OverFock None)] = Ok (map Ok us)).
  { unfold terms, assignments. cbn [mapM]. unfold range_values. cbn [irange_values snd fst bind]. f_equal.
    rewrite <- X1. cbn [cartesian]. rewrite !map_map. clear. induction (seq 0 (S m)) as [|i l IH]; [reflexivity|].
    cbn [map flat_map app cartesian]. f_equal. exact IH. }
  assert (Hd : doit_full limit (Some m) t [(x, OverFock None)] = Ok (fold_left add_one (firstn m us) None)).
  { unfold doit_full. destruct (Nat.ltb_spec limit m); [lia|]. rewrite HT. cbn [bind].
    rewrite doit_loop_max; [now rewrite Nat.sub_0_r|exact Hns|lia|lia]. }
  assert (H2 : Forall2 (fun i u => tsubst [(x, IConst (Z.of_nat i))] t = Ok u) (firstn m (seq 0 (S m))) (firstn m us)).
  { clear - X2. revert X2. generalize (seq 0 (S m)). intros l X2. revert m. induction X2 as [|a u l us H1 H2 IH]; intros [|m]; try constructor; auto. }
  assert (Hfs : firstn m (seq 0 (S m)) = seq 0 m).
  { rewrite seq_S, firstn_app, seq_length, Nat.sub_diag, firstn_O, app_nil_r. apply firstn_all2. now rewrite seq_length. }
  rewrite Hfs in H2.
  assert (HF : forall us a, fold_left add_one us (Some a) = Some (fold_left TAdd us a)).
  { clear. induction us as [|v us0 IH]; intros a; [reflexivity|]. cbn [fold_left]. apply IH. }
  destruct (firstn m us) as [|u us'] eqn:Eu.
  { apply Forall2_length' in H2. rewrite seq_length in H2. cbn in H2. lia. }
  exists u, us'. split; [exact H2|]. rewrite Hd. cbn [fold_left]. change (add_one None u) with (Some u). now rewrite HF.
Qed.
Theorem C27_len rs : finite_ranges rs -> sum_len rs = Ok (product_of (sizes rs)).
Proof. apply sum_len_ok. Qed.
(** [doit(indices=...)]: writing out some of the indices keeps the value *)
Theorem C27_doit_over limit indices t rs :
  finite_ranges rs -> NoDup (syms rs) -> wf t -> is_sum t = false ->
  (forall x, In x (syms rs) -> ~ In x (tbound t)) ->
  (forall x r, In (x, r) rs -> length (vals r) <= S limit /\ vals r <> []) ->
  exists s, doit_over limit indices t rs = Ok (Some s)
    /\ forall M symI atomI e, tden M symI atomI e s = tden M symI atomI e (TSum t rs).
Proof.
  intros H1 H2 H3 H4 H5 H6.
  destruct (doit_over_ok Zalg (fun _ _ => 0%Z) (fun _ _ => 0%Z) limit indices t rs H1 H2 H3 H4 H5 H6) as [s [S1 _]].
  exists s. split; [exact S1|]. intros M symI atomI e.
  destruct (doit_over_ok M symI atomI limit indices t rs H1 H2 H3 H4 H5 H6) as [s' [S1' S2]]. congruence.
Qed.

Local Notation i_ := (0, 0). Local Notation j_ := (1, 0). Local Notation i' := (0, 1). Local Notation j' := (1, 1).
Local Notation vi := (IVar i_). Local Notation vj := (IVar j_).
(** non-vacuity: Σ_{i=0..1} Σ_{j∈{3,5}} A_ij, 4 terms *)
Example C27_hyps :
  let rs := [(i_, OverRange 0 1 1); (j_, OverList [3; 5]%Z)] in
  finite_ranges rs /\ NoDup (syms rs) /\ product_of (sizes rs) = 4
  /\ doit_full 1000 None (TAtom 0 [vi; vj]) rs
     = Ok (Some (TAdd (TAdd (TAdd (TAtom 0 [IConst 0; IConst 3]) (TAtom 0 [IConst 0; IConst 5])) (TAtom 0 [IConst 1; IConst 3]))
                      (TAtom 0 [IConst 1; IConst 5])))
  /\ doit_over 1000 [i_] (TAtom 0 [vi; vj]) rs
     = Ok (Some (TSum (TAdd (TAtom 0 [IConst 0; vj]) (TAtom 0 [IConst 1; vj])) [(j_, OverList [3; 5]%Z)])).
Proof.
  cbn zeta. split; [repeat constructor; eexists; reflexivity|]. split; [repeat constructor; cbn; intuition congruence|].
  repeat split; vm_compute; reflexivity.
Qed.
(** the sum over an empty range, and max_terms = 0, give None instead of zero *)
Theorem C27_empty_refuted t x limit : doit_full limit None t [(x, OverRange 1 0 1)] = Ok None.
Proof. reflexivity. Qed.
Theorem C27_max_terms_zero_refuted n limit x :
  doit_full limit (Some 0) (TAtom n [IVar x]) [(x, OverRange 0 1 1)] = Ok None.
Proof. destruct limit; reflexivity. Qed.
(** the limit of 1000 terms admits 1001 terms *)
Theorem C27_limit_off_by_one_refuted :
  product_of (sizes [(i_, OverRange 0 1000 1)]) = 1001
  /\ exists s, doit_full 1000 None (TAtom 0 [vi]) [(i_, OverRange 0 1000 1)] = Ok (Some s).
Proof. split; [vm_compute; reflexivity|]. eexists. vm_compute. reflexivity. Qed.
(** a term that is itself a sum (which assoc_indexed normally prevents, but not for
    a nested sum with a coefficient written out over one index) cannot be added up *)
Theorem C27_nested_sum_refuted limit :
  1 <= limit ->
  doit_full limit None (TSum (TAtom 0 [vi; vj]) [(j_, OverRange 0 1 1)]) [(i_, OverRange 0 1 1)] = Err NotImplementedError
  /\ doit_full limit None (TAdd (TSum (TAtom 0 [vi]) [(i_, OverRange 0 1 1)]) (TAtom 1 [vi])) [(i_, OverRange 0 1 1)] = Err TypeError.
Proof. intros H. destruct limit as [|l]; [lia|]. split; reflexivity. Qed.

(** ** C28 *)

(** the renamed sum shares no index symbol with [others], keeps its ranges, and,
    when no primed copy of a clashing index occurs in it, its value *)
Theorem C28_make_disjunct_avoids others t rs s :
  make_disjunct others t rs = Ok s -> forall z, In z (syms (snd s)) -> ~ In z others.
Proof. intros H. apply (disjunct_loop_avoid others rs (t, rs) s); [auto|exact H]. Qed.
Theorem C28_make_disjunct_value others t rs :
  wf t -> NoDup (syms rs) ->
  (forall x, In x (syms rs) -> In x others ->
     primes_fresh x t /\ forall y, primed_copy x y -> ~ In y (syms rs)) ->
  exists t' rs', make_disjunct others t rs = Ok (t', rs')
    /\ map snd rs' = map snd rs /\ NoDup (syms rs')
    /\ (forall z, In z (syms rs') -> ~ In z others)
    /\ (forall z, In z (syms rs') -> In z (syms rs) \/ exists x, In x (syms rs) /\ In x others /\ primed_copy x z)
    /\ forall M symI atomI e, tden M symI atomI e (TSum t' rs') = tden M symI atomI e (TSum t rs).
Proof.
  intros Hw Hn Hp.
  assert (Hp' : forall x, In x (syms rs) -> In x others -> primes_fresh x t) by (intros x H1 H2; now apply Hp).
  destruct (disjunct_loop_total others rs rs t rs Hw Hn Hn) as [[t' rs'] E]; auto.
  { intros x H1 H2. destruct (Hp x H1 H2) as [[P1 _] P2]. split; assumption. }
  exists t', rs'. split; [exact E|].
  destruct (make_disjunct_ok Zalg (fun _ _ => 0%Z) (fun _ _ => 0%Z) others t rs (t', rs') Hw Hn Hp' E) as [R1 [R2 [R3 [R4 [R5 [R6 [R7 R8]]]]]]].
  cbn [fst snd] in *. split; [exact R8|]. split; [exact R2|]. split; [exact R5|]. split; [exact R6|]. intros M symI atomI.
  apply (make_disjunct_ok M symI atomI others t rs (t', rs') Hw Hn Hp' E).
Qed.

(** product of two sums *)
Theorem C28_mul_sums t rs t' rs' :
  wf t' -> NoDup (syms rs) -> NoDup (syms rs') ->
  (forall x, In x (syms rs') -> ~ In x (tfree (TSum t rs))) ->
  (forall x, In x (syms rs) -> ~ In x (tfree (TSum t' rs'))) ->
  (forall x, In x (syms rs') -> In x (syms rs) ->
     primes_fresh x t' /\ forall y, primed_copy x y -> ~ In y (syms rs') /\ ~ In y (tfree (TSum t rs))) ->
  exists r, mul_sums t rs t' rs' = Ok r
    /\ forall M symI atomI e, tden M symI atomI e r = amul (tden M symI atomI e (TSum t rs)) (tden M symI atomI e (TSum t' rs')).
Proof.
  intros Hw Hn Hn' H1 H2 Hp.
  destruct (C28_make_disjunct_value (syms rs) t' rs' Hw Hn') as [u [us [E [E1 [E2 [E3 _]]]]]].
  { intros x X1 X2. destruct (Hp x X1 X2) as [P1 P2]. split; [exact P1|]. intros y Hy. now apply P2. }
  assert (Er : mul_sums t rs t' rs' = Ok (TSum (TMul t u) (rs ++ us))).
  { unfold mul_sums. rewrite E. cbn [bind fst snd]. apply sum_init_ok. split; [reflexivity|].
    unfold syms in *. rewrite map_app. apply NoDup_app_intro; [exact Hn|exact E2|]. intros z Z1 Z2. now apply (E3 z). }
  exists (TSum (TMul t u) (rs ++ us)). split; [exact Er|]. intros M symI atomI.
  apply (mul_sums_ok M symI atomI t rs t' rs'); auto.
  - intros x X1 X2. now apply Hp.
  - intros x y X1 X2 Hy. destruct (Hp x X1 X2) as [_ P2]. now apply P2.
Qed.
Theorem C28_rmul_sums t rs t' rs' : rmul_sums t rs t' rs' = mul_sums t' rs' t rs.
Proof. reflexivity. Qed.
(** product with an expression that is not a sum *)
Theorem C28_mul_other t rs other :
  wf t -> NoDup (syms rs) ->
  (forall x, In x (syms rs) -> ~ In x (bound_symbols other) -> ~ In x (tfree other)) ->
  (forall x, In x (syms rs) -> In x (bound_symbols other) ->
     primes_fresh x t /\ forall y, primed_copy x y -> ~ In y (syms rs) /\ ~ In y (tfree other)) ->
  (exists r, mul_other t rs other = Ok r
    /\ forall M symI atomI e, tden M symI atomI e r = amul (tden M symI atomI e (TSum t rs)) (tden M symI atomI e other))
  /\ (exists r, rmul_other t rs other = Ok r
    /\ forall M symI atomI e, tden M symI atomI e r = amul (tden M symI atomI e other) (tden M symI atomI e (TSum t rs))).
Proof.
  intros Hw Hn H1 Hp.
  destruct (C28_make_disjunct_value (bound_symbols other) t rs Hw Hn) as [u [us [E [E1 [E2 [E3 _]]]]]].
  { intros x X1 X2. destruct (Hp x X1 X2) as [P1 P2]. split; [exact P1|]. intros y Hy. now apply P2. }
  assert (Hp1 : forall x, In x (syms rs) -> In x (bound_symbols other) -> primes_fresh x t) by (intros x X1 X2; now apply Hp).
  assert (Hp2 : forall x y, In x (syms rs) -> In x (bound_symbols other) -> primed_copy x y -> ~ In y (bound_symbols other) -> ~ In y (tfree other)).
  { intros x y X1 X2 Hy _. destruct (Hp x X1 X2) as [_ P2]. now apply P2. }
  split.
  - assert (Er : mul_other t rs other = Ok (TSum (TMul u other) us)).
    { unfold mul_other. rewrite E. cbn [bind fst snd]. now apply sum_init_ok. }
    eexists. split; [exact Er|]. intros M symI atomI. apply (mul_other_ok M symI atomI t rs other); auto.
  - assert (Er : rmul_other t rs other = Ok (TSum (TMul other u) us)).
    { unfold rmul_other. rewrite E. cbn [bind fst snd]. now apply sum_init_ok. }
    eexists. split; [exact Er|]. intros M symI atomI. apply (rmul_other_ok M symI atomI t rs other); auto.
Qed.
(** scalar factors of scalar sums, when no index clashes *)
Theorem C28_scalar_mul t rs c :
  NoDup (syms rs) -> (forall x, In x (syms rs) -> ~ In x (sfree c)) ->
  exists r, scalar_sum_mul t rs c = Ok r
    /\ forall M symI atomI e, tden M symI atomI e r = smul (sden M symI e c) (tden M symI atomI e (TSum t rs)).
Proof.
  intros Hn Hc.
  assert (E : (match sfree c with [] => Ok (t, rs) | l => make_disjunct l t rs end) = Ok (t, rs)).
  { destruct (sfree c) as [|x l] eqn:Es; [reflexivity|]. unfold make_disjunct. clear Hn.
    assert (H : forall todo, (forall z, In z (syms todo) -> ~ In z (x :: l)) -> disjunct_loop (x :: l) todo (t, rs) = Ok (t, rs)).
    { induction todo as [|r todo IH]; intros H; [reflexivity|]. cbn [disjunct_loop].
      rewrite (proj2 (imem_false (fst r) (x :: l))); [apply IH; intros z Hz; apply H; now right|]. apply H. now left. }
    apply H. intros z Hz. now apply Hc. }
  exists (TSum (TScale c t) rs). split.
  { unfold scalar_sum_mul. rewrite E. cbn [bind fst]. now apply sum_init_ok. }
  intros M symI atomI e. cbn [tden]. rewrite <- sum_ranges_smul. apply sum_ranges_ext. intros e' He. f_equal.
  apply sden_ext. intros x Hx. apply He. intros F. now apply (Hc x).
Qed.
(** non-vacuity: Σ_i A_i · Σ_i Σ_j B_ij and (Σ_i A_i)·(Σ_i C_i + D) *)
Example C28_hyps :
  let rs := [(i_, OverRange 0 1 1)] in let rs2 := [(i_, OverRange 0 1 1); (j_, OverRange 0 2 1)] in
  mul_sums (TAtom 0 [vi]) rs (TAtom 1 [vi; vj]) rs2
    = Ok (TSum (TMul (TAtom 0 [vi]) (TAtom 1 [IVar i'; vj])) [(i_, OverRange 0 1 1); (i', OverRange 0 1 1); (j_, OverRange 0 2 1)])
  /\ primes_fresh i_ (TAtom 1 [vi; vj]) /\ (forall y, primed_copy i_ y -> ~ In y (syms rs2) /\ ~ In y (tfree (TSum (TAtom 0 [vi]) rs)))
  /\ mul_other (TAtom 0 [vi]) rs (TAdd (TSum (TAtom 2 [vi]) rs) (TAtom 3 []))
    = Ok (TSum (TMul (TAtom 0 [IVar i']) (TAdd (TSum (TAtom 2 [vi]) rs) (TAtom 3 []))) [(i', OverRange 0 1 1)]).
Proof.
  cbn zeta. split; [reflexivity|]. split.
  { split; [intros []|]. intros y [Y1 Y2]. split; [|intros []]. cbn. intros [<-|[<-|[]]]; cbn in *; lia. }
  split; [|reflexivity]. intros y [Y1 Y2]. split; [|intros []]. cbn. intros [<-|[<-|[]]]; cbn in *; lia.
Qed.

(** values for the refutations: every symbol is the last of its indices, or 1 *)
Local Notation lastv := (fun (_ : nat) (l : list Z) => last l 1%Z).
(** free indices of one factor are captured by the summation indices of the other:
    (Σ_i A_ij)·(Σ_j B_j), and (Σ_i A_i)·B_i *)
Theorem C28_capture_refuted :
  (exists t rs t' rs' r e, mul_sums t rs t' rs' = Ok r /\ wf t' /\ NoDup (syms rs) /\ NoDup (syms rs')
     /\ (forall x, In x (syms rs) -> ~ In x (syms rs'))
     /\ tden Zalg lastv lastv e r <> amul (tden Zalg lastv lastv e (TSum t rs)) (tden Zalg lastv lastv e (TSum t' rs')))
  /\ (exists t rs other r e, mul_other t rs other = Ok r /\ wf t /\ NoDup (syms rs) /\ bound_symbols other = []
     /\ tden Zalg lastv lastv e r <> amul (tden Zalg lastv lastv e (TSum t rs)) (tden Zalg lastv lastv e other)).
Proof.
  split.
  - exists (TAtom 0 [vi; vj]), [(i_, OverRange 0 1 1)], (TAtom 1 [vj]), [(j_, OverRange 0 1 1)].
    eexists _, (fun _ => 5%Z). split; [reflexivity|]. split; [exact I|].
    split; [repeat constructor; cbn; intuition congruence|]. split; [repeat constructor; cbn; intuition congruence|].
    split; [cbn; intuition congruence|]. vm_compute. discriminate.
  - exists (TAtom 0 []), [(i_, OverRange 0 1 1)], (TAtom 1 [vi]).
    eexists _, (fun _ => 5%Z). split; [reflexivity|]. split; [exact I|].
    split; [repeat constructor; cbn; intuition congruence|]. split; [reflexivity|]. vm_compute. discriminate.
Qed.
(** priming does not look at the indices inside the term: renaming i in Σ_i A_{i i'} gives Σ_i' A_{i' i'} *)
Theorem C28_prime_capture_refuted :
  exists others t rs s e, make_disjunct others t rs = Ok s /\ wf t /\ NoDup (syms rs)
    /\ tden Zalg lastv lastv e (TSum (fst s) (snd s)) <> tden Zalg lastv lastv e (TSum t rs).
Proof.
  exists [i_], (TAtom 0 [vi; IVar i']), [(i_, OverRange 0 1 1)]. eexists _, (fun _ => 5%Z).
  split; [reflexivity|]. split; [exact I|]. split; [repeat constructor; cbn; intuition congruence|]. vm_compute. discriminate.
Qed.
(** Σ_i A_i · Σ_{i,i'} B_{i i'}: the renamed index clashes with the sum's own, ValueError *)
Theorem C28_prime_clash_refuted n m r :
  mul_sums (TAtom n [vi]) [(i_, r)] (TAtom m [vi; IVar i']) [(i_, r); (i', r)] = Err ValueError.
Proof. reflexivity. Qed.
(** a scalar sum times a scalar that contains the summation index keeps the old
    range although the index in the term was renamed *)
Theorem C28_scalar_mul_refuted :
  exists t rs c r e, scalar_sum_mul t rs c = Ok r /\ NoDup (syms rs) /\ primes_fresh i_ t
    /\ tden Zalg lastv lastv e r <> smul (sden Zalg lastv e c) (tden Zalg lastv lastv e (TSum t rs)).
Proof.
  exists (TAtom 0 [vi]), [(i_, OverRange 0 1 1)], (SIdx vi). eexists _, (fun x => Z.of_nat (5 + snd x)).
  split; [reflexivity|]. split; [repeat constructor; cbn; intuition congruence|]. split.
  { split; [intros []|]. intros y [Y1 Y2]. split; [|intros []]. cbn. intros [<-|[]]; cbn in *; lia. }
  vm_compute. discriminate.
Qed.

(** ** C29 *)

(** nested sums are merged *)
Theorem C29_assoc u us rs :
  wf u -> NoDup (syms rs) -> NoDup (syms us) ->
  (forall x, In x (syms us) -> In x (syms rs) -> primes_fresh x u /\ forall y, primed_copy x y -> ~ In y (syms us)) ->
  (exists u' us', assoc_indexed (TSum u us) rs = Ok (Done (TSum u' (rs ++ us'))) /\ map snd us' = map snd us
    /\ forall M symI atomI e, tden M symI atomI e (TSum u' (rs ++ us')) = tden M symI atomI e (TSum (TSum u us) rs))
  /\ (forall c, (forall x, In x (syms us) -> ~ In x (sfree c) /\ (In x (syms rs) -> forall y, primed_copy x y -> ~ In y (sfree c))) ->
      exists r, assoc_indexed (TScale c (TSum u us)) rs = Ok (Done r)
    /\ forall M symI atomI e, tden M symI atomI e r = tden M symI atomI e (TSum (TScale c (TSum u us)) rs)).
Proof.
  intros Hw Hn Hn' Hp.
  destruct (C28_make_disjunct_value (syms rs) u us Hw Hn') as [u' [us' [E [E1 [E2 [E3 _]]]]]].
  { intros x X1 X2. destruct (Hp x X1 X2) as [P1 P2]. split; [exact P1|]. exact P2. }
  assert (Hp1 : forall x, In x (syms us) -> In x (syms rs) -> primes_fresh x u) by (intros x X1 X2; now apply Hp).
  assert (Hnn : forall v, sum_init v (rs ++ us') = Ok (TSum v (rs ++ us'))).
  { intros v. apply sum_init_ok. split; [reflexivity|]. unfold syms in *. rewrite map_app.
    apply NoDup_app_intro; [exact Hn|exact E2|]. intros z Z1 Z2. now apply (E3 z). }
  split.
  - assert (Er : assoc_indexed (TSum u us) rs = Ok (Done (TSum u' (rs ++ us')))).
    { unfold assoc_indexed. rewrite E. cbn [bind fst snd]. now rewrite Hnn. }
    exists u', us'. split; [exact Er|]. split; [exact E1|]. intros M symI atomI e.
    pose proof (assoc_plain M symI atomI _ rs u us _ Hw Hn' Hp1 eq_refl Er e) as H. exact H.
  - intros c Hc.
    assert (Er : exists r, assoc_indexed (TScale c (TSum u us)) rs = Ok (Done r)).
    { unfold assoc_indexed. rewrite E. cbn [bind fst snd].
      destruct (existsb _ (sfree c)); rewrite Hnn; cbn [bind]; eexists; reflexivity. }
    destruct Er as [r Er]. exists r. split; [exact Er|]. intros M symI atomI e.
    refine (assoc_coeff M symI atomI _ rs c u us _ Hw Hn' Hp1 _ _ eq_refl Er e).
    + intros x X1 X2. now apply Hc.
    + intros x y X1 X2 Hy _. destruct (Hc x X1) as [_ C2]. now apply C2.
Qed.
(** a coefficient that contains an index of the inner sum is captured:
    Σ_j k·(Σ_k A_k) becomes Σ_{j,k} k·A_k *)
Theorem C29_assoc_refuted :
  exists c u us rs r e, wf u /\ NoDup (syms rs) /\ NoDup (syms us) /\ (forall x, In x (syms us) -> ~ In x (syms rs))
    /\ assoc_indexed (TScale c (TSum u us)) rs = Ok (Done r)
    /\ tden Zalg lastv lastv e r <> tden Zalg lastv lastv e (TSum (TScale c (TSum u us)) rs).
Proof.
  exists (SIdx vi), (TAtom 0 [vi]), [(i_, OverRange 0 1 1)], [(j_, OverRange 0 1 1)]. eexists _, (fun _ => 5%Z).
  split; [exact I|]. split; [repeat constructor; cbn; intuition congruence|]. split; [repeat constructor; cbn; intuition congruence|].
  split; [cbn; intuition congruence|]. split; [reflexivity|]. vm_compute. discriminate.
Qed.

(** ranges whose index does not occur in the term become a factor; what remains is
    summed over exactly the indices that do occur *)
Theorem C29_const t rs :
  finite_ranges rs -> NoDup (syms rs) ->
  exists s, sum_over_const t rs = Ok s
    /\ (match s with Done _ => True | Ops _ rs' => rs' = filter (fun r => imem (fst r) (tfree t)) rs end)
    /\ ((exists u, s = Done u) <-> forall r, In r rs -> ~ In (fst r) (tfree t))
    /\ forall M symI atomI e, simp_den M symI atomI e s = tden M symI atomI e (TSum t rs).
Proof.
  intros Hf Hn. destruct (const_loop_total t rs t Hf) as [s0 E].
  pose proof (const_loop_shape t rs t s0 Hf E) as Hsh.
  assert (Es : sum_over_const t rs = Ok (match snd s0 with [] => Done (fst s0) | _ => Ops (fst s0) (snd s0) end)).
  { unfold sum_over_const. now rewrite E. }
  eexists. split; [exact Es|]. split; [|split].
  - destruct (snd s0); [exact I|exact Hsh].
  - rewrite Hsh. split.
    + intros H r Hr F. destruct (filter _ rs) as [|q l] eqn:Ef; [|destruct H; discriminate].
      assert (In r []) by (rewrite <- Ef; apply filter_In; split; [exact Hr|now apply imem_spec]). contradiction.
    + intros H. destruct (filter _ rs) as [|q l] eqn:Ef; [eexists; reflexivity|].
      assert (Hq : In q (q :: l)) by (now left). rewrite <- Ef in Hq. apply filter_In in Hq. destruct Hq as [Q1 Q2].
      apply imem_spec in Q2. destruct (H q Q1 Q2).
  - intros M symI atomI. apply (sum_over_const_ok M symI atomI t rs); auto.
Qed.
(** pulling a scalar that does not contain a summation index out of the sum *)
Theorem C29_pull_constfactor c t rs :
  NoDup (syms rs) ->
  ((exists x, In x (sfree c) /\ In x (syms rs)) -> pull_constfactor c t rs = Ok None)
  /\ ((forall x, In x (sfree c) -> ~ In x (syms rs)) -> pull_constfactor c t rs = Ok (Some (TScale c (TSum t rs))))
  /\ forall r, pull_constfactor c t rs = Ok (Some r) ->
       forall M symI atomI e, tden M symI atomI e r = tden M symI atomI e (TSum (TScale c t) rs).
Proof.
  intros Hn. split; [|split].
  - intros [x [X1 X2]]. unfold pull_constfactor.
    replace (existsb (fun x => imem x (syms rs)) (sfree c)) with true; [reflexivity|]. symmetry. apply existsb_exists.
    exists x. split; [exact X1|now apply imem_spec].
  - intros H. unfold pull_constfactor.
    replace (existsb (fun x => imem x (syms rs)) (sfree c)) with false.
    + now rewrite (proj2 (sum_init_ok t rs _) (conj eq_refl Hn)).
    + symmetry. apply not_true_is_false. intros F. apply existsb_exists in F. destruct F as [x [X1 X2]]. apply imem_spec in X2.
      now apply (H x).
  - intros r Hr M symI atomI. now apply pull_constfactor_ok.
Qed.

(** resolving Kronecker deltas keeps the value, when the two arguments of every delta
    have the same possible values and no range lists a value twice; [create] stands
    for any value-preserving construction of the remaining sums *)
Lemma deltas_plain e rs s : deltas_in_range e rs s -> splain e rs s.
Proof.
  assert (HI : forall V a, delta_arg V e rs a -> plainI e V rs a).
  { intros V a H. destruct a as [y|z| |]; try contradiction.
    - left. exists y. split; [exact H|reflexivity].
    - right. exists z. split; [exact H|reflexivity]. }
  induction s as [c|a|n args|a b|r a|l IH|l IH] using scal_rect'; cbn [deltas_in_range splain]; auto.
  - intros [V [H1 H2]]. exists V. split; auto.
  - intros H. apply splain_all. intros s Hs. induction l as [|u l IHl]; [destruct Hs|].
    cbn [fold_right] in H. destruct H as [H1 H2]. destruct Hs as [->|Hs]; [exact (Forall_inv IH H1)|exact (IHl (Forall_inv_tail IH) H2 Hs)].
  - intros H. apply splain_all. intros s Hs. induction l as [|u l IHl]; [destruct Hs|].
    cbn [fold_right] in H. destruct H as [H1 H2]. destruct Hs as [->|Hs]; [exact (Forall_inv IH H1)|exact (IHl (Forall_inv_tail IH) H2 Hs)].
Qed.
Lemma deltas_safe e rs t : (forall c q, t = TScale c q -> deltas_in_range e rs c) -> safe e rs false (t, rs).
Proof.
  intros H. cbn [safe fst snd]. intros f Hf. destruct t as [n args|c q| | |]; cbn in Hf; try contradiction.
  pose proof (deltas_plain e rs c (H c q eq_refl)) as Hp. destruct c; cbn [mul_args] in Hf;
    try (destruct Hf as [<-|[]]; exact Hp). cbn [splain] in Hp. rewrite splain_all in Hp. now apply Hp.
Qed.
Theorem C29_kronecker M symI atomI create same fuel e t rs s :
  wf t -> NoDup (syms rs) -> (forall x r, In (x, r) rs -> NoDup (vals r)) ->
  (forall z, In z (tbound t) -> ~ In z (tfree t) /\ ~ In z (syms rs)) ->
  (forall c q, t = TScale c q -> deltas_in_range e rs c) ->
  (forall u us r, NoDup (syms us) -> create u us = Ok r -> tden M symI atomI e r = tden M symI atomI e (TSum u us)) ->
  sum_over_kronecker create same false fuel t rs = Ok s ->
  simp_den M symI atomI e s = tden M symI atomI e (TSum t rs).
Proof.
  intros Hw Hn Hv Hb Hd Hc H.
  apply (sum_over_kronecker_ok M symI atomI create same e false fuel t rs s); auto. now apply deltas_safe.
Qed.
(** it always ends, and the only failures are those of [create] and of adding a sum
    on the left *)
Theorem C29_kronecker_total create same e t rs :
  wf t -> NoDup (syms rs) -> rs <> [] -> (forall x r, In (x, r) rs -> NoDup (vals r)) ->
  (forall z, In z (tbound t) -> ~ In z (tfree t) /\ ~ In z (syms rs)) ->
  (forall c q, t = TScale c q -> deltas_in_range e rs c) ->
  exists fuel, forall f, (exists s, sum_over_kronecker create same false (fuel + f) t rs = Ok s)
    \/ sum_over_kronecker create same false (fuel + f) t rs = Err NotImplementedError
    \/ (exists u us x, create u us = Err x /\ sum_over_kronecker create same false (fuel + f) t rs = Err x).
Proof.
  intros Hw Hn Hne Hv Hb Hd. apply (sum_over_kronecker_total create same e t rs); auto. now apply deltas_safe.
Qed.
(** with piecewise indicators (the flag _RESOLVE_KRONECKER_WITH_PIECEWISE) any finite
    range other than that of a Fock space is sound, whatever the deltas *)
Theorem C29_kronecker_piecewise M symI atomI create same fuel e t rs s :
  wf t -> NoDup (syms rs) -> finite_ranges rs ->
  (forall x r, In (x, r) rs -> NoDup (vals r) /\ forall d, r <> OverFock d) ->
  (forall z, In z (tbound t) -> ~ In z (tfree t) /\ ~ In z (syms rs)) ->
  (forall u us r, NoDup (syms us) -> create u us = Ok r -> tden M symI atomI e r = tden M symI atomI e (TSum u us)) ->
  sum_over_kronecker create same true fuel t rs = Ok s ->
  simp_den M symI atomI e s = tden M symI atomI e (TSum t rs).
Proof.
  intros Hw Hn Hf Hv Hb Hc H.
  apply (sum_over_kronecker_ok M symI atomI create same e true fuel t rs s); auto.
  - intros x r Hr. now apply (Hv x).
  - cbn [safe]. intros x r Hr v. destruct (Hv x r Hr) as [_ Hd].
    unfold finite_ranges in Hf. rewrite Forall_forall in Hf. destruct (Hf _ Hr) as [l Hl]. cbn [snd] in Hl.
    destruct r as [l0|a b st|d]; [| |destruct (Hd d eq_refl)]; unfold vals; rewrite Hl; cbn [irange_values irange_one] in *.
    + injection Hl as ->. reflexivity.
    + destruct (st =? 0)%Z; [discriminate|]. injection Hl as <-. reflexivity.
Qed.
(** non-vacuity: Σ_{i,j∈0..2} δ_ij x_i A_ij = Σ_i x_i A_ii *)
Example C29_hyps :
  let R := OverRange 0 2 1 in let rs := [(i_, R); (j_, R)] in
  let t := TScale (SMul [SDelta vi vj; SSym 7 [vi]]) (TAtom 0 [vi; vj]) in
  (forall e c q, t = TScale c q -> deltas_in_range e rs c)
  /\ (forall x r, In (x, r) rs -> NoDup (vals r))
  /\ sum_over_kronecker sum_init (fun _ _ => false) false 10 t rs
     = Ok (Done (TSum (TScale (SMul [SSym 7 [vi]]) (TAtom 0 [vi; IAdd vi (IMul (-1) (IConst 0))])) [(i_, R)])).
Proof.
  cbn zeta. split; [|split].
  - intros e c q [= <- <-]. cbn [deltas_in_range fold_right]. split; [|tauto]. exists [0; 1; 2]%Z. split; cbn [delta_arg]; left.
    + exists (OverRange 0 2 1). split; [now left|]. intros v. reflexivity.
    + exists (OverRange 0 2 1). split; [right; now left|]. intros v. reflexivity.
  - intros x r [[= <- <-]|[[= <- <-]|[]]]; vm_compute; repeat constructor; cbn; intuition discriminate.
  - vm_compute. reflexivity.
Qed.
(** the range is ignored: Σ_{i=0..2} δ_{i7} A_i gives A_7 instead of 0, and
    Σ_{i∈(1,1)} δ_{i1} A_i gives A_1 instead of 2 A_1 *)
Theorem C29_kronecker_range_refuted :
  (exists t rs s e, sum_over_kronecker sum_init (fun _ _ => false) false 10 t rs = Ok (Done s)
     /\ wf t /\ NoDup (syms rs) /\ (forall x r, In (x, r) rs -> NoDup (vals r)) /\ finite_ranges rs
     /\ tden Zalg lastv lastv e s <> tden Zalg lastv lastv e (TSum t rs))
  /\ (exists t rs s e, sum_over_kronecker sum_init (fun _ _ => false) false 10 t rs = Ok (Done s)
     /\ wf t /\ NoDup (syms rs) /\ finite_ranges rs /\ (forall c q, t = TScale c q -> deltas_in_range e rs c)
     /\ tden Zalg lastv lastv e s <> tden Zalg lastv lastv e (TSum t rs)).
Proof.
  split.
  - exists (TScale (SDelta vi (IConst 7)) (TAtom 0 [vi])), [(i_, OverRange 0 2 1)]. eexists _, (fun _ => 0%Z).
    split; [vm_compute; reflexivity|]. split; [exact I|]. split; [repeat constructor; intros []|].
    split; [intros x r [[= <- <-]|[]]; vm_compute; repeat constructor; cbn; intuition discriminate|].
    split; [repeat constructor; eexists; reflexivity|]. vm_compute. discriminate.
  - exists (TScale (SDelta vi (IConst 1)) (TAtom 0 [vi])), [(i_, OverList [1; 1]%Z)]. eexists _, (fun _ => 0%Z).
    split; [vm_compute; reflexivity|]. split; [exact I|]. split; [repeat constructor; intros []|].
    split; [repeat constructor; eexists; reflexivity|]. split.
    { intros c q [= <- <-]. exists [1]%Z. split; [left|now left]. exists (OverList [1; 1]%Z). split; [now left|]. intros v. cbn. tauto. }
    vm_compute. discriminate.
Qed.
(** Σ_{i,j} (δ_ij + 1) A_ij cannot be built: the first resolved summand is a sum,
    and sums do not implement addition on their left *)
Theorem C29_kronecker_plus_refuted :
  sum_over_kronecker sum_init (fun _ _ => false) false 10
    (TScale (SMul [SAdd [SDelta vi vj; SConst 1]]) (TAtom 0 [vi; vj])) [(i_, OverRange 0 2 1); (j_, OverRange 0 2 1)]
  = Err NotImplementedError.
Proof. vm_compute. reflexivity. Qed.

Print Assumptions C27_assignments.
Print Assumptions C27_doit_full.
Print Assumptions C27_doit_limit.
Print Assumptions C27_doit_infinite.
Print Assumptions C27_max_terms.
Print Assumptions C27_max_terms_endless.
Print Assumptions C27_len.
Print Assumptions C27_doit_over.
Print Assumptions C27_empty_refuted.
Print Assumptions C27_max_terms_zero_refuted.
Print Assumptions C27_limit_off_by_one_refuted.
Print Assumptions C27_nested_sum_refuted.
Print Assumptions C28_make_disjunct_avoids.
Print Assumptions C28_make_disjunct_value.
Print Assumptions C28_mul_sums.
Print Assumptions C28_rmul_sums.
Print Assumptions C28_mul_other.
Print Assumptions C28_scalar_mul.
Print Assumptions C28_capture_refuted.
Print Assumptions C28_prime_capture_refuted.
Print Assumptions C28_prime_clash_refuted.
Print Assumptions C28_scalar_mul_refuted.
Print Assumptions C29_assoc.
Print Assumptions C29_assoc_refuted.
Print Assumptions C29_const.
Print Assumptions C29_pull_constfactor.
Print Assumptions C29_kronecker.
Print Assumptions C29_kronecker_total.
Print Assumptions C29_kronecker_piecewise.
Print Assumptions C29_kronecker_range_refuted.
Print Assumptions C29_kronecker_plus_refuted.
