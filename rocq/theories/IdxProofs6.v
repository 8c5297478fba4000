From Verif Require Import Prelude ListFacts SortModel SortProofs HilbertModel BasisModel BasisSpec BasisProofs AlgSpec IdxModel IdxSpec IdxProofs1 IdxProofs2 IdxProofs3 IdxProofs4 IdxProofs5 AlgInst.

(** ** the loop over the deltas ends *)
Fixpoint ssize (s : scal) : nat :=
  match s with
  | SAdd l | SMul l => S (fold_right (fun s n => ssize s + n) 0 l)
  | _ => 1
  end.
Definition lsize (l : list scal) : nat := fold_right (fun s n => ssize s + n) 0 l.
Lemma lsize_app a b : lsize (a ++ b) = lsize a + lsize b.
Proof. induction a as [|s a IH]; [reflexivity|]. cbn [app lsize fold_right] in *. fold (lsize (a ++ b)) (lsize a). rewrite IH. lia. Qed.
Lemma lsize_cons s l : lsize (s :: l) = ssize s + lsize l. Proof. reflexivity. Qed.
Lemma ssize_in a l : In a l -> ssize a <= lsize l.
Proof. induction l as [|s l IH]; intros H; [destruct H|]. rewrite lsize_cons. destruct H as [<-|H]; [lia|]. apply IH in H. lia. Qed.
Lemma mul_args_size a : lsize (mul_args a) <= ssize a.
Proof. destruct a; cbn; try lia; unfold lsize; lia. Qed.
Lemma expand_true_size x fs : forall ss s, In s (expand_loop x true fs ss) -> exists s0, In s0 ss /\ lsize s = lsize s0 + lsize fs.
Proof.
  induction fs as [|f fs IH]; intros ss s H; cbn [expand_loop] in H.
  - exists s. split; [exact H|]. cbn. lia.
  - assert (Hstep : In s (expand_loop x true fs (map (fun s => s ++ [f]) ss)) ->
      exists s0, In s0 ss /\ lsize s = lsize s0 + lsize (f :: fs)).
    { intros H'. apply IH in H'. destruct H' as [s1 [H1 H2]]. apply in_map_iff in H1. destruct H1 as [s0 [<- H1]].
      exists s0. split; [exact H1|]. rewrite H2, lsize_app, !lsize_cons. cbn. lia. }
    destruct f; apply Hstep; exact H.
Qed.
Lemma expand_false_size x fs : forall s0,
  expand_loop x false fs [s0] = [s0 ++ fs]
  \/ forall s, In s (expand_loop x false fs [s0]) -> lsize s < lsize s0 + lsize fs.
Proof.
  induction fs as [|f fs IH]; intros s0; cbn [expand_loop].
  - left. now rewrite app_nil_r.
  - assert (Hstep : expand_loop x false fs (map (fun s => s ++ [f]) [s0]) = [s0 ++ f :: fs]
      \/ forall s, In s (expand_loop x false fs (map (fun s => s ++ [f]) [s0])) -> lsize s < lsize s0 + lsize (f :: fs)).
    { cbn [map]. destruct (IH (s0 ++ [f])) as [E|E].
      - left. rewrite E, <- app_assoc. reflexivity.
      - right. intros s Hs. apply E in Hs. rewrite lsize_app, lsize_cons in Hs. rewrite lsize_cons. cbn in Hs. lia. }
    destruct f as [| | | | |l|]; try exact Hstep.
    destruct (negb false && has_simple_delta x (SAdd l)); [|exact Hstep]. right. intros s Hs. cbn [hd] in Hs.
    apply expand_true_size in Hs. destruct Hs as [s1 [H1 H2]]. apply in_map_iff in H1. destruct H1 as [a [<- Ha]].
    rewrite H2, lsize_app, lsize_cons. pose proof (mul_args_size a). pose proof (ssize_in a l Ha).
    assert (Hl : ssize (SAdd l) = S (lsize l)) by reflexivity. rewrite Hl. lia.
Qed.
Definition tsize (t : term) : nat := lsize (top t).
Lemma expand_delta_size x t : (exists s, expand_delta x t = [s]) \/ forall s, In s (expand_delta x t) -> tsize s < tsize t.
Proof.
  unfold expand_delta, tsize, top. destruct (factors_of t) as [fs q]. cbn [fst].
  destruct (expand_false_size x fs []) as [E|E].
  - left. rewrite E. eexists. reflexivity.
  - right. intros s Hs. apply in_map_iff in Hs. destruct Hs as [u [<- Hu]]. apply E in Hu. exact Hu.
Qed.
Lemma mapM_err {X Y} (f : X -> res Y) l e : mapM f l = Err e -> exists x, In x l /\ f x = Err e.
Proof.
  induction l as [|x l IH]; cbn [mapM]; [discriminate|]. destruct (f x) as [y|e'] eqn:E; cbn [bind].
  - destruct (mapM f l) as [ys|e2] eqn:E2; cbn [bind]; [discriminate|]. intros [= ->]. destruct (IH eq_refl) as [z [Hz1 Hz2]].
    exists z. split; [now right|exact Hz2].
  - intros [= ->]. exists x. split; [now left|exact E].
Qed.
Lemma tsubst_no_fuel m t e : tsubst m t = Err e -> e <> OutOfFuel.
Proof.
  revert e. induction t as [n args|c t IH|t IHt u IHu|t IHt u IHu|t IH rs]; intros e H; cbn [tsubst] in H; try discriminate.
  - destruct (tsubst m t) as [t'|e'] eqn:E; cbn [bind] in H; [discriminate|]. injection H as <-. now apply IH.
  - destruct (tsubst m t) as [t'|e'] eqn:E; cbn [bind] in H; [|injection H as <-; now apply IHt].
    destruct (tsubst m u) as [u'|e'] eqn:F; cbn [bind] in H; [discriminate|]. injection H as <-. now apply IHu.
  - destruct (tsubst m t) as [t'|e'] eqn:E; cbn [bind] in H; [|injection H as <-; now apply IHt].
    destruct (tsubst m u) as [u'|e'] eqn:F; cbn [bind] in H; [discriminate|]. injection H as <-. now apply IHu.
  - destruct (tsubst m t) as [t'|e'] eqn:E; cbn [bind] in H; [|injection H as <-; now apply IH].
    destruct (mapM (range_subst m) rs) as [rs'|e'] eqn:F; cbn [bind] in H.
    + unfold sum_init in H. destruct (distinct (syms rs')); [discriminate|]. injection H as <-. discriminate.
    + injection H as <-. apply mapM_err in F. destruct F as [r [_ F]]. unfold range_subst in F.
      destruct (lookup (fst r) m) as [[]|]; try discriminate; injection F as <-; discriminate.
Qed.
Lemma deltasummation_cases pw t rs i r : nth_error rs i = Some r ->
  (exists e, deltasummation pw t rs i = Err e /\ e <> OutOfFuel)
  \/ deltasummation pw t rs i = Ok ([(t, rs)], 2)
  \/ (exists nt, deltasummation pw t rs i = Ok ([(nt, remove_nth i rs)], 1))
  \/ (exists ss, deltasummation pw t rs i = Ok (map (fun s => (s, rs)) ss, 3) /\ forall s, In s ss -> tsize s < tsize t).
Proof.
  intros Hi. unfold deltasummation. rewrite Hi. cbn [of_option bind].
  destruct (expand_delta_size (fst r) t) as [[s E]|Hs].
  - rewrite E. destruct (factors_of s) as [fs q]. destruct (extract_loop (fst r) fs) as [[[a b] rest]|]; [|tauto].
    destruct (solve (fst r) a b) as [v|e] eqn:Es; cbn [bind].
    + destruct (tsubst [(fst r, v)] (TScale (SMul rest) q)) as [nt|e] eqn:En; cbn [bind].
      * right. right. left. eexists. reflexivity.
      * left. exists e. split; [reflexivity|]. now apply tsubst_no_fuel in En.
    + left. exists e. split; [reflexivity|]. unfold solve in Es.
      destruct (_ =? 1)%Z; [discriminate|]. destruct (_ =? -1)%Z; [discriminate|]. injection Es as <-. discriminate.
  - destruct (expand_delta (fst r) t) as [|s [|s' ss]] eqn:E.
    + right. right. right. exists []. split; [reflexivity|]. intros s [].
    + destruct (factors_of s) as [fs q]. destruct (extract_loop (fst r) fs) as [[[a b] rest]|]; [|tauto].
      destruct (solve (fst r) a b) as [v|e] eqn:Es; cbn [bind].
      * destruct (tsubst [(fst r, v)] (TScale (SMul rest) q)) as [nt|e] eqn:En; cbn [bind].
        -- right. right. left. eexists. reflexivity.
        -- left. exists e. split; [reflexivity|]. now apply tsubst_no_fuel in En.
      * left. exists e. split; [reflexivity|]. unfold solve in Es.
        destruct (_ =? 1)%Z; [discriminate|]. destruct (_ =? -1)%Z; [discriminate|]. injection Es as <-. discriminate.
    + right. right. right. exists (s :: s' :: ss). split; [reflexivity|exact Hs].
Qed.

Section Loop.
  Context (pw : bool) (ds : list idx).
  Notation items_t := (list (term * list irange_of)).
  (** the loop reaches the end of the given items, or fails *)
  Definition ends (its : items_t) (i : nat) : Prop :=
    exists N, (exists fin, forall f finished rest,
                 kron_loop pw ds (N + f) finished (its ++ rest) i = kron_loop pw ds f (finished ++ fin) rest 0)
           \/ (exists e, e <> OutOfFuel /\ forall f finished rest, kron_loop pw ds (N + f) finished (its ++ rest) i = Err e).
  Lemma ends_nil : ends [] 0.
  Proof. exists 0. left. exists []. intros. now rewrite app_nil_r. Qed.
  Lemma ends_cons it its i : ends [it] i -> ends its 0 -> ends (it :: its) i.
  Proof.
    intros [N1 [[fin1 H1]|[e1 [E1 H1]]]] [N2 H2].
    - exists (N1 + N2). destruct H2 as [[fin2 H2]|[e2 [E2 H2]]].
      + left. exists (fin1 ++ fin2). intros f finished rest. rewrite <- Nat.add_assoc.
        change ((it :: its) ++ rest) with ([it] ++ (its ++ rest)). rewrite H1, H2. now rewrite app_assoc.
      + right. exists e2. split; [exact E2|]. intros f finished rest. rewrite <- Nat.add_assoc.
        change ((it :: its) ++ rest) with ([it] ++ (its ++ rest)). rewrite H1, H2. reflexivity.
    - exists N1. right. exists e1. split; [exact E1|]. intros f finished rest.
      change ((it :: its) ++ rest) with ([it] ++ (its ++ rest)). apply H1.
  Qed.
  Lemma ends_all its : (forall it, In it its -> ends [it] 0) -> ends its 0.
  Proof.
    induction its as [|it its IH]; intros H; [apply ends_nil|]. apply ends_cons; [apply H; now left|]. apply IH.
    intros q Hq. apply H. now right.
  Qed.
  Lemma ends_err e t rs i : e <> OutOfFuel -> (forall f finished rest, kron_loop pw ds (S f) finished ((t, rs) :: rest) i = Err e) ->
    ends [(t, rs)] i.
  Proof. intros He H. exists 1. right. exists e. split; [exact He|exact H]. Qed.
  Lemma ends_finish t rs i it its : (forall f finished rest, kron_loop pw ds (S f) finished ((t, rs) :: rest) i
      = kron_loop pw ds f (finished ++ [it]) (its ++ rest) 0) -> ends its 0 -> ends [(t, rs)] i.
  Proof.
    intros H [N [[fin H1]|[e [E H1]]]].
    - exists (S N). left. exists (it :: fin). intros f finished rest. change (S N + f) with (S (N + f)).
      cbn [app]. rewrite H, H1, <- app_assoc. reflexivity.
    - exists (S N). right. exists e. split; [exact E|]. intros f finished rest. change (S N + f) with (S (N + f)).
      cbn [app]. rewrite H, H1. reflexivity.
  Qed.
  Lemma ends_step t rs i its n : (forall f finished rest, kron_loop pw ds (S f) finished ((t, rs) :: rest) i
      = kron_loop pw ds f finished (its ++ rest) n) -> ends its n -> ends [(t, rs)] i.
  Proof.
    intros H [N [[fin H1]|[e [E H1]]]].
    - exists (S N). left. exists fin. intros f finished rest. change (S N + f) with (S (N + f)).
      cbn [app]. now rewrite H, H1.
    - exists (S N). right. exists e. split; [exact E|]. intros f finished rest. change (S N + f) with (S (N + f)).
      cbn [app]. now rewrite H, H1.
  Qed.
  Lemma remove_nth_length {X} i (l : list X) r : nth_error l i = Some r -> length (remove_nth i l) < length l.
  Proof.
    intros H. apply remove_nth_perm in H. apply Permutation_length in H. rewrite app_length in H. cbn in H. lia.
  Qed.
  Lemma item_ends : forall m n k t rs i, length rs = m -> tsize t = n -> length rs - i = k -> ends [(t, rs)] i.
  Proof.
    induction m as [m IHm] using lt_wf_ind. induction n as [n IHn] using lt_wf_ind. induction k as [k IHk] using lt_wf_ind.
    intros t rs i Hm Hn Hk. destruct (nth_error rs i) as [r|] eqn:Er.
    2:{ apply (ends_err IndexError); [discriminate|]. intros. cbn [kron_loop]. now rewrite Er. }
    assert (Hi : i < length rs) by (apply nth_error_Some; congruence).
    assert (Hnext : (forall f finished rest, kron_loop pw ds (S f) finished ((t, rs) :: rest) i =
        if length rs <=? S i then kron_loop pw ds f (finished ++ [(t, rs)]) ([] ++ rest) 0
        else kron_loop pw ds f finished ([(t, rs)] ++ rest) (S i)) -> ends [(t, rs)] i).
    { intros H. destruct (Nat.leb_spec (length rs) (S i)).
      - apply (ends_finish t rs i (t, rs) []); [exact H|apply ends_nil].
      - apply (ends_step t rs i [(t, rs)] (S i)); [exact H|]. apply (IHk (length rs - S i)); auto. lia. }
    destruct (imem (fst r) ds) eqn:Ed.
    2:{ apply Hnext. intros. cbn [kron_loop]. rewrite Er. cbn [of_option bind]. rewrite Ed. reflexivity. }
    destruct (deltasummation_cases pw t rs i r Er) as [[e [H1 H2]]|[H|[[nt H]|[ss [H1 H2]]]]].
    - apply (ends_err e); [exact H2|]. intros. cbn [kron_loop]. rewrite Er. cbn [of_option bind]. rewrite Ed, H1. reflexivity.
    - apply Hnext. intros. cbn [kron_loop]. rewrite Er. cbn [of_option bind]. rewrite Ed, H. reflexivity.
    - pose proof (remove_nth_length i rs r Er) as Hl.
      destruct (Nat.leb_spec (length (remove_nth i rs)) i).
      + apply (ends_finish t rs i (nt, remove_nth i rs) []); [|apply ends_nil]. intros. cbn [kron_loop]. rewrite Er.
        cbn [of_option bind]. rewrite Ed, H. cbn [bind fst snd Nat.eqb]. destruct (Nat.leb_spec (length (remove_nth i rs)) i); [reflexivity|lia].
      + apply (ends_step t rs i [(nt, remove_nth i rs)] i).
        * intros. cbn [kron_loop]. rewrite Er.
          cbn [of_option bind]. rewrite Ed, H. cbn [bind fst snd Nat.eqb]. destruct (Nat.leb_spec (length (remove_nth i rs)) i); [lia|reflexivity].
        * eapply IHm; [|reflexivity|reflexivity|reflexivity]. lia.
    - destruct ss as [|s ss].
      + apply (ends_err IndexError); [discriminate|]. intros. cbn [kron_loop]. rewrite Er. cbn [of_option bind].
        rewrite Ed, H1. reflexivity.
      + apply (ends_step t rs i (map (fun s => (s, rs)) (s :: ss)) i).
        * intros. cbn [kron_loop]. rewrite Er. cbn [of_option bind]. rewrite Ed, H1. cbn [bind fst snd Nat.eqb map].
          destruct (Nat.leb_spec (length rs) i); [lia|reflexivity].
        * cbn [map]. apply ends_cons.
          -- eapply IHn; [|exact Hm|reflexivity|reflexivity]. rewrite <- Hn. apply H2. now left.
          -- apply ends_all. intros it Hit. apply in_map_iff in Hit. destruct Hit as [u [<- Hu]].
             eapply IHn; [|exact Hm|reflexivity|reflexivity]. rewrite <- Hn. apply H2. now right.
  Qed.
  Lemma kron_loop_ends t rs : exists fuel, forall f, kron_loop pw ds (fuel + f) [] [(t, rs)] 0 <> Err OutOfFuel.
  Proof.
    destruct (item_ends _ _ _ t rs 0 eq_refl eq_refl eq_refl) as [N [[fin H]|[e [E H]]]].
    - exists (S N). intros f. replace (S N + f) with (N + S f) by lia. pose proof (H (S f) [] []) as E. cbn [app] in E. rewrite E. discriminate.
    - exists N. intros f. pose proof (H f [] []) as F. cbn [app] in F. rewrite F. congruence.
  Qed.
End Loop.

(** ** the rule *)
Section Den.
  Context (M : algebra) (symI : nat -> list Z -> K M) (atomI : nat -> list Z -> A M).
  Notation sd := (sden M symI). Notation td := (tden M symI atomI).
  Lemma sum_over_kronecker_ok create same e0 pw fuel t rs s :
    create_sound M symI atomI e0 create ->
    wf t -> NoDup (syms rs) -> (forall x r, In (x, r) rs -> NoDup (vals r)) ->
    (forall z, In z (tbound t) -> ~ In z (tfree t) /\ ~ In z (syms rs)) ->
    safe e0 rs pw (t, rs) ->
    sum_over_kronecker create same pw fuel t rs = Ok s ->
    simp_den M symI atomI e0 s = td e0 (TSum t rs).
  Proof.
    intros Hcr Hw Hn Hv Hb Hs H. unfold sum_over_kronecker in H. destruct (tdeltas t) as [|d ds0] eqn:Ed.
    { injection H as <-. reflexivity. }
    rewrite <- Ed in H. clear d ds0 Ed. set (ds := tdeltas t) in *. set (rs' := pysorted (key_gt ds) rs) in *.
    assert (Hp : Permutation rs' rs) by (apply Permutation_sym, pysorted_perm).
    assert (Hps : Permutation (syms rs') (syms rs)) by (now apply Permutation_map).
    destruct (kron_loop pw ds fuel [] [(t, rs')] 0) as [out|] eqn:Ek; [|discriminate]. cbn [bind] in H.
    assert (Hs' : safe e0 rs pw (t, rs')).
    { destruct pw; [exact Hs|]. cbn [safe fst snd] in *. intros f Hf. specialize (Hs f Hf). clear - Hs Hp Hps.
      assert (HI : forall V a, plainI e0 V rs a -> plainI e0 V rs' a).
      { intros V a [[y [Y1 Y2]]|Hz]; [|now right]. left. exists y. split; [|exact Y2].
        destruct Y1 as [[r [R1 R2]]|[R1 R2]]; [left; exists r; split; [|exact R2]|right; split; [|exact R2]].
        - now apply (Permutation_in _ (Permutation_sym Hp)).
        - intros F. apply R1. now apply (Permutation_in _ Hps). }
      induction f as [c|a|n args|a b|r a|l IH|l IH] using scal_rect'; cbn [splain] in *; auto.
      - destruct Hs as [V [Hs1 Hs2]]. exists V. split; auto.
      - rewrite splain_all in *. rewrite Forall_forall in IH. auto.
      - rewrite splain_all in *. rewrite Forall_forall in IH. auto. }
    destruct (kron_loop_ok M symI atomI e0 rs (tfree t ++ syms rs) (tbound t)) with (pw := pw) (ds := ds) (fuel := fuel)
      (finished := @nil (term * list irange_of)) (buffer := [(t, rs')]) (i := 0) (out := out) as [K1 K2].
    - intros z Hz F. apply in_app_or in F. destruct (Hb z Hz). tauto.
    - intros z Hz. apply in_or_app. now right.
    - exact Hv.
    - constructor; [|constructor]. repeat split; cbn [fst snd]; auto.
      + apply (Permutation_NoDup (Permutation_sym Hps) Hn).
      + intros q Hq. now apply (Permutation_in _ Hp).
      + intros z Hz. apply in_or_app. now left.
    - constructor; [exact Hs'|constructor].
    - constructor.
    - exact Ek.
    - assert (Htot : asum (item_den M symI atomI e0) out = td e0 (TSum t rs)).
      { rewrite K1. cbn [asum fold_right]. rewrite aadd_0, aadd_0r. unfold item_den. cbn [fst snd tden].
        apply sum_ranges_perm; [exact Hp| |apply tden_extf]. apply (Permutation_NoDup (Permutation_sym Hps) Hn). }
      destruct out as [|it items]; [discriminate|].
      destruct (_ && same it (t, rs')); [injection H as <-; reflexivity|].
      destruct (close_item create it) as [u|] eqn:U1; [|discriminate]. cbn [bind] in H.
      destruct (add_items create u items) as [w|] eqn:W1; [|discriminate]. cbn [bind] in H. injection H as <-. cbn [simp_den].
      rewrite (add_items_ok M symI atomI e0 rs (tfree t ++ syms rs) (tbound t) create items Hcr u w (Forall_inv_tail K2) W1).
      rewrite (close_item_ok M symI atomI e0 rs (tfree t ++ syms rs) (tbound t) create it u Hcr (Forall_inv K2) U1).
      rewrite <- Htot. reflexivity.
  Qed.
End Den.

Section Total.
  Context (e0 : env) (rs0 : list irange_of) (D B : list idx).
  Context (HBD : forall z, In z B -> ~ In z D) (HrsD : forall z, In z (syms rs0) -> In z D).
  Lemma expand_loop_nonempty x fs : forall found ss, ss <> [] -> expand_loop x found fs ss <> [].
  Proof.
    induction fs as [|f fs IH]; intros found ss Hs; cbn [expand_loop]; [exact Hs|].
    assert (Hstep : expand_loop x found fs (map (fun s => s ++ [f]) ss) <> []).
    { apply IH. destruct ss; [contradiction|discriminate]. }
    destruct f as [| | | | |l|]; try exact Hstep.
    destruct (negb found && has_simple_delta x (SAdd l)) eqn:E; [|exact Hstep]. apply IH.
    apply andb_true_iff in E. destruct E as [_ E]. destruct l; [discriminate|discriminate].
  Qed.
  Lemma solve_plain_ok V rs x a b : plainI e0 V rs a -> plainI e0 V rs b -> is_simple_delta x (SDelta a b) = true ->
    exists v, solve x a b = Ok v.
  Proof.
    intros Ha Hb Hd. cbn [is_simple_delta] in Hd. rewrite negb_true_iff, Z.eqb_neq in Hd. unfold solve.
    assert (Hc : forall a, plainI e0 V rs a -> coeff_of x a = 1%Z \/ coeff_of x a = 0%Z).
    { intros c [[y [_ Y]]|[z [_ Z]]].
      - rewrite (coeff_var x c y Y). destruct (idx_eqb x y); auto.
      - right. now apply (coeff_num x c z). }
    destruct (Hc a Ha) as [E1|E1], (Hc b Hb) as [E2|E2]; rewrite E1, E2 in *; try lia; cbn; eexists; reflexivity.
  Qed.
  Lemma deltasummation_total t rs i r : item_ok rs0 D B (t, rs) -> safe e0 rs0 false (t, rs) -> nth_error rs i = Some r ->
    exists it items flag, deltasummation false t rs i = Ok (it :: items, flag).
  Proof.
    intros Hok Hsafe Hi. unfold deltasummation. rewrite Hi. cbn [of_option bind].
    assert (Hne : expand_delta (fst r) t <> []).
    { unfold expand_delta. destruct (factors_of t) as [fs q]. intros F. apply map_eq_nil in F.
      apply (expand_loop_nonempty (fst r) fs false [[]]); [discriminate|exact F]. }
    destruct (expand_delta (fst r) t) as [|s [|s' ss]] eqn:Ee; [contradiction| |do 3 eexists; reflexivity].
    destruct (expand_item t (fst r) s) as [fs [-> Hfs]]; [rewrite Ee; now left|]. cbn [factors_of mul_args].
    destruct (extract_loop (fst r) fs) as [[[a b] rest]|] eqn:Ex; [|do 3 eexists; reflexivity].
    cbn [safe fst snd] in Hsafe.
    destruct (extract_den AlgInst.Zalg (fun _ _ => 0%Z) (fst r) fs a b rest Ex) as [X1 [_ [_ [_ [X5 _]]]]].
    pose proof (Hfs _ (closed_plain e0 rs) Hsafe _ X5) as [V [Pa Pb]].
    destruct (solve_plain_ok V rs (fst r) a b Pa Pb X1) as [v Ev]. rewrite Ev. cbn [bind].
    destruct Hok as [W [N [I [HB HD]]]]. cbn [fst snd] in *.
    destruct (tsubst_wf [(fst r, v)] (TScale (SMul rest) (snd (factors_of t)))) as [nt [En _]].
    - destruct t; cbn in *; auto.
    - intros z Hz. cbn [tbound] in Hz. cbn. rewrite idx_eqb_neq; [reflexivity|]. intros ->. apply (HBD (fst r)).
      + apply HB. destruct t; cbn in *; auto.
      + apply HrsD. unfold syms. apply in_map. apply I. now apply nth_error_In in Hi.
    - rewrite En. cbn [bind]. do 3 eexists. reflexivity.
  Qed.
  Context (Hnd : forall x r, In (x, r) rs0 -> NoDup (vals r)).
  Lemma kron_loop_total ds fuel : forall finished buffer i e,
    Forall (item_ok rs0 D B) buffer -> Forall (safe e0 rs0 false) buffer ->
    (forall it, In it buffer -> snd it <> []) ->
    (forall it rest, buffer = it :: rest -> i < length (snd it)) ->
    kron_loop false ds fuel finished buffer i = Err e -> e = OutOfFuel.
  Proof.
    induction fuel as [|fuel IH]; intros finished buffer i e Hb Hs Hne Hi H; cbn [kron_loop] in H; [congruence|].
    destruct buffer as [|[t rs] rest]; [discriminate|].
    pose proof (Forall_inv Hb) as B1. pose proof (Forall_inv_tail Hb) as B2.
    pose proof (Forall_inv Hs) as C1. pose proof (Forall_inv_tail Hs) as C2.
    specialize (Hi (t, rs) rest eq_refl). cbn [snd] in Hi.
    destruct (nth_error rs i) as [r|] eqn:Er; [|apply nth_error_None in Er; lia]. cbn [of_option bind] in H.
    assert (Hz : forall its : list (term * list irange_of), (forall it, In it (its ++ rest) -> snd it <> []) ->
        forall it l, its ++ rest = it :: l -> 0 < length (snd it)).
    { intros its H1 it l E. assert (F : snd it <> []) by (apply H1; rewrite E; now left). destruct (snd it); [contradiction|cbn; lia]. }
    assert (Hrest : forall it, In it rest -> snd it <> []) by (intros it Hit; apply Hne; now right).
    destruct (imem (fst r) ds).
    - destruct (deltasummation_total t rs i r B1 C1 Er) as [it [items [flag Ed]]].
      destruct (deltasummation_ok AlgInst.Zalg (fun _ _ => 0%Z) (fun _ _ => 0%Z) e0 rs0 D B HBD HrsD Hnd false t rs i _ _ B1 C1 Ed) as [_ [D2 D3]].
      destruct (deltasummation_cases false t rs i r Er) as [[e1 [E1 _]]|[E1|[[nt E1]|[ss [E1 _]]]]]; rewrite Ed in E1; try discriminate.
      + injection E1 as -> -> ->. rewrite Ed in H. cbn [bind fst snd Nat.eqb app] in H.
        destruct (Nat.leb_spec (length rs) (S i)).
        * apply IH in H; auto. intros it' l E. apply (Hz [] Hrest it' l E).
        * apply IH in H; auto. intros it' l [= <- <-]. exact H0.
      + injection E1 as -> -> ->. rewrite Ed in H. cbn [bind fst snd Nat.eqb app] in H.
        pose proof (Forall_inv D2) as I1. pose proof (Forall_inv D3) as J1.
        destruct (Nat.leb_spec (length (remove_nth i rs)) i).
        * apply IH in H; auto. intros it' l E. apply (Hz [] Hrest it' l E).
        * apply IH in H; auto.
          -- intros it' [<-|Hit]; [|now apply Hrest]. cbn [snd]. intros F. rewrite F in H0. cbn in H0. lia.
          -- intros it' l [= <- <-]. exact H0.
      + destruct ss as [|s ss]; [discriminate|]. injection E1 as -> -> ->. rewrite Ed in H. cbn [bind fst snd Nat.eqb map] in H.
        pose proof (Forall_inv D2) as I1. pose proof (Forall_inv_tail D2) as I2.
        pose proof (Forall_inv D3) as J1. pose proof (Forall_inv_tail D3) as J2.
        destruct (Nat.leb_spec (length rs) i); [lia|].
        apply IH in H; auto.
        * constructor; [exact I1|]. apply Forall_app. auto.
        * constructor; [exact J1|]. apply Forall_app. auto.
        * assert (Hrs : rs <> []) by (intros ->; cbn in Hi; lia).
          intros it' [<-|Hit]; [exact Hrs|]. apply in_app_or in Hit. destruct Hit as [Hit|Hit]; [|now apply Hrest].
          apply in_map_iff in Hit. destruct Hit as [u [<- _]]. exact Hrs.
        * intros it' l [= <- <-]. exact H0.
    - cbn [bind fst snd app] in H. destruct (Nat.leb_spec (length rs) (S i)).
      + apply IH in H; auto. intros it' l E. apply (Hz [] Hrest it' l E).
      + apply IH in H; auto. intros it' l [= <- <-]. exact H0.
  Qed.
End Total.
Lemma sum_over_kronecker_total create same e0 t rs :
  wf t -> NoDup (syms rs) -> rs <> [] -> (forall x r, In (x, r) rs -> NoDup (vals r)) ->
  (forall z, In z (tbound t) -> ~ In z (tfree t) /\ ~ In z (syms rs)) ->
  safe e0 rs false (t, rs) ->
  exists fuel, forall f, (exists s, sum_over_kronecker create same false (fuel + f) t rs = Ok s)
    \/ sum_over_kronecker create same false (fuel + f) t rs = Err NotImplementedError
    \/ (exists u us e, create u us = Err e /\ sum_over_kronecker create same false (fuel + f) t rs = Err e).
Proof.
  intros Hw Hn Hne Hv Hb Hs.
  assert (Htot : forall fuel e, kron_loop false (tdeltas t) fuel [] [(t, pysorted (key_gt (tdeltas t)) rs)] 0 = Err e -> e = OutOfFuel).
  { intros fuel e Ek. set (ds := tdeltas t) in *. set (rs' := pysorted (key_gt ds) rs) in *.
    assert (Hp : Permutation rs' rs) by (apply Permutation_sym, pysorted_perm).
    assert (Hps : Permutation (syms rs') (syms rs)) by (now apply Permutation_map).
    assert (Hs' : safe e0 rs false (t, rs')).
    { cbn [safe fst snd] in *. intros f Hf. specialize (Hs f Hf). clear - Hs Hp Hps.
      assert (HI : forall V a, plainI e0 V rs a -> plainI e0 V rs' a).
      { intros V a [[y [Y1 Y2]]|Hz]; [|now right]. left. exists y. split; [|exact Y2].
        destruct Y1 as [[r [R1 R2]]|[R1 R2]]; [left; exists r; split; [|exact R2]|right; split; [|exact R2]].
        - now apply (Permutation_in _ (Permutation_sym Hp)).
        - intros F. apply R1. now apply (Permutation_in _ Hps). }
      induction f as [c|a|n args|a b|r a|l IH|l IH] using scal_rect'; cbn [splain] in *; auto.
      - destruct Hs as [V [Hs1 Hs2]]. exists V. split; auto.
      - rewrite splain_all in *. rewrite Forall_forall in IH. auto.
      - rewrite splain_all in *. rewrite Forall_forall in IH. auto. }
    assert (HBD : forall z, In z (tbound t) -> ~ In z (tfree t ++ syms rs)).
    { intros z Hz F. apply in_app_or in F. destruct (Hb z Hz). tauto. }
    assert (HrsD : forall z, In z (syms rs) -> In z (tfree t ++ syms rs)) by (intros z Hz; apply in_or_app; now right).
    assert (Hit : Forall (item_ok rs (tfree t ++ syms rs) (tbound t)) [(t, rs')]).
    { constructor; [|constructor]. repeat split; cbn [fst snd]; auto.
      + apply (Permutation_NoDup (Permutation_sym Hps) Hn).
      + intros q Hq. now apply (Permutation_in _ Hp).
      + intros z Hz. apply in_or_app. now left. }
    assert (Hrs' : rs' <> []) by (intros E; rewrite E in Hp; apply Permutation_nil in Hp; contradiction).
    assert (Hsf : Forall (safe e0 rs false) [(t, rs')]) by (constructor; [exact Hs'|constructor]).
    apply (kron_loop_total e0 rs _ _ HBD HrsD Hv ds fuel [] [(t, rs')] 0 e Hit Hsf); auto.
    + intros it [<-|[]]. exact Hrs'.
    + intros it rest [= <- <-]. cbn [snd]. destruct rs'; [contradiction|cbn; lia]. }
  assert (Hout : forall ds fuel fin buf i, fin <> [] \/ buf <> [] -> kron_loop false ds fuel fin buf i <> Ok []).
  { clear. induction fuel as [|f IH]; intros fin buf i Hc; cbn [kron_loop]; [discriminate|].
          destruct buf as [|[t1 rs1] rest]; [destruct Hc as [Hc|Hc]; [intros [= E]; contradiction|contradiction]|].
          destruct (nth_error rs1 i); cbn [of_option bind]; [|discriminate].
          assert (G2 : forall (its : list (term * list irange_of)) (n : nat),
            match its with [] => Err IndexError | item :: items =>
              if length (snd item) <=? n then kron_loop false ds f (fin ++ [item]) (items ++ rest) 0
              else kron_loop false ds f fin (item :: items ++ rest) n end <> Ok []).
          { intros [|item items] n; [discriminate|]. destruct (_ <=? n); apply IH; [left; destruct fin; discriminate|right; discriminate]. }
          destruct (imem _ ds); cbn [bind]; [|apply G2]. destruct (deltasummation false t1 rs1 i) as [[? ?]|]; cbn [bind fst snd]; [apply G2|discriminate]. }

  destruct (kron_loop_ends false (tdeltas t) t (pysorted (key_gt (tdeltas t)) rs)) as [N HN]. exists N. intros f.
  unfold sum_over_kronecker. destruct (tdeltas t) as [|d ds0] eqn:Ed; [left; eexists; reflexivity|]. rewrite <- Ed in *. clear d ds0 Ed.
  destruct (kron_loop false (tdeltas t) (N + f) [] _ 0) as [out|e] eqn:Ek; cbn [bind].
  2:{ exfalso. apply (HN f). rewrite Ek. f_equal. now apply (Htot (N + f)). }
  destruct out as [|it items]; [exfalso; apply (Hout (tdeltas t) (N + f) [] [(t, pysorted (key_gt (tdeltas t)) rs)] 0); [right; discriminate|exact Ek]|].
  assert (Hc : forall it e, close_item create it = Err e -> exists u us, create u us = Err e).
  { intros it0 e. unfold close_item. destruct (snd it0) as [|r0 rs1] eqn:E1; [discriminate|]. intros H. eexists _, _. exact H. }
  assert (Ha : forall items acc, (exists s, add_items create acc items = Ok s) \/ add_items create acc items = Err NotImplementedError
     \/ (exists u us e, create u us = Err e /\ add_items create acc items = Err e)).
  { induction items0 as [|it0 items0 IH]; intros acc; cbn [add_items]; [left; eexists; reflexivity|].
    destruct (close_item create it0) as [c|e1] eqn:Ec; cbn [bind].
    - unfold plus. destruct (is_sum acc); cbn [bind]; [auto|apply IH].
    - right. right. destruct (Hc _ _ Ec) as [u [us Hu]]. exists u, us, e1. auto. }
  destruct (_ && same it _); [left; eexists; reflexivity|].
  destruct (close_item create it) as [c|e1] eqn:Ec; cbn [bind].
  - destruct (Ha items c) as [[s ->]|[->|[u [us [e [H1 ->]]]]]]; cbn [bind]; [left; eexists; reflexivity|auto|].
    right. right. exists u, us, e. auto.
  - right. right. destruct (Hc _ _ Ec) as [u [us Hu]]. exists u, us, e1. auto.
Qed.
