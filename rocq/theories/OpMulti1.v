(** Sorting the factors of products whose factors act on one local space each. *)
From Coq Require Import QArith Qcanon Permutation Sorting.
From Verif Require Import Prelude ListFacts SortModel SortSpec SortProofs BinModel BinProofs OpModel OpSpec OpProofs1 OpForms OpForm OpFuel OpOrder OpLocal OpClosed OpSiteSpec.
Local Open Scope nat_scope.

(** A list in which only certain elements come before earlier ones *)
Section Sort.
  Context {A : Type} (lt : A -> A -> bool) (R : A -> A -> Prop) (P : A -> Prop).
  Context (Hlt : forall x y, R x y -> lt y x = true -> P y).
  Local Notation RP := (fun x y => R x y \/ P x).
  Lemma bisect_end a p : (forall x, In x a -> lt p x = false) -> forall n lo hi, hi <= length a -> hi - lo <= n -> lo <= hi -> bisect lt n a p lo hi = hi.
  Proof.
    intros H. induction n as [|n IH]; intros lo hi Hh Hn Hl; cbn [bisect]; [lia|]. destruct (Nat.ltb_spec lo hi) as [L|L]; [|lia].
    assert ((hi - lo) / 2 < hi - lo) as Hq by (apply Nat.div_lt; lia).
    destruct (nth_error a (lo + (hi - lo) / 2)) as [x|] eqn:E; [|apply nth_error_None in E; lia].
    rewrite (H x (nth_error_In _ _ E)). apply IH; lia.
  Qed.
  Lemma sorted_app_intro (T : A -> A -> Prop) u v : StronglySorted T u -> StronglySorted T v -> (forall x y, In x u -> In y v -> T x y) -> StronglySorted T (u ++ v).
  Proof.
    intros Hu Hv H. induction Hu as [|x u Hu IH Hx]; [exact Hv|]. cbn [app]. constructor.
    - apply IH. intros a b Ha Hb. apply H; [now right|exact Hb].
    - apply Forall_app. split; [exact Hx|]. apply Forall_forall. intros y Hy. apply H; [now left|exact Hy].
  Qed.
  Lemma sorted_app_elim (T : A -> A -> Prop) u v : StronglySorted T (u ++ v) -> StronglySorted T u /\ StronglySorted T v /\ (forall x y, In x u -> In y v -> T x y).
  Proof.
    induction u as [|x u IH]; cbn [app]; intros H; [split; [constructor|split; [exact H|easy]]|].
    inversion H as [|? ? H1 H2]; subst. destruct (IH H1) as [G1 [G2 G3]]. apply Forall_app in H2. destruct H2 as [H2 H3]. split; [now constructor|]. split; [exact G2|].
    intros a b [<- |Ha] Hb; [|now apply G3]. rewrite Forall_forall in H3. now apply H3.
  Qed.
  Lemma binary_insert_late a p : StronglySorted RP a -> (forall x, In x a -> R x p) -> StronglySorted RP (binary_insert lt a p).
  Proof.
    intros Ha Hp. unfold binary_insert. destruct (existsb (lt p) a) eqn:E.
    - apply existsb_exists in E. destruct E as [x [Hx E]]. pose proof (Hlt x p (Hp x Hx) E) as HP.
      set (k := bisect _ _ _ _ _ _). pose proof Ha as Ha'. rewrite <- (firstn_skipn k a) in Ha'. apply sorted_app_elim in Ha'. destruct Ha' as [H1 [H2 H3]].
      apply sorted_app_intro; [exact H1| |].
      + constructor; [exact H2|]. apply Forall_forall. intros y _. now right.
      + intros y z Hy [<- |Hz]; [|now apply H3]. left. apply Hp. rewrite <- (firstn_skipn k a). apply in_or_app. now left.
    - rewrite bisect_end; try lia.
      2:{ intros x Hx. destruct (lt p x) eqn:E'; [|reflexivity]. assert (existsb (lt p) a = true) as C by (apply existsb_exists; exists x; now split). congruence. }
      rewrite firstn_all, skipn_all. apply sorted_app_intro; [exact Ha|repeat constructor|]. intros x y Hx [<- |[]]. left. now apply Hp.
  Qed.
  Lemma fold_insert_late l : forall a, StronglySorted RP a -> StronglySorted R l -> (forall x y, In x a -> In y l -> R x y) -> StronglySorted RP (fold_left (binary_insert lt) l a).
  Proof.
    induction l as [|p l IH]; intros a Ha Hl H; [exact Ha|]. cbn [fold_left]. inversion Hl as [|? ? Hl1 Hl2]; subst. apply IH; [|exact Hl1|].
    - apply binary_insert_late; [exact Ha|]. intros x Hx. apply H; [exact Hx|now left].
    - intros x y Hx Hy. apply (Permutation_in _ (Permutation_sym (binary_insert_perm lt a p))) in Hx. destruct Hx as [<- |Hx].
      + rewrite Forall_forall in Hl2. now apply Hl2.
      + apply H; [exact Hx|now right].
  Qed.
  Lemma run_true l : forall x, StronglySorted R (x :: l) -> Forall P (firstn (run_length lt true x l) l).
  Proof.
    induction l as [|y l IH]; intros x H; [constructor|]. cbn [run_length]. destruct (lt y x) eqn:E; cbn [Bool.eqb firstn]; [|constructor].
    inversion H as [|? ? H1 H2]; subst. constructor; [exact (Hlt x y (Forall_inv H2) E)|]. now apply IH.
  Qed.
  Lemma sorted_weaken (T T' : A -> A -> Prop) l : (forall x y, T x y -> T' x y) -> StronglySorted T l -> StronglySorted T' l.
  Proof. intros HT H. induction H as [|x l _ IH Hx]; constructor; [exact IH|]. eapply Forall_impl; [|exact Hx]. intros y. apply HT. Qed.
  Lemma rev_all_P l : Forall P l -> StronglySorted RP (rev l).
  Proof.
    induction 1 as [|x l Hx Hl IH]; [constructor|]. cbn [rev]. apply sorted_app_intro; [exact IH|repeat constructor|]. intros y z Hy _. right.
    apply in_rev in Hy. rewrite Forall_forall in Hl. now apply Hl.
  Qed.
  Theorem pysorted_late l : StronglySorted R l -> StronglySorted RP (pysorted lt l).
  Proof.
    intros H. unfold pysorted. destruct (count_run lt l) as [n d] eqn:E. pose proof H as H'. rewrite <- (firstn_skipn n l) in H'. apply sorted_app_elim in H'. destruct H' as [H1 [H2 H3]].
    apply fold_insert_late; [|exact H2|].
    - destruct d; [|now apply (sorted_weaken R); [left|]].
      destruct l as [|x [|y l]]; cbn [count_run] in E; try discriminate. destruct (lt y x) eqn:Eyx; [|discriminate]. injection E as <-. cbn [firstn rev].
      inversion H as [|? ? H4 H5]; subst. pose proof (run_true _ _ H4) as HP. assert (P y) as Hy by exact (Hlt x y (Forall_inv H5) Eyx).
      apply sorted_app_intro; [|repeat constructor|].
      + apply (rev_all_P (y :: _)). now constructor.
      + intros z w Hz _. right. apply (in_rev (y :: firstn (run_length lt true y l) l)) in Hz. destruct Hz as [<- |Hz]; [exact Hy|]. rewrite Forall_forall in HP. now apply HP.
    - intros x y Hx Hy. apply H3; [|exact Hy]. destruct d; [now apply in_rev|exact Hx].
  Qed.
End Sort.

(** ** Factors on single local spaces *)
Section Sites.
  Context {S : scalars} (olt : op S -> op S -> bool) (slt : list nat -> list nat -> bool).
  Local Notation op := (op S).
  Context (Ho : site_order olt slt).
  Local Notation lt := (odisj_lt olt slt).

  Lemma below_lt x y : below x y -> lt y x = true -> space y = [].
  Proof.
    intros H E. destruct (space y) as [|q h] eqn:Ey; [reflexivity|]. exfalso. unfold odisj_lt in E. rewrite Ey in E.
    destruct (sp_disjoint (q :: h) (space x)) eqn:D; [|discriminate]. apply sp_disjoint_apart in D.
    assert (slt (space x) (q :: h) = true) as G.
    { destruct (space x) as [|p h'] eqn:Ex; [now apply (so_nil _ _ Ho)|]. apply (so_lt _ _ Ho); [discriminate|discriminate|].
      intros p0 q0 Hp Hq. assert (p0 <= q0) by (apply H; [now rewrite Ex|now rewrite Ey]). assert (p0 <> q0) by (intros ->; exact (D q0 Hq Hp)). lia. }
    apply (slt_asym _ _ Ho) in G. congruence.
  Qed.
  Lemma indexed_app_sorted L : ordl L -> StronglySorted (fun p q : nat * op => fst p < fst q /\ below (snd p) (snd q)) (indexed L).
  Proof.
    unfold indexed. generalize 0. induction L as [|x L IH]; intros n H; [constructor|]. cbn [length seq combine]. inversion H as [|? ? H1 H2]; subst. constructor; [now apply IH|].
    apply Forall_forall. intros [j y] Hy. cbn [fst snd]. split.
    - apply in_combine_l in Hy. apply in_seq in Hy. lia.
    - apply in_combine_r in Hy. rewrite Forall_forall in H2. now apply H2.
  Qed.
  (** a list in the order of the sites stays so, and is sorted harmlessly *)
  Lemma ordl_sort L : ordl L -> careful_order olt slt L = real_order olt slt L /\ ordl (pysorted lt L).
  Proof.
    intros H. pose proof (indexed_app_sorted L H) as Hi.
    pose proof (pysorted_late (fun p q : nat * op => lt (snd p) (snd q)) _ (fun p => space (snd p) = [])
      (fun x y HR E => below_lt (snd x) (snd y) (proj2 HR) E) _ Hi) as Hs. split.
    - destruct (careful_real olt slt L) as [G|G]; [|exact G]. exfalso. unfold careful_order in G.
      assert (careful (pysorted (fun p q : nat * op => lt (snd p) (snd q)) (indexed L)) = true) as C; [|rewrite C in G; destruct G; discriminate].
      revert Hs. generalize (pysorted (fun p q : nat * op => lt (snd p) (snd q)) (indexed L)). intros r Hs.
      induction Hs as [|[i x] r _ IH Hx]; [reflexivity|]. cbn [careful]. rewrite IH, andb_true_r. apply forallb_forall. intros [j y] Hy. rewrite Forall_forall in Hx.
      destruct (Hx _ Hy) as [[E _]|E]; cbn [fst snd] in E; apply orb_true_intro; [left; now apply Nat.ltb_lt|right]. now rewrite E.
    - replace (pysorted lt L) with (map snd (pysorted (fun p q : nat * op => lt (snd p) (snd q)) (indexed L))) by (now rewrite <- (pysorted_map snd lt), indexed_snd).
      induction Hs as [|x r _ IH Hx]; [constructor|]. cbn [map]. constructor; [exact IH|]. apply Forall_forall. intros y Hy. apply in_map_iff in Hy. destruct Hy as [z [<- Hz]].
      rewrite Forall_forall in Hx. destruct (Hx _ Hz) as [[_ E]|E]; [exact E|]. intros p q Hp. now rewrite E in Hp.
  Qed.
  Lemma site_space (x : op) : site x -> space x = [] \/ exists l, space x = [l].
  Proof. intros [l H]. destruct (loc_space l x H) as [E|E]; [now left|right; now exists l]. Qed.
  (** a list of operators on single sites is sorted harmlessly, by site *)
  Lemma sites_sort L : Forall site L -> careful_order olt slt L = real_order olt slt L /\ ordl (pysorted lt L).
  Proof.
    intros H. rewrite Forall_forall in H.
    assert (consistent lt L) as HC.
    { apply local_consistent.
      - intros x y Hx Hy. destruct (site_space x (H x Hx)) as [-> |[l ->]], (site_space y (H y Hy)) as [-> |[l' ->]]; auto.
        destruct (Nat.eq_dec l l') as [-> |N]; [now left|right]. apply sp_disjoint_apart. intros z [<- |[]] [<- |[]]. now apply N.
      - split; intros.
        + eapply (olt_asym _ _ Ho); eassumption.
        + eapply (olt_neg _ _ Ho); eassumption.
      - apply (slt_total _ _ Ho).
      - apply (slt_asym _ _ Ho).
      - apply (slt_trans _ _ Ho). }
    split; [now apply consistent_careful|]. destruct (pysorted_stable lt L HC) as [_ [Hs _]].
    assert (forall x, In x (pysorted lt L) -> site x) as Hin by (intros x Hx; apply H; now apply pysorted_In in Hx).
    revert Hs Hin. generalize (pysorted lt L). intros r Hs Hin. induction Hs as [|x r _ IH Hx]; [constructor|].
    constructor; [apply IH; intros; apply Hin; now right|]. apply Forall_forall. intros y Hy. rewrite Forall_forall in Hx. specialize (Hx y Hy).
    assert (site x) as Sx by (apply Hin; now left). assert (site y) as Sy by (apply Hin; now right). intros p q Hp Hq.
    destruct (site_space x Sx) as [Ex|[l Ex]]; [rewrite Ex in Hp; destruct Hp|]. destruct (site_space y Sy) as [Ey|[l' Ey]]; [rewrite Ey in Hq; destruct Hq|].
    rewrite Ex in Hp. rewrite Ey in Hq. destruct Hp as [<- |[]], Hq as [<- |[]]. destruct (le_lt_dec l l') as [L1|L1]; [exact L1|exfalso].
    unfold odisj_lt in Hx. rewrite Ex, Ey in Hx. assert (sp_disjoint [l'] [l] = true) as D by (apply sp_disjoint_apart; intros z [<- |[]] [<- |[]]; lia).
    rewrite D in Hx. rewrite (so_lt _ _ Ho [l'] [l]) in Hx; [discriminate|discriminate|discriminate|]. intros p q [<- |[]] [<- |[]]. exact L1.
  Qed.
End Sites.
