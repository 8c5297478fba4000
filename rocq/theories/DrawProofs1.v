(** dotprint walks the tree level by level. *)
From Verif Require Import Prelude ListFacts DrawModel DrawSpec.
From Coq Require Import Permutation.

Lemma tree_ind' (Q : tree -> Prop) (H : forall n l, Forall Q l -> Q (T n l)) : forall t, Q t.
Proof. fix go 1. intros [n l]. apply H. induction l as [|t l IH]; constructor; [apply go|exact IH]. Qed.

(** *** counters *)
Lemma get_incr c k j : get (incr c k) j = if j =? k then S (get c k) else get c j.
Proof.
  induction c as [|[a b] c IH].
  - cbn [incr]. unfold get. cbn [find fst snd]. rewrite Nat.eqb_sym. now destruct (j =? k).
  - cbn [incr fst snd]. destruct (Nat.eqb_spec a k) as [E|E].
    + subst. unfold get. cbn [find fst snd]. rewrite Nat.eqb_refl. rewrite (Nat.eqb_sym k j). destruct (Nat.eqb_spec j k) as [Ej|Ej]; reflexivity.
    + unfold get in *. cbn [find fst snd]. destruct (Nat.eqb_spec a j) as [Ej|Ej].
      * subst. destruct (Nat.eqb_spec j k) as [E2|E2]; [contradiction|reflexivity].
      * rewrite IH. destruct (j =? k); [|reflexivity]. destruct (Nat.eqb_spec a k); [contradiction|reflexivity].
Qed.

Section Dot.
Context {id : Type} (id_of : nat -> nat * nat -> id) (maxdepth : option nat).
Definition stops (k : nat) : bool := match maxdepth with Some d => d <=? k | None => false end.
Definition kids (k : nat) (t : tree) : list tree := if stops k then [] else children t.
Fixpoint place (k i : nat) (l : list tree) : list (nat * nat * tree) :=
  match l with [] => [] | t :: l' => (k, i, t) :: place k (S i) l' end.
Definition idp (p : nat * nat * tree) : id := id_of (name (snd p)) (fst p).
Lemma place_app k l : forall i m, place k i (l ++ m) = place k i l ++ place k (i + length l) m.
Proof. induction l as [|t l IH]; intros i m; cbn [place app length]; [now rewrite Nat.add_0_r|]. f_equal. rewrite IH. do 2 f_equal. lia. Qed.
Lemma visit_ok me k l : forall c, let '(es, st, c') := visit id_of me k l c in
  es = map (fun p => (me, idp p)) (place (S k) (get c (S k)) l) /\ st = place (S k) (get c (S k)) l /\
  get c' (S k) = get c (S k) + length l /\ forall j, j <> S k -> get c' j = get c j.
Proof.
  induction l as [|t l IH]; intros c; cbn [visit].
  - repeat split; try reflexivity. cbn [length]. lia.
  - specialize (IH (incr c (S k))). destruct (visit id_of me k l (incr c (S k))) as [[es st] c']. rewrite get_incr, Nat.eqb_refl in IH. destruct IH as [-> [-> [H1 H2]]].
    cbn [place map length]. repeat split; try reflexivity.
    + rewrite H1. lia.
    + intros j Hj. rewrite (H2 j Hj), get_incr. destruct (Nat.eqb_spec j (S k)); [contradiction|reflexivity].
Qed.

(** *** the nodes level by level: (level, position, position of the first child, tree) *)
Definition item := (nat * nat * nat * tree)%type.
Fixpoint items (k i m : nat) (l : list tree) : list item :=
  match l with [] => [] | t :: l' => (k, i, m, t) :: items k (S i) (m + length (kids k t)) l' end.
Fixpoint bfs (h k : nat) (l : list tree) : list item :=
  match h with 0 => [] | S h' => items k 0 0 l ++ bfs h' (S k) (flat_map (kids k) l) end.
Definition mknode (x : item) : node := let '(k, i, m, t) := x in {| n_id := id_of (name t) (k, i); n_expr := name t; n_leaf := (length (children t) =? 0) || stops k |}.
Definition mkedges (x : item) : list (id * id) := let '(k, i, m, t) := x in map (fun p => (id_of (name t) (k, i), idp p)) (place (S k) m (kids k t)).
Definition result (b : list item) := Some (map mknode b, flat_map mkedges b).

Lemma bfs_nil h k : bfs h k [] = [].
Proof. revert k. induction h as [|h IH]; intros k; [reflexivity|]. cbn [bfs items flat_map app]. apply IH. Qed.
Lemma size_pos t : 1 <= size t.
Proof. destruct t. cbn. lia. Qed.
Definition tot (l : list tree) : nat := list_sum (map size l).
Lemma tot_app a b : tot (a ++ b) = tot a + tot b.
Proof. unfold tot. now rewrite map_app, list_sum_app. Qed.
Lemma kids_tot k t : tot (kids k t) < size t.
Proof. unfold kids. destruct t as [n l]. destruct (stops k); cbn [children size]; unfold tot; cbn; lia. Qed.
Lemma tot_In t l : In t l -> size t <= tot l.
Proof. induction l as [|u l IH]; [contradiction|]. change (tot (u :: l)) with (size u + tot l). intros [-> |H]; [lia|]. specialize (IH H). lia. Qed.
Lemma kids_size k t u : In u (kids k t) -> size u < size t.
Proof. intros H. apply tot_In in H. pose proof (kids_tot k t). lia. Qed.

Lemma loop_step f k i t rest c : loop id_of maxdepth (S f) ((k, i, t) :: rest) c =
  let '(es, st, c') := if (length (children t) =? 0) || stops k then ([], [], c) else visit id_of (id_of (name t) (k, i)) k (children t) c in
  match loop id_of maxdepth f (rest ++ st) c' with Some (ns, es') => Some ({| n_id := id_of (name t) (k, i); n_expr := name t; n_leaf := (length (children t) =? 0) || stops k |} :: ns, es ++ es') | None => None end.
Proof. reflexivity. Qed.
Lemma loop_ok f : forall h k i l acc c, get c (S k) = length acc -> (forall j, S k < j -> get c j = 0) ->
  tot (l ++ acc) <= f -> Forall (fun t => size t <= h) (acc ++ flat_map (kids k) l) ->
  loop id_of maxdepth f (place k i l ++ place (S k) 0 acc) c = result (items k i (length acc) l ++ bfs h (S k) (acc ++ flat_map (kids k) l)).
Proof.
  induction f as [f IHf] using lt_wf_ind.
  (* a round with a node of the current level *)
  assert (forall h k i t l acc c, get c (S k) = length acc -> (forall j, S k < j -> get c j = 0) ->
    tot ((t :: l) ++ acc) <= f -> Forall (fun t => size t <= h) (acc ++ flat_map (kids k) (t :: l)) ->
    loop id_of maxdepth f (place k i (t :: l) ++ place (S k) 0 acc) c = result (items k i (length acc) (t :: l) ++ bfs h (S k) (acc ++ flat_map (kids k) (t :: l)))) as Main.
  { intros h k i t l acc c G0 G1 Hf HF. rewrite tot_app in Hf. change (tot (t :: l)) with (size t + tot l) in Hf. destruct f as [|f]; [pose proof (size_pos t); lia|].
    cbn [place app]. rewrite loop_step.
    assert (exists c', (if (length (children t) =? 0) || stops k then ([], [], c) else visit id_of (id_of (name t) (k, i)) k (children t) c)
      = (map (fun p => (id_of (name t) (k, i), idp p)) (place (S k) (length acc) (kids k t)), place (S k) (length acc) (kids k t), c') /\
      get c' (S k) = length (acc ++ kids k t) /\ forall j, S k < j -> get c' j = 0) as [c' [Ev [G2 G3]]].
    { destruct ((length (children t) =? 0) || stops k) eqn:E.
      - exists c. assert (kids k t = []) as -> by (unfold kids; apply orb_prop in E; destruct E as [E|E]; [apply Nat.eqb_eq, length_zero_iff_nil in E; rewrite E; now destruct (stops k)|now rewrite E]).
        cbn [place map]. rewrite app_nil_r. repeat split; assumption.
      - apply Bool.orb_false_iff in E. destruct E as [_ E]. assert (kids k t = children t) as -> by (unfold kids; now rewrite E). pose proof (visit_ok (id_of (name t) (k, i)) k (children t) c) as V.
        destruct (visit id_of (id_of (name t) (k, i)) k (children t) c) as [[es st] c']. rewrite G0 in V. destruct V as [-> [-> [V1 V2]]]. exists c'. repeat split.
        + rewrite V1, app_length. reflexivity.
        + intros j Hj. rewrite V2 by lia. now apply G1. }
    rewrite Ev. rewrite <- app_assoc. change (place (S k) (length acc) (kids k t)) with (place (S k) (0 + length acc) (kids k t)) at 2. rewrite <- place_app. cbn [flat_map] in HF. rewrite app_assoc in HF.
    rewrite (IHf f (Nat.lt_succ_diag_r f) h k (S i) l (acc ++ kids k t) c' G2 G3); [| |exact HF].
    - unfold result. cbn [items flat_map app map]. rewrite <- !app_assoc, app_length. reflexivity.
    - rewrite !tot_app. pose proof (kids_tot k t). lia. }
  intros h k i l acc c G0 G1 Hf HF. destruct l as [|t l]; [|now apply Main].
  destruct acc as [|t acc].
  - cbn [place app flat_map items]. rewrite bfs_nil. destruct f; reflexivity.
  - cbn [place app flat_map items] in *. rewrite app_nil_r in *. inversion HF as [|t' acc' Ht HF']. subst. destruct h as [|h]; [pose proof (size_pos t); lia|].
    assert (place (S k) 0 (t :: acc) ++ place (S (S k)) 0 [] = (S k, 0, t) :: place (S k) 1 acc) as Ep by (cbn [place app]; now rewrite app_nil_r).
    rewrite <- Ep. eassert (result _ = result _) as Er; [|rewrite Er; apply (Main h (S k) 0 t acc [] c)].
    + cbn [app length bfs]. reflexivity.
    + apply G1. lia.
    + intros j Hj. apply G1. lia.
    + rewrite app_nil_r. exact Hf.
    + apply Forall_forall. intros u Hu. apply (proj1 (in_flat_map (kids (S k)) (t :: acc) u)) in Hu. destruct Hu as [w [Hw Hu]]. apply kids_size in Hu.
      rewrite Forall_forall in HF. assert (size w <= S h) by (apply HF; exact Hw). lia.
Qed.
Theorem dotprint_bfs t f h : size t <= f -> size t <= h -> dotprint id_of maxdepth f t = result (bfs h 0 [t]).
Proof.
  intros Hf Hh. unfold dotprint. destruct h as [|h]; [pose proof (size_pos t); lia|]. change [(0, 0, t)] with (place 0 0 [t] ++ place 1 0 []).
  rewrite (loop_ok f h 0 0 [t] [] []); try reflexivity.
  - unfold tot. cbn. lia.
  - cbn [app flat_map]. rewrite app_nil_r. apply Forall_forall. intros u Hu. apply kids_size in Hu. lia.
Qed.

(** *** positions *)
Definition loc (x : item) : nat * nat := let '(k, i, m, t) := x in (k, i).
Lemma items_loc k l : forall i m x, In x (items k i m l) -> fst (loc x) = k /\ i <= snd (loc x).
Proof.
  induction l as [|t l IH]; intros i m x; [contradiction|]. intros [<-|H]; [now split|]. apply IH in H. destruct H. split; [assumption|lia].
Qed.
Lemma bfs_loc h : forall k l x, In x (bfs h k l) -> k <= fst (loc x).
Proof.
  induction h as [|h IH]; intros k l x; [contradiction|]. cbn [bfs]. rewrite in_app_iff. intros [H|H]; [apply items_loc in H; lia|]. apply IH in H. lia.
Qed.
Lemma items_nodup k l : forall i m, NoDup (map loc (items k i m l)).
Proof.
  induction l as [|t l IH]; intros i m; cbn [items map]; constructor; [|apply IH]. intros H. apply in_map_iff in H. destruct H as [x [E H]]. apply items_loc in H. cbn in E. rewrite E in H. cbn in H. lia.
Qed.
Lemma nodup_app {X} (a b : list X) : NoDup a -> NoDup b -> (forall x, In x a -> In x b -> False) -> NoDup (a ++ b).
Proof.
  intros Ha Hb H. induction Ha as [|x a Hx Ha IH]; [exact Hb|]. cbn [app]. constructor; [|apply IH; intros y Hy; apply H; now right].
  rewrite in_app_iff. intros [G|G]; [contradiction|]. apply (H x); [now left|exact G].
Qed.
Lemma bfs_nodup h : forall k l, NoDup (map loc (bfs h k l)).
Proof.
  induction h as [|h IH]; intros k l; [constructor|]. cbn [bfs]. rewrite map_app. apply nodup_app; [apply items_nodup|apply IH|].
  intros p H1 H2. apply in_map_iff in H1, H2. destruct H1 as [x [<- H1]], H2 as [y [E H2]]. apply items_loc in H1. apply bfs_loc in H2. rewrite E in H2. lia.
Qed.
Lemma items_nth k l : forall i m j t, nth_error l j = Some t -> In (k, i + j, m + length (flat_map (kids k) (firstn j l)), t) (items k i m l).
Proof.
  induction l as [|u l IH]; intros i m j t; [now destruct j|]. destruct j as [|j]; cbn [nth_error].
  - intros H. injection H as ->. left. cbn [firstn flat_map length]. now rewrite !Nat.add_0_r.
  - intros H. right. specialize (IH (S i) (m + length (kids k u)) j t H). cbn [firstn flat_map]. rewrite app_length. replace (i + S j) with (S i + j) by lia. now rewrite Nat.add_assoc.
Qed.
Lemma items_inv k l : forall i m k' i' m' t, In (k', i', m', t) (items k i m l) -> exists j, k' = k /\ i' = i + j /\ m' = m + length (flat_map (kids k) (firstn j l)) /\ nth_error l j = Some t.
Proof.
  induction l as [|u l IH]; intros i m k' i' m' t; [contradiction|]. intros [H|H].
  - injection H as <- <- <- <-. exists 0. cbn. rewrite !Nat.add_0_r. repeat split.
  - apply IH in H. destruct H as [j [-> [-> [-> H]]]]. exists (S j). cbn [firstn flat_map nth_error]. rewrite app_length. repeat split; try assumption; lia.
Qed.
Lemma flat_nth k l : forall j t p u, nth_error l j = Some t -> nth_error (kids k t) p = Some u -> nth_error (flat_map (kids k) l) (length (flat_map (kids k) (firstn j l)) + p) = Some u.
Proof.
  induction l as [|w l IH]; intros j t p u; [now destruct j|]. destruct j as [|j]; cbn [nth_error firstn flat_map].
  - intros H. injection H as ->. intros H. cbn [length plus]. rewrite nth_error_app1; [exact H|]. apply nth_error_Some. congruence.
  - intros H1 H2. rewrite app_length. rewrite nth_error_app2 by lia. replace (length (kids k w) + length (flat_map (kids k) (firstn j l)) + p - length (kids k w)) with (length (flat_map (kids k) (firstn j l)) + p) by lia. now apply (IH j t).
Qed.
(** the children of a node are listed at the positions of its edges *)
Lemma bfs_closed h : forall k0 l k i m t p u, Forall (fun t => size t <= h) l -> In (k, i, m, t) (bfs h k0 l) -> nth_error (kids k t) p = Some u -> exists m', In (S k, m + p, m', u) (bfs h k0 l).
Proof.
  induction h as [|h IH]; intros k0 l k i m t p u HF; [contradiction|]. cbn [bfs]. rewrite in_app_iff.
  assert (Forall (fun t => size t <= h) (flat_map (kids k0) l)) as HF'.
  { apply Forall_forall. intros w Hw. apply in_flat_map in Hw. destruct Hw as [v [Hv Hw]]. apply kids_size in Hw. rewrite Forall_forall in HF. specialize (HF v Hv). lia. }
  intros [H|H] Hp.
  - apply items_inv in H. destruct H as [j [-> [-> [-> Hj]]]]. pose proof (flat_nth k0 l j t p u Hj Hp) as Hn. cbn [plus].
    destruct h as [|h]. { rewrite Forall_forall in HF'. assert (size u <= 0) by (apply HF'; eapply nth_error_In; exact Hn). pose proof (size_pos u). lia. }
    eexists. apply in_or_app. right. cbn [bfs]. apply in_or_app. left. pose proof (items_nth (S k0) _ 0 0 _ _ Hn) as G. cbn [plus] in G. exact G.
  - destruct (IH (S k0) _ k i m t p u HF' H Hp) as [m' G]. exists m'. apply in_or_app. now right.
Qed.

(** *** permutation of the preorder *)
Definition cutk (k : nat) (t : tree) : tree := match maxdepth with Some d => cut (d - k) t | None => t end.
Lemma cutk_children k t : children (cutk k t) = map (cutk (S k)) (kids k t).
Proof.
  unfold cutk, kids, stops. destruct maxdepth as [d|]; [|now rewrite map_id]. destruct t as [n l]. destruct (Nat.leb_spec d k) as [H|H].
  - replace (d - k) with 0 by lia. reflexivity.
  - replace (d - k) with (S (d - S k)) by lia. reflexivity.
Qed.
Lemma cutk_name k t : name (cutk k t) = name t.
Proof. unfold cutk. destruct maxdepth as [d|]; [|reflexivity]. destruct t; now destruct (d - k). Qed.
Lemma subs_eq t : subs t = t :: flat_map subs (children t).
Proof. now destruct t. Qed.
Definition seen (x : item) : tree := let '(k, i, m, t) := x in cutk k t.
Lemma items_seen k l : forall i m, map seen (items k i m l) = map (cutk k) l.
Proof. induction l as [|t l IH]; intros i m; [reflexivity|]. cbn [items map]. f_equal. apply IH. Qed.
Lemma bfs_perm h : forall k l, Forall (fun t => size t <= h) l -> Permutation (map seen (bfs h k l)) (flat_map subs (map (cutk k) l)).
Proof.
  induction h as [|h IH]; intros k l HF.
  - destruct HF as [|t l Ht]; [constructor|]. pose proof (size_pos t). lia.
  - cbn [bfs]. rewrite map_app, items_seen, IH.
    + clear HF IH. induction l as [|t l IH]; [constructor|]. cbn [map flat_map]. rewrite subs_eq. cbn [app]. constructor. rewrite map_app, flat_map_app, cutk_children.
      rewrite app_assoc, (Permutation_app_comm (map (cutk k) l)), <- app_assoc. apply Permutation_app_head, IH.
    + apply Forall_forall. intros w Hw. apply in_flat_map in Hw. destruct Hw as [v [Hv Hw]]. apply kids_size in Hw. rewrite Forall_forall in HF. specialize (HF v Hv). lia.
Qed.
Lemma cutk_0 t : cutk 0 t = cut_at maxdepth t.
Proof. unfold cutk, cut_at. destruct maxdepth as [d|]; [now rewrite Nat.sub_0_r|reflexivity]. Qed.
Lemma leaf_iff k t : (length (children t) =? 0) || stops k = true <-> children (cutk k t) = [].
Proof.
  rewrite cutk_children. unfold kids. destruct (stops k); [now rewrite Bool.orb_true_r|]. rewrite Bool.orb_false_r, Nat.eqb_eq, length_zero_iff_nil. destruct (children t); [easy|split; discriminate].
Qed.
End Dot.
