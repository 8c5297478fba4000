(** The graph of dotprint unfolds to the tree; the lines of print_tree. *)
From Verif Require Import Prelude ListFacts DrawModel DrawSpec DrawProofs1.

Lemma filter_none {X} (f : X -> bool) l : (forall y, In y l -> f y = false) -> filter f l = [].
Proof. induction l as [|y l IH]; intros H; [reflexivity|]. cbn [filter]. rewrite (H y (or_introl eq_refl)). apply IH. intros z Hz. apply H. now right. Qed.
Lemma filter_all {X} (f : X -> bool) l : (forall y, In y l -> f y = true) -> filter f l = l.
Proof. induction l as [|y l IH]; intros H; [reflexivity|]. cbn [filter]. rewrite (H y (or_introl eq_refl)). f_equal. apply IH. intros z Hz. apply H. now right. Qed.
(** of lists grouped by distinct keys, the members of one key are one group *)
Lemma filter_group {X Y K} (key : X -> K) (g : X -> list Y) (f : Y -> bool) L x : NoDup (map key L) -> In x L ->
  (forall y z, In y L -> In z (g y) -> f z = true <-> key y = key x) -> filter f (flat_map g L) = g x.
Proof.
  induction L as [|y L IH]; [contradiction|]. cbn [map flat_map]. intros Hd Hx H. inversion Hd as [|k l Hk Hd']. subst. rewrite filter_app. destruct Hx as [<-|Hx].
  - rewrite filter_all, filter_none, app_nil_r; [reflexivity| |].
    + intros z Hz. apply in_flat_map in Hz. destruct Hz as [w [Hw Hz]]. destruct (f z) eqn:E; [|reflexivity]. exfalso. apply (H w z (or_intror Hw) Hz) in E. apply Hk. rewrite <- E. now apply in_map.
    + intros z Hz. now apply (H y z (or_introl eq_refl) Hz).
  - rewrite filter_none.
    + apply IH; [assumption|assumption|]. intros w z Hw. apply H. now right.
    + intros z Hz. destruct (f z) eqn:E; [|reflexivity]. exfalso. apply (H y z (or_introl eq_refl) Hz) in E. apply Hk. rewrite E. now apply in_map.
Qed.

Section Dot.
Context {id : Type} (id_of : nat -> nat * nat -> id) (maxdepth : option nat) (dec : id -> id -> bool).
Context (dec_ok : forall a b, dec a b = true <-> a = b) (id_loc : forall n p n' p', id_of n p = id_of n' p' -> p = p').
Context (h : nat) (t0 : tree) (Hh : size t0 <= h).
Local Notation B := (bfs maxdepth h 0 [t0]).
Local Notation ns := (map (mknode id_of maxdepth) B).
Local Notation es := (flat_map (mkedges id_of maxdepth) B).
Lemma place_In k l : forall i p, In p (place k i l) -> exists j u, p = (k, i + j, u) /\ nth_error l j = Some u.
Proof.
  induction l as [|t l IH]; intros i p; [contradiction|]. intros [<-|H]; [exists 0, t; now rewrite Nat.add_0_r|]. destruct (IH _ _ H) as [j [u [-> Hj]]]. exists (S j), u. split; [|exact Hj]. do 2 f_equal. lia.
Qed.
Lemma places_ok n : (forall k i m t, size t < n -> In (k, i, m, t) B -> unfolds dec ns es (id_of (name t) (k, i)) (cutk maxdepth k t)) ->
  forall k l m, (forall u, In u l -> size u < n) -> (forall p u, nth_error l p = Some u -> exists m', In (k, m + p, m', u) B) ->
  unfolds_all dec ns es (map (idp id_of) (place k m l)) (map (cutk maxdepth k) l).
Proof.
  intros IH k l. induction l as [|u l IHl]; intros m Hs Hin; [constructor|]. cbn [place map]. constructor.
  - destruct (Hin 0 u eq_refl) as [m' G]. rewrite Nat.add_0_r in G. unfold idp. cbn [fst snd]. apply (IH k m m' u); [apply Hs; now left|exact G].
  - apply IHl; [intros w Hw; apply Hs; now right|]. intros p w Hp. destruct (Hin (S p) w Hp) as [m' G]. exists m'. now replace (S m + p) with (m + S p) by lia.
Qed.
Lemma unfold_ok n : forall k i m t, size t < n -> In (k, i, m, t) B -> unfolds dec ns es (id_of (name t) (k, i)) (cutk maxdepth k t).
Proof.
  induction n as [|n IH]; intros k i m t Hn Hin; [lia|].
  assert (cutk maxdepth k t = T (name t) (map (cutk maxdepth (S k)) (kids maxdepth k t))) as Ec.
  { rewrite <- cutk_children, <- (cutk_name maxdepth k t). now destruct (cutk maxdepth k t). }
  rewrite Ec. apply (unfolds_T dec ns es _ _ _ ((length (children t) =? 0) || stops maxdepth k)).
  - replace ns with (flat_map (fun x => [mknode id_of maxdepth x]) B) by (clear; induction B as [|x b IHb]; [reflexivity|]; cbn [flat_map map app]; now rewrite IHb).
    rewrite (filter_group loc _ _ _ (k, i, m, t) (bfs_nodup maxdepth h 0 [t0]) Hin); [reflexivity|].
    intros [[[k' i'] m'] t'] z Hy [<-|[]]. cbn [mknode n_id loc]. rewrite dec_ok. split; [apply id_loc|].
    intros E. pose proof (bfs_nodup maxdepth h 0 [t0]) as Hd.
    assert ((k', i', m', t') = (k, i, m, t)) as E2; [|now injection E2 as -> -> -> ->].
    clear - Hd Hy Hin E. induction B as [|x b IHb]; [contradiction|]. cbn [map] in Hd. inversion Hd as [|a b' Ha Hb]. subst.
    destruct Hy as [->|Hy], Hin as [Hin|Hin].
    + exact Hin.
    + exfalso. apply Ha. cbn [loc]. rewrite E. apply (in_map loc b (k, i, m, t) Hin).
    + subst x. exfalso. apply Ha. cbn [loc]. rewrite <- E. apply (in_map loc b (k', i', m', t') Hy).
    + now apply IHb.
  - rewrite leaf_iff, cutk_children. reflexivity.
  - unfold targets. rewrite (filter_group loc _ _ _ (k, i, m, t) (bfs_nodup maxdepth h 0 [t0]) Hin).
    + cbn [mkedges]. rewrite map_map. cbn [snd]. apply (places_ok n IH).
      * intros u Hu. apply kids_size in Hu. lia.
      * intros p u Hp. apply (bfs_closed maxdepth h 0 [t0] k i m t p u); [|exact Hin|exact Hp]. constructor; [exact Hh|constructor].
    + intros [[[k' i'] m'] t'] z Hy Hz. cbn [mkedges] in Hz. apply in_map_iff in Hz. destruct Hz as [p [<- Hp]]. cbn [fst loc]. rewrite dec_ok. split; [apply id_loc|].
      intros E. pose proof (bfs_nodup maxdepth h 0 [t0]) as Hd.
      assert ((k', i', m', t') = (k, i, m, t)) as E2; [|now injection E2 as -> -> -> ->].
      clear - Hd Hy Hin E. induction B as [|x b IHb]; [contradiction|]. cbn [map] in Hd. inversion Hd as [|a b' Ha Hb]. subst.
      destruct Hy as [->|Hy], Hin as [Hin|Hin].
      * exact Hin.
      * exfalso. apply Ha. cbn [loc]. rewrite E. apply (in_map loc b (k, i, m, t) Hin).
      * subst x. exfalso. apply Ha. cbn [loc]. rewrite <- E. apply (in_map loc b (k', i', m', t') Hy).
      * now apply IHb.
Qed.
Theorem dot_unfolds : unfolds dec ns es (id_of (name t0) (0, 0)) (cut_at maxdepth t0).
Proof.
  rewrite <- cutk_0. apply (unfold_ok (S (size t0)) 0 0 0 t0); [lia|]. clear - Hh. destruct h as [|h']; [pose proof (size_pos t0); lia|]. cbn [bfs items app]. now left.
Qed.
End Dot.

(** *** print_tree *)
Lemma atree_ind' (Q : atree -> Prop) (H1 : forall n, Q (A n None)) (H2 : forall n l, Forall Q l -> Q (A n (Some l))) : forall t, Q t.
Proof. fix go 1. intros [n [l|]]; [|apply H1]. apply H2. induction l as [|t l IH]; constructor; [apply go|exact IH]. Qed.
Lemma ptree_ind' (Q : ptree -> Prop) (H : forall s l, Forall Q l -> Q (P s l)) : forall t, Q t.
Proof. fix go 1. intros [s l]. apply H. induction l as [|t l IH]; constructor; [apply go|exact IH]. Qed.
Definition is_nil {X} (l : list X) : bool := match l with [] => true | _ => false end.
Fixpoint forest (flags : list bool) (l : list ptree) : list (list bool * sym) :=
  match l with [] => [] | u :: l' => walk (flags ++ [is_nil l']) u ++ forest flags l' end.
Lemma walk_eq flags s l : walk flags (P s l) = (flags, s) :: forest flags l.
Proof. cbn [walk]. f_equal. induction l as [|u l IH]; [reflexivity|]. cbn [forest]. rewrite <- IH. now destruct l. Qed.
Lemma line_snoc pad flags own s : line_of pad (flags ++ [own], s) = pad ++ flat_map column flags ++ [SSpace; SSpace; if own then SLeaf else SBranch; s].
Proof. unfold line_of. cbn [fst snd]. rewrite rev_app_distr. cbn [rev app]. now rewrite rev_involutive. Qed.
Section Lines.
Context (excluded : nat -> bool) (depth : option nat) (sl : bool).
Local Notation print_tree := (print_tree excluded depth sl). Local Notation shown := (shown excluded depth sl).
Definition go_lines (padding : list sym) (level : nat) := fix go (l : list atree) : list (list sym) :=
   match l with
   | [] => []
   | u :: l' =>
     let lst := match l' with [] => true | _ => false end in
     (if has_attr u
      then print_tree (padding ++ [if lst then SSpace else SLine]) lst false (S level) u
      else [padding ++ [if lst then SLeaf else SBranch; if sl then SRepr (aname u) else SText (aname u)]])
     ++ go l'
   end.
Lemma go_ok pad flags level l : Forall (fun u => has_attr u = true -> forall flags own level, print_tree (pad ++ flat_map column (flags ++ [own])) own false level u = map (line_of pad) (walk (flags ++ [own]) (shown level false u))) l ->
  go_lines ((pad ++ flat_map column flags) ++ [SSpace; SSpace]) level l = map (line_of pad) (forest flags (map (shown (S level) false) l)).
Proof.
  induction 1 as [|u l Hu _ IH]; [reflexivity|]. cbn [go_lines map forest]. rewrite map_app. rewrite <- IH. f_equal. replace (is_nil (map (shown (S level) false) l)) with (match l with [] => true | _ => false end) by now destruct l.
  set (lst := match l with [] => true | _ => false end). destruct (has_attr u) eqn:E.
  - rewrite <- (Hu eq_refl). f_equal. rewrite flat_map_app. cbn [flat_map column app]. rewrite <- !app_assoc. reflexivity.
  - destruct u as [n [l'|]]; [discriminate|]. cbn [aname DrawSpec.shown]. rewrite walk_eq. cbn [forest map negb]. rewrite line_snoc, <- !app_assoc. cbn [app]. now rewrite Bool.andb_true_r.
Qed.
Lemma print_ok pad t : has_attr t = true -> forall flags own level,
  print_tree (pad ++ flat_map column (flags ++ [own])) own false level t = map (line_of pad) (walk (flags ++ [own]) (shown level false t)).
Proof.
  induction t as [n|n l Hl] using atree_ind'; [discriminate|]. intros _ flags own level. cbn [DrawModel.print_tree DrawSpec.shown aname]. rewrite walk_eq. cbn [map]. f_equal.
  - rewrite line_snoc, flat_map_app. cbn [flat_map column]. rewrite app_nil_r. rewrite !app_assoc. change (column own) with ([SSpace; SSpace] ++ [if own then SSpace else SLine]).
    rewrite (app_assoc _ [SSpace; SSpace]), removelast_last, <- !app_assoc. reflexivity.
  - fold (go_lines ((pad ++ flat_map column (flags ++ [own])) ++ [SSpace; SSpace]) level l).
    destruct (excluded n || match depth with Some d => d <=? level | None => false end); [reflexivity|]. now apply go_ok.
Qed.
Theorem tree_ok pad t : tree_lines excluded depth sl pad t = map (line_of pad) (walk [] (shown 0 true t)).
Proof.
  unfold tree_lines. destruct t as [n [l|]]; cbn [DrawModel.print_tree DrawSpec.shown aname].
  - rewrite walk_eq. cbn [map]. f_equal. fold (go_lines (pad ++ [SSpace; SSpace]) 0 l).
    destruct (excluded n || match depth with Some d => d <=? 0 | None => false end); [reflexivity|].
    rewrite <- (go_ok pad [] 0 l); [cbn [flat_map]; now rewrite app_nil_r|]. apply Forall_forall. intros u _. apply print_ok.
  - rewrite walk_eq. cbn [map forest]. now rewrite Bool.andb_false_r.
Qed.
End Lines.

(** *** reading the drawing back *)
Definition deep (p : list bool * sym) : nat * sym := (length (fst p), snd p).
Definition low (n : nat) (r : list (nat * sym)) : Prop := match r with [] => True | p :: _ => fst p <= n end.
Lemma walk_inj t : forall t' f f' r r', length f = length f' -> low (length f) r -> low (length f) r' -> map deep (walk f t) ++ r = map deep (walk f' t') ++ r' -> t = t' /\ r = r'.
Proof.
  induction t as [s l Hl] using ptree_ind'. intros [s' l'] f f' r r' Hf Hr Hr'. rewrite !walk_eq. cbn [map app]. intros E. injection E as _ Es E. subst s'.
  enough (l = l' /\ r = r') as [-> ->] by now split. revert l' E. induction Hl as [|u l Hu _ IH]; intros [|u' l'] E; cbn [forest map app] in E.
  - now split.
  - exfalso. destruct u' as [s' m]. rewrite walk_eq in E. cbn [map app deep fst snd] in E. rewrite E in Hr. unfold deep in Hr. cbn [low fst] in Hr. rewrite app_length in Hr. cbn in Hr. lia.
  - exfalso. destruct u as [s' m]. rewrite walk_eq in E. cbn [map app deep fst snd] in E. rewrite <- E in Hr'. unfold deep in Hr'. cbn [low fst] in Hr'. rewrite app_length in Hr'. cbn in Hr'. lia.
  - rewrite !map_app, <- !app_assoc in E. apply Hu in E.
    + destruct E as [-> E]. apply IH in E. destruct E as [-> ->]. now split.
    + rewrite !app_length. cbn [length]. lia.
    + rewrite app_length. cbn [length]. destruct l as [|[s1 m] l]; [cbn [forest map app]; destruct r; [exact Logic.I|cbn [low] in *; lia]|]. cbn [forest]. rewrite walk_eq. unfold deep. cbn [map app low fst]. rewrite app_length. cbn [length]. lia.
    + rewrite app_length. cbn [length]. destruct l' as [|[s1 m] l']; [cbn [forest map app]; destruct r'; [exact Logic.I|cbn [low] in *; lia]|]. cbn [forest]. rewrite walk_eq. unfold deep. cbn [map app low fst]. rewrite app_length. cbn [length]. lia.
Qed.
Lemma line_len pad p : length (line_of pad p) = match length (fst p) with 0 => 2 | S n => length pad + 3 * n + 4 end.
Proof.
  destruct p as [f s]. cbn [fst]. destruct f as [|b f] using rev_ind; [reflexivity|]. rewrite line_snoc, !app_length. cbn [length]. replace (length f + 1) with (S (length f)) by lia.
  replace (length (flat_map column f)) with (3 * length f) by (clear; induction f as [|b f IH]; [reflexivity|]; cbn [flat_map column app length]; lia). lia.
Qed.
Lemma line_last pad p : last (line_of pad p) SDot = snd p.
Proof.
  destruct p as [f s]. destruct f as [|b f] using rev_ind; [reflexivity|]. rewrite line_snoc. cbn [snd].
  change [SSpace; SSpace; if b then SLeaf else SBranch; s] with ([SSpace; SSpace; if b then SLeaf else SBranch] ++ [s]). rewrite !app_assoc. apply last_last.
Qed.
Theorem lines_inj pad t t' :
  map (fun l => (length l, last l SDot)) (map (line_of pad) (walk [] t)) = map (fun l => (length l, last l SDot)) (map (line_of pad) (walk [] t')) -> t = t'.
Proof.
  rewrite !map_map. intros E. apply (walk_inj t t' [] [] [] []); try easy. rewrite !app_nil_r. revert E. generalize (walk [] t) (walk [] t'). intros w w'. revert w'.
  induction w as [|p w IH]; intros [|p' w'] E; try discriminate; [reflexivity|]. cbn [map] in E. injection E as E1 E2 E3. cbn [map]. f_equal; [|now apply IH].
  unfold deep. rewrite !line_last in E2. rewrite !line_len in E1. f_equal; [|exact E2]. destruct (length (fst p)), (length (fst p')); lia.
Qed.
