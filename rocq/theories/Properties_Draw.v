(** C52: the graph that dotprint draws is the expression tree. C53: the lines that tree
    prints are a drawing of the expression tree. *)
From Verif Require Import Prelude ListFacts DrawModel DrawSpec DrawProofs1 DrawProofs2.
From Coq Require Import Permutation.

Definition dec_loc (a b : nat * (nat * nat)) : bool := (fst a =? fst b) && (fst (snd a) =? fst (snd b)) && (snd (snd a) =? snd (snd b)).
Lemma dec_loc_ok a b : dec_loc a b = true <-> a = b.
Proof.
  destruct a as [x [y z]], b as [x' [y' z']]. unfold dec_loc. cbn [fst snd]. rewrite !Bool.andb_true_iff, !Nat.eqb_eq. split; [intros [[-> ->] ->]; reflexivity|intros E; injection E as -> -> ->; auto].
Qed.

(** C52_dot_unfolds: for every tree, depth limit and id function, dotprint with repeat=True
    ends (after as many rounds as there are nodes) and gives a graph that unfolds from its
    first node to the tree cut at maxdepth; node ids are distinct, there is one statement per
    node of the cut tree. *)
Theorem C52_dot_unfolds idfunc maxdepth t fuel : size t <= fuel ->
  exists ns es, dotprint (id_repeat idfunc) maxdepth fuel t = Some (ns, es) /\
    unfolds dec_loc ns es (idfunc (name t), (0, 0)) (cut_at maxdepth t) /\ NoDup (map n_id ns) /\
    length ns = size (cut_at maxdepth t) /\ S (length es) = length ns.
Proof.
  intros Hf. exists (map (mknode (id_repeat idfunc) maxdepth) (bfs maxdepth (size t) 0 [t])), (flat_map (mkedges (id_repeat idfunc) maxdepth) (bfs maxdepth (size t) 0 [t])).
  split; [now apply dotprint_bfs|]. split; [|split; [|]].
  - apply (dot_unfolds (id_repeat idfunc) maxdepth dec_loc dec_loc_ok); [|lia]. intros n p n' p' E. now injection E.
  - rewrite map_map. pose proof (bfs_nodup maxdepth (size t) 0 [t]) as H. apply (NoDup_map_inv (fun p : nat * (nat * nat) => snd p)). rewrite map_map.
    erewrite map_ext; [exact H|]. now intros [[[k i] m] u].
  - assert (Permutation (map (seen maxdepth) (bfs maxdepth (size t) 0 [t])) (subs (cut_at maxdepth t))) as HP.
    { rewrite bfs_perm by (constructor; [lia|constructor]). cbn [map flat_map]. rewrite app_nil_r, cutk_0. reflexivity. }
    assert (forall u, length (subs u) = size u) as Hs.
    { intros u. induction u as [n l Hl] using tree_ind'. cbn [subs size length]. f_equal. clear HP. induction Hl as [|v l Hv _ IH]; [reflexivity|]. cbn [flat_map map list_sum fold_right]. rewrite app_length, Hv, IH. reflexivity. }
    assert (length (map (mknode (id_repeat idfunc) maxdepth) (bfs maxdepth (size t) 0 [t])) = size (cut_at maxdepth t)) as E1.
    { rewrite map_length, <- (Hs (cut_at maxdepth t)), <- (Permutation_length HP). now rewrite map_length. }
    split; [exact E1|]. rewrite E1. rewrite <- (Hs (cut_at maxdepth t)).
    assert (length (flat_map (mkedges (id_repeat idfunc) maxdepth) (bfs maxdepth (size t) 0 [t])) = list_sum (map (fun u => length (children u)) (map (seen maxdepth) (bfs maxdepth (size t) 0 [t])))) as EL.
    { clear. induction (bfs maxdepth (size t) 0 [t]) as [|[[[k i] m] u] b IH]; [reflexivity|]. cbn [flat_map map list_sum fold_right seen]. rewrite app_length, IH. cbn [mkedges]. rewrite map_length, cutk_children, map_length.
      unfold list_sum. f_equal. generalize m. induction (kids maxdepth k u) as [|w l IHl]; intros m'; [reflexivity|]. cbn [place length]. f_equal. apply IHl. }
    transitivity (S (list_sum (map (fun u => length (children u)) (map (seen maxdepth) (bfs maxdepth (size t) 0 [t]))))); [exact (f_equal S EL)|].
    assert (forall a b : list tree, Permutation a b -> list_sum (map (fun u => length (children u)) a) = list_sum (map (fun u => length (children u)) b)) as HS.
    { induction 1; cbn [map list_sum fold_right] in *; try lia. unfold list_sum in *. cbn [fold_right]. lia. }
    rewrite (HS _ _ HP). generalize (cut_at maxdepth t). intros u. induction u as [n l Hl] using tree_ind'. cbn [subs map children length]. unfold list_sum. cbn [fold_right]. fold (list_sum (map (fun u => length (children u)) (flat_map subs l))).
    f_equal. clear - Hl. induction Hl as [|v l Hv _ IH]; [reflexivity|]. cbn [flat_map length]. rewrite map_app, list_sum_app, app_length. rewrite <- Hv, <- IH. lia.
Qed.
(** C52_once_graph: with repeat=False (a node per expression, named by idfunc) the statements
    and the edges are those of all occurrences of subexpressions of the cut tree. *)
Theorem C52_once_graph idfunc maxdepth t fuel : size t <= fuel ->
  exists ns es, dotprint (id_once idfunc) maxdepth fuel t = Some (ns, es) /\
    Permutation ns (map (fun s => {| n_id := idfunc (name s); n_expr := name s; n_leaf := match children s with [] => true | _ => false end |}) (subs (cut_at maxdepth t))) /\
    Permutation es (flat_map (fun s => map (fun u => (idfunc (name s), idfunc (name u))) (children s)) (subs (cut_at maxdepth t))).
Proof.
  intros Hf. exists (map (mknode (id_once idfunc) maxdepth) (bfs maxdepth (size t) 0 [t])), (flat_map (mkedges (id_once idfunc) maxdepth) (bfs maxdepth (size t) 0 [t])).
  split; [now apply dotprint_bfs|].
  assert (Permutation (map (seen maxdepth) (bfs maxdepth (size t) 0 [t])) (subs (cut_at maxdepth t))) as HP.
  { rewrite bfs_perm by (constructor; [lia|constructor]). cbn [map flat_map]. rewrite app_nil_r, cutk_0. reflexivity. }
  split.
  - rewrite <- HP, map_map. erewrite map_ext; [reflexivity|]. intros [[[k i] m] u]. cbn [mknode seen]. unfold id_once. rewrite cutk_name. f_equal.
    destruct ((length (children u) =? 0) || stops maxdepth k) eqn:E; [now apply leaf_iff in E; rewrite E|]. destruct (children (cutk maxdepth k u)) eqn:E2; [|reflexivity]. apply leaf_iff in E2. congruence.
  - rewrite <- HP. clear. rewrite flat_map_concat_map, (flat_map_concat_map _ (map (seen maxdepth) _)), map_map. erewrite map_ext; [reflexivity|]. intros [[[k i] m] u]. cbn [mkedges seen]. rewrite cutk_name, cutk_children, map_map.
    generalize m. induction (kids maxdepth k u) as [|w l IHl]; intros m'; [reflexivity|]. cbn [place map]. rewrite cutk_name. f_equal. apply IHl.
Qed.
(** the documented "each unique (sub-)expression is only drawn once" fails for edges: f(g(x), g(x))
    draws the edge from g to x twice, although g has one operand *)
Theorem C52_once_edges_refuted : exists es, option_map snd (dotprint (id_once (fun n => n)) None 9 (T 1 [T 2 [T 3 []]; T 2 [T 3 []]])) = Some es /\ targets Nat.eqb es 2 = [3; 3].
Proof. eexists. split; reflexivity. Qed.
Example C52_nonvacuous : dotprint (id_repeat (fun _ => 7)) (Some 2) 10 (T 1 [T 2 []; T 3 [T 4 [T 5 []]; T 6 []]]) =
  Some ([ {| n_id := (7, (0, 0)); n_expr := 1; n_leaf := false |}; {| n_id := (7, (1, 0)); n_expr := 2; n_leaf := true |}; {| n_id := (7, (1, 1)); n_expr := 3; n_leaf := false |};
          {| n_id := (7, (2, 0)); n_expr := 4; n_leaf := true |}; {| n_id := (7, (2, 1)); n_expr := 6; n_leaf := true |} ],
        [((7, (0, 0)), (7, (1, 0))); ((7, (0, 0)), (7, (1, 1))); ((7, (1, 1)), (7, (2, 0))); ((7, (1, 1)), (7, (2, 1)))]).
Proof. reflexivity. Qed.

(** C53_tree_lines: one line for each shown node, in preorder; in the line the marks of the
    node, and vertical lines exactly below those ancestors that have later siblings. *)
Theorem C53_tree_lines excluded depth srepr_leaves padding t :
  tree_lines excluded depth srepr_leaves padding t = map (line_of padding) (walk [] (shown excluded depth srepr_leaves 0 true t)).
Proof. apply tree_ok. Qed.
(** C53_tree_injective: the structure can be read from the lines, also from those with ASCII
    symbols, where the two branch marks are the same. *)
Definition ascii_sym (s : sym) : sym := match s with SLeaf => SBranch | s => s end.
Lemma shown_plain excluded depth sl t : forall level root flags, Forall (fun p => ascii_sym (snd p) = snd p) (walk flags (shown excluded depth sl level root t)).
Proof.
  induction t as [n|n l Hl] using atree_ind'; intros level root flags; cbn [shown].
  - rewrite walk_eq. cbn [forest]. constructor; [|constructor]. cbn [snd]. now destruct (sl && negb root).
  - rewrite walk_eq. constructor; [reflexivity|]. destruct (excluded n || match depth with Some d => d <=? level | None => false end); [constructor|].
    induction Hl as [|u l Hu _ IH]; [constructor|]. cbn [map forest]. apply Forall_app. split; [apply Hu|exact IH].
Qed.
Lemma ascii_lines pad w : Forall (fun p => ascii_sym (snd p) = snd p) w ->
  map (fun l => (length l, last l SDot)) (map (map ascii_sym) (map (line_of pad) w)) = map (fun l => (length l, last l SDot)) (map (line_of pad) w).
Proof.
  induction 1 as [|p w Hp _ IH]; [reflexivity|]. cbn [map]. f_equal; [|exact IH]. rewrite map_length. f_equal. rewrite line_last. rewrite <- Hp, <- (line_last pad p).
  destruct (line_of pad p) as [|s l _] using rev_ind; [reflexivity|]. rewrite map_app. cbn [map]. now rewrite !last_last.
Qed.
Theorem C53_tree_injective excluded depth srepr_leaves padding t t' :
  map (map ascii_sym) (tree_lines excluded depth srepr_leaves padding t) = map (map ascii_sym) (tree_lines excluded depth srepr_leaves padding t') ->
  shown excluded depth srepr_leaves 0 true t = shown excluded depth srepr_leaves 0 true t'.
Proof.
  rewrite !tree_ok. intros E. apply (f_equal (map (fun l => (length l, last l SDot)))) in E. rewrite !ascii_lines in E by apply shown_plain. now apply (lines_inj padding).
Qed.
(** "Whitespace by which the entire tree is idented": the first line is not *)
Theorem C53_padding_refuted : ~ (forall padding t, Forall (fun l => exists r, l = padding ++ r) (tree_lines (fun _ => false) None false padding t)).
Proof. intros H. specialize (H [SSpace; SSpace] (A 1 None)). inversion H as [|l ls [r E] _]. discriminate E. Qed.
Example C53_nonvacuous : tree_lines (fun _ => false) None true [] (A 1 (Some [A 2 (Some [A 3 None; A 4 None]); A 5 (Some [A 6 None]); A 7 None])) =
  [ [SDot; SText 1];
    [SSpace; SSpace; SBranch; SText 2];
    [SSpace; SSpace; SLine; SSpace; SSpace; SBranch; SRepr 3];
    [SSpace; SSpace; SLine; SSpace; SSpace; SLeaf; SRepr 4];
    [SSpace; SSpace; SBranch; SText 5];
    [SSpace; SSpace; SLine; SSpace; SSpace; SLeaf; SRepr 6];
    [SSpace; SSpace; SLeaf; SRepr 7] ].
Proof. reflexivity. Qed.
Print Assumptions C52_dot_unfolds.
Print Assumptions C52_once_graph.
Print Assumptions C52_once_edges_refuted.
Print Assumptions C53_tree_lines.
Print Assumptions C53_tree_injective.
Print Assumptions C53_padding_refuted.
