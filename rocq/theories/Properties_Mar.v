(** C66: arithmetic and entry-wise operations of matrices. *)
From Coq Require Import QArith Qcanon.
From Verif Require Import Prelude ListFacts AlgSpec CAlg CInst MatModel SlhModel MatSpec MatProofs SlhProofs1 SlhProofs2 MatProofs2 HilbertModel HilbertSpec OrderProofs Properties_Order MarModel MarSpec MarProofs.
Local Open Scope nat_scope.

Section Generic.
  Context {T : Type}.
  Implicit Types a b : matrix T.

  (** ** construction and access *)
  Theorem C66_init (v : input T) :
    match v with
    | V0 _ => matrix_init v = Err IndexError
    | V1 l => exists a, matrix_init v = Ok a /\ shaped a (length l) 1 /\ forall i, cell a i 0 = nth_error l i
    | V2 a => matrix_init v = Ok a
    | V3 => matrix_init v = Err ValueError
    end.
  Proof.
    destruct v as [x|l|a|]; try reflexivity. eexists. split; [reflexivity|]. split.
    - split; [reflexivity|]. split; [reflexivity|]. cbn [rows]. split; [apply map_length|]. apply Forall_forall. intros r Hr.
      apply in_map_iff in Hr as (x & <- & _). reflexivity.
    - intros i. unfold cell. cbn [rows]. rewrite nth_error_map. destruct (nth_error l i); reflexivity.
  Qed.
  (** [m[i, j]], with negative indices counted from the end *)
  Lemma norm_index_spec n (i : Z) : 
    (forall k, k < n -> (i = Z.of_nat k \/ i = Z.of_nat k - Z.of_nat n)%Z -> norm_index n i = Ok k) /\
    ((i < - Z.of_nat n \/ Z.of_nat n <= i)%Z -> norm_index n i = Err IndexError).
  Proof.
    unfold norm_index. split.
    - intros k Hk [-> | ->].
      + replace (_ && _) with true by lia. now rewrite Nat2Z.id.
      + replace ((0 <=? _) && _)%Z with false by lia. replace (_ && _) with true by lia. f_equal. lia.
    - intros H. replace ((0 <=? i) && _)%Z with false by lia. now replace (_ && _) with false by lia.
  Qed.
  Theorem C66_getitem a n m : shaped a n m ->
    (forall i j k l, k < n -> l < m -> (i = Z.of_nat k \/ i = Z.of_nat k - Z.of_nat n)%Z -> (j = Z.of_nat l \/ j = Z.of_nat l - Z.of_nat m)%Z ->
       exists x, cell a k l = Some x /\ getitem a i j = Ok x) /\
    (forall i j, (i < - Z.of_nat n \/ Z.of_nat n <= i \/ j < - Z.of_nat m \/ Z.of_nat m <= j)%Z -> getitem a i j = Err IndexError).
  Proof.
    intros Hs. generalize Hs. intros (H1 & H2 & H3 & H4). unfold getitem. rewrite H1, H2. split.
    - intros i j k l Hk Hl Hi Hj. destruct (cell_some a n m k l Hs Hk Hl) as [x Ex]. exists x. split; [exact Ex|].
      rewrite (proj1 (norm_index_spec n i) k Hk Hi), (proj1 (norm_index_spec m j) l Hl Hj). cbn [bind]. unfold cell in Ex.
      destruct (nth_error (rows a) k); [|discriminate]. cbn [of_option bind]. now rewrite Ex.
    - intros i j H. destruct (norm_index n i) as [k|e] eqn:E.
      + assert (norm_index m j = Err IndexError) as ->; [|reflexivity]. apply norm_index_spec.
        unfold norm_index in E. destruct ((0 <=? i)%Z && _) eqn:E1; [lia|]. destruct ((- Z.of_nat n <=? i)%Z && _) eqn:E2; [lia|discriminate].
      + unfold norm_index in E. destruct (_ && _); [discriminate|]. destruct (_ && _); [discriminate|]. injection E as <-. reflexivity.
  Qed.
  (** [m[i]] (or [m[i, :]]) and [m[:, j]] are both columns *)
  Theorem C66_row_is_column a n m k : shaped a n m -> k < n ->
    exists r, get_row a (Z.of_nat k) = Ok r /\ shaped r m 1 /\ forall j, j < m -> cell r j 0 = cell a k j.
  Proof.
    intros Hs Hk. generalize Hs. intros (H1 & H2 & H3 & H4). unfold get_row. rewrite H1, (proj1 (norm_index_spec n _) k Hk (or_introl eq_refl)).
    cbn [bind]. destruct (nth_error (rows a) k) as [r|] eqn:E; [|apply nth_error_None in E; lia]. cbn [of_option bind].
    destruct (C66_init (V1 r)) as (q & Eq & Sq & Cq). exists q. split; [exact Eq|]. rewrite Forall_forall in H4. rewrite <- (H4 r) by (eapply nth_error_In; eauto).
    split; [exact Sq|]. intros j Hj. rewrite Cq. unfold cell. now rewrite E.
  Qed.
  Theorem C66_column a n m k : shaped a n m -> k < m ->
    exists r, get_col a (Z.of_nat k) = Ok r /\ shaped r n 1 /\ forall i, i < n -> cell r i 0 = cell a i k.
  Proof.
    intros Hs Hk. generalize Hs. intros (H1 & H2 & H3 & H4). unfold get_col. rewrite H2, (proj1 (norm_index_spec m _) k Hk (or_introl eq_refl)).
    cbn [bind]. destruct (mapM_total (fun r => of_option IndexError (nth_error r k)) (rows a)) as [l El].
    { intros r Hr. rewrite Forall_forall in H4. destruct (nth_error r k) as [x|] eqn:E; [exists x; reflexivity|].
      apply nth_error_None in E. rewrite (H4 r Hr) in E. lia. }
    rewrite El. cbn [bind]. destruct (C66_init (V1 l)) as (q & Eq & Sq & Cq). exists q. split; [exact Eq|].
    rewrite <- H3, <- (mapM_len _ _ _ El). split; [exact Sq|]. intros i Hi. rewrite Cq. generalize (mapM_nth _ _ _ El i). unfold cell.
    destruct (nth_error (rows a) i) as [r|]; [|intros E; exact E]. intros (x & -> & E). destruct (nth_error r k); [now injection E as <-|discriminate].
  Qed.

  (** ** entry-wise operations ([element_wise], [expand], [simplify_scalar],
      [substitute]): the result has the same shape, and each entry is the result for
      that entry; an entry for which the function raises makes the whole raise *)
  Theorem C66_element_wise {U} (f : T -> res U) a n m (b : matrix U) : shaped a n m ->
    element_map f a = Ok b <->
    shaped b n m /\ forall i j, i < n -> j < m -> exists x y, cell a i j = Some x /\ cell b i j = Some y /\ f x = Ok y.
  Proof.
    intros Hs. split.
    - apply element_cells, Hs.
    - intros (Sb & H).
      destruct (mapM_total f (ravel a)) as [l El].
      { intros x Hx. apply (in_ravel a n m x Hs) in Hx as (i & j & Hi & Hj & Ex). destruct (H i j Hi Hj) as (x' & y & Ex' & _ & Ey).
        rewrite Ex in Ex'. injection Ex' as <-. eauto. }
      assert (exists c, element_map f a = Ok c) as [c Ec].
      { rewrite (element_nested f a n m Hs). unfold ravel in El. rewrite mapM_concat in El. destruct (mapM (mapM f) (rows a)); [cbn [bind]; eauto|discriminate]. }
      rewrite Ec. f_equal.
      assert (shaped c n m /\ forall i j, i < n -> j < m -> exists x y, cell a i j = Some x /\ cell c i j = Some y /\ f x = Ok y) as (Sc & Hc).
      { apply (element_cells f a c n m Hs Ec). }
      apply (matrix_ext c b n m Sc Sb). intros i j Hi Hj. destruct (H i j Hi Hj) as (x & y & Ex & Eb & Ey). destruct (Hc i j Hi Hj) as (x' & y' & Ex' & Ec' & Ey').
      congruence.
  Qed.
  Theorem C66_element_wise_raises {U} (f : T -> res U) a n m e : shaped a n m ->
    (forall i j x, cell a i j = Some x -> (exists y, f x = Ok y) \/ f x = Err e) ->
    (exists i j x, i < n /\ j < m /\ cell a i j = Some x /\ f x = Err e) -> element_map f a = Err e.
  Proof.
    intros Hs Ha (i & j & x & Hi & Hj & Ex & Ee). unfold element_map. rewrite (mapM_raises f e); [reflexivity| |].
    - intros y Hy. apply (in_ravel a n m y Hs) in Hy as (i' & j' & _ & _ & Ey). eapply Ha, Ey.
    - exists x. split; [|exact Ee]. apply (in_ravel a n m x Hs). eauto.
  Qed.
  (** a matrix that the mapping replaces as a whole is replaced as a whole *)
  Theorem C66_substitute found (f : T -> res T) a b :
    (found a = Some b -> msubstitute found f a = Ok b) /\ (found a = None -> msubstitute found f a = element_map f a).
  Proof. unfold msubstitute. split; intros ->; reflexivity. Qed.

  (** ** comparison *)
  Theorem C66_is_zero is0 a n m : shaped a n m ->
    mis_zero is0 a = true <-> forall i j x, i < n -> j < m -> cell a i j = Some x -> is0 x = true.
  Proof.
    intros Hs. unfold mis_zero. rewrite forallb_forall. split.
    - intros H i j x Hi Hj Ex. apply H. apply (in_ravel a n m x Hs). eauto.
    - intros H x Hx. apply (in_ravel a n m x Hs) in Hx as (i & j & Hi & Hj & Ex). eauto.
  Qed.
  Lemma all_eq_spec eqb (Heq : forall x y, eqb x y = true <-> x = y) (l : list T) : forall l', all_eq eqb l l' = true <-> l = l'.
  Proof.
    induction l as [|x l IH]; intros [|y l']; cbn [all_eq]; try (split; [discriminate|discriminate]); [tauto|].
    rewrite andb_true_iff, Heq, IH. split; [intros [-> ->]; reflexivity|intros E; injection E; auto].
  Qed.
  (** equal keys (and equal hashes' arguments): the same matrix; so instances of
      different matrices are never confused by the cache *)
  Theorem C66_instance_key a b n m n' m' : shaped a n m -> shaped b n' m' -> instance_key a = instance_key b -> a = b.
  Proof.
    intros (H1 & H2 & H3 & H4) (G1 & G2 & G3 & G4) E. unfold instance_key, ravel in E.
    assert (concat (rows a) = concat (rows b)) as E0 by congruence. assert (nrows a = nrows b) as E1 by congruence. assert (ncols a = ncols b) as E2 by congruence.
    assert (n' = n) as -> by congruence. assert (m' = m) as -> by congruence.
    assert (rows a = rows b) as Er.
    { rewrite <- (chunks_concat (rows a) m H4), <- (chunks_concat (rows b) m G4). rewrite E0, H3, G3. reflexivity. }
    destruct a, b. cbn in *. congruence.
  Qed.
  Theorem C66_eq eqb a b n m n' m' : (forall x y, eqb x y = true <-> x = y) -> shaped a n m -> shaped b n' m' ->
    matrix_eq eqb a b = true <-> a = b.
  Proof.
    intros Heq Ha Hb. unfold matrix_eq. rewrite !andb_true_iff, !Nat.eqb_eq, (all_eq_spec eqb Heq). split.
    - intros ((E1 & E2) & E3). apply (C66_instance_key a b n m n' m' Ha Hb). unfold instance_key. congruence.
    - intros ->. auto.
  Qed.

  (** ** power series: coefficient [k] of the matrix has the coefficients [k] of the
      entries; a matrix without entries has no coefficients at all *)
  Lemma zip_cons {U} (l l' : list U) rest :
    zip_star (l :: l' :: rest) = map (fun p => fst p :: snd p) (combine l (zip_star (l' :: rest))).
  Proof. reflexivity. Qed.
  Lemma zip_len {U} N (ls : list (list U)) : ls <> [] -> Forall (fun l => length l = N) ls -> length (zip_star ls) = N.
  Proof.
    intros Hn H. induction H as [|l rest Hl Hr IH]; [contradiction|]. destruct rest as [|l' rest]; [cbn [zip_star]; now rewrite map_length|].
    rewrite zip_cons, map_length, combine_length, IH by discriminate. lia.
  Qed.
  Lemma zip_nth {U} N (ls : list (list U)) : ls <> [] -> Forall (fun l => length l = N) ls ->
    forall k, k < N -> exists em, nth_error (zip_star ls) k = Some em /\ length em = length ls /\
      forall r l, nth_error ls r = Some l -> nth_error em r = nth_error l k.
  Proof.
    intros Hn H. induction H as [|l rest Hl Hr IH]; [contradiction|]. intros k Hk.
    assert (exists x, nth_error l k = Some x) as [x Ex] by (destruct (nth_error l k) eqn:E; [eauto|apply nth_error_None in E; lia]).
    destruct rest as [|l' rest].
    - exists [x]. cbn [zip_star]. rewrite nth_error_map, Ex. split; [reflexivity|]. split; [reflexivity|].
      intros [|r] q E; [injection E as <-; now rewrite Ex|]. destruct r; discriminate.
    - destruct (IH ltac:(discriminate) k Hk) as (em & E1 & E2 & E3). exists (x :: em). rewrite zip_cons.
      rewrite nth_error_map. split.
      + assert (forall (A' B' : Type) (p : list A') (q : list B') k x y, nth_error p k = Some x -> nth_error q k = Some y -> nth_error (combine p q) k = Some (x, y)) as G.
        { clear. intros A' B'. induction p as [|u p IH]; intros [|v q] [|k] x y; cbn; try discriminate; [congruence|apply IH]. }
        rewrite (G _ _ _ _ _ _ _ Ex E1). reflexivity.
      + split; [cbn; now rewrite E2|]. intros [|r] q E; [injection E as <-; cbn; now rewrite Ex|]. apply E3, E.
  Qed.
  Theorem C66_series_expand {U} (f : T -> res (list U)) a n m order : shaped a n m -> 0 < n -> 0 < m ->
    (forall i j x, cell a i j = Some x -> exists l, f x = Ok l /\ length l = order + 1) ->
    exists cs, mseries f a = Ok cs /\ length cs = order + 1 /\
      forall k, k < order + 1 -> exists c, nth_error cs k = Some c /\ shaped c n m /\
        forall i j, i < n -> j < m -> exists x l y, cell a i j = Some x /\ f x = Ok l /\ nth_error l k = Some y /\ cell c i j = Some y.
  Proof.
    intros Hs Hn Hm Hf. unfold mseries.
    destruct (mapM_total f (ravel a)) as [ls Els].
    { intros x Hx. apply (in_ravel a n m x Hs) in Hx as (i & j & _ & _ & Ex). destruct (Hf i j x Ex) as (l & El & _). eauto. }
    rewrite Els. cbn [bind].
    assert (length (ravel a) = n * m) as Lr.
    { destruct Hs as (H1 & H2 & H3 & H4). unfold ravel. rewrite (concat_len _ m H4), H3. reflexivity. }
    assert (length ls = n * m) as Ll by (rewrite (mapM_len _ _ _ Els); exact Lr).
    assert (ls <> []) as Hne by (intros ->; cbn in Ll; nia).
    assert (Forall (fun l => length l = order + 1) ls) as HN.
    { apply Forall_forall. intros l Hl. apply In_nth_error in Hl as (r & Hr). generalize (mapM_nth _ _ _ Els r). destruct (nth_error (ravel a) r) as [x|] eqn:Ex.
      - intros (y & Hy & Ey). rewrite Hr in Hy. injection Hy as <-. apply nth_error_In, (in_ravel a n m x Hs) in Ex as (i & j & _ & _ & Ec).
        destruct (Hf i j x Ec) as (l' & El' & Hl'). congruence.
      - congruence. }
    assert (forall em, In em (zip_star ls) -> length em = n * m) as Hem.
    { intros em He. apply In_nth_error in He as (k & Hk). assert (k < order + 1) as Hlt.
      { rewrite <- (zip_len (order + 1) ls Hne HN). apply nth_error_Some. congruence. }
      destruct (zip_nth (order + 1) ls Hne HN k Hlt) as (em' & E1 & E2 & _). rewrite Hk in E1. injection E1 as <-. congruence. }
    generalize Hs. intros (H1 & H2 & H3 & H4). rewrite H1, H2.
    destruct (mapM_total (reshape n m) (zip_star ls)) as [cs Ecs].
    { intros em He. unfold reshape. rewrite (Hem em He), Nat.eqb_refl. eauto. }
    exists cs. split; [exact Ecs|]. split; [rewrite (mapM_len _ _ _ Ecs); apply zip_len; assumption|].
    intros k Hk. destruct (zip_nth (order + 1) ls Hne HN k Hk) as (em & E1 & E2 & E3).
    generalize (mapM_nth _ _ _ Ecs k). rewrite E1. intros (c & Ec & Er). exists c. split; [exact Ec|].
    unfold reshape in Er. rewrite E2, Ll, Nat.eqb_refl in Er. injection Er as <-.
    destruct (chunks_shape m n em) as (C1 & C2 & C3); [congruence|].
    assert (shaped (Mat n m (chunks n m em)) n m) as Sc by (split; [reflexivity|split; [reflexivity|split; assumption]]).
    split; [exact Sc|]. intros i j Hi Hj.
    assert (forall (V : Type) (rs : list (list V)), length rs = n -> Forall (fun r => length r = m) rs ->
      nth_error (concat rs) (i * m + j) = match nth_error rs i with Some r => nth_error r j | None => None end) as G.
    { clear - Hi Hj. intros V rs. revert n i Hi. induction rs as [|r rs IH]; intros n i Hi Hl Hr; cbn in Hl; [lia|]. inversion_clear Hr as [|? ? Hr0 Hr1].
      cbn [concat]. destruct i as [|i]; cbn [nth_error].
      - rewrite nth_error_app1 by (cbn; lia). reflexivity.
      - rewrite nth_error_app2 by (cbn; lia). replace (Datatypes.S i * m + j - length r) with (i * m + j) by (cbn; lia).
        apply (IH (n - 1)); [lia|lia|exact Hr1]. }
    destruct (cell_some a n m i j Hs Hi Hj) as [x Ex]. destruct (Hf i j x Ex) as (l & El & Hl). exists x, l.
    assert (nth_error (ravel a) (i * m + j) = Some x) as Ea by (unfold ravel; rewrite (G _ _ H3 H4); exact Ex).
    generalize (mapM_nth _ _ _ Els (i * m + j)). rewrite Ea. intros (l' & Hl' & El'). rewrite El in El'. injection El' as <-.
    destruct (nth_error l k) as [y|] eqn:Ey; [|apply nth_error_None in Ey; lia]. exists y. split; [exact Ex|]. split; [exact El|]. split; [reflexivity|].
    unfold cell. cbn [rows]. rewrite <- (G _ _ C1 C2), C3, (E3 _ _ Hl'). exact Ey.
  Qed.
  Theorem C66_series_expand_empty_refuted (U : Type) (f : T -> res (list U)) (order : nat) :
    ~ (forall a n m, shaped a n m -> exists cs, mseries f a = Ok cs /\ length cs = order + 1).
  Proof.
    intros H. destruct (H (Mat 0 0 []) 0 0) as (cs & E & L); [repeat split; constructor|]. cbn in E. injection E as <-. cbn in L. lia.
  Qed.

  (** ** symbols and spaces *)
  Theorem C66_free_symbols fs a n m s : shaped a n m ->
    In s (mfree fs a) <-> exists i j x l, i < n /\ j < m /\ cell a i j = Some x /\ fs x = Some l /\ In s l.
  Proof.
    intros Hs. unfold mfree. rewrite in_flat_map. split.
    - intros (x & Hx & Hin). apply (in_ravel a n m x Hs) in Hx as (i & j & Hi & Hj & Ex). destruct (fs x) as [l|] eqn:E; [|destruct Hin].
      exists i, j, x, l. auto.
    - intros (i & j & x & l & Hi & Hj & Ex & El & Hin). exists x. split; [apply (in_ravel a n m x Hs); eauto|]. now rewrite El.
  Qed.
  (** [m.space] is the product of exactly the local spaces of the entries *)
  Theorem C66_space str_of iter (sp : T -> option hs) a n m : iterates iter -> shaped a n m ->
    (forall x h, sp x = Some h -> canonical h /\ h <> Full) ->
    exists h, mspace str_of iter sp a = Ok h /\
      is_product_of (fun s => exists i j x g, cell a i j = Some x /\ sp x = Some g /\ In s (factors g)) h.
  Proof.
    intros Hit Hs Hc. unfold mspace.
    assert (forall g, In g (flat_map (fun o => match sp o with Some h => [HS h] | None => [] end) (ravel a)) <->
      exists i j x h, cell a i j = Some x /\ sp x = Some h /\ g = HS h) as Hin.
    { intros g. rewrite in_flat_map. split.
      - intros (x & Hx & Hg). apply (in_ravel a n m x Hs) in Hx as (i & j & _ & _ & Ex). destruct (sp x) as [h|] eqn:E; [|destruct Hg].
        destruct Hg as [<-|[]]. exists i, j, x, h. auto.
      - intros (i & j & x & h & Ex & Eh & ->). exists x. split; [|rewrite Eh; now left].
        unfold cell in Ex. destruct (nth_error (rows a) i) as [r|] eqn:Er; [|discriminate]. unfold ravel. apply in_concat. exists r.
        split; [eapply nth_error_In; eauto|eapply nth_error_In; eauto]. }
    destruct (flat_map _ (ravel a)) as [|g l] eqn:E.
    - exists Trivial. split; [reflexivity|]. split; [exact Logic.I|]. split; [discriminate|]. intros s. split; [intros []|].
      intros (i & j & x & h & Ex & Eh & _). destruct (proj2 (Hin (HS h))). eauto 8.
    - destruct (C23_create_is_union str_of iter (g :: l) Hit) as (h & Eh & Hp).
      { intros x Hx. apply Hin in Hx as (i & j & y & h & _ & Eh & ->). cbn. eauto. }
      exists h. split; [exact Eh|]. destruct Hp as (P1 & P2 & P3). split; [exact P1|]. split; [exact P2|]. intros s. rewrite P3. split.
      + intros (x & Hx & Hs'). apply Hin in Hx as (i & j & y & h' & Ex & Eh' & ->). exists i, j, y, h'. auto.
      + intros (i & j & x & h' & Ex & Eh' & Hs'). exists (HS h'). split; [apply Hin; exists i, j, x, h'; auto|exact Hs'].
  Qed.
End Generic.

Section Arithmetic.
  Context {M : calgebra}.
  Notation A := (A M). Notation mat := (matrix A).
  Implicit Types a b c : mat.

  (** ** sums. Matrices of one shape add entry by entry; a single value is added to
      every entry (not only on the diagonal) *)
  Lemma badd_tab n m (f g : nat -> nat -> A) : badd (tab n m f) (tab n m g) = Ok (tab n m (fun i j => aadd (f i j) (g i j))).
  Proof.
    unfold badd, bdim. rewrite !nrows_tab, !ncols_tab, !Nat.eqb_refl. cbn [bind]. f_equal. apply tab_ext. intros i j Hi Hj.
    assert (bidx n i = i) as -> by (unfold bidx; destruct (Nat.eqb_spec n 1); lia).
    assert (bidx m j = j) as -> by (unfold bidx; destruct (Nat.eqb_spec m 1); lia).
    now rewrite !ent_tab.
  Qed.
  Theorem C66_add a b n m : has_shape a n m -> has_shape b n m ->
    exists r, add a (OMat b) = Ok r /\ has_shape r n m /\ forall i j, i < n -> j < m -> ent r i j = aadd (ent a i j) (ent b i j).
  Proof.
    intros Ha Hb. rewrite (shape_tab _ _ _ Ha), (shape_tab _ _ _ Hb). cbn [add]. rewrite badd_tab. eexists. split; [reflexivity|].
    split; [apply tab_shape|]. intros i j Hi Hj. now rewrite !ent_tab.
  Qed.
  Theorem C66_add_laws a b c n m : has_shape a n m -> has_shape b n m -> has_shape c n m ->
    add a (OMat b) = add b (OMat a) /\
    (do ab <- add a (OMat b); add ab (OMat c)) = (do bc <- add b (OMat c); add a (OMat bc)) /\
    add a (OMat (zerosm n m)) = Ok a /\ add a (OMat (neg a)) = Ok (zerosm n m) /\ neg (neg a) = a.
  Proof.
    intros Ha Hb Hc. rewrite (shape_tab _ _ _ Ha), (shape_tab _ _ _ Hb), (shape_tab _ _ _ Hc). cbn [add]. rewrite !badd_tab. cbn [bind add].
    unfold zerosm, neg, rmul. rewrite !nrows_tab, !ncols_tab, !badd_tab.
    split; [f_equal; apply tab_ext; intros; apply aadd_comm|]. split; [f_equal; apply tab_ext; intros; symmetry; apply aadd_assoc|].
    split; [f_equal; apply tab_ext; intros; apply aadd_0r|]. split.
    - f_equal. apply tab_ext. intros i j Hi Hj. rewrite ent_tab by assumption. unfold minus1. rewrite smul_amul_l, amul_1l. apply aopp_r.
    - apply tab_ext. intros i j Hi Hj. rewrite ent_tab by assumption. unfold minus1. rewrite !smul_amul_l, !amul_1l.
      rewrite ent_tab by assumption. apply aopp_opp.
  Qed.
  Theorem C66_add_value a n m (x : A) : has_shape a n m ->
    add a (OVal x) = Ok (radd x a) /\ has_shape (radd x a) n m /\ forall i j, i < n -> j < m -> ent (radd x a) i j = aadd (ent a i j) x.
  Proof.
    intros Ha. rewrite (shape_tab _ _ _ Ha). unfold add, radd. rewrite !nrows_tab, !ncols_tab.
    split; [f_equal; apply tab_ext; intros; apply aadd_comm|]. split; [apply tab_shape|].
    intros i j Hi Hj. rewrite ent_tab by assumption. apply aadd_comm.
  Qed.
  Theorem C66_add_incompatible a b n m n' m' : has_shape a n m -> has_shape b n' m' ->
    (n <> n' /\ n <> 1 /\ n' <> 1) \/ (m <> m' /\ m <> 1 /\ m' <> 1) ->
    add a (OMat b) = Err ValueError /\ sub a (OMat b) = Err ValueError.
  Proof.
    intros (A1 & A2 & _) (B1 & B2 & _) H.
    assert (forall b', nrows b' = n' -> ncols b' = m' -> badd a b' = Err ValueError) as G.
    { intros b' E1 E2. unfold badd, bdim. rewrite A1, A2, E1, E2. destruct H as [(H1 & H2 & H3)|(H1 & H2 & H3)].
      - destruct (Nat.eqb_spec n n'); [contradiction|]. destruct (Nat.eqb_spec n 1); [contradiction|]. destruct (Nat.eqb_spec n' 1); [contradiction|reflexivity].
      - destruct (Nat.eqb_spec m m'); [contradiction|]. destruct (Nat.eqb_spec m 1); [contradiction|]. destruct (Nat.eqb_spec m' 1); [contradiction|].
        destruct (n =? n'); [reflexivity|]. destruct (n =? 1); [reflexivity|]. destruct (n' =? 1); reflexivity. }
    cbn [sub add]. split; apply G; auto.
  Qed.
  (** differences *)
  Theorem C66_sub a b n m (x : A) : has_shape a n m -> has_shape b n m ->
    (exists r, sub a (OMat b) = Ok r /\ has_shape r n m /\ forall i j, i < n -> j < m -> aadd (ent r i j) (ent b i j) = ent a i j) /\
    sub a (OMat a) = Ok (zerosm n m) /\
    (exists r, sub a (OVal x) = Ok r /\ has_shape r n m /\ forall i j, i < n -> j < m -> aadd (ent r i j) x = ent a i j) /\
    (exists r, rsub a x = Ok r /\ has_shape r n m /\ forall i j, i < n -> j < m -> aadd (ent r i j) (ent a i j) = x).
  Proof.
    intros Ha Hb. rewrite (shape_tab _ _ _ Ha), (shape_tab _ _ _ Hb). unfold sub, rsub, add, rmul, zerosm. rewrite !nrows_tab, !ncols_tab, !badd_tab.
    assert (forall y : A, amul minus1 y = aopp y) as Em by (intros y; unfold minus1; now rewrite smul_amul_l, amul_1l).
    assert (forall y z : A, aadd (aadd y (aopp z)) z = y) as Ec by (intros y z; rewrite <- aadd_assoc, aopp_l; apply aadd_0r).
    assert (forall y z : A, aadd (aadd (aopp y) z) y = z) as Ed by (intros y z; rewrite (aadd_comm _ (aopp y)); apply Ec).
    split; [|split; [|split]].
    - eexists. split; [reflexivity|]. split; [apply tab_shape|]. intros i j Hi Hj. rewrite !ent_tab by assumption. rewrite ?ent_tab by assumption. rewrite Em. apply Ec.
    - f_equal. apply tab_ext. intros i j Hi Hj. rewrite ?ent_tab by assumption. rewrite Em. apply aopp_r.
    - eexists. split; [reflexivity|]. split; [apply tab_shape|]. intros i j Hi Hj. rewrite !ent_tab by assumption. rewrite ?ent_tab by assumption. rewrite Em. apply Ec.
    - eexists. split; [reflexivity|]. split; [apply tab_shape|]. intros i j Hi Hj. rewrite !ent_tab by assumption. rewrite ?ent_tab by assumption. rewrite Em. apply Ed.
  Qed.

  (** ** products *)
  Theorem C66_mul_value a n m (x : A) : has_shape a n m ->
    (exists r, mul a (OVal x) = Ok r /\ has_shape r n m /\ forall i j, i < n -> j < m -> ent r i j = amul (ent a i j) x) /\
    has_shape (rmul x a) n m /\ (forall i j, i < n -> j < m -> ent (rmul x a) i j = amul x (ent a i j)) /\
    (forall k, mul a (OVal (smul k a1)) = Ok (rmul (smul k a1) a)).
  Proof.
    intros Ha. rewrite (shape_tab _ _ _ Ha). unfold mul, rmul. rewrite !nrows_tab, !ncols_tab. split; [|split; [|split]].
    - eexists. split; [reflexivity|]. split; [apply tab_shape|]. intros i j Hi Hj. now rewrite !ent_tab.
    - apply tab_shape.
    - intros i j Hi Hj. now rewrite !ent_tab.
    - intros k. f_equal. apply tab_ext. intros i j Hi Hj. now rewrite smul_amul_r, smul_amul_l, amul_1l, amul_1r.
  Qed.
  Theorem C66_mul_shapes a b n m n' m' : has_shape a n m -> has_shape b n' m' -> m <> n' -> mul a (OMat b) = Err ValueError.
  Proof. intros (A1 & A2 & _) (B1 & B2 & _) H. cbn [mul]. unfold mmul. rewrite A2, B1. destruct (Nat.eqb_spec m n'); [contradiction|reflexivity]. Qed.
  Lemma mmul_tab n m k (f g : nat -> nat -> A) :
    mmul (tab n m f) (tab m k g) = Ok (tab n k (fun i j => bigsum m (fun l => amul (f i l) (g l j)))).
  Proof.
    rewrite (mmul_shape _ _ n m k) by apply tab_shape. f_equal. apply tab_ext. intros i j Hi Hj. apply asum_ext. intros l Hl. apply in_seq in Hl.
    rewrite !ent_tab by lia. reflexivity.
  Qed.
  Theorem C66_distributive a b c d n m k : has_shape a n m -> has_shape b m k -> has_shape c m k -> has_shape d n m ->
    (do bc <- add b (OMat c); mul a (OMat bc)) = (do ab <- mul a (OMat b); do ac <- mul a (OMat c); add ab (OMat ac)) /\
    (do ad <- add a (OMat d); mul ad (OMat b)) = (do ab <- mul a (OMat b); do db <- mul d (OMat b); add ab (OMat db)).
  Proof.
    intros Ha Hb Hc Hd. rewrite (shape_tab _ _ _ Ha), (shape_tab _ _ _ Hb), (shape_tab _ _ _ Hc), (shape_tab _ _ _ Hd). cbn [mul add].
    rewrite !badd_tab, !mmul_tab. cbn [bind]. rewrite !mmul_tab, ?badd_tab. cbn [bind]. rewrite ?badd_tab. split; f_equal; apply tab_ext; intros i j Hi Hj; unfold bigsum; rewrite <- asum_add.
    - apply asum_ext. intros l _. apply amul_addr.
    - apply asum_ext. intros l _. apply amul_addl.
  Qed.
  (** an operator can be multiplied in from either side or, in the middle, to either factor *)
  Theorem C66_mul_value_assoc a b n m k (x : A) : has_shape a n m -> has_shape b m k ->
    (do ab <- mul a (OMat b); Ok (rmul x ab)) = mul (rmul x a) (OMat b) /\
    (do ab <- mul a (OMat b); mul ab (OVal x)) = (do bx <- mul b (OVal x); mul a (OMat bx)) /\
    (do ax <- mul a (OVal x); mul ax (OMat b)) = mul a (OMat (rmul x b)).
  Proof.
    intros Ha Hb. rewrite (shape_tab _ _ _ Ha), (shape_tab _ _ _ Hb). unfold mul, rmul. rewrite !nrows_tab, !ncols_tab, !mmul_tab. cbn [bind].
    rewrite !nrows_tab, !ncols_tab, ?mmul_tab.
    assert (forall i l, i < n -> l < m -> ent (tab n m (ent a)) i l = ent a i l) as Ea by (intros; now apply ent_tab).
    assert (forall l j, l < m -> j < k -> ent (tab m k (ent b)) l j = ent b l j) as Eb by (intros; now apply ent_tab).
    split; [|split]; f_equal; apply tab_ext; intros i j Hi Hj; rewrite ?ent_tab by assumption; unfold bigsum.
    - rewrite <- asum_mul_l. apply asum_ext. intros l Hl. apply in_seq in Hl. rewrite ?Ea, ?Eb by lia. apply amul_assoc.
    - rewrite <- asum_mul_r. apply asum_ext. intros l Hl. apply in_seq in Hl. rewrite ?Ea, ?Eb by lia. symmetry. apply amul_assoc.
    - apply asum_ext. intros l Hl. apply in_seq in Hl. rewrite ?Ea, ?Eb by lia. symmetry. apply amul_assoc.
  Qed.
  (** division by a number [k] that has the inverse [inv k]; nothing else divides *)
  Theorem C66_truediv (inv : K M -> K M) a n m (k : K M) : has_shape a n m -> kmul (inv k) k = k1 ->
    (exists r, truediv inv a (Some k) = Ok r /\ has_shape r n m /\ rmul (smul k a1) r = a) /\ truediv inv a None = Err NotImplementedError.
  Proof.
    intros Ha Hc. split; [|reflexivity]. rewrite (shape_tab _ _ _ Ha). unfold truediv, mul, rmul. rewrite !nrows_tab, !ncols_tab. eexists. split; [reflexivity|].
    split; [apply tab_shape|]. rewrite !nrows_tab, !ncols_tab. apply tab_ext. intros i j Hi Hj. rewrite !ent_tab by assumption.
    rewrite smul_amul_r, amul_1r, smul_amul_l, amul_1l, <- smul_mul.
    assert (kmul k (inv k) = k1) as ->; [|apply smul_1]. rewrite <- Hc. destruct (kring M). apply Rmul_comm.
  Qed.

  (** ** transposes *)
  Lemma mtranspose_tab n m (f : nat -> nat -> A) : mtranspose (tab n m f) = tab m n (fun i j => f j i).
  Proof. unfold mtranspose. rewrite nrows_tab, ncols_tab. apply tab_ext. intros i j Hi Hj. now rewrite ent_tab. Qed.
  Theorem C66_transpose a b n m : has_shape a n m -> has_shape b n m ->
    has_shape (mtranspose a) m n /\ (forall i j, i < m -> j < n -> ent (mtranspose a) i j = ent a j i) /\ mtranspose (mtranspose a) = a /\
    (do ab <- add a (OMat b); Ok (mtranspose ab)) = add (mtranspose a) (OMat (mtranspose b)) /\
    madj a = element_wise star (mtranspose a) /\ madj (mtranspose a) = mtranspose (madj a).
  Proof.
    intros Ha Hb. rewrite (shape_tab _ _ _ Ha), (shape_tab _ _ _ Hb). rewrite !mtranspose_tab. cbn [add]. rewrite !badd_tab. cbn [bind]. rewrite !mtranspose_tab.
    split; [apply tab_shape|]. split; [intros; now rewrite !ent_tab|]. split; [reflexivity|]. split; [reflexivity|]. unfold madj, element_wise.
    rewrite ?mtranspose_tab, !nrows_tab, !ncols_tab. split; [reflexivity|]. rewrite ?mtranspose_tab. apply tab_ext. intros i j Hi Hj. now rewrite !ent_tab.
  Qed.
  (** for entries that commute (as numbers do) the transpose of a product is the product
      of the transposes in the other order, and traces are cyclic *)
  Theorem C66_transpose_product a b n m k : has_shape a n m -> has_shape b m k ->
    (forall i l j, i < n -> l < m -> j < k -> amul (ent a i l) (ent b l j) = amul (ent b l j) (ent a i l)) ->
    (do ab <- mul a (OMat b); Ok (mtranspose ab)) = mul (mtranspose b) (OMat (mtranspose a)).
  Proof.
    intros Ha Hb Hc. rewrite (shape_tab _ _ _ Ha), (shape_tab _ _ _ Hb). cbn [mul]. rewrite !mtranspose_tab, !mmul_tab. cbn [bind]. rewrite mtranspose_tab. f_equal.
    apply tab_ext. intros i j Hi Hj. apply asum_ext. intros l Hl. apply in_seq in Hl. apply Hc; lia.
  Qed.
  Lemma mtrace_tab n (f : nat -> nat -> A) : mtrace (tab n n f) = Ok (bigsum n (fun k => f k k)).
  Proof.
    unfold mtrace. rewrite nrows_tab, ncols_tab, Nat.eqb_refl. f_equal.
    assert (forall l x, fold_left (fun s k => aadd s (ent (tab n n f) k k)) l x = aadd x (asum (fun k => ent (tab n n f) k k) l)) as G.
    { induction l as [|k l IH]; intros x; cbn [fold_left]; [symmetry; apply aadd_0r|]. rewrite IH, asum_cons. now rewrite aadd_assoc. }
    rewrite G, aadd_0. apply asum_ext. intros k Hk. apply in_seq in Hk. rewrite ent_tab by lia. reflexivity.
  Qed.
  Theorem C66_trace_linear a b n (x : A) : has_shape a n n -> has_shape b n n ->
    exists s t, mtrace a = Ok s /\ mtrace b = Ok t /\ (do ab <- add a (OMat b); mtrace ab) = Ok (aadd s t) /\
      mtrace (rmul x a) = Ok (amul x s) /\ (do ax <- mul a (OVal x); mtrace ax) = Ok (amul s x) /\ mtrace (mtranspose a) = Ok s /\ mtrace (madj a) = Ok (star s).
  Proof.
    intros Ha Hb. rewrite (shape_tab _ _ _ Ha), (shape_tab _ _ _ Hb). cbn [add]. rewrite !badd_tab. cbn [bind]. unfold madj, element_wise, mul, rmul.
    rewrite !mtranspose_tab, !nrows_tab, !ncols_tab. cbn [bind]. rewrite !mtrace_tab. do 2 eexists. split; [reflexivity|]. split; [reflexivity|].
    unfold bigsum.
    split; [f_equal; apply asum_add|].
    split; [f_equal; rewrite <- asum_mul_l; apply asum_ext; intros l Hl; apply in_seq in Hl; now rewrite ent_tab by lia|].
    split; [f_equal; rewrite <- asum_mul_r; apply asum_ext; intros l Hl; apply in_seq in Hl; now rewrite ent_tab by lia|].
    split; [reflexivity|]. f_equal. rewrite star_asum. apply asum_ext. intros l Hl. apply in_seq in Hl. now rewrite ent_tab by lia.
  Qed.
  Theorem C66_trace_cyclic a b n m : has_shape a n m -> has_shape b m n ->
    (forall i l, i < n -> l < m -> amul (ent a i l) (ent b l i) = amul (ent b l i) (ent a i l)) ->
    exists s, (do ab <- mul a (OMat b); mtrace ab) = Ok s /\ (do ba <- mul b (OMat a); mtrace ba) = Ok s.
  Proof.
    intros Ha Hb Hc. rewrite (shape_tab _ _ _ Ha), (shape_tab _ _ _ Hb). cbn [mul]. rewrite !mmul_tab. cbn [bind]. rewrite !mtrace_tab. eexists. split; [reflexivity|].
    f_equal. unfold bigsum. rewrite asum_swap. apply asum_ext. intros l Hl. apply in_seq in Hl. apply asum_ext. intros i Hi. apply in_seq in Hi. symmetry. apply Hc; lia.
  Qed.

  (** ** [diagm v k]: [v] on the [k]-th diagonal (above the main one for [k > 0]), zeros elsewhere *)
  Theorem C66_diagm (v : list A) (k : Z) : let n := length v + Z.to_nat (Z.abs k) in
    has_shape (diagm v k) n n /\
    forall i j, i < n -> j < n -> ent (diagm v k) i j = if (Z.of_nat j =? Z.of_nat i + k)%Z then nth (Nat.min i j) v a0 else a0.
  Proof.
    intros n. split; [apply tab_shape|]. intros i j Hi Hj. unfold diagm. fold n. rewrite ent_tab by assumption.
    set (r0 := Z.to_nat (- k)). set (c0 := Z.to_nat k).
    assert ((if (0 <=? k)%Z then c0 else r0 * n) = r0 * n + c0) as ->.
    { subst r0 c0. destruct (Z.leb_spec 0 k); [replace (Z.to_nat (- k)) with 0 by lia; reflexivity|replace (Z.to_nat k) with 0 by lia; lia]. }
    assert (forall (w : list A) t (f : nat -> nat -> A), t + length w = length v -> fill_flat w n ((r0 + t) * n + (c0 + t)) f i j =
      if (Z.of_nat j =? Z.of_nat i + k)%Z && (t <=? Nat.min i j) && (Nat.min i j <? t + length w) then nth (Nat.min i j - t) w a0 else f i j) as G.
    { induction w as [|x w IH]; intros t f Ht; cbn [fill_flat length] in *.
      - destruct (Nat.leb_spec t (Nat.min i j)), (Nat.ltb_spec (Nat.min i j) (t + 0)), (Z.of_nat j =? Z.of_nat i + k)%Z; cbn [andb]; try reflexivity; lia.
      - assert (c0 + t < n) as Hc by (subst n c0; lia).
        replace ((r0 + t) * n + (c0 + t) + Datatypes.S n) with ((r0 + Datatypes.S t) * n + (c0 + Datatypes.S t)) by lia.
        rewrite IH by lia. unfold set_entry.
        rewrite (Nat.div_add_l (r0 + t) n (c0 + t)), (Nat.div_small (c0 + t)) by lia.
        rewrite (Nat.add_comm ((r0 + t) * n)), Nat.mod_add, (Nat.mod_small (c0 + t)) by lia.
        assert (((i =? r0 + t + 0) && (j =? c0 + t)) = ((Z.of_nat j =? Z.of_nat i + k)%Z && (t =? Nat.min i j))) as ->.
        { clear IH. subst r0 c0. destruct (Nat.eqb_spec i (Z.to_nat (- k) + t + 0)), (Nat.eqb_spec j (Z.to_nat k + t)), (Z.eqb_spec (Z.of_nat j) (Z.of_nat i + k)), (Nat.eqb_spec t (Nat.min i j)); cbn [andb]; try reflexivity; exfalso; lia. }
        destruct (Z.of_nat j =? Z.of_nat i + k)%Z; cbn [andb]; [|reflexivity].
        destruct (Nat.eqb_spec t (Nat.min i j)) as [E|E].
        + assert ((Datatypes.S t <=? Nat.min i j) = false) as -> by (apply Nat.leb_gt; lia). assert ((t <=? Nat.min i j) = true) as -> by (apply Nat.leb_le; lia). assert ((Nat.min i j <? t + Datatypes.S (length w)) = true) as -> by (apply Nat.ltb_lt; subst n; lia).
          cbn [andb]. replace (Nat.min i j - t) with 0 by lia. reflexivity.
        + destruct (Nat.leb_spec (Datatypes.S t) (Nat.min i j)).
          * assert ((t <=? Nat.min i j) = true) as -> by (apply Nat.leb_le; lia). cbn [andb]. replace (Datatypes.S t + length w) with (t + Datatypes.S (length w)) by lia.
            destruct (_ <? _); [|reflexivity]. replace (Nat.min i j - t) with (Datatypes.S (Nat.min i j - Datatypes.S t)) by lia. reflexivity.
          * assert ((t <=? Nat.min i j) = false) as -> by (apply Nat.leb_gt; lia). reflexivity. }
    specialize (G v 0 (fun _ _ => a0) eq_refl). rewrite !Nat.add_0_r in G. rewrite G. clear G.
    destruct (Z.eqb_spec (Z.of_nat j) (Z.of_nat i + k)) as [E|E]; cbn [andb]; [|reflexivity].
    assert ((0 <=? Nat.min i j) = true) as -> by (apply Nat.leb_le; lia). assert ((Nat.min i j <? 0 + length v) = true) as -> by (apply Nat.ltb_lt; subst n; lia).
    cbn [andb]. now rewrite Nat.sub_0_r.
  Qed.
  Theorem C66_identity_is_diagm n : identity_matrix (M:=M) n = diagm (repeat a1 n) 0.
  Proof.
    destruct (C66_diagm (repeat a1 n) 0) as (Hs & He). cbn zeta in *. rewrite repeat_length in Hs, He. cbn [Z.abs Z.to_nat] in Hs, He. rewrite Nat.add_0_r in Hs, He.
    rewrite (shape_tab _ _ _ Hs). unfold identity_matrix. apply tab_ext. intros i j Hi Hj. rewrite He by assumption.
    destruct (Nat.eqb_spec i j) as [->|E].
    - replace (_ =? _)%Z with true by lia. rewrite Nat.min_id. rewrite nth_repeat_lt by exact Hi. reflexivity.
    - replace (_ =? _)%Z with false by lia. reflexivity.
  Qed.

  (** ** conjugate, real and imaginary part *)
  Lemma smul_conj (c : K M) : star (smul c a1) = smul (kconj c) (@a1 M).
  Proof. now rewrite star_smul, star_1. Qed.
  (** defined exactly for matrices of numbers *)
  Theorem C66_conjugate (a : matrix (entry M)) n m : shaped a n m ->
    ((forall i j o, cell a i j = Some o -> is_number o) -> exists b : matrix (entry M), mconj a = Ok b /\ shaped b n m /\ mconj b = Ok a /\
       forall i j, i < n -> j < m -> at_ b i j = star (at_ a i j)) /\
    ((exists i j o, i < n /\ j < m /\ cell a i j = Some o /\ ~ is_number o) -> mconj a = Err PlainException /\ mreal a = Err PlainException /\ mimag a = Err PlainException).
  Proof.
    intros Hs. split.
    - intros Hn. assert (exists b : matrix (entry M), mconj a = Ok b) as [b Eb].
      { unfold mconj. rewrite (element_nested conj_entry a n m Hs). destruct (mapM_total conj_entry (ravel a)) as [l El].
        - intros o Ho. apply (in_ravel a n m o Hs) in Ho as (i & j & _ & _ & Eo). specialize (Hn i j o Eo). destruct o; [cbn; eauto|destruct Hn].
        - unfold ravel in El. rewrite mapM_concat in El. destruct (mapM (mapM conj_entry) (rows a)); [cbn [bind]; eauto|discriminate]. }
      exists b. split; [exact Eb|]. destruct (element_cells _ _ _ _ _ Hs Eb) as (Sb & Hb). split; [exact Sb|]. split.
      + apply (C66_element_wise conj_entry b n m a Sb). split; [exact Hs|]. intros i j Hi Hj. destruct (Hb i j Hi Hj) as (x & y & Ex & Ey & E).
        exists y, x. split; [exact Ey|]. split; [exact Ex|]. destruct x as [k c|x]; [|discriminate]. cbn in E. injection E as <-. cbn. now rewrite kconj_conj.
      + intros i j Hi Hj. destruct (Hb i j Hi Hj) as (x & y & Ex & Ey & E). unfold at_. rewrite Ex, Ey.
        destruct x as [k c|x]; [|discriminate]. cbn in E. injection E as <-. cbn. symmetry. apply smul_conj.
    - intros (i & j & o & Hi & Hj & Eo & Hn).
      split; [|split]; apply (C66_element_wise_raises _ a n m _ Hs); try (exists i, j, o; destruct o; [destruct Hn; exact Logic.I|]; auto);
        intros i' j' x _; destruct x as [[]|]; cbn; eauto.
  Qed.
  (** the parts are real (their own conjugates) and make up the matrix; the adjoint of
      the matrix is the transpose of the conjugate *)
  Theorem C66_real_imag (a : matrix (entry M)) n m : shaped a n m -> (forall i j o, cell a i j = Some o -> has_parts o) ->
    exists re im, mreal a = Ok re /\ mimag a = Ok im /\ shaped re n m /\ shaped im n m /\ mconj re = Ok re /\ mconj im = Ok im /\
      forall i j, i < n -> j < m -> at_ a i j = aadd (at_ re i j) (smul iu (at_ im i j)).
  Proof.
    intros Hs Hn.
    assert (forall f : entry M -> res (entry M), (forall o, has_parts o -> exists y, f o = Ok y) -> exists b : matrix (entry M), element_map f a = Ok b) as G.
    { intros f Hf. rewrite (element_nested f a n m Hs). destruct (mapM_total f (ravel a)) as [l El].
      - intros o Ho. apply (in_ravel a n m o Hs) in Ho as (i & j & _ & _ & Eo). eauto.
      - unfold ravel in El. rewrite mapM_concat in El. destruct (mapM (mapM f) (rows a)); [cbn [bind]; eauto|discriminate]. }
    destruct (G re_entry) as [re Er]; [intros [[]|] H; try destruct H; cbn; eauto|].
    destruct (G im_entry) as [im Ei]; [intros [[]|] H; try destruct H; cbn; eauto|]. clear G.
    exists re, im. split; [exact Er|]. split; [exact Ei|].
    destruct (element_cells _ _ _ _ _ Hs Er) as (Sr & Hr). destruct (element_cells _ _ _ _ _ Hs Ei) as (Si & Hi0). split; [exact Sr|]. split; [exact Si|].
    assert (ring_theory (@k0 M) k1 kadd kmul (fun x y => kadd x (kopp y)) kopp eq) as KR by exact (kring M).
    assert (forall c : K M, kconj (re_part c) = re_part c) as R1.
    { intros c. unfold re_part. rewrite kconj_mul, khalf_conj, kconj_add, kconj_conj. f_equal. apply KR. }
    assert (forall c : K M, kconj (im_part c) = im_part c) as I1.
    { intros c. unfold im_part. rewrite !kconj_mul, khalf_conj, kconj_opp, iu_conj, kconj_add, kconj_opp, kconj_conj. apply im_ring. }
    split; [|split].
    - apply (C66_element_wise conj_entry re n m re Sr). split; [exact Sr|]. intros i j Hi Hj. destruct (Hr i j Hi Hj) as (x & y & Ex & Ey & E). exists y, y.
      split; [exact Ey|]. split; [exact Ey|]. specialize (Hn i j x Ex). destruct x as [[]|]; try destruct Hn; cbn in E; injection E as <-; cbn; now rewrite R1.
    - apply (C66_element_wise conj_entry im n m im Si). split; [exact Si|]. intros i j Hi Hj. destruct (Hi0 i j Hi Hj) as (x & y & Ex & Ey & E). exists y, y.
      split; [exact Ey|]. split; [exact Ey|]. specialize (Hn i j x Ex). destruct x as [[]|]; try destruct Hn; cbn in E; injection E as <-; cbn; now rewrite I1.
    - intros i j Hi Hj. destruct (Hr i j Hi Hj) as (x & y & Ex & Ey & E). destruct (Hi0 i j Hi Hj) as (x' & z & Ex' & Ez & E').
      rewrite Ex in Ex'. injection Ex' as <-. unfold at_. rewrite Ex, Ey, Ez. specialize (Hn i j x Ex).
      destruct x as [[] c|]; try destruct Hn; cbn in E, E'; injection E as <-; injection E' as <-; cbn [entry_value]; rewrite <- smul_mul, <- smul_addl; f_equal; apply parts_ring.
  Qed.
  (** complex conjugation of a product of matrices of numbers *)
  Theorem C66_conjugate_product (a b ac bc : matrix (entry M)) n m k : shaped a n m -> shaped b m k -> mconj a = Ok ac -> mconj b = Ok bc ->
    exists r s, mmul (tab n m (at_ a)) (tab m k (at_ b)) = Ok r /\ mmul (tab n m (at_ ac)) (tab m k (at_ bc)) = Ok s /\
      forall i j, i < n -> j < k -> ent s i j = star (ent r i j).
  Proof.
    intros Ha Hb Ea Eb. rewrite !mmul_tab. do 2 eexists. split; [reflexivity|]. split; [reflexivity|]. intros i j Hi Hj. rewrite !ent_tab by assumption.
    unfold bigsum. rewrite star_asum. apply asum_ext. intros l Hl. apply in_seq in Hl.
    destruct (element_cells _ _ _ _ _ Ha Ea) as (_ & Ga). destruct (element_cells _ _ _ _ _ Hb Eb) as (_ & Gb).
    destruct (Ga i l Hi ltac:(lia)) as (x & y & Ex & Ey & E). destruct (Gb l j ltac:(lia) Hj) as (x' & y' & Ex' & Ey' & E').
    unfold at_. rewrite Ex, Ey, Ex', Ey'. destruct x as [q c|]; [|discriminate]. destruct x' as [q' c'|]; [|discriminate]. cbn in E, E'. injection E as <-. injection E' as <-.
    cbn [entry_value]. rewrite star_mul, !smul_conj, !smul_amul_l, !smul_amul_r, !amul_1l, <- !smul_mul. f_equal. destruct (kring M). apply Rmul_comm.
  Qed.
End Arithmetic.

Ltac shp := split; [reflexivity|split; [reflexivity|split; [reflexivity|repeat (constructor; [reflexivity|]); constructor]]].
(** Matrices of different shapes are not always refused: numpy repeats a row or column
    of length one. *)
Theorem C66_add_shapes_refuted :
  ~ (forall (a b : matrix (A CM)) n m n' m', has_shape a n m -> has_shape b n' m' -> n <> n' \/ m <> m' -> exists e, add a (OMat b) = Err e).
Proof.
  intros H. pose (a := Mat 2 2 [[one2; zero2]; [zero2; one2]] : matrix (A CM)). pose (b := Mat 2 1 [[one2]; [one2]] : matrix (A CM)).
  assert (has_shape (M:=CM) a 2 2) as Ha by shp. assert (has_shape (M:=CM) b 2 1) as Hb by shp. assert (2 <> 1) as H1 by discriminate.
  destruct (H a b 2 2 2 1 Ha Hb (or_intror H1)) as [e E]. unfold add, badd, a, b in E. cbn [bdim bind nrows ncols Nat.eqb] in E. discriminate E.
Qed.

(** Operators do not commute, so neither the transpose of a product nor the cyclic trace
    is as for numbers. *)
Theorem C66_transpose_product_refuted :
  ~ (forall (a b : matrix (A CM)) n m k, has_shape a n m -> has_shape b m k ->
      (do ab <- mul a (OMat b); Ok (mtranspose ab)) = mul (mtranspose b) (OMat (mtranspose a))).
Proof.
  intros H. specialize (H (Mat 1 1 [[lower]]) (Mat 1 1 [[raise]]) 1 1 1 ltac:(shp) ltac:(shp)).
  apply (f_equal (fun r => match r with Ok m => q2_eqb (ent (M:=CM) m 0 0) (q2mul lower raise) | Err _ => false end)) in H. vm_compute in H. discriminate.
Qed.
Theorem C66_trace_cyclic_refuted :
  ~ (forall (a b : matrix (A CM)) n, has_shape a n n -> has_shape b n n ->
      (do ab <- mul a (OMat b); mtrace ab) = (do ba <- mul b (OMat a); mtrace ba)).
Proof.
  intros H. specialize (H (Mat 1 1 [[lower]]) (Mat 1 1 [[raise]]) 1 ltac:(shp) ltac:(shp)).
  apply (f_equal (fun r => match r with Ok x => q2_eqb x (q2mul lower raise) | Err _ => false end)) in H. vm_compute in H. discriminate.
Qed.

(** The docstring of [imag] says that it is [(M.conjugate() - M) / (I * 2)]: that is minus
    the imaginary part. *)
Theorem C66_imag_docstring_refuted :
  ~ (forall (a im : matrix (entry CM)) n m, shaped a n m -> (forall i j o, cell a i j = Some o -> has_parts o) -> mimag a = Ok im ->
      forall i j, i < n -> j < m -> smul (kadd iu iu) (at_ im i j) = aadd (star (at_ a i j)) (aopp (at_ a i j))).
Proof.
  intros H. specialize (H (Mat 1 1 [[MNum HasReal (@iu CM)]]) (Mat 1 1 [[MNum HasReal (im_part (@iu CM))]]) 1 1 ltac:(shp)).
  specialize (H ltac:(intros [|[|i]] [|[|j]] o E; cbn in E; try discriminate E; injection E as <-; exact Logic.I) eq_refl 0 0 ltac:(lia) ltac:(lia)).
  apply (f_equal (fun x => q2_eqb x (at_ (M:=CM) (Mat 1 1 [[MNum HasReal (kadd (@iu CM) iu)]]) 0 0))) in H. vm_compute in H. discriminate.
Qed.
(** The same formula is what the code falls back to for a number that has neither
    [imag] nor [as_real_imag]. *)
Theorem C66_imag_fallback_refuted :
  ~ (forall (a re im : matrix (entry CM)) n m, shaped a n m -> (forall i j o, cell a i j = Some o -> is_number o) -> mreal a = Ok re -> mimag a = Ok im ->
      forall i j, i < n -> j < m -> at_ a i j = aadd (at_ re i j) (smul iu (at_ im i j))).
Proof.
  intros H. pose (c := @iu CM).
  specialize (H (Mat 1 1 [[MNum OnlyConj c]]) (Mat 1 1 [[MNum OnlyConj (kmul (@khalf CM) (kadd (kconj c) c))]])
    (Mat 1 1 [[MNum OnlyConj (kmul (kmul (@khalf CM) (kopp iu)) (kadd (kconj c) (kopp c)))]]) 1 1 ltac:(shp)).
  specialize (H ltac:(intros [|[|i]] [|[|j]] o E; cbn in E; try discriminate E; injection E as <-; exact Logic.I) eq_refl eq_refl 0 0 ltac:(lia) ltac:(lia)).
  apply (f_equal (fun x => q2_eqb x (at_ (M:=CM) (Mat 1 1 [[MNum HasReal c]]) 0 0))) in H. vm_compute in H. discriminate.
Qed.

(** Non-vacuity: a 2x2 matrix of operators, one of numbers, a series of numbers. *)
Definition ex_ops : matrix (A CM) := Mat 2 2 [[lower; one2]; [pauliz; raise]].
Definition ex_nums : matrix (entry CM) := Mat 1 2 [[MNum HasReal (@iu CM); MNum Sympy (kadd (@k1 CM) iu)]].
Example C66_nonvacuous :
  has_shape (M:=CM) ex_ops 2 2 /\ shaped ex_nums 1 2 /\ (forall i j o, cell ex_nums i j = Some o -> has_parts o /\ is_number o) /\
  (exists cs, mseries (fun x : nat => Ok [x; x + 1; 0]) (Mat 2 2 [[1; 2]; [3; 4]]) = Ok cs /\ nth_error cs 1 = Some (Mat 2 2 [[2; 3]; [4; 5]])) /\
  getitem (Mat 2 2 [[1; 2]; [3; 4]]) (-1) 0 = Ok 3 /\
  (exists r, add (M:=CM) ex_ops (OVal (M:=CM) lower) = Ok r /\ q2_eqb (ent (M:=CM) r 0 0) (q2add lower lower) = true) /\
  (forall c : K CM, c = @iu CM -> kmul (kopp iu) c = k1) /\
  (let s := Local (mk_local None (Lit [48]) None []) in canonical s /\ s <> Full).
Proof.
  split; [shp|]. split; [shp|].
  split; [intros [|[|i]] [|[|[|j]]] o E; cbn in E; try discriminate E; injection E as <-; split; exact Logic.I|].
  split; [eexists; split; reflexivity|]. split; [reflexivity|]. split; [eexists; split; [reflexivity|vm_compute; reflexivity]|].
  split; [intros c ->; apply gq_eqb_eq; vm_compute; reflexivity|]. split; [now exists [48]|discriminate].
Qed.
Print Assumptions C66_init.
Print Assumptions C66_getitem.
Print Assumptions C66_row_is_column.
Print Assumptions C66_column.
Print Assumptions C66_element_wise.
Print Assumptions C66_element_wise_raises.
Print Assumptions C66_substitute.
Print Assumptions C66_is_zero.
Print Assumptions C66_instance_key.
Print Assumptions C66_eq.
Print Assumptions C66_series_expand.
Print Assumptions C66_series_expand_empty_refuted.
Print Assumptions C66_free_symbols.
Print Assumptions C66_space.
Print Assumptions C66_add.
Print Assumptions C66_add_laws.
Print Assumptions C66_add_value.
Print Assumptions C66_add_incompatible.
Print Assumptions C66_sub.
Print Assumptions C66_mul_value.
Print Assumptions C66_mul_shapes.
Print Assumptions C66_distributive.
Print Assumptions C66_mul_value_assoc.
Print Assumptions C66_truediv.
Print Assumptions C66_transpose.
Print Assumptions C66_transpose_product.
Print Assumptions C66_trace_linear.
Print Assumptions C66_trace_cyclic.
Print Assumptions C66_diagm.
Print Assumptions C66_identity_is_diagm.
Print Assumptions C66_conjugate.
Print Assumptions C66_real_imag.
Print Assumptions C66_conjugate_product.
Print Assumptions C66_add_shapes_refuted.
Print Assumptions C66_transpose_product_refuted.
Print Assumptions C66_trace_cyclic_refuted.
Print Assumptions C66_imag_docstring_refuted.
Print Assumptions C66_imag_fallback_refuted.
