From Verif Require Import Prelude ListFacts AlgSpec CAlg MatModel MatProofs MarModel MarSpec.

Lemma nth_error_ext' {T} (l : list T) : forall l', (forall j, nth_error l j = nth_error l' j) -> l = l'.
Proof.
  induction l as [|x l IH]; intros [|y l'] H; [reflexivity|specialize (H 0); discriminate|specialize (H 0); discriminate|].
  f_equal; [specialize (H 0); now injection H|apply IH; intros j; apply (H (Datatypes.S j))].
Qed.
Section E.
  Context {T : Type}.
  Implicit Types a : matrix T.
  Lemma chunks_concat (rs : list (list T)) m : Forall (fun r => length r = m) rs -> chunks (length rs) m (concat rs) = rs.
  Proof.
    induction 1 as [|r rs Hr _ IH]; [reflexivity|]. cbn [length chunks concat].
    rewrite firstn_app, skipn_app, Hr, Nat.sub_diag, (firstn_all2 r), (skipn_all2 r) by lia.
    cbn [firstn skipn app]. rewrite app_nil_r, IH. reflexivity.
  Qed.
  Lemma concat_len (rs : list (list T)) m : Forall (fun r => length r = m) rs -> length (concat rs) = length rs * m.
  Proof. induction 1 as [|r rs Hr _ IH]; [reflexivity|]. cbn [concat length]. rewrite app_length, Hr, IH. reflexivity. Qed.
  Lemma chunks_shape m : forall n (l : list T), length l = n * m ->
    length (chunks n m l) = n /\ Forall (fun r => length r = m) (chunks n m l) /\ concat (chunks n m l) = l.
  Proof.
    induction n as [|n IH]; intros l Hl; cbn [chunks length concat].
    - destruct l; [|discriminate]. repeat split. constructor.
    - cbn in Hl. destruct (IH (skipn m l)) as (H1 & H2 & H3); [rewrite skipn_length; lia|].
      split; [now rewrite H1|]. split; [constructor; [rewrite firstn_length; lia|exact H2]|]. rewrite H3. apply firstn_skipn.
  Qed.
  Lemma mapM_app' {U} (f : T -> res U) l l' : mapM f (l ++ l') = do x <- mapM f l; do y <- mapM f l'; Ok (x ++ y).
  Proof.
    induction l as [|x l IH]; cbn [mapM app bind]; [destruct (mapM f l'); reflexivity|].
    destruct (f x); cbn [bind]; [|reflexivity]. rewrite IH. destruct (mapM f l); cbn [bind]; [|reflexivity].
    destruct (mapM f l'); reflexivity.
  Qed.
  Lemma mapM_concat {U} (f : T -> res U) rs : mapM f (concat rs) = do x <- mapM (mapM f) rs; Ok (concat x).
  Proof.
    induction rs as [|r rs IH]; [reflexivity|]. cbn [concat mapM]. rewrite mapM_app', IH.
    destruct (mapM f r); cbn [bind]; [|reflexivity]. destruct (mapM (mapM f) rs); reflexivity.
  Qed.
  Lemma mapM_len {U} (f : T -> res U) l : forall r, mapM f l = Ok r -> length r = length l.
  Proof.
    induction l as [|x l IH]; intros r E; cbn [mapM] in E; [injection E as <-; reflexivity|].
    destruct (f x); cbn [bind] in E; [|discriminate]. destruct (mapM f l) as [q|]; cbn [bind] in E; [|discriminate].
    injection E as <-. cbn. f_equal. now apply IH.
  Qed.
  Lemma mapM_nth {U} (f : T -> res U) l : forall r, mapM f l = Ok r ->
    forall i, match nth_error l i with Some x => exists y, nth_error r i = Some y /\ f x = Ok y | None => nth_error r i = None end.
  Proof.
    induction l as [|x l IH]; intros r E i; cbn [mapM] in E; [injection E as <-; destruct i; reflexivity|].
    destruct (f x) as [y|] eqn:Ex; cbn [bind] in E; [|discriminate]. destruct (mapM f l) as [q|]; cbn [bind] in E; [|discriminate].
    injection E as <-. destruct i as [|i]; [exists y; auto|]. apply (IH q eq_refl i).
  Qed.
  Lemma mapM_total {U} (f : T -> res U) l : (forall x, In x l -> exists y, f x = Ok y) -> exists r, mapM f l = Ok r.
  Proof.
    induction l as [|x l IH]; intros H; cbn [mapM]; [eauto|]. destruct (H x) as [y ->]; [now left|].
    destruct IH as [r ->]; [intros z Hz; apply H; now right|]. cbn [bind]. eauto.
  Qed.
  Lemma mapM_raises {U} (f : T -> res U) e l : (forall x, In x l -> (exists y, f x = Ok y) \/ f x = Err e) ->
    (exists x, In x l /\ f x = Err e) -> mapM f l = Err e.
  Proof.
    induction l as [|x l IH]; intros H (z & Hz & Ez); [destruct Hz|]. cbn [mapM].
    destruct (H x (or_introl eq_refl)) as [[y Ey]|Ex]; [|now rewrite Ex]. rewrite Ey. cbn [bind].
    rewrite IH; [reflexivity| |]; [intros w Hw; apply H; now right|].
    exists z. split; [|exact Ez]. destruct Hz as [->|Hz]; [congruence|exact Hz].
  Qed.
  Lemma mapM_all {U} (f : T -> res U) l r : mapM f l = Ok r -> forall x, In x l -> exists y, f x = Ok y.
  Proof.
    intros E x Hx. apply In_nth_error in Hx as (i & Hi). generalize (mapM_nth f l r E i). rewrite Hi. intros (y & _ & Ey). eauto.
  Qed.

  Lemma element_nested {U} (f : T -> res U) a n m : shaped a n m ->
    element_map f a = do x <- mapM (mapM f) (rows a); Ok (Mat n m x).
  Proof.
    intros (H1 & H2 & H3 & H4). unfold element_map, ravel. rewrite mapM_concat, H1, H2.
    destruct (mapM (mapM f) (rows a)) as [x|] eqn:E; [|reflexivity]. cbn [bind].
    assert (length x = n) as Hx by (rewrite <- H3; revert E; clear; revert x; induction (rows a) as [|r l IH]; intros x E; cbn [mapM] in E;
      [injection E as <-; reflexivity|destruct (mapM f r); cbn [bind] in E; [|discriminate]; destruct (mapM (mapM f) l); cbn [bind] in E; [|discriminate];
       injection E as <-; cbn; f_equal; now apply IH]).
    assert (Forall (fun r => length r = m) x) as Hm.
    { clear - E H4. revert x E. induction H4 as [|r l Hr _ IH]; intros x E; cbn [mapM] in E; [injection E as <-; constructor|].
      destruct (mapM f r) as [y|] eqn:Ey; cbn [bind] in E; [|discriminate]. destruct (mapM (mapM f) l) as [z|]; cbn [bind] in E; [|discriminate].
      injection E as <-. constructor; [rewrite <- Hr; now apply (mapM_len f)|now apply IH]. }
    unfold reshape.
    assert (length (concat x) = n * m) as ->.
    { rewrite <- Hx. clear - Hm. induction Hm as [|r l Hr _ IH]; [reflexivity|]. cbn [concat length]. rewrite app_length, Hr, IH. reflexivity. }
    rewrite Nat.eqb_refl. f_equal. f_equal. rewrite <- Hx. clear - Hm.
    induction Hm as [|r l Hr _ IH]; [reflexivity|]. cbn [length chunks concat].
    rewrite firstn_app, skipn_app, Hr, Nat.sub_diag, (firstn_all2 r), (skipn_all2 r) by lia.
    cbn [firstn skipn app]. rewrite app_nil_r, IH. reflexivity.
  Qed.
  Lemma in_ravel a n m x : shaped a n m -> In x (ravel a) <-> exists i j, i < n /\ j < m /\ cell a i j = Some x.
  Proof.
    intros (H1 & H2 & H3 & H4). unfold ravel, cell. rewrite in_concat. split.
    - intros (r & Hr & Hx). apply In_nth_error in Hr as (i & Hi). apply In_nth_error in Hx as (j & Hj).
      exists i, j. rewrite Hi. split; [rewrite <- H3; apply nth_error_Some; congruence|]. split; [|exact Hj].
      rewrite Forall_forall in H4. rewrite <- (H4 r) by (eapply nth_error_In; eauto). apply nth_error_Some. congruence.
    - intros (i & j & _ & _ & E). destruct (nth_error (rows a) i) as [r|] eqn:Hr; [|discriminate].
      exists r. split; [eapply nth_error_In; eauto|eapply nth_error_In; eauto].
  Qed.
  Lemma cell_some a n m i j : shaped a n m -> i < n -> j < m -> exists x, cell a i j = Some x.
  Proof.
    intros (H1 & H2 & H3 & H4) Hi Hj. unfold cell. destruct (nth_error (rows a) i) as [r|] eqn:E.
    - destruct (nth_error r j) as [x|] eqn:E'; [eauto|]. apply nth_error_None in E'. rewrite Forall_forall in H4.
      rewrite (H4 r) in E' by (eapply nth_error_In; eauto). lia.
    - apply nth_error_None in E. lia.
  Qed.
  Lemma matrix_ext a b n m : shaped a n m -> shaped b n m -> (forall i j, i < n -> j < m -> cell a i j = cell b i j) -> a = b.
  Proof.
    intros (H1 & H2 & H3 & H4) (G1 & G2 & G3 & G4) H. destruct a as [an am ra], b as [bn bm rb]. cbn [nrows ncols rows] in *. subst an am bn bm.
    f_equal. apply (nth_ext ra rb [] []); [congruence|]. intros i Hi.
    assert (exists r, nth_error ra i = Some r) as [r Er] by (destruct (nth_error ra i) eqn:E; [eauto|apply nth_error_None in E; lia]).
    assert (exists r, nth_error rb i = Some r) as [r' Er'] by (destruct (nth_error rb i) eqn:E; [eauto|apply nth_error_None in E; lia]).
    rewrite (nth_error_nth _ _ _ Er), (nth_error_nth _ _ _ Er'). rewrite Forall_forall in H4, G4.
    assert (length r = m) as L by (apply H4; eapply nth_error_In; eauto). assert (length r' = m) as L' by (apply G4; eapply nth_error_In; eauto).
    apply nth_error_ext'. intros j. destruct (le_lt_dec m j) as [Hj|Hj].
    - rewrite (proj2 (nth_error_None r j)), (proj2 (nth_error_None r' j)) by lia. reflexivity.
    - specialize (H i j ltac:(lia) Hj). unfold cell in H. cbn [rows] in H. now rewrite Er, Er' in H.
  Qed.
End E.
Section E2.
  Context {T : Type}.
  Implicit Types a : matrix T.
  Lemma element_cells {U} (f : T -> res U) a (b : matrix U) n m : shaped a n m -> element_map f a = Ok b ->
    shaped b n m /\ forall i j, i < n -> j < m -> exists x y, cell a i j = Some x /\ cell b i j = Some y /\ f x = Ok y.
  Proof.
    intros Hs.
    intros E. rewrite (element_nested f a n m Hs) in E.
      destruct (mapM (mapM f) (rows a)) as [x|] eqn:Ex; cbn [bind] in E; [|discriminate]. injection E as <-.
      assert (shaped (Mat n m x) n m) as Sx.
      { destruct Hs as (H1 & H2 & H3 & H4). split; [reflexivity|]. split; [reflexivity|]. cbn [rows]. split; [rewrite <- H3; exact (mapM_len _ _ _ Ex)|].
        apply Forall_forall. intros r Hr. apply In_nth_error in Hr as (i & Hi). generalize (mapM_nth _ _ _ Ex i). destruct (nth_error (rows a) i) as [q|] eqn:Eq.
        - intros (y & Hy & Ey). rewrite Hi in Hy. injection Hy as <-. rewrite (mapM_len _ _ _ Ey). rewrite Forall_forall in H4. apply H4. eapply nth_error_In; eauto.
        - congruence. }
      split; [exact Sx|]. intros i j Hi Hj. destruct (cell_some a n m i j Hs Hi Hj) as [u Eu]. exists u.
    assert (Ej := Eu). unfold cell in Ej. generalize (mapM_nth _ _ _ Ex i). destruct (nth_error (rows a) i) as [q|]; [|discriminate Ej].
    intros (q' & Eq1 & Eq'). generalize (mapM_nth _ _ _ Eq' j). rewrite Ej. intros (y & Ey & Efy). exists y.
    split; [exact Eu|]. split; [|exact Efy]. unfold cell. cbn [rows]. rewrite Eq1. exact Ey.
  Qed.
End E2.

Section R.
  Context {M : calgebra}.
  Add Ring Kr : (kring M).
  Implicit Types c x y : K M.
  Lemma im_ring c : kmul (kmul khalf (kopp (kopp iu))) (kadd (kconj c) (kopp c)) = kmul (kmul (@khalf M) (kopp iu)) (kadd c (kopp (kconj c))).
  Proof. ring. Qed.
  Lemma half_2 x : kmul (@khalf M) (kadd x x) = x.
  Proof. transitivity (kmul (kadd khalf khalf) x); [ring|]. rewrite khalf_2. ring. Qed.
  Lemma parts_ring c : c = kadd (re_part c) (kmul iu (im_part c)).
  Proof.
    unfold re_part, im_part.
    transitivity (kadd (kmul khalf (kadd c (kconj c))) (kmul (kopp (kmul iu iu)) (kmul khalf (kadd c (kopp (kconj c)))))); [|ring].
    rewrite iu_sq. transitivity (kmul khalf (kadd c c)); [symmetry; apply half_2|]. ring.
  Qed.
  Lemma half_inj x y : kmul (@khalf M) x = kmul khalf y -> x = y.
  Proof.
    intros H. transitivity (kadd (kmul khalf x) (kmul khalf x)); [transitivity (kmul (kadd khalf khalf) x); [rewrite khalf_2; ring|ring]|].
    rewrite H. transitivity (kmul (kadd khalf khalf) y); [ring|rewrite khalf_2; ring].
  Qed.
End R.
Lemma nth_repeat_lt {T} (x d : T) n : forall i, i < n -> nth i (repeat x n) d = x.
Proof. induction n as [|n IH]; intros [|i] H; cbn; try lia; [reflexivity|apply IH; lia]. Qed.
