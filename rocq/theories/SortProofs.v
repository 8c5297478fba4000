From Verif Require Import Prelude ListFacts SortModel SortSpec BinSpec.
From Coq Require Import Lia.

Lemma nth_error_firstn_lt {A} (l : list A) i k :
  i < k -> nth_error (firstn k l) i = nth_error l i.
Proof.
  revert i k; induction l as [|x l IH]; intros [|i] [|k] H; cbn; try reflexivity; try lia.
  apply IH. lia.
Qed.

Lemma nth_error_skipn_add {A} (l : list A) i k :
  nth_error (skipn k l) i = nth_error l (k + i).
Proof.
  revert k; induction l as [|x l IH]; intros [|k]; cbn; try reflexivity.
  - destruct i; reflexivity.
  - apply IH.
Qed.

Section Sort.
  Context {A : Type} (lt : A -> A -> bool).
  Implicit Types l r : list A.

  (** ** without any assumption on [lt] *)
  Lemma binary_insert_perm a p : Permutation (p :: a) (binary_insert lt a p).
  Proof.
    unfold binary_insert. set (i := bisect _ _ _ _ _ _).
    rewrite <- (firstn_skipn i a) at 1. apply Permutation_middle.
  Qed.

  Lemma fold_insert_perm l a : Permutation (a ++ l) (fold_left (binary_insert lt) l a).
  Proof.
    revert a; induction l as [|x l IH]; intros a; cbn.
    - rewrite app_nil_r; reflexivity.
    - rewrite <- IH. rewrite <- binary_insert_perm.
      rewrite <- Permutation_middle. reflexivity.
  Qed.

  Lemma pysorted_perm l : Permutation l (pysorted lt l).
  Proof.
    unfold pysorted. destruct (count_run lt l) as [n d].
    rewrite <- fold_insert_perm.
    destruct d.
    - rewrite <- Permutation_rev. rewrite firstn_skipn. reflexivity.
    - rewrite firstn_skipn. reflexivity.
  Qed.

  Lemma pysorted_In l x : In x (pysorted lt l) <-> In x l.
  Proof.
    split; apply Permutation_in; [symmetry|]; apply pysorted_perm.
  Qed.

  (** adjacent elements never descend *)
  Fixpoint ascending (l : list A) : Prop :=
    match l with
    | x :: l' => match l' with y :: _ => lt y x = false /\ ascending l' | [] => True end
    | [] => True
    end.

  Lemma run_length_asc l x : ascending (x :: l) -> run_length lt false x l = length l.
  Proof.
    revert x; induction l as [|y l IH]; intros x H; [reflexivity|].
    destruct H as [H1 H2]. cbn. rewrite H1. cbn. f_equal. apply IH. exact H2.
  Qed.

  Lemma pysorted_ascending l : ascending l -> pysorted lt l = l.
  Proof.
    intros H. unfold pysorted. destruct l as [|x [|y l]]; [reflexivity|reflexivity|].
    destruct H as [H1 H2]. cbn [count_run]. rewrite H1.
    rewrite (run_length_asc l y H2).
    rewrite firstn_all2 by (cbn; lia). rewrite skipn_all2 by (cbn; lia). reflexivity.
  Qed.

  Lemma in_order_ascending l : in_order lt l -> ascending l.
  Proof.
    induction 1 as [|x l Hs IH Hf]; [exact I|].
    destruct l as [|y l]; [exact I|]. cbn. inversion_clear Hf. split; assumption.
  Qed.

  Lemma in_order_nth l i j x y : in_order lt l -> i < j ->
    nth_error l i = Some x -> nth_error l j = Some y -> lt y x = false.
  Proof.
    intros Hs. revert i j. induction Hs as [|z l Hs' IH Hf]; intros i j Hlt Ex Hy.
    - destruct i; discriminate.
    - destruct j as [|j]; [lia|]. cbn in Hy. destruct i as [|i]; cbn in Ex.
      + injection Ex as ->. rewrite Forall_forall in Hf.
        apply Hf. eapply nth_error_In; exact Hy.
      + apply (IH i j); [lia|exact Ex|exact Hy].
  Qed.

  (** ** with a consistent order *)
  Section Consistent.
    Context (l0 : list A) (HC : consistent lt l0).
    Let asym : forall a b, In a l0 -> In b l0 -> lt a b = true -> lt b a = false := proj1 HC.
    Let negt : forall a b c, In a l0 -> In b l0 -> In c l0 ->
      lt a b = false -> lt b c = false -> lt a c = false := proj2 HC.

    Lemma lt_irr x : In x l0 -> lt x x = false.
    Proof.
      intros Hx. destruct (lt x x) eqn:E; [|reflexivity].
      rewrite <- E. exact (asym x x Hx Hx E).
    Qed.

    Lemma lt_tr x y z : In x l0 -> In y l0 -> In z l0 ->
      lt x y = true -> lt y z = true -> lt x z = true.
    Proof.
      intros Hx Hy Hz H1 H2. destruct (lt x z) eqn:E; [reflexivity|].
      pose proof (asym y z Hy Hz H2) as H3.
      pose proof (negt x z y Hx Hz Hy E H3). congruence.
    Qed.

    Lemma ascending_in_order l : incl l l0 -> ascending l -> in_order lt l.
    Proof.
      induction l as [|x l IH]; intros Hi Ha; [constructor|].
      assert (Hl : incl l l0) by (intros z Hz; apply Hi; right; exact Hz).
      assert (Hs : in_order lt l).
      { apply IH; [exact Hl|]. destruct l; [exact I|]. apply Ha. }
      constructor; [exact Hs|].
      destruct l as [|y l]; [constructor|].
      destruct Ha as [Hyx _].
      constructor; [exact Hyx|].
      inversion_clear Hs as [|? ? _ Hf].
      rewrite Forall_forall in Hf |- *. intros z Hz.
      assert (Hxl : In x l0) by (apply Hi; left; reflexivity).
      assert (Hyl : In y l0) by (apply Hl; left; reflexivity).
      assert (Hzl : In z l0) by (apply Hl; right; exact Hz).
      exact (negt z y x Hzl Hyl Hxl (Hf z Hz) Hyx).
    Qed.

    (** the insertion point *)
    Lemma bisect_spec a p n lo hi :
      incl a l0 -> In p l0 -> in_order lt a ->
      lo <= hi <= length a -> hi - lo <= n ->
      (forall i x, i < lo -> nth_error a i = Some x -> lt p x = false) ->
      (forall i x, hi <= i -> nth_error a i = Some x -> lt p x = true) ->
      let k := bisect lt n a p lo hi in
      k <= length a /\ (forall i x, i < k -> nth_error a i = Some x -> lt p x = false)
      /\ (forall i x, k <= i -> nth_error a i = Some x -> lt p x = true).
    Proof.
      intros Hi Hp Hs. revert lo hi. induction n as [|n IH]; intros lo hi Hb Hn H1 H2.
      - cbn. assert (lo = hi) by lia. subst hi.
        split; [lia|]. split; assumption.
      - cbn [bisect]. destruct (lo <? hi) eqn:E.
        + apply Nat.ltb_lt in E.
          assert (Hq : (hi - lo) / 2 < hi - lo) by (apply Nat.div_lt; lia).
          set (m := lo + (hi - lo) / 2) in *.
          assert (Hm : m < length a) by lia.
          destruct (nth_error a m) as [x|] eqn:Ex;
            [|apply nth_error_None in Ex; lia].
          assert (Hx : In x l0) by (apply Hi; eapply nth_error_In; exact Ex).
          destruct (lt p x) eqn:Ep.
          * apply IH; [lia|lia|exact H1|].
            intros i y Him Hy.
            destruct (Nat.eq_dec i m) as [->|Hne]; [congruence|].
            assert (Hyl : In y l0) by (apply Hi; eapply nth_error_In; exact Hy).
            destruct (lt p y) eqn:Epy; [reflexivity|].
            assert (Hyx : lt y x = false).
            { apply (in_order_nth a m i x y Hs); [lia|exact Ex|exact Hy]. }
            rewrite <- Ep. symmetry. exact (negt p y x Hp Hyl Hx Epy Hyx).
          * apply IH; [lia|lia| |exact H2].
            intros i y Him Hy.
            destruct (Nat.eq_dec i m) as [->|Hne]; [congruence|].
            assert (Hyl : In y l0) by (apply Hi; eapply nth_error_In; exact Hy).
            assert (Hxy : lt x y = false).
            { apply (in_order_nth a i m y x Hs); [lia|exact Hy|exact Ex]. }
            exact (negt p x y Hp Hx Hyl Ep Hxy).
        + apply Nat.ltb_ge in E. assert (lo = hi) by lia. subst hi.
          split; [lia|]. split; assumption.
    Qed.

    Lemma binary_insert_split a p :
      incl a l0 -> In p l0 -> in_order lt a ->
      exists u v, a = u ++ v /\ binary_insert lt a p = u ++ p :: v
        /\ (forall x, In x u -> lt p x = false) /\ (forall x, In x v -> lt p x = true).
    Proof.
      intros Hi Hp Hs.
      destruct (bisect_spec a p (length a) 0 (length a) Hi Hp Hs) as [Hk [H1 H2]];
        [lia|lia|intros; lia| |].
      { intros i x Hix Hx. assert (nth_error a i = None) by (apply nth_error_None; exact Hix).
        congruence. }
      unfold binary_insert.
      set (k := bisect lt (length a) a p 0 (length a)) in *.
      exists (firstn k a), (skipn k a).
      split; [symmetry; apply firstn_skipn|]. split; [reflexivity|]. split.
      - intros x Hx. apply In_nth_error in Hx. destruct Hx as [i Hx].
        assert (Hik : i < k).
        { assert (Hl : i < length (firstn k a)) by (apply nth_error_Some; congruence).
          rewrite firstn_length in Hl. lia. }
        apply (H1 i x Hik). rewrite <- Hx.
        symmetry. apply nth_error_firstn_lt. exact Hik.
      - intros x Hx. apply In_nth_error in Hx. destruct Hx as [i Hx].
        apply (H2 (k + i) x); [lia|]. rewrite <- Hx.
        symmetry. apply nth_error_skipn_add.
    Qed.

    Lemma in_order_app u v :
      in_order lt (u ++ v) <->
      in_order lt u /\ in_order lt v /\ forall x y, In x u -> In y v -> lt y x = false.
    Proof.
      induction u as [|x u IH]; cbn.
      - split; [intros H; split; [constructor|split; [exact H|intros; contradiction]]|].
        intros [_ [H _]]; exact H.
      - split.
        + intros H. inversion_clear H as [|? ? Hs Hf].
          apply IH in Hs. destruct Hs as [Hu [Hv Hc]].
          rewrite Forall_app in Hf. destruct Hf as [Hf1 Hf2].
          split; [constructor; assumption|]. split; [exact Hv|].
          intros z y [->|Hz] Hy.
          * rewrite Forall_forall in Hf2. apply Hf2, Hy.
          * apply Hc; assumption.
        + intros [Hu [Hv Hc]]. inversion_clear Hu as [|? ? Hs Hf].
          constructor.
          * apply IH. split; [exact Hs|]. split; [exact Hv|].
            intros z y Hz Hy. apply Hc; [right; exact Hz|exact Hy].
          * apply Forall_app. split; [exact Hf|].
            rewrite Forall_forall. intros y Hy. apply Hc; [left; reflexivity|exact Hy].
    Qed.

    Lemma tied_later x p y : In x l0 -> In p l0 -> In y l0 ->
      tied lt x p = true -> lt p y = true -> tied lt x y = false.
    Proof.
      unfold tied. intros Hx Hp Hy Ht Hl.
      apply andb_true_iff in Ht. destruct Ht as [H1 H2].
      apply negb_true_iff in H1. apply negb_true_iff in H2.
      destruct (lt x y) eqn:E; [reflexivity|].
      pose proof (negt p x y Hp Hx Hy H2 E). congruence.
    Qed.

    Lemma binary_insert_ok a p :
      incl a l0 -> In p l0 -> in_order lt a ->
      in_order lt (binary_insert lt a p)
      /\ forall x, In x l0 -> filter (tied lt x) (binary_insert lt a p) = filter (tied lt x) (a ++ [p]).
    Proof.
      intros Hi Hp Hs.
      destruct (binary_insert_split a p Hi Hp Hs) as [u [v [Ha [Hb [Hu Hv]]]]].
      rewrite Hb. subst a.
      assert (Hiu : forall x, In x u -> In x l0) by (intros x Hx; apply Hi, in_or_app; left; exact Hx).
      assert (Hiv : forall x, In x v -> In x l0) by (intros x Hx; apply Hi, in_or_app; right; exact Hx).
      apply in_order_app in Hs. destruct Hs as [Hsu [Hsv Hc]].
      split.
      - apply in_order_app. split; [exact Hsu|]. split.
        + constructor; [exact Hsv|]. rewrite Forall_forall. intros x Hx.
          exact (asym p x Hp (Hiv x Hx) (Hv x Hx)).
        + intros x y Hx [<-|Hy]; [exact (Hu x Hx)|exact (Hc x y Hx Hy)].
      - intros x Hx. rewrite !filter_app. cbn.
        destruct (tied lt x p) eqn:E; [|rewrite app_nil_r; reflexivity].
        assert (Hn : filter (tied lt x) v = []).
        { clear - Hx Hp Hv Hiv E HC asym negt. induction v as [|y v IH]; [reflexivity|].
          cbn. rewrite (tied_later x p y Hx Hp (Hiv y (or_introl eq_refl)) E
                          (Hv y (or_introl eq_refl))).
          apply IH; intros z Hz; [apply Hv|apply Hiv]; right; exact Hz. }
        rewrite Hn, app_nil_r. reflexivity.
    Qed.

    Lemma binary_insert_incl a p : incl a l0 -> In p l0 -> incl (binary_insert lt a p) l0.
    Proof.
      intros Hi Hp x Hx.
      apply (Permutation_in x (Permutation_sym (binary_insert_perm a p))) in Hx.
      destruct Hx as [<-|Hx]; [exact Hp|exact (Hi x Hx)].
    Qed.

    Lemma fold_insert_ok l a :
      incl a l0 -> incl l l0 -> in_order lt a ->
      in_order lt (fold_left (binary_insert lt) l a)
      /\ forall x, In x l0 ->
        filter (tied lt x) (fold_left (binary_insert lt) l a) = filter (tied lt x) (a ++ l).
    Proof.
      revert a; induction l as [|p l IH]; intros a Ha Hl Hs; cbn.
      - split; [exact Hs|]. intros; rewrite app_nil_r; reflexivity.
      - assert (Hp : In p l0) by (apply Hl; left; reflexivity).
        destruct (binary_insert_ok a p Ha Hp Hs) as [H1 H2].
        destruct (IH (binary_insert lt a p)) as [H3 H4].
        + apply binary_insert_incl; assumption.
        + intros z Hz; apply Hl; right; exact Hz.
        + exact H1.
        + split; [exact H3|]. intros x Hx. rewrite (H4 x Hx).
          rewrite !filter_app, (H2 x Hx), filter_app. cbn.
          rewrite <- app_assoc. destruct (tied lt x p); reflexivity.
    Qed.

    (** strictly descending runs *)
    Fixpoint descending (l : list A) : Prop :=
      match l with
      | x :: l' => match l' with y :: _ => lt y x = true /\ descending l' | [] => True end
      | [] => True
      end.

    Lemma descending_all l x : incl (x :: l) l0 -> descending (x :: l) ->
      forall y, In y l -> lt y x = true.
    Proof.
      revert x; induction l as [|z l IH]; intros x Hi Hd y Hy; [contradiction|].
      destruct Hd as [H1 H2].
      destruct Hy as [<-|Hy]; [exact H1|].
      apply (lt_tr y z x).
      - apply Hi; right; right; exact Hy.
      - apply Hi; right; left; reflexivity.
      - apply Hi; left; reflexivity.
      - apply IH; [intros w Hw; apply Hi; right; exact Hw|exact H2|exact Hy].
      - exact H1.
    Qed.

    Lemma descending_tl l x : descending (x :: l) -> descending l.
    Proof. destruct l; [intros; exact I|]. intros H; apply H. Qed.

    Lemma rev_descending l : incl l l0 -> descending l ->
      in_order lt (rev l) /\ forall x, In x l0 -> filter (tied lt x) (rev l) = filter (tied lt x) l.
    Proof.
      induction l as [|y l IH]; intros Hi Hd; [split; [constructor|reflexivity]|].
      assert (Hil : incl l l0) by (intros z Hz; apply Hi; right; exact Hz).
      assert (Hy : In y l0) by (apply Hi; left; reflexivity).
      pose proof (descending_all l y Hi Hd) as Hall.
      destruct (IH Hil (descending_tl l y Hd)) as [H1 H2].
      cbn [rev]. split.
      - apply in_order_app. split; [exact H1|]. split; [repeat constructor|].
        intros x z Hx [<-|[]]. rewrite <- in_rev in Hx.
        apply (asym x y (Hil x Hx) Hy). exact (Hall x Hx).
      - intros x Hx. rewrite filter_app, (H2 x Hx). cbn.
        destruct (tied lt x y) eqn:E; [|rewrite app_nil_r; reflexivity].
        assert (Hn : filter (tied lt x) l = []).
        { clear - Hx Hy Hall Hil E HC asym negt. induction l as [|z l IH]; [reflexivity|].
          cbn. assert (Ez : tied lt x z = false).
          { unfold tied in *. apply andb_true_iff in E. destruct E as [E1 E2].
            apply negb_true_iff in E1. apply negb_true_iff in E2.
            pose proof (Hall z (or_introl eq_refl)) as Hzy.
            assert (Hz : In z l0) by (apply Hil; left; reflexivity).
            destruct (lt z x) eqn:Ezx; [rewrite andb_false_r; reflexivity|].
            pose proof (negt z x y Hz Hx Hy Ezx E1). congruence. }
          rewrite Ez. apply IH; intros w Hw; [apply Hil|apply Hall]; right; exact Hw. }
        rewrite Hn. reflexivity.
    Qed.

    Lemma run_length_spec d l x :
      let n := run_length lt d x l in
      n <= length l /\
      (if d then descending (x :: firstn n l) else ascending (x :: firstn n l)).
    Proof.
      revert x; induction l as [|y l IH]; intros x; cbn.
      - split; [lia|]. destruct d; exact I.
      - destruct (lt y x) eqn:E, d; cbn [Bool.eqb]; cbn [firstn].
        + destruct (IH y) as [H1 H2]. split; [lia|]. split; [exact E|exact H2].
        + split; [lia|exact I].
        + split; [lia|exact I].
        + destruct (IH y) as [H1 H2]. split; [lia|]. split; [exact E|exact H2].
    Qed.

    Lemma count_run_spec l : let (n, d) := count_run lt l in
      if d then descending (firstn n l) else ascending (firstn n l).
    Proof.
      destruct l as [|x [|y l]]; cbn; try exact I.
      destruct (run_length_spec (lt y x) l y) as [_ H].
      destruct (lt y x) eqn:E; (split; [first [exact E|reflexivity]|exact H]).
    Qed.
  End Consistent.

  Theorem pysorted_stable l : consistent lt l -> stable_sort lt l (pysorted lt l).
  Proof.
    intros HC. split; [apply pysorted_perm|].
    unfold pysorted. pose proof (count_run_spec l) as Hr.
    destruct (count_run lt l) as [n d].
    assert (H1 : incl (firstn n l) l).
    { intros x Hx. rewrite <- (firstn_skipn n l). apply in_or_app; left; exact Hx. }
    assert (H2 : incl (skipn n l) l).
    { intros x Hx. rewrite <- (firstn_skipn n l). apply in_or_app; right; exact Hx. }
    destruct d.
    - destruct (rev_descending l HC _ H1 Hr) as [H3 H4].
      assert (H1' : incl (rev (firstn n l)) l).
      { intros x Hx. apply in_rev in Hx. apply H1, Hx. }
      destruct (fold_insert_ok l HC (skipn n l) _ H1' H2 H3) as [H5 H6].
      split; [exact H5|]. intros x Hx. rewrite (H6 x Hx), filter_app, (H4 x Hx).
      rewrite <- filter_app, firstn_skipn. reflexivity.
    - pose proof (ascending_in_order l HC _ H1 Hr) as H3.
      destruct (fold_insert_ok l HC (skipn n l) _ H1 H2 H3) as [H5 H6].
      split; [exact H5|]. intros x Hx. rewrite (H6 x Hx), firstn_skipn. reflexivity.
  Qed.

  Lemma consistent_perm l r : Permutation l r -> consistent lt l -> consistent lt r.
  Proof.
    intros Hp [H1 H2].
    assert (Hi : forall x, In x r -> In x l)
      by (intros x; apply Permutation_in; symmetry; exact Hp).
    split.
    - intros x y Hx Hy. apply H1; apply Hi; assumption.
    - intros x y z Hx Hy Hz. apply H2; apply Hi; assumption.
  Qed.

  (** two ordered lists with the same tied groups are equal *)
  Lemma ordered_unique l0 r r' :
    consistent lt l0 -> incl r l0 ->
    Permutation r r' -> in_order lt r -> in_order lt r' ->
    (forall x, In x l0 -> filter (tied lt x) r = filter (tied lt x) r') -> r = r'.
  Proof.
    intros HC. revert r'. induction r as [|a r IH]; intros r' Hi Hp Hs Hs' Hf.
    - apply Permutation_nil in Hp. symmetry; exact Hp.
    - destruct r' as [|b r']; [apply Permutation_sym, Permutation_nil in Hp; discriminate|].
      assert (Ha : In a l0) by (apply Hi; left; reflexivity).
      assert (Hb : In b l0).
      { apply Hi. apply (Permutation_in b (Permutation_sym Hp)). left; reflexivity. }
      assert (Hba : lt b a = false).
      { assert (Hin : In b (a :: r)).
        { apply (Permutation_in b (Permutation_sym Hp)). left; reflexivity. }
        destruct Hin as [<-|Hin]; [exact (lt_irr l0 HC a Ha)|].
        inversion_clear Hs as [|? ? _ H]. rewrite Forall_forall in H. apply H, Hin. }
      assert (Hab : lt a b = false).
      { assert (Hin : In a (b :: r')).
        { apply (Permutation_in a Hp). left; reflexivity. }
        destruct Hin as [<-|Hin]; [exact (lt_irr l0 HC b Hb)|].
        inversion_clear Hs' as [|? ? _ H]. rewrite Forall_forall in H. apply H, Hin. }
      assert (a = b).
      { pose proof (Hf a Ha) as H. cbn in H.
        assert (Ha1 : tied lt a a = true) by (unfold tied; rewrite (lt_irr l0 HC a Ha); reflexivity).
        assert (Ha2 : tied lt a b = true) by (unfold tied; rewrite Hab, Hba; reflexivity).
        rewrite Ha1, Ha2 in H. injection H as H _. exact H. }
      subst b. f_equal. apply IH.
      + intros x Hx; apply Hi; right; exact Hx.
      + apply Permutation_cons_inv in Hp. exact Hp.
      + inversion_clear Hs; assumption.
      + inversion_clear Hs'; assumption.
      + intros x Hx. pose proof (Hf x Hx) as H. cbn in H.
        destruct (tied lt x a); [injection H as H; exact H|exact H].
  Qed.

  Theorem stable_sort_unique l r r' :
    consistent lt l -> stable_sort lt l r -> stable_sort lt l r' -> r = r'.
  Proof.
    intros HC [P1 [S1 F1]] [P2 [S2 F2]].
    apply (ordered_unique l r r' HC).
    - intros x; apply Permutation_in; symmetry; exact P1.
    - rewrite <- P1. exact P2.
    - exact S1.
    - exact S2.
    - intros x Hx. rewrite (F1 x Hx), (F2 x Hx). reflexivity.
  Qed.

  (** ** products *)
  Section Product.
    Context (M : monoid) (den : A -> carrier M).
    Notation "x * y" := (mul M x y).

    Lemma product_app u v : product M den (u ++ v) = product M den u * product M den v.
    Proof.
      induction u as [|x u IH].
      - symmetry; apply mul_unit_l.
      - change (den x * product M den (u ++ v) = (den x * product M den u) * product M den v).
        rewrite IH. apply mul_assoc.
    Qed.
    Lemma product_cons x v : product M den (x :: v) = den x * product M den v.
    Proof. reflexivity. Qed.
    Lemma product_nil : product M den [] = unit_ M.
    Proof. reflexivity. Qed.

    Lemma commute_product p v :
      (forall y, In y v -> den p * den y = den y * den p) ->
      den p * product M den v = product M den v * den p.
    Proof.
      induction v as [|y v IH]; intros H; [rewrite product_nil|rewrite product_cons].
      - rewrite mul_unit_l, mul_unit_r. reflexivity.
      - rewrite (mul_assoc M), (H y (or_introl eq_refl)), <- (mul_assoc M).
        rewrite IH by (intros z Hz; apply H; right; exact Hz).
        apply (mul_assoc M).
    Qed.

    Theorem pysorted_product l :
      consistent lt l ->
      (forall x y, In x l -> In y l -> lt x y = true -> den x * den y = den y * den x) ->
      product M den (pysorted lt l) = product M den l.
    Proof.
      intros HC Hcomm. unfold pysorted. pose proof (count_run_spec l) as Hr.
      destruct (count_run lt l) as [n d].
      assert (H1 : incl (firstn n l) l).
      { intros x Hx. rewrite <- (firstn_skipn n l). apply in_or_app; left; exact Hx. }
      assert (H2 : incl (skipn n l) l).
      { intros x Hx. rewrite <- (firstn_skipn n l). apply in_or_app; right; exact Hx. }
      assert (Hfold : forall k a, incl a l -> incl k l -> in_order lt a ->
                product M den (fold_left (binary_insert lt) k a) = product M den a * product M den k).
      { intros k; induction k as [|p k IH]; intros a Ha Hk Hs.
        - cbn [fold_left]. rewrite product_nil. symmetry; apply mul_unit_r.
        - cbn [fold_left]. assert (Hp : In p l) by (apply Hk; left; reflexivity).
          destruct (binary_insert_ok l HC a p Ha Hp Hs) as [Hs' _].
          rewrite IH.
          + destruct (binary_insert_split l HC a p Ha Hp Hs) as [u [v [-> [Hb [_ Hv]]]]].
            rewrite Hb, !product_app, !product_cons.
            rewrite (commute_product p v).
            * rewrite !(mul_assoc M). reflexivity.
            * intros y Hy. apply Hcomm; [exact Hp| |exact (Hv y Hy)].
              apply Ha, in_or_app; right; exact Hy.
          + apply (binary_insert_incl l); assumption.
          + intros z Hz; apply Hk; right; exact Hz.
          + exact Hs'. }
      transitivity (product M den (firstn n l) * product M den (skipn n l));
        [|rewrite <- product_app, firstn_skipn; reflexivity].
      destruct d.
      - destruct (rev_descending l HC _ H1 Hr) as [H3 _].
        rewrite Hfold; [|intros x Hx; apply in_rev in Hx; apply H1, Hx|exact H2|exact H3].
        f_equal. clear Hfold H3 H2. revert H1 Hr. generalize (firstn n l).
        intros w; induction w as [|y w IH]; intros Hi Hd; [reflexivity|].
        cbn [rev]. rewrite product_app, !product_cons, product_nil, mul_unit_r.
        rewrite IH;
          [|intros z Hz; apply Hi; right; exact Hz|exact (descending_tl w y Hd)].
        symmetry. apply commute_product. intros z Hz.
        symmetry. apply Hcomm; [apply Hi; right; exact Hz|apply Hi; left; reflexivity|].
        exact (descending_all l HC w y Hi Hd z Hz).
      - apply Hfold; [exact H1|exact H2|]. exact (ascending_in_order l HC _ H1 Hr).
    Qed.
  End Product.

  (** a strict total order gives one order for all permutations *)
  Theorem pysorted_permutation l r :
    consistent lt l -> (forall x y, In x l -> In y l -> tied lt x y = true -> x = y) ->
    Permutation l r -> pysorted lt l = pysorted lt r.
  Proof.
    intros HC Ht Hp.
    assert (HC' : consistent lt r) by (exact (consistent_perm l r Hp HC)).
    destruct (pysorted_stable l HC) as [P1 [S1 F1]].
    destruct (pysorted_stable r HC') as [P2 [S2 F2]].
    apply (ordered_unique l _ _ HC).
    - intros x; apply Permutation_in; symmetry; exact P1.
    - rewrite <- P1, <- P2. exact Hp.
    - exact S1.
    - exact S2.
    - intros x Hx. rewrite (F1 x Hx), (F2 x (Permutation_in x Hp Hx)).
      assert (H : Permutation (filter (tied lt x) l) (filter (tied lt x) r)).
      { clear - Hp. induction Hp; cbn.
        - constructor.
        - destruct (tied lt x x0); [constructor|]; assumption.
        - destruct (tied lt x x0), (tied lt x y); try reflexivity. constructor.
        - etransitivity; eassumption. }
      assert (Hall : forall y, In y (filter (tied lt x) l) -> y = x).
      { intros y Hy. apply filter_In in Hy. destruct Hy as [Hy Hty].
        symmetry. apply Ht; assumption. }
      revert H Hall. generalize (filter (tied lt x) l) (filter (tied lt x) r). clear.
      intros u v Huv Hall.
      assert (Hu : u = repeat x (length u)) by (apply Forall_eq_repeat, Forall_forall; intros; symmetry; auto).
      assert (Hv : v = repeat x (length v)).
      { apply Forall_eq_repeat, Forall_forall. intros y Hy. symmetry; apply Hall.
        apply (Permutation_in y (Permutation_sym Huv)). exact Hy. }
      rewrite Hu, Hv, (Permutation_length Huv). reflexivity.
  Qed.
End Sort.

(** comparisons that do not raise *)
Section Pure.
  Context {A : Type} (ltM : A -> A -> res bool) (lt : A -> A -> bool).
  Context (l0 : list A) (H : forall a b, In a l0 -> In b l0 -> ltM a b = Ok (lt a b)).

  Lemma run_lengthM_ok d l x : incl (x :: l) l0 -> run_lengthM ltM d x l = Ok (run_length lt d x l).
  Proof.
    revert x; induction l as [|y l IH]; intros x Hi; [reflexivity|].
    cbn. rewrite H; [|apply Hi; right; left; reflexivity|apply Hi; left; reflexivity].
    cbn. destruct (Bool.eqb (lt y x) d); [|reflexivity].
    rewrite IH; [reflexivity|]. intros z Hz; apply Hi; right; exact Hz.
  Qed.

  Lemma bisectM_ok n a p lo hi : incl a l0 -> In p l0 ->
    bisectM ltM n a p lo hi = Ok (bisect lt n a p lo hi).
  Proof.
    intros Ha Hp. revert lo hi; induction n as [|n IH]; intros lo hi; [reflexivity|].
    cbn [bisectM bisect]. destruct (lo <? hi); [|reflexivity].
    destruct (nth_error a (lo + (hi - lo) / 2)) as [x|] eqn:E; [|reflexivity].
    rewrite H; [|exact Hp|apply Ha; eapply nth_error_In; exact E].
    cbn [bind]. destruct (lt p x); apply IH.
  Qed.

  Lemma insert_allM_ok l a : incl a l0 -> incl l l0 ->
    insert_allM ltM a l = Ok (fold_left (binary_insert lt) l a).
  Proof.
    revert a; induction l as [|p l IH]; intros a Ha Hl; [reflexivity|].
    cbn [insert_allM fold_left]. unfold binary_insertM.
    assert (Hp : In p l0) by (apply Hl; left; reflexivity).
    rewrite (bisectM_ok _ a p _ _ Ha Hp). cbn [bind].
    apply (IH (binary_insert lt a p)).
    - apply (binary_insert_incl lt l0); assumption.
    - intros z Hz; apply Hl; right; exact Hz.
  Qed.

  Lemma pysortedM_ok : pysortedM ltM l0 = Ok (pysorted lt l0).
  Proof.
    unfold pysortedM, pysorted.
    assert (Hc : count_runM ltM l0 = Ok (count_run lt l0)).
    { destruct l0 as [|x [|y l]] eqn:E; [reflexivity|reflexivity|].
      rewrite <- E in H. cbn [count_runM count_run].
      rewrite H by (rewrite E; cbn; auto). cbn [bind].
      rewrite run_lengthM_ok; [reflexivity|]. intros z Hz. rewrite E. right; exact Hz. }
    rewrite Hc. destruct (count_run lt l0) as [n d]. cbn [bind fst snd].
    apply insert_allM_ok.
    - destruct d; intros x Hx; [apply in_rev in Hx|];
        rewrite <- (firstn_skipn n l0); apply in_or_app; left; exact Hx.
    - intros x Hx. rewrite <- (firstn_skipn n l0). apply in_or_app; right; exact Hx.
  Qed.
End Pure.
