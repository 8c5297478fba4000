(** C76 The flat API. *)
From Verif Require Import Prelude FlatModel.

Lemma tree_rect' (P : tree -> Prop) :
  (forall n p k all attrs subs, Forall P subs -> P (Node n p k all attrs subs)) -> forall t, P t.
Proof.
  intros H. fix F 1. intros [n p k all attrs subs]. apply H.
  exact ((fix G (l : list tree) : Forall P l := match l with [] => Forall_nil _ | x :: l' => Forall_cons _ (F x) (G l') end) subs).
Qed.
Lemma path_eqb_spec a : forall b, path_eqb a b = true <-> a = b.
Proof.
  induction a as [|x a IH]; intros [|y b]; cbn [path_eqb]; try (split; [discriminate|congruence]); [tauto|].
  rewrite andb_true_iff, Nat.eqb_eq, IH. split; [intros [-> ->]; reflexivity|intros H; injection H; auto].
Qed.
Lemma obj_eqb_spec a b : obj_eqb a b = true <-> a = b.
Proof.
  destruct a, b; cbn [obj_eqb]; try (split; [discriminate|congruence]).
  - rewrite Nat.eqb_eq. split; congruence.
  - rewrite path_eqb_spec. split; congruence.
Qed.
Lemma lookup_set x v l y : lookup y (setattr x v l) = if y =? x then Some v else lookup y l.
Proof.
  induction l as [|[z w] l IH]; cbn [setattr lookup]; [reflexivity|]. destruct (x =? z) eqn:E; cbn [lookup].
  - apply Nat.eqb_eq in E. subst. now destruct (y =? z).
  - rewrite IH. destruct (y =? z) eqn:F; [|reflexivity]. apply Nat.eqb_eq in F. subst. rewrite Nat.eqb_sym, E. reflexivity.
Qed.
Lemma set_same x v l : lookup x l = Some v -> setattr x v l = l.
Proof.
  induction l as [|[z w] l IH]; cbn [setattr lookup]; [discriminate|]. destruct (x =? z); [intros H; now injection H as ->|].
  intros H. f_equal. now apply IH.
Qed.
Lemma insert_perm x l : Permutation (insert x l) (x :: l).
Proof.
  induction l as [|y l IH]; cbn [insert]; [reflexivity|]. destruct (x <=? y); [reflexivity|]. rewrite IH. apply perm_swap.
Qed.
Lemma isort_perm l : Permutation (isort l) l.
Proof. induction l as [|x l IH]; cbn [isort]; [reflexivity|]. rewrite insert_perm. now constructor. Qed.
Lemma insert_sorted x l : Sorted le l -> Sorted le (insert x l).
Proof.
  induction l as [|y l IH]; intros H; cbn [insert]; [repeat constructor|]. destruct (x <=? y) eqn:E.
  - apply Nat.leb_le in E. constructor; [exact H|]. now constructor.
  - apply Nat.leb_gt in E. inversion H as [|? ? H1 H2]; subst. constructor; [now apply IH|].
    destruct l as [|z l]; cbn [insert]; [constructor; lia|]. destruct (x <=? z); constructor; [lia|]. now inversion H2.
Qed.
Lemma isort_sorted l : Sorted le (isort l).
Proof. induction l as [|x l IH]; cbn [isort]; [constructor|]. now apply insert_sorted. Qed.
Lemma isort_id l : Sorted le l -> isort l = l.
Proof.
  induction l as [|x l IH]; intros H; cbn [isort]; [reflexivity|]. inversion H as [|? ? H1 H2]; subst. rewrite IH by exact H1.
  destruct l as [|y l]; cbn [insert]; [reflexivity|]. inversion H2; subst. apply Nat.leb_le in H3. now rewrite H3.
Qed.
Lemma In_isort x l : In x (isort l) <-> In x l.
Proof. split; apply Permutation_in; [|symmetry]; apply isort_perm. Qed.

(** what one run of the inner loop gives *)
Lemma export_ok src names : forall st st', export src names st = Ok st' ->
  (forall x, In x names -> lookup x src <> None /\ lookup x (snd st') = lookup x src)
  /\ (forall x, lookup x (snd st) <> None -> lookup x (snd st') = lookup x (snd st))
  /\ (forall x, ~ In x names -> lookup x (snd st') = lookup x (snd st))
  /\ exists new, fst st' = fst st ++ new /\ NoDup new
     /\ forall x, In x new <-> In x names /\ lookup x (snd st) = None.
Proof.
  induction names as [|x names IH]; intros [a l] st' H; cbn [export fst snd] in *.
  - injection H as <-. cbn [fst snd]. split; [intros x []|]. split; [reflexivity|]. split; [reflexivity|]. exists [].
    split; [now rewrite app_nil_r|]. split; [constructor|]. intros x. cbn. tauto.
  - destruct (lookup x src) as [o|] eqn:E; [|discriminate]. destruct (lookup x l) as [o'|] eqn:F.
    + destruct (obj_eqb o' o) eqn:G; [|discriminate]. apply obj_eqb_spec in G. subst o'.
      destruct (IH _ _ H) as [H1 [H2 [H3 [new [H4 [H5 H6]]]]]]. cbn [fst snd] in *. split.
      { intros y [<-|Hy]; [|now apply H1]. split; [congruence|]. rewrite H2 by congruence. congruence. }
      split; [exact H2|]. split; [intros y Hy; apply H3; cbn in Hy; tauto|]. exists new. split; [exact H4|]. split; [exact H5|].
      intros y. rewrite H6. cbn [In]. split; [tauto|]. intros [[<-|Hy] Hn]; [congruence|auto].
    + destruct (IH _ _ H) as [H1 [H2 [H3 [new [H4 [H5 H6]]]]]]. cbn [fst snd] in *.
      assert (Lx : lookup x (snd st') = Some o). { rewrite H2; rewrite lookup_set, Nat.eqb_refl; congruence. }
      split.
      { intros y [<-|Hy]; [|now apply H1]. split; congruence. }
      split.
      { intros y Hy. rewrite H2; rewrite lookup_set; destruct (y =? x) eqn:D; try congruence; apply Nat.eqb_eq in D; subst; congruence. }
      split.
      { intros y Hy. cbn [In] in Hy. rewrite H3 by tauto. rewrite lookup_set. destruct (y =? x) eqn:D; [|reflexivity].
        apply Nat.eqb_eq in D. subst. tauto. }
      exists (x :: new). split; [now rewrite H4, <- app_assoc|]. split.
      { constructor; [|exact H5]. intros Hx. apply H6 in Hx. destruct Hx as [_ Hx]. rewrite lookup_set, Nat.eqb_refl in Hx. discriminate. }
      intros y. cbn [In]. rewrite H6, lookup_set. destruct (y =? x) eqn:D.
      * apply Nat.eqb_eq in D. subst. split; [auto|]. tauto.
      * apply Nat.eqb_neq in D. split; [intros [->|[Y1 Y2]]; [congruence|auto]|]. intros [[Y|Y] Z]; [congruence|auto].
Qed.
(** nothing happens if all is there *)
Lemma export_noop src names st :
  (forall x, In x names -> lookup x src <> None /\ lookup x (snd st) = lookup x src) -> export src names st = Ok st.
Proof.
  induction names as [|x names IH]; intros H; cbn [export]; [reflexivity|]. destruct (H x (or_introl eq_refl)) as [H1 H2]. rewrite H2.
  destruct (lookup x src) as [o|]; [|congruence]. assert (E : obj_eqb o o = true) by now apply obj_eqb_spec. rewrite E. apply IH.
  intros y Hy. apply H. now right.
Qed.

Section Pub.
  (** the names that are public somewhere; submodules have other names, and a package's own public names are in its __all__ *)
  Context (pub : nat -> Prop).
  Fixpoint clean (t : tree) : Prop :=
    match t with
    | Node n p k all attrs subs =>
      (forall x, In x (t_all t) -> pub x)
      /\ (k = true -> forall x, pub x -> lookup x attrs <> None -> In x (t_all t))
      /\ NoDup (map t_name subs)
      /\ fold_right (fun s P => (~ pub (t_name s) /\ clean s) /\ P) True subs
    end.
  (** the public modules below a package *)
  Inductive reach : tree -> tree -> Prop :=
  | reach_refl t : reach t t
  | reach_sub t s u : t_pkg t = true -> In s (t_subs t) -> t_private s = false -> reach s u -> reach t u.

  (** the same objects under the same names *)
  Definition flat (t : tree) : Prop := forall u, reach t u -> forall x, In x (t_all u) ->
    In x (t_all t) /\ lookup x (t_attrs t) = lookup x (t_attrs u).
  (** the result of an import *)
  Record imported (path : list nat) (t t' : tree) : Prop := {
    im_clean : clean t';
    im_name : t_name t' = t_name t /\ t_private t' = t_private t /\ t_pkg t' = t_pkg t /\ map t_name (t_subs t') = map t_name (t_subs t);
    im_sorted : Sorted le (t_all t');
    im_keep : (forall x, In x (t_all t) -> In x (t_all t'))
      /\ forall x, pub x -> lookup x (t_attrs t) <> None -> lookup x (t_attrs t') = lookup x (t_attrs t);
    im_subs : Forall (fun s => t_private s = false ->
        lookup (t_name s) (t_attrs t') = Some (OMod (path ++ [t_name s]))
        /\ forall x, In x (t_all s) -> In x (t_all t') /\ lookup x (t_attrs s) <> None /\ lookup x (t_attrs t') = lookup x (t_attrs s)) (t_subs t');
    im_flat : flat t';
    im_again : import_submodules path t' = Ok t'
  }.
  Lemma clean_with_all s : clean s -> clean (with_all s).
  Proof. destruct s as [n p k [l|] a subs]; exact (fun H => H). Qed.
  Lemma t_all_with s : t_all (with_all s) = t_all s.
  Proof. now destruct s as [n p k [l|] a subs]. Qed.
  Lemma with_all_idem s : with_all (with_all s) = with_all s.
  Proof. now destruct s as [n p k [l|] a subs]. Qed.
  Definition sub_ok (path a : list nat) (l : attrs_t) (s : tree) : Prop := t_private s = false ->
    lookup (t_name s) l = Some (OMod (path ++ [t_name s]))
    /\ forall x, In x (t_all s) -> In x a /\ lookup x (t_attrs s) <> None /\ lookup x l = lookup x (t_attrs s).
  Lemma clean_all s : clean s -> forall x, In x (t_all s) -> pub x.
  Proof. destruct s as [n p k all a subs]. intros [H _]. exact H. Qed.
  Lemma reach_leaf t u : reach t u -> t_pkg t = false -> u = t.
  Proof. intros R. destruct R as [t|t s u K]; [reflexivity|congruence]. Qed.
  Lemma go_ok path subs :
    Forall (fun s => forall path t', clean s -> import_submodules path s = Ok t' -> t_pkg s = true -> imported path s t') subs ->
    forall a l subs' a' l', Forall (fun s => ~ pub (t_name s) /\ clean s) subs -> NoDup (map t_name subs) ->
    (forall x, In x a -> pub x) -> (forall x, pub x -> lookup x l <> None -> In x a) ->
    import_list import_submodules path subs (a, l) = Ok (subs', (a', l')) ->
    map t_name subs' = map t_name subs
    /\ Forall (fun s => (~ pub (t_name s) /\ clean s) /\ (t_private s = false -> flat s)) subs'
    /\ (forall x, In x a -> In x a') /\ (forall x, In x a' -> pub x) /\ (forall x, pub x -> lookup x l' <> None -> In x a')
    /\ (forall x, pub x -> lookup x l <> None -> lookup x l' = lookup x l)
    /\ (forall m, ~ pub m -> ~ In m (map t_name subs) -> lookup m l' = lookup m l)
    /\ Forall (sub_ok path a' l') subs'
    /\ forall a2 l2, Forall (sub_ok path a2 l2) subs' -> import_list import_submodules path subs' (a2, l2) = Ok (subs', (a2, l2)).
  Proof.
    intros IH. induction IH as [|s subs Hs _ IHsubs]; intros a l subs' a' l' C N A B H.
    { cbn in H. injection H as <- <- <-. repeat (split; [solve [auto]|]). reflexivity. }
    inversion C as [|? ? [Cs1 Cs2] C']; subst. cbn [map] in N. inversion N as [|? ? N1 N2]; subst.
    cbn [import_list] in H. fold (import_list import_submodules path) in H. destruct (t_private s) eqn:P.
    - destruct (import_list import_submodules path subs (a, l)) as [[subs1 [a1 l1]]|] eqn:E; [|discriminate]. cbn [bind fst snd] in H. injection H as <- <- <-.
      destruct (IHsubs a l subs1 a1 l1 C' N2 A B E) as [G1 [G2 [G3 [G4 [G5 [G6 [G7 [G8 G9]]]]]]]].
      split; [cbn [map]; now f_equal|]. split; [constructor; [split; [auto|congruence]|exact G2]|].
      do 4 (split; [assumption|]). split; [intros m M1 M2; apply G7; cbn [map In] in *; tauto|].
      split; [constructor; [intros F; congruence|exact G8]|]. intros a2 l2 F. inversion F as [|? ? F1 F2]; subst.
      cbn [import_list]. fold (import_list import_submodules path). rewrite P, (G9 a2 l2 F2). reflexivity.
    - set (p' := path ++ [t_name s]) in *.
      destruct (if t_pkg s then import_submodules p' s else Ok (with_all s)) as [s'|] eqn:E; [|discriminate]. cbn [bind] in H.
      assert (S : clean s' /\ t_name s' = t_name s /\ t_private s' = false /\ t_pkg s' = t_pkg s /\ flat s'
        /\ (if t_pkg s' then import_submodules p' s' else Ok (with_all s')) = Ok s').
      { destruct (t_pkg s) eqn:K.
        - destruct (Hs p' s' Cs2 E eq_refl) as [I1 [I2 [I3 [I4 I5]]] I6 I7 I8 I9 I10]. rewrite I4, I3. split; [exact I1|]. split; [exact I2|]. split; [exact P|].
          split; [exact K|]. split; [exact I9|]. rewrite K. exact I10.
        - injection E as <-. destruct s as [n p k all at0 sb]. cbn [t_pkg t_private] in *. subst k p. split; [now apply clean_with_all|].
          split; [reflexivity|]. split; [reflexivity|]. split; [reflexivity|]. split; [|reflexivity].
          intros u R. apply reach_leaf in R; [subst u; auto|reflexivity]. }
      destruct S as [S1 [S2 [S3 [S4 [S5 S6]]]]].
      cbn [fst snd] in H.
      destruct (export (t_attrs s') (t_all s') (a, setattr (t_name s) (OMod p') l)) as [[a1 l1]|] eqn:X; [|discriminate]. cbn [bind] in H.
      destruct (import_list import_submodules path subs (a1, l1)) as [[subs1 [a2 l2]]|] eqn:E2; [|discriminate]. cbn [bind fst snd] in H. injection H as <- <- <-.
      apply export_ok in X. cbn [fst snd] in X. destruct X as [X1 [X2 [X3 [new [X4 [X5 X6]]]]]].
      assert (Np : forall x, pub x -> lookup x (setattr (t_name s) (OMod p') l) = lookup x l).
      { intros x Hx. rewrite lookup_set. destruct (x =? t_name s) eqn:D; [|reflexivity]. apply Nat.eqb_eq in D. subst. contradiction. }
      pose proof (clean_all s' S1) as Pa.
      assert (A1 : forall x, In x a1 -> pub x).
      { intros x. rewrite X4, in_app_iff. intros [F|F]; [now apply A|]. apply X6 in F. now apply Pa. }
      assert (B1 : forall x, pub x -> lookup x l1 <> None -> In x a1).
      { intros x Hx Hl. rewrite X4, in_app_iff. destruct (in_dec Nat.eq_dec x (t_all s')) as [F|F].
        - destruct (lookup x l) eqn:L; [left; apply B; [exact Hx|congruence]|]. right. apply X6. split; [exact F|]. now rewrite Np.
        - left. apply B; [exact Hx|]. rewrite X3 in Hl by exact F. now rewrite Np in Hl. }
      destruct (IHsubs a1 l1 subs1 a2 l2 C' N2 A1 B1 E2) as [G1 [G2 [G3 [G4 [G5 [G6 [G7 [G8 G9]]]]]]]].
      assert (Ls : lookup (t_name s) l2 = Some (OMod p')).
      { rewrite G7 by assumption. rewrite X3 by (intros F; now apply Cs1, Pa). now rewrite lookup_set, Nat.eqb_refl. }
      split; [cbn [map]; now rewrite S2, G1|]. split; [constructor; [rewrite S2; split; [split; assumption|intros _; exact S5]|exact G2]|].
      split. { intros x Hx. apply G3. rewrite X4, in_app_iff. now left. }
      split; [exact G4|]. split; [exact G5|].
      split. { intros x Hx Hl. rewrite <- Np in Hl by exact Hx. rewrite G6; [|exact Hx|rewrite X2 by exact Hl; exact Hl]. rewrite X2 by exact Hl. now apply Np. }
      split. { intros m M1 M2. cbn [map In] in M2. rewrite G7 by tauto. rewrite X3 by (intros F; now apply M1, Pa).
        rewrite lookup_set. destruct (m =? t_name s) eqn:D; [|reflexivity]. apply Nat.eqb_eq in D. subst. tauto. }
      split.
      + constructor; [|exact G8]. intros _. rewrite S2. split; [exact Ls|]. intros x Hx. destruct (X1 x Hx) as [Y1 Y2].
        assert (L1 : lookup x l1 <> None) by now rewrite Y2. split; [apply G3, B1; [now apply Pa|exact L1]|]. split; [exact Y1|].
        rewrite G6; [exact Y2|now apply Pa|exact L1].
      + intros a3 l3 F. inversion F as [|? ? F1 F2]; subst. cbn [import_list]. fold (import_list import_submodules path).
        rewrite S3. rewrite S2. fold p'. rewrite S6. cbn [bind fst snd]. destruct (F1 S3) as [Q1 Q2]. rewrite S2 in Q1.
        rewrite set_same by exact Q1. rewrite export_noop; [cbn [bind]; rewrite (G9 a3 l3 F2); reflexivity|].
        intros x Hx. cbn [snd]. destruct (Q2 x Hx) as [_ [R1 R2]]. split; assumption.
  Qed.
  Theorem import_ok t : forall path t', clean t -> import_submodules path t = Ok t' -> t_pkg t = true -> imported path t t'.
  Proof.
    induction t as [n p k all attrs subs IH] using tree_rect'. intros path t' [C1 [C2 [C3 C4]]] H K. cbn [t_pkg] in K. subst k.
    cbn [import_submodules] in H. change (match all with Some l => l | None => [] end) with (t_all (Node n p true all attrs subs)) in H.
    destruct (import_list import_submodules path subs _) as [[subs' [a' l']]|] eqn:E; [|discriminate]. cbn [bind fst snd] in H. injection H as <-.
    assert (C : Forall (fun s => ~ pub (t_name s) /\ clean s) subs).
    { clear - C4. induction subs as [|s subs IHs]; [constructor|]. cbn [fold_right] in C4. destruct C4 as [H1 H2]. constructor; auto. }
    destruct (go_ok path subs IH _ _ _ _ _ C C3 C1 (C2 eq_refl) E) as [G1 [G2 [G3 [G4 [G5 [G6 [G7 [G8 G9]]]]]]]].
    assert (G8' : Forall (sub_ok path (isort a') l') subs').
    { apply Forall_impl with (2 := G8). intros s H F. destruct (H F) as [H1 H2]. split; [exact H1|]. intros x Hx. rewrite In_isort. now apply H2. }
    constructor; cbn [t_all t_attrs t_subs t_name t_private t_pkg].
    - split; [intros x; cbn [t_all]; rewrite In_isort; apply G4|]. split; [intros _ x Hx Hl; cbn [t_all]; rewrite In_isort; now apply G5|].
      split; [now rewrite G1|]. clear - G2. induction G2 as [|s l [H _] _ IHl]; cbn [fold_right]; [trivial|]. split; assumption.
    - auto.
    - apply isort_sorted.
    - split; [intros x Hx; rewrite In_isort; apply G3; exact Hx|exact G6].
    - exact G8'.
    - intros u R x Hx. remember (Node n p true (Some (isort a')) l' subs') as T eqn:ET. destruct R as [T|T s u _ R1 R2 R3]; [subst T; auto|]. rewrite ET in R1. cbn [t_subs] in R1.
      rewrite Forall_forall in G2, G8'. destruct (proj2 (G2 s R1) R2 u R3 x Hx) as [Y1 Y2]. destruct (G8' s R1 R2) as [_ Z].
      destruct (Z x Y1) as [Z1 [_ Z2]]. rewrite ET. cbn [t_all t_attrs]. split; [exact Z1|congruence].
    - cbn [import_submodules]. rewrite (G9 _ _ G8'). cbn [bind fst snd]. rewrite isort_id by apply isort_sorted. reflexivity.
  Qed.

  (** every public object of every public module below a package is available from the
      package, the same object under the same name, and in its sorted __all__ *)
  Theorem C76_flat path t t' : clean t -> t_pkg t = true -> import_submodules path t = Ok t' ->
    Sorted le (t_all t')
    /\ forall u, reach t' u -> forall x, In x (t_all u) -> In x (t_all t') /\ lookup x (t_attrs t') = lookup x (t_attrs u).
  Proof. intros C K H. destruct (import_ok t path t' C H K) as [_ _ I _ _ F _]. split; [exact I|exact F]. Qed.
  (** submodules are attributes; what the package had before it keeps *)
  Theorem C76_submodules path t t' : clean t -> t_pkg t = true -> import_submodules path t = Ok t' ->
    (forall s, In s (t_subs t') -> t_private s = false -> lookup (t_name s) (t_attrs t') = Some (OMod (path ++ [t_name s])))
    /\ map t_name (t_subs t') = map t_name (t_subs t)
    /\ (forall x, In x (t_all t) -> In x (t_all t'))
    /\ forall x, pub x -> lookup x (t_attrs t) <> None -> lookup x (t_attrs t') = lookup x (t_attrs t).
  Proof.
    intros C K H. destruct (import_ok t path t' C H K) as [_ [_ [_ [_ I1]]] _ [I2 I3] I4 _ _].
    split; [|auto]. intros s Hs P. rewrite Forall_forall in I4. now apply (I4 s Hs).
  Qed.
  (** every name that a public submodule lists exists there and in the package *)
  Theorem C76_exist path t t' : clean t -> t_pkg t = true -> import_submodules path t = Ok t' ->
    forall s x, In s (t_subs t') -> t_private s = false -> In x (t_all s) ->
      lookup x (t_attrs s) <> None /\ lookup x (t_attrs t') <> None.
  Proof.
    intros C K H s x Hs P Hx. destruct (import_ok t path t' C H K) as [_ _ _ _ I _ _]. rewrite Forall_forall in I.
    destruct (proj2 (I s Hs P) x Hx) as [_ [E1 E2]]. split; [exact E1|congruence].
  Qed.
  (** importing again changes nothing *)
  Theorem C76_again path t t' : clean t -> t_pkg t = true -> import_submodules path t = Ok t' -> import_submodules path t' = Ok t'.
  Proof. intros C K H. now destruct (import_ok t path t' C H K). Qed.
  (** two public modules never export different objects under one name: the import fails *)
  Theorem C76_conflict path t t' u v x : clean t -> t_pkg t = true -> import_submodules path t = Ok t' ->
    reach t' u -> reach t' v -> In x (t_all u) -> In x (t_all v) -> lookup x (t_attrs u) = lookup x (t_attrs v).
  Proof.
    intros C K H R1 R2 H1 H2. destruct (C76_flat path t t' C K H) as [_ F].
    destruct (F u R1 x H1) as [_ E1]. destruct (F v R2 x H2) as [_ E2]. congruence.
  Qed.
End Pub.

(** a package 0 with the modules 1, 2 (a package with the module 3 and the private module 4);
    public names are those above 9 *)
Local Definition m1 : tree := Node 1 false false (Some [10; 11]) [(10, OObj 100); (11, OObj 101); (5, OObj 7)] [].
Local Definition m3 : tree := Node 3 false false (Some [12; 10]) [(12, OObj 102); (10, OObj 100)] [].
Local Definition m4 : tree := Node 4 true false (Some [13]) [(13, OObj 103)] [].
Local Definition root : tree := Node 0 false true (Some []) [(6, OObj 8)] [m1; Node 2 false true None [] [m3; m4]].
Local Definition root' : tree :=
  Node 0 false true (Some [10; 11; 12])
    [(6, OObj 8); (1, OMod [0; 1]); (10, OObj 100); (11, OObj 101); (2, OMod [0; 2]); (12, OObj 102)]
    [m1; Node 2 false true (Some [10; 12]) [(3, OMod [0; 2; 3]); (12, OObj 102); (10, OObj 100)] [m3; m4]].
Example C76_hyps : clean (fun x => 9 < x) root /\ t_pkg root = true /\ import_submodules [0] root = Ok root' /\ reach root' m3.
Proof.
  split; [|split; [reflexivity|split; [reflexivity|]]].
  - cbn [root clean t_all fold_right map t_name m1 m3 m4].
    repeat match goal with
    | |- _ /\ _ => split
    | |- True => exact I
    | |- NoDup _ => repeat constructor; cbn; intuition lia
    | |- ~ _ => lia
    | |- forall x, In x _ -> _ => intros x Hx; cbn in Hx; intuition lia
    | |- true = true -> _ => intros _ x Hx Hl; cbn [lookup] in Hl
    | H : context [?x =? 6] |- _ => destruct (Nat.eqb_spec x 6); [lia|]
    | |- false = true -> _ => discriminate
    | _ => congruence
    end.
  - apply reach_sub with (s := Node 2 false true (Some [10; 12]) [(3, OMod [0; 2; 3]); (12, OObj 102); (10, OObj 100)] [m3; m4]); [reflexivity|cbn; tauto|reflexivity|].
    apply reach_sub with (s := m3); [reflexivity|cbn; tauto|reflexivity|apply reach_refl].
Qed.
(** different objects under one name: ImportError *)
Example C76_conflict_raises :
  import_submodules [0] (Node 0 false true (Some []) [] [m1; Node 2 false false (Some [10]) [(10, OObj 200)] []]) = Err PlainException.
Proof. reflexivity. Qed.
(** a public name that a package already has but does not list is not passed on *)
Theorem C76_not_listed_refuted :
  exists t t' u x, import_submodules [0] t = Ok t' /\ t_pkg t = true /\ reach t' u /\ In x (t_all u) /\ ~ In x (t_all t').
Proof.
  exists (Node 0 false true (Some []) [(10, OObj 100)] [m1]). eexists _, m1, 10. split; [reflexivity|]. split; [reflexivity|].
  split; [apply reach_sub with (s := m1); [reflexivity|cbn; tauto|reflexivity|apply reach_refl]|]. split; [cbn; tauto|]. cbn. intuition lia.
Qed.
(** a module with the name of an object that was exported before replaces it *)
Theorem C76_module_shadows_refuted :
  exists t t' u x, import_submodules [0] t = Ok t' /\ t_pkg t = true /\ reach t' u /\ In x (t_all u)
    /\ lookup x (t_attrs t') <> lookup x (t_attrs u).
Proof.
  exists (Node 0 false true (Some []) [] [m1; Node 11 false false (Some []) [] []]). eexists _, m1, 11.
  split; [reflexivity|]. split; [reflexivity|]. split; [apply reach_sub with (s := m1); [reflexivity|cbn; tauto|reflexivity|apply reach_refl]|].
  split; [cbn; tauto|]. cbn. discriminate.
Qed.
Print Assumptions C76_exist. Print Assumptions C76_flat. Print Assumptions C76_submodules. Print Assumptions C76_again. Print Assumptions C76_conflict.
Print Assumptions C76_hyps. Print Assumptions C76_conflict_raises. Print Assumptions C76_not_listed_refuted. Print Assumptions C76_module_shadows_refuted.
