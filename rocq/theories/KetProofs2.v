(** Kets: multiples, sums and tensor products are sound. For C43. *)
From Coq Require Import QArith Qcanon Permutation Relations.
From Verif Require Import Prelude ListFacts SortModel SortProofs BinModel BinSpec BinProofs AlgSpec CAlg OpModel OpSpec OpProofs1 CSimpProofs5 OpProofs2 KetModel KetSpec KetProofs1.
Local Open Scope nat_scope.

Section Sound.
  Context {S : scalars} {dim : nat -> option nat} {I : interp S dim} (W : kets I).
  Local Notation V := (V W).
  Local Notation klegal := (klegal (I:=I)).
  Local Notation kvalue := (kvalue W).
  Local Notation kmeans := (kmeans W).
  Local Notation kat := (kat (I:=I)).
  Local Notation ket := (ket S).
  Local Notation value := (value I).
  Add Ring Kk2 : (kring I).

  Record soundQ (Q : kcreators S) : Prop := {
    q_scal : forall c t k h, kat h t -> kc_scal Q c t = Ok k -> kmeans k h (vs (ev c) (kvalue t));
    q_plus : forall l k, Forall klegal l -> kc_plus Q l = Ok k -> klegal k /\ kvalue k = vsum W (map kvalue l) /\ (forall h, same_kets h l -> kat h k);
    q_tens : forall l k, Forall klegal l -> kc_tens Q l = Ok k -> kmeans k (flat_map kspace l) (vprod W (map kvalue l)) /\ (k <> KZero -> disjoint_kets l /\ ~ In KZero l);
    q_nil : forall k, kc_tens Q [] <> Ok k;
    q_op : forall a t k h, legal I a -> kat h t -> kc_op Q a t = Ok k -> kmeans k h (act (value a) (kvalue t));
    q_bk : forall a b c h, klegal a -> klegal b -> same_kets h [a; b] -> kc_bk Q a b = Ok c -> ev (r:=I) c = inner h (kvalue a) (kvalue b);
    q_kb : forall a b e h, klegal a -> klegal b -> same_kets h [a; b] -> kc_kb Q a b = Ok e -> means I e (outer h (kvalue a) (kvalue b))
  }.

  Lemma kmeans_zero h v : v = vz -> kmeans KZero h v.
  Proof. intros ->. split; [exact Logic.I|]. split; [reflexivity|now left]. Qed.
  Lemma kmeans_self h t v : kat h t -> kvalue t = v -> kmeans t h v.
  Proof. intros [H G] E. split; [exact H|]. now split. Qed.
  Lemma zero_dec (k : ket) : k = KZero \/ k <> KZero.
  Proof. destruct k; [now left|..]; right; discriminate. Qed.
  Lemma is_kzero_false (k : ket) : is_kzero k = false <-> k <> KZero.
  Proof. destruct k; cbn; split; congruence || discriminate || auto. Qed.

  Context (Q : kcreators S) (HQ : soundQ Q).

  Lemma zero_kat k : kat [0] k -> kat [] k -> k = KZero.
  Proof. intros [_ [E|E]] [_ [G|G]]; auto. exfalso. assert (In 0 []) as [] by (apply G, E; now left). Qed.
  Lemma scal_zero c k : kc_scal Q c KZero = Ok k -> k = KZero.
  Proof. intros H. apply zero_kat; [destruct (q_scal Q HQ _ _ _ [0] (kat_zero [0]) H) as (L & _ & G)|destruct (q_scal Q HQ _ _ _ [] (kat_zero []) H) as (L & _ & G)]; now split. Qed.
  Lemma op_zero a k : legal I a -> kc_op Q a KZero = Ok k -> k = KZero.
  Proof. intros La H. apply zero_kat; [destruct (q_op Q HQ _ _ _ [0] La (kat_zero [0]) H) as (L & _ & G)|destruct (q_op Q HQ _ _ _ [] La (kat_zero []) H) as (L & _ & G)]; now split. Qed.

  (** ** Multiples *)
  Lemma kscal_sound c t k h : kat h t -> kscal_step Q c t = Ok k -> kmeans k h (vs (ev c) (kvalue t)).
  Proof.
    intros Ht E. unfold kscal_step in E. destruct (seqb c s1) eqn:E1.
    - injection E as <-. apply kmeans_self; [exact Ht|]. rewrite (ev_eq S I _ _ E1), (ev_s1 I). symmetry. apply (vs_1 I W).
    - destruct (seqb c s0) eqn:E0.
      + injection E as <-. apply kmeans_zero. rewrite (ev_eq S I _ _ E0), (ev_s0 I). apply (vs_0 I W).
      + destruct Ht as [Ht Hs]. destruct t; try (injection E as <-; destruct Hs as [Hs|Hs]; [discriminate Hs|]; split; [split; [discriminate|exact Ht]|split; [reflexivity|right; exact Hs]]).
        * injection E as <-. apply kmeans_zero. apply vs_z.
        * destruct Ht as [Hz Ht]. assert (kat h t) as Hk by (destruct Hs as [Hs|Hs]; [discriminate Hs|split; [exact Ht|now right]]).
          destruct (q_scal Q HQ _ _ _ _ Hk E) as (L & Vk & Sk). split; [exact L|]. split; [|exact Sk].
          rewrite Vk, ev_mul, (vs_mul I W). reflexivity.
  Qed.

  (** ** Sums *)
  Lemma kflat_plus_sound l : Forall klegal l ->
    Forall klegal (kflat_plus l) /\ vsum W (map kvalue (kflat_plus l)) = vsum W (map kvalue l) /\ (forall h, same_kets h l -> same_kets h (kflat_plus l)).
  Proof.
    induction 1 as [|x l Hx Hl IH]; [split; [constructor|]; split; [reflexivity|intros h _ y []]|]. destruct IH as (L & Vl & Sl).
    change (kflat_plus (x :: l)) with ((match x with KPlus m => m | _ => [x] end) ++ kflat_plus l).
    assert (Forall klegal (match x with KPlus m => m | _ => [x] end) /\ vsum W (map kvalue (match x with KPlus m => m | _ => [x] end)) = kvalue x
      /\ (forall h, same_kets h [x] -> same_kets h (match x with KPlus m => m | _ => [x] end))) as (Lx & Vx & Sx).
    { destruct x; try (split; [constructor; [exact Hx|constructor]|]; split; [apply vsum_1|auto]).
      destruct Hx as (Hn & (h' & Hs) & Hm). rewrite klegal_fold in Hm. split; [|split; [reflexivity|]].
      - eapply Forall_impl; [|exact Hm]. now intros ? [_ ?].
      - intros h Hh y Hy Nz. pose proof (plus_same h' l0 Hn Hm Hs) as P1. assert (same_set (kspace (KPlus l0)) h) as P2 by (apply Hh; [now left|discriminate]).
        apply (same_trans _ h'); [now apply Hs|]. apply (same_trans _ (kspace (KPlus l0))); [now apply same_sym|exact P2]. }
    split; [apply Forall_app; now split|]. split.
    - rewrite map_app, vsum_app, Vx, Vl. reflexivity.
    - intros h Hh y Hy. apply in_app_iff in Hy. destruct Hy as [Hy|Hy].
      + apply (Sx h); [|exact Hy]. intros z [<-|[]]. apply Hh. now left.
      + apply (Sl h); [|exact Hy]. intros z Hz. apply Hh. now right.
  Qed.
  Definition entries (m : list (ket * S)) : list V := map (fun tc => vs (ev (snd tc)) (kvalue (fst tc))) m.
  Lemma kmap_add_sound c t m : vsum W (entries (kmap_add c t m)) = va (vsum W (entries m)) (vs (ev c) (kvalue t)).
  Proof.
    induction m as [|[t' c'] m IH]; cbn [kmap_add].
    - change (vsum W [vs (ev c) (kvalue t)] = va (vsum W []) (vs (ev c) (kvalue t))). rewrite vsum_1. symmetry. apply (va_0 I W).
    - destruct (keqb t' t) eqn:E.
      + cbn [entries map fst snd vsum fold_right]. fold (entries m). rewrite (ev_add S I), (vs_add I W), (keqb_value W _ _ E), <- !(va_assoc I W). f_equal. apply (va_comm I W).
      + cbn [entries map fst snd vsum fold_right]. fold (entries m). fold (entries (kmap_add c t m)). unfold vsum in IH. rewrite IH. apply (va_assoc I W).
  Qed.
  Lemma kmap_add_In (c : S) (t : ket) m x d : In (x, d) (kmap_add c t m) -> (exists d', In (x, d') m) \/ x = t.
  Proof.
    induction m as [|[t' c'] m IH]; cbn [kmap_add].
    - intros [E|[]]. injection E as <- <-. now right.
    - destruct (keqb t' t).
      + intros [E|H]; [injection E as <- <-; left; exists c'; now left|left; exists d; now right].
      + intros [E|H]; [injection E as <- <-; left; exists c'; now left|]. destruct (IH H) as [[d' H']|H']; [left; exists d'; now right|now right].
  Qed.
  Lemma coeff_term_sound x : klegal x ->
    klegal (snd (kcoeff_term x)) /\ vs (ev (fst (kcoeff_term x))) (kvalue (snd (kcoeff_term x))) = kvalue x /\ (forall h, kat h x -> kat h (snd (kcoeff_term x))).
  Proof.
    intros H. destruct x; cbn [kcoeff_term fst snd]; try (split; [exact H|]; split; [rewrite (ev_s1 I); apply (vs_1 I W)|auto]).
    destruct H as [Hz H]. split; [exact H|]. split; [reflexivity|]. intros h [_ [E|E]]; [discriminate E|]. split; [exact H|right; exact E].
  Qed.
  Lemma kcollect_gen l : forall m, Forall klegal l ->
    let m' := fold_left (fun m o => let '(c, t) := kcoeff_term o in kmap_add c t m) l m in
    vsum W (entries m') = va (vsum W (entries m)) (vsum W (map kvalue l))
    /\ (forall t d, In (t, d) m' -> (exists d', In (t, d') m) \/ exists x, In x l /\ t = snd (kcoeff_term x)).
  Proof.
    induction l as [|x l IH]; intros m H; cbn [fold_left].
    - split; [symmetry; apply va_0r|]. intros t d Ht. left. now exists d.
    - destruct (coeff_term_sound x (Forall_inv H)) as (L & Vx & _). destruct (kcoeff_term x) as [c t] eqn:E. cbn [fst snd] in L, Vx.
      destruct (IH (kmap_add c t m) (Forall_inv_tail H)) as [V1 I1]. split.
      + cbn zeta in V1. rewrite V1, kmap_add_sound, Vx. cbn [map vsum fold_right]. symmetry. apply (va_assoc I W).
      + intros t' d Ht. destruct (I1 t' d Ht) as [[d' H']|(y & Hy & ->)].
        * apply kmap_add_In in H'. destruct H' as [H'|H']; [now left|]. right. exists x. split; [now left|]. now rewrite E, H'.
        * right. exists y. split; [now right|reflexivity].
  Qed.
  Lemma scal_all_sound m l : mapM (fun tc : ket * S => let '(t, c) := tc in kc_scal Q c t) m = Ok l -> Forall (fun tc => klegal (fst tc)) m ->
    Forall klegal l /\ vsum W (map kvalue l) = vsum W (entries m) /\ (forall h, Forall (fun tc => kat h (fst tc)) m -> Forall (kat h) l).
  Proof.
    revert l. induction m as [|[t c] m IH]; intros l E H; cbn [mapM] in E.
    - injection E as <-. split; [constructor|]. split; [reflexivity|]. intros h _. constructor.
    - step E y Ey. step E r Er. injection E as <-. destruct (IH r eq_refl (Forall_inv_tail H)) as (L & Vl & Sl).
      destruct (q_scal Q HQ _ _ _ _ (kat_self _ (Forall_inv H)) Ey) as (Ly & Vy & _). split; [now constructor|]. split.
      + cbn [map entries vsum fold_right fst snd]. f_equal; [exact Vy|exact Vl].
      + intros h Hh. constructor; [|apply Sl; exact (Forall_inv_tail Hh)].
        destruct (q_scal Q HQ _ _ _ _ (Forall_inv Hh) Ey) as (_ & _ & Sy). now split.
  Qed.
  Lemma filter_zero_sum l : vsum W (map kvalue (filter (fun o : ket => negb (is_kzero o)) l)) = vsum W (map kvalue l).
  Proof.
    induction l as [|x l IH]; [reflexivity|]. cbn [filter map vsum fold_right]. fold (vsum W (map kvalue l)). rewrite <- IH.
    destruct x; cbn [is_kzero negb map vsum fold_right]; try reflexivity. symmetry. apply (va_0 I W).
  Qed.
  Context (klt : ket -> ket -> bool) (slt : list nat -> list nat -> bool).
  Lemma Forall_pysorted {A} (lt : A -> A -> bool) P l : Forall P l -> Forall P (pysorted lt l).
  Proof. intros H. rewrite Forall_forall in *. intros x Hx. apply H. now apply pysorted_In in Hx. Qed.
  Lemma kat_same_kets h l : Forall (kat h) l -> same_kets h l.
  Proof. intros H x Hx Nz. rewrite Forall_forall in H. destruct (H x Hx) as [_ [E|E]]; [contradiction|exact E]. Qed.
  Lemma kplus_sound l k : Forall klegal l -> kplus_step klt slt Q l = Ok k -> klegal k /\ kvalue k = vsum W (map kvalue l) /\ (forall h, same_kets h l -> kat h k).
  Proof.
    intros HL E. destruct l as [|z l]; [cbn in E; step E y Ey; discriminate|]. revert HL E. set (ks := z :: l). intros HL E. change (kplus_step klt slt Q ks) with
      (do l <- mapM (fun tc : ket * S => let '(t, c) := tc in kc_scal Q c t) (kcollect (pysorted (kfull_lt klt slt) (kflat_plus ks)));
       match filter (fun o => negb (is_kzero o)) l with [] => Ok KZero | [x] => Ok x | fl => if same_space fl then Ok (KPlus fl) else Err UnequalSpaces end) in E.
    clearbody ks. clear z l.
    destruct (kflat_plus_sound ks HL) as (L1 & V1 & S1).
    set (so := pysorted (kfull_lt klt slt) (kflat_plus ks)) in E. assert (Permutation (kflat_plus ks) so) as P by apply pysorted_perm.
    assert (Forall klegal so) as L2 by (now apply Forall_pysorted). clearbody so.
    step E r Er. destruct (kcollect_gen so [] L2) as [V3 I3]. fold (kcollect so) in V3, I3. cbn zeta in V3, I3.
    assert (Forall (fun tc : ket * S => klegal (fst tc)) (kcollect so)) as L3.
    { rewrite Forall_forall. intros [t d] Ht. destruct (I3 t d Ht) as [[? []]|(x & Hx & ->)]. cbn [fst]. apply coeff_term_sound. rewrite Forall_forall in L2. now apply L2. }
    destruct (scal_all_sound _ _ Er L3) as (L4 & V4 & S4).
    assert (vsum W (map kvalue r) = vsum W (map kvalue ks)) as VV.
    { rewrite V4, V3, <- V1. change (vsum W (entries [])) with (vz (w:=W)). rewrite (va_0 I W). apply vsum_perm, Permutation_map. now apply Permutation_sym. }
    assert (forall h, same_kets h ks -> Forall (kat h) r) as SS.
    { intros h Hh. apply S4. rewrite Forall_forall. intros [t d] Ht. destruct (I3 t d Ht) as [[? []]|(x & Hx & ->)]. cbn [fst].
      rewrite Forall_forall in L2. apply coeff_term_sound; [now apply L2|]. pose proof (kat_list h _ L1 (S1 h Hh)) as G. rewrite Forall_forall in G. apply G. apply (Permutation_in x (Permutation_sym P) Hx). }
    rewrite <- (filter_zero_sum r) in VV. rewrite <- VV.
    assert (Forall (fun x => x <> KZero /\ klegal x) (filter (fun o => negb (is_kzero o)) r)) as LF.
    { rewrite Forall_forall in *. intros x Hx. apply filter_In in Hx. destruct Hx as [Hx Hz]. split; [|now apply L4]. apply is_kzero_false. now destruct (is_kzero x). }
    assert (forall h, same_kets h ks -> Forall (kat h) (filter (fun o => negb (is_kzero o)) r)) as SF.
    { intros h Hh. pose proof (SS h Hh) as G. rewrite Forall_forall in *. intros x Hx. apply filter_In in Hx. now apply G. }
    clear - E LF SF. destruct (filter (fun o => negb (is_kzero o)) r) as [|x [|y fl]] eqn:Ef.
    - injection E as <-. split; [exact Logic.I|]. split; [reflexivity|]. intros h _. apply kat_zero.
    - injection E as <-. split; [exact (proj2 (Forall_inv LF))|]. split; [symmetry; apply vsum_1|]. intros h Hh. exact (Forall_inv (SF h Hh)).
    - destruct (same_space (x :: y :: fl)) eqn:Es; [|discriminate]. injection E as <-.
      assert (same_kets (kspace x) (x :: y :: fl)) as SK.
      { unfold same_space in Es. assert (filter (fun o => negb (is_kzero o)) (x :: y :: fl) = x :: y :: fl) as Ef'.
        { apply filter_id_in. intros o Ho. rewrite Forall_forall in LF. destruct (LF o Ho) as [Nz _]. apply is_kzero_false in Nz. now rewrite Nz. }
        rewrite Ef' in Es. rewrite forallb_forall in Es. intros o [<-|Ho] _; [apply same_refl|]. apply Es in Ho. apply eqb_list_nat_spec in Ho. rewrite Ho. apply same_refl. }
      assert (klegal (KPlus (x :: y :: fl))) as LK by (split; [discriminate|]; split; [now exists (kspace x)|now rewrite klegal_fold]).
      split; [exact LK|]. split; [reflexivity|]. intros h Hh. split; [exact LK|]. right. apply (plus_same (I:=I)); [discriminate|exact LF|]. apply kat_same_kets. now apply SF.
  Qed.

  (** ** Tensor products *)
  Lemma kflat_tens_sound l : Forall (fun x => x <> KZero /\ klegal x) l ->
    Forall (fun x => x <> KZero /\ klegal x) (kflat_tens l) /\ vprod W (map kvalue (kflat_tens l)) = vprod W (map kvalue l) /\ same_set (flat_map kspace (kflat_tens l)) (flat_map kspace l)
    /\ (disjoint_kets (kflat_tens l) -> disjoint_kets l).
  Proof.
    induction 1 as [|x l [Nx Hx] Hl IH]; [split; [constructor|]; split; [reflexivity|split; [apply same_refl|constructor]]|]. destruct IH as (L & Vl & Sl & Dl).
    change (kflat_tens (x :: l)) with ((match x with KTensor m => m | _ => [x] end) ++ kflat_tens l).
    assert (Forall (fun x => x <> KZero /\ klegal x) (match x with KTensor m => m | _ => [x] end) /\ vprod W (map kvalue (match x with KTensor m => m | _ => [x] end)) = kvalue x
      /\ same_set (flat_map kspace (match x with KTensor m => m | _ => [x] end)) (kspace x)) as (Lx & Vx & Sx).
    { destruct x; try (split; [constructor; [now split|constructor]|]; split; [apply vprod_1|cbn [flat_map]; rewrite app_nil_r; apply same_refl]).
      destruct Hx as [Hd Hm]. rewrite klegal_fold in Hm. split; [exact Hm|]. split; [reflexivity|]. apply same_sym, kspace_tensor. }
    split; [apply Forall_app; now split|]. split; [|split].
    - rewrite map_app, vprod_app, Vx, Vl. reflexivity.
    - rewrite flat_map_app. cbn [flat_map]. now apply same_app.
    - intros D. apply disjoint_app in D. destruct D as (_ & D2 & D3). constructor; [|now apply Dl]. intros y Hy s Hs Hs'.
      apply (D3 s); [now apply Sx|]. apply Sl. apply in_flat_map. now exists y.
  Qed.
  Lemma same_perm_space (l m : list ket) : Permutation l m -> same_set (flat_map kspace l) (flat_map kspace m).
  Proof.
    intros P s. rewrite !in_flat_map. split; intros (y & Hy & Hs); exists y; (split; [|exact Hs]); [apply (Permutation_in y P Hy)|apply (Permutation_in y (Permutation_sym P) Hy)].
  Qed.
  Lemma filter_triv l : vprod W (map kvalue (filter (fun o : ket => negb (is_ktriv o)) l)) = vprod W (map kvalue l)
    /\ same_set (flat_map kspace (filter (fun o => negb (is_ktriv o)) l)) (flat_map kspace l)
    /\ (disjoint_kets (filter (fun o : ket => negb (is_ktriv o)) l) -> disjoint_kets l).
  Proof.
    induction l as [|x l (Vl & Sl & Dl)]; [split; [reflexivity|]; split; [apply same_refl|auto]|].
    assert (x = KTriv \/ is_ktriv x = false) as [->|Hx] by (destruct x; auto).
    - cbn [filter is_ktriv negb]. split; [|split].
      + rewrite Vl. symmetry. apply (vm_1 I W).
      + exact Sl.
      + intros D. constructor; [intros y _ s []|now apply Dl].
    - cbn [filter]. rewrite Hx. cbn [negb map flat_map]. split; [|split].
      + cbn [vprod fold_right]. f_equal. exact Vl.
      + apply same_app; [apply same_refl|exact Sl].
      + intros D. constructor; [|apply Dl; now inversion D]. intros y Hy s Hs Hs'. apply (disjoint_head _ _ D s Hs). apply Sl. apply in_flat_map. now exists y.
  Qed.
  Definition tens_ok (x y r : ket) : Prop := kmeans r (kspace x ++ kspace y) (vm (kvalue x) (kvalue y)) /\ (r <> KZero -> apart (kspace x) (kspace y) /\ x <> KZero /\ y <> KZero).
  Lemma q_tens2 x y r : klegal x -> klegal y -> kc_tens Q [x; y] = Ok r -> tens_ok x y r.
  Proof.
    intros Hx Hy E. destruct (q_tens Q HQ [x; y] r) as [M D]; [now repeat constructor|exact E|]. split.
    - cbn [flat_map map] in M. rewrite app_nil_r, vprod_2 in M. exact M.
    - intros Nz. destruct (D Nz) as [D1 D2]. inversion D1 as [|? ? Hd _]; subst. split; [apply Hd; now left|]. split; intros ->; apply D2; [now left|right; now left].
  Qed.
  Lemma rewrites_tens x y r : klegal x -> klegal y -> rewrites_to (tens_cls Q) x y r -> tens_ok x y r.
  Proof.
    intros Hx Hy (b & q & a & E & _ & H). cbn [tens_cls binary_rules] in E.
    assert (q = t001 Q \/ q = t002 Q) as [-> | ->].
    { assert (In q [t001 Q; t002 Q]) as G by (rewrite E; apply in_or_app; right; now left). destruct G as [<-|[<-|[]]]; auto. }
    - unfold t001 in H. destruct x; try discriminate H. apply olift_ok in H. step H p Ep. destruct Hx as [Nx Hx]. destruct (q_tens2 _ _ _ Hx Hy Ep) as [(Lp & Vp & Sp) Dp].
      destruct (q_scal Q HQ _ _ _ _ (conj Lp Sp : kat _ p) H) as (Lr & Vr & Sr). split.
      + split; [exact Lr|]. split; [|exact Sr]. rewrite Vr, Vp. cbn [KetSpec.kvalue]. symmetry. apply (vm_smul I W).
      + intros Nz. destruct Dp as (D1 & D2 & D3); [intros ->; apply Nz; exact (scal_zero _ _ H)|]. repeat split; auto; discriminate.
    - unfold t002 in H. destruct y; try discriminate H. apply olift_ok in H. step H p Ep. destruct Hy as [Ny Hy]. destruct (q_tens2 _ _ _ Hx Hy Ep) as [(Lp & Vp & Sp) Dp].
      destruct (q_scal Q HQ _ _ _ _ (conj Lp Sp : kat _ p) H) as (Lr & Vr & Sr). split.
      + split; [exact Lr|]. split; [|exact Sr]. rewrite Vr, Vp. cbn [KetSpec.kvalue]. symmetry. apply vm_smulr.
      + intros Nz. destruct Dp as (D1 & D2 & D3); [intros ->; apply Nz; exact (scal_zero _ _ H)|]. repeat split; auto; discriminate.
  Qed.
  Lemma contributes_tens r : klegal r ->
    Forall klegal (contributes (tens_cls Q) r) /\ vprod W (map kvalue (contributes (tens_cls Q) r)) = kvalue r /\ same_set (flat_map kspace (contributes (tens_cls Q) r)) (kspace r)
    /\ (~ In KZero (contributes (tens_cls Q) r) -> r <> KZero) /\ disjoint_kets (contributes (tens_cls Q) r).
  Proof.
    assert (disjoint_kets [r]) as D1 by (constructor; [intros ? []|constructor]).
    intros Hr. unfold contributes. cbn [tens_cls is_neutral instance_args]. destruct r; cbn [is_ktriv];
      try (split; [constructor; [exact Hr|constructor]|]; split; [apply vprod_1|]; split; [cbn [flat_map]; rewrite app_nil_r; apply same_refl|split; [try discriminate; intros H _; apply H; now left|exact D1]]).
    - split; [constructor|]. split; [reflexivity|]. split; [apply same_refl|]. split; [discriminate|constructor].
    - destruct Hr as [Hd Hm]. rewrite klegal_fold in Hm. split; [eapply Forall_impl; [|exact Hm]; now intros ? [_ ?]|]. split; [reflexivity|]. split; [apply same_sym, kspace_tensor|]. split; [discriminate|exact Hd].
  Qed.
  Lemma reach_tens l l' : reachable (tens_cls Q) l l' -> Forall klegal l ->
    Forall klegal l' /\ vprod W (map kvalue l') = vprod W (map kvalue l)
    /\ (~ In KZero l' -> same_set (flat_map kspace l') (flat_map kspace l) /\ (disjoint_kets l' -> disjoint_kets l) /\ ~ In KZero l).
  Proof.
    induction 1 as [a b (pre & x & y & post & r & -> & H & ->)|a|a b c _ IH1 _ IH2]; intros HL.
    - apply Forall_app in HL. destruct HL as [H1 H2]. pose proof (Forall_inv H2) as Hx. pose proof (Forall_inv (Forall_inv_tail H2)) as Hy.
      pose proof (Forall_inv_tail (Forall_inv_tail H2)) as H3. destruct (rewrites_tens x y r Hx Hy H) as [(Lr & Vr & Sr) Dr].
      destruct (contributes_tens r Lr) as (Lc & Vc & Sc & Zc & Dc). split; [|split].
      + apply Forall_app. split; [exact H1|]. apply Forall_app. now split.
      + rewrite !map_app, !vprod_app, Vc, Vr. cbn [map vprod fold_right]. rewrite !(vm_assoc I W). reflexivity.
      + intros Nz. assert (r <> KZero) as Nr by (apply Zc; intros G; apply Nz; apply in_or_app; right; apply in_or_app; now left).
        destruct Sr as [?|Sr]; [contradiction|]. destruct (Dr Nr) as (Da & Dx & Dy). assert (same_set (flat_map kspace (contributes (tens_cls Q) r)) (kspace x ++ kspace y)) as Sxy by (apply (same_trans _ (kspace r)); assumption).
        assert (same_set (flat_map kspace (pre ++ contributes (tens_cls Q) r ++ post)) (flat_map kspace (pre ++ x :: y :: post))) as SS.
        { rewrite !flat_map_app. apply same_app; [apply same_refl|]. cbn [flat_map]. rewrite app_assoc. apply same_app; [exact Sxy|apply same_refl]. }
        split; [exact SS|]. split.
        * intros D. apply disjoint_app in D. destruct D as (D1 & D2 & D3). apply disjoint_app in D2. destruct D2 as (_ & D4 & D5).
          apply disjoint_app. split; [exact D1|]. split.
          -- constructor; [intros z [<-|Hz]; [exact Da|]|constructor; [|exact D4]].
             ++ intros s Hs Hs'. apply (D5 s); [apply Sxy; apply in_or_app; now left|]. apply in_flat_map. now exists z.
             ++ intros z Hz s Hs Hs'. apply (D5 s); [apply Sxy; apply in_or_app; now right|]. apply in_flat_map. now exists z.
          -- intros s Hs Hs'. apply (D3 s Hs). rewrite flat_map_app. apply in_or_app. cbn [flat_map] in Hs'. rewrite app_assoc in Hs'. apply in_app_iff in Hs'.
             destruct Hs' as [Hs'|Hs']; [left; now apply Sxy|now right].
        * intros G. apply in_app_iff in G. destruct G as [G|[G|[G|G]]]; [|now apply Dx|now apply Dy|]; apply Nz; apply in_or_app; [now left|right; apply in_or_app; now right].
    - split; [exact HL|]. split; [reflexivity|]. intros Nz. split; [apply same_refl|]. now split.
    - destruct (IH1 HL) as (L1 & V1 & S1). destruct (IH2 L1) as (L2 & V2 & S2). split; [exact L2|]. split; [congruence|].
      intros Nz. destruct (S2 Nz) as (S3 & D3 & N3). destruct (S1 N3) as (S4 & D4 & N4). split; [apply (same_trans _ (flat_map kspace b)); assumption|]. split; [auto|exact N4].
  Qed.
  Lemma ktens_sound fuel l k : Forall klegal l -> ktens_step klt slt Q fuel l = Ok k ->
    kmeans k (flat_map kspace l) (vprod W (map kvalue l)) /\ (k <> KZero -> disjoint_kets l /\ ~ In KZero l).
  Proof.
    intros HL E. unfold ktens_step in E. destruct (existsb is_kzero l) eqn:Ez.
    - injection E as <-. split; [|congruence]. apply kmeans_zero. apply vprod_z. apply existsb_exists in Ez. destruct Ez as (x & Hx & Hz). destruct x; try discriminate. now apply (in_map kvalue) in Hx.
    - assert (~ In KZero l) as Nz. { intros G. assert (existsb is_kzero l = true) as G' by (apply existsb_exists; now exists KZero). congruence. }
      assert (Forall (fun x => x <> KZero /\ klegal x) l) as HL'. { rewrite Forall_forall in *. intros x Hx. split; [intros ->; contradiction|now apply HL]. }
      destruct (kflat_tens_sound l HL') as (L1 & V1 & S1 & D1).
      destruct l as [|z l]; [step E y Ey; discriminate|]. revert HL HL' Nz L1 V1 S1 D1 E. set (ks := z :: l). clearbody ks. clear z l Ez. intros HL HL' Nz L1 V1 S1 D1 E.
      set (so := pysorted (kfull_lt klt slt) (kflat_tens ks)) in E. assert (Permutation (kflat_tens ks) so) as P by apply pysorted_perm.
      assert (Forall (fun x => x <> KZero /\ klegal x) so) as L2 by (now apply Forall_pysorted). clearbody so.
      assert (vprod W (map kvalue so) = vprod W (map kvalue ks)) as V2 by (rewrite <- V1; symmetry; apply vprod_perm, Permutation_map; exact P).
      assert (same_set (flat_map kspace so) (flat_map kspace ks)) as S2 by (apply (same_trans _ (flat_map kspace (kflat_tens ks))); [apply same_sym; now apply same_perm_space|exact S1]).
      assert (disjoint_kets so -> disjoint_kets ks) as D2 by (intros D; apply D1; apply (disjoint_perm so); [now apply Permutation_sym|exact D]).
      clear P L1 V1 S1 D1. cbn zeta in E. destruct (filter_triv so) as (V3 & S3 & D3).
      assert (Forall (fun x => x <> KZero /\ klegal x) (filter (fun o => negb (is_ktriv o)) so)) as L3.
      { rewrite Forall_forall in *. intros x Hx. apply filter_In in Hx. now apply L2. }
      assert (forall k, kmeans k (flat_map kspace (filter (fun o => negb (is_ktriv o)) so)) (vprod W (map kvalue (filter (fun o => negb (is_ktriv o)) so))) /\ (k <> KZero -> disjoint_kets (filter (fun o => negb (is_ktriv o)) so)) ->
        kmeans k (flat_map kspace ks) (vprod W (map kvalue ks)) /\ (k <> KZero -> disjoint_kets ks /\ ~ In KZero ks)) as Done.
      { intros k' [M D]. split; [|intros N; split; [auto|exact Nz]]. rewrite V3, V2 in M. apply (kmeans_same W _ _ _ _ S2). apply (kmeans_same W _ _ _ _ S3). exact M. }
      destruct so as [|x so].
      + injection E as <-. apply Done. split; [split; [exact Logic.I|]; split; [reflexivity|right; apply same_refl]|intros _; constructor].
      + apply Done. clear Done. destruct (filter (fun o => negb (is_ktriv o)) (x :: so)) as [|y [|w fl]] eqn:Ef.
        * injection E as <-. cbn [filter] in Ef. destruct x; try discriminate Ef. split; [split; [exact Logic.I|]; split; [reflexivity|right; apply same_refl]|intros _; constructor].
        * injection E as <-. pose proof (Forall_inv L3) as [N1 L4]. cbn [map flat_map]. rewrite vprod_1, app_nil_r. split; [apply kmeans_self; [now apply kat_self|reflexivity]|].
          intros _. constructor; [intros ? []|constructor].
        * revert E L3. set (fl' := y :: w :: fl). clearbody fl'. intros E L3. step E r Er. unfold match_replace_binary in Er. step Er fo Efo. apply reduce_reach in Efo.
          assert (Forall klegal fl') as L4 by (eapply Forall_impl; [|exact L3]; now intros ? [_ ?]).
          destruct (reach_tens _ _ Efo L4) as (L5 & V5 & R5). rewrite <- V5. destruct fo as [|a [|b fo]].
          -- injection Er as <-. injection E as <-. destruct R5 as (S5 & D5 & _); [intros []|]. split; [split; [exact Logic.I|]; split; [reflexivity|right; exact S5]|intros _; apply D5; constructor].
          -- injection Er as <-. injection E as <-. cbn [map]. rewrite vprod_1. split.
             ++ split; [exact (Forall_inv L5)|]. split; [reflexivity|]. destruct (zero_dec a) as [->|Na]; [now left|right]. destruct R5 as (S5 & _ & _); [intros [G|[]]; congruence|]. cbn [flat_map] in S5. now rewrite app_nil_r in S5.
             ++ intros Na. destruct R5 as (_ & D5 & _); [intros [G|[]]; congruence|]. apply D5. constructor; [intros ? []|constructor].
          -- injection Er as <-. destruct (negb (existsb is_kzero (a :: b :: fo)) && disjunct_from [] (a :: b :: fo)) eqn:Ec; [|discriminate]. injection E as <-.
             apply andb_prop in Ec. destruct Ec as [Ec1 Ec2]. revert L5 V5 R5 Ec1 Ec2. set (fo' := a :: b :: fo). clearbody fo'. intros L5 V5 R5 Ec1 Ec2.
             assert (~ In KZero fo') as Nf. { intros G. assert (existsb is_kzero fo' = true) as G' by (apply existsb_exists; now exists KZero). rewrite G' in Ec1. discriminate. }
             destruct (R5 Nf) as (S5 & D5 & _).
             assert (disjoint_kets fo') as DD.
             { clear - Ec2. revert Ec2. generalize (@nil nat). induction fo' as [|x l IH]; intros h H; [constructor|]. cbn [disjunct_from] in H. apply andb_prop in H. destruct H as [H1 H2]. constructor; [|now apply (IH _ H2)].
               clear - H2. revert H2. generalize h. induction l as [|z l IH]; intros h0 H2 y Hy; [destruct Hy|]. cbn [disjunct_from] in H2. apply andb_prop in H2. destruct H2 as [H2 H3]. destruct Hy as [<-|Hy].
               - apply sp_disjoint_apart in H2. intros s Hs Hs'. apply (H2 s Hs'). apply sp_union_In. now right.
               - assert (disjunct_from (sp_union (sp_union h0 (kspace z)) (kspace x)) l = true) as H4.
                 { revert H3. assert (same_set (sp_union (sp_union h0 (kspace x)) (kspace z)) (sp_union (sp_union h0 (kspace z)) (kspace x))) as Es by (intros s; rewrite !sp_union_In; tauto).
                   clear - Es. revert Es. generalize (sp_union (sp_union h0 (kspace x)) (kspace z)), (sp_union (sp_union h0 (kspace z)) (kspace x)). induction l as [|w l IH]; intros g g' Es H; [reflexivity|].
                   cbn [disjunct_from] in *. apply andb_prop in H. destruct H as [H1 H2]. apply andb_true_intro. split.
                   - apply sp_disjoint_apart. apply sp_disjoint_apart in H1. intros s Hs Hs'. apply (H1 s Hs). now apply Es.
                   - apply (IH (sp_union g (kspace w))); [|exact H2]. intros s. rewrite !sp_union_In. specialize (Es s). tauto. }
                 apply (IH _ H4 y Hy). }
             assert (klegal (KTensor fo')) as LK. { split; [exact DD|]. rewrite klegal_fold. rewrite Forall_forall in *. intros x' Hx'. split; [intros ->; contradiction|now apply L5]. }
             split; [|intros _; now apply D5]. split; [exact LK|]. split; [reflexivity|]. right. apply (same_trans _ (flat_map kspace fo')); [apply kspace_tensor|exact S5].
  Qed.
End Sound.
