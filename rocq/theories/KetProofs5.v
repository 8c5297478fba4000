(** Kets: expansion is sound. For C43. *)
From Coq Require Import QArith Qcanon Permutation Relations.
From Verif Require Import Prelude ListFacts SortModel SortProofs BinModel BinSpec BinProofs AlgSpec CAlg OpModel OpSpec OpProofs1 CSimpProofs5 OpProofs2 OpProofs3 KetModel KetSpec KetProofs1 KetProofs2 KetProofs3 KetProofs4.
Local Open Scope nat_scope.

Section Sound.
  Context {S : scalars} {dim : nat -> option nat} {I : interp S dim} (W : kets I).
  Local Notation V := (V W).
  Local Notation klegal := (klegal (I:=I)).
  Local Notation kvalue := (kvalue W).
  Local Notation kmeans := (kmeans W).
  Local Notation kat := (kat (I:=I)).
  Local Notation ket := (ket S).
  Local Notation op := (op S).
  Local Notation value := (value I).
  Local Notation legal := (legal I).
  Add Ring Kk5 : (kring I).
  Context (KO : ocreators S) (HK : soundK I KO) (Q : kcreators S) (HQ : soundQ W Q).

  Lemma m_kplus2 x y k h : kat h x -> kat h y -> kc_plus Q [x; y] = Ok k -> kmeans k h (va (kvalue x) (kvalue y)).
  Proof.
    intros Kx Ky E. destruct (q_plus W Q HQ [x; y] k) as (L & Vk & Sk); [constructor; [apply Kx|constructor; [apply Ky|constructor]]|exact E|].
    apply kmeans_self; [apply Sk; now apply (two_kat (I:=I))|]. rewrite Vk. apply vsum_2.
  Qed.
  Lemma foldM_kplus h l : forall x k, kat h x -> Forall (kat h) l -> foldM (fun a b => kc_plus Q [a; b]) x l = Ok k -> kmeans k h (va (kvalue x) (vsum W (map kvalue l))).
  Proof.
    induction l as [|y l IH]; intros x k Kx Kl E; cbn [foldM] in E.
    - injection E as <-. apply kmeans_self; [exact Kx|]. symmetry. apply va_0r.
    - step E z Ez. destruct (m_kplus2 x y z h Kx (Forall_inv Kl) Ez) as (Lz & Vz & Sz). destruct (IH z k (conj Lz Sz) (Forall_inv_tail Kl) E) as (Lk & Vk & Sk).
      split; [exact Lk|]. split; [|exact Sk]. rewrite Vk, Vz. cbn [map vsum fold_right]. symmetry. apply (va_assoc I W).
  Qed.
  Lemma kadd_all_sound h l k : Forall (kat h) l -> kadd_all Q l = Ok k -> kmeans k h (vsum W (map kvalue l)).
  Proof. destruct l as [|x l]; [discriminate|]. intros H E. exact (foldM_kplus h l x k (Forall_inv H) (Forall_inv_tail H) E). Qed.
  Lemma ksum_sound h l k : Forall (kat h) l -> ksum Q l = Ok k -> kmeans k h (vsum W (map kvalue l)).
  Proof. intros H E. rewrite <- (va_0 I W). exact (foldM_kplus h l KZero k (kat_zero h) H E). Qed.
  Lemma foldM_ktens l : forall x k, klegal x -> Forall klegal l -> foldM (fun a b => kc_tens Q [a; b]) x l = Ok k ->
    kmeans k (kspace x ++ flat_map kspace l) (vm (kvalue x) (vprod W (map kvalue l))) /\ (k <> KZero -> x <> KZero /\ ~ In KZero l).
  Proof.
    induction l as [|y l IH]; intros x k Lx Ll E; cbn [foldM] in E.
    - injection E as <-. split; [apply kmeans_self; [cbn [flat_map]; rewrite app_nil_r; now apply kat_self|symmetry; apply vm_1r]|]. intros N. split; [exact N|intros []].
    - step E z Ez. destruct (q_tens2 W Q HQ x y z Lx (Forall_inv Ll) Ez) as [(Lz & Vz & Sz) Dz]. destruct (IH z k Lz (Forall_inv_tail Ll) E) as [(Lk & Vk & Sk) Dk]. split.
      + split; [exact Lk|]. split; [rewrite Vk, Vz; cbn [map vprod fold_right]; symmetry; apply (vm_assoc I W)|].
        destruct (zero_dec k) as [->|Nk]; [now left|right]. destruct (Dk Nk) as [Nz _]. destruct Sk as [?|Sk]; [contradiction|]. destruct Sz as [?|Sz]; [contradiction|].
        apply (same_trans _ _ _ Sk). cbn [flat_map]. rewrite app_assoc. apply same_app; [exact Sz|apply same_refl].
      + intros Nk. destruct (Dk Nk) as [Nz Nl]. destruct (Dz Nz) as (_ & Nx & Ny). split; [exact Nx|]. intros [G|G]; [now apply Ny|now apply Nl].
  Qed.
  Lemma kmul_combo_sound c k : Forall klegal c -> kmul_combo Q c = Ok k -> kmeans k (flat_map kspace c) (vprod W (map kvalue c)) /\ (k <> KZero -> ~ In KZero c).
  Proof.
    destruct c as [|x c]; [discriminate|]. intros H E. destruct (foldM_ktens c x k (Forall_inv H) (Forall_inv_tail H) E) as [M D]. split; [exact M|].
    intros N. destruct (D N) as [Nx Nc]. intros [G|G]; [now apply Nx|now apply Nc].
  Qed.
  Lemma ksummands_sound k h : kat h k -> Forall (kat h) (ksummands k) /\ vsum W (map kvalue (ksummands k)) = kvalue k.
  Proof.
    intros Kk. destruct k; try (split; [constructor; [exact Kk|constructor]|apply vsum_1]). cbn [ksummands]. split; [|reflexivity].
    destruct Kk as [(Hn & (h' & Hs) & Hl) [?|Sk]]; [discriminate|]. rewrite klegal_fold in Hl. pose proof (plus_same h' l Hn Hl Hs) as P.
    rewrite Forall_forall in *. intros x Hx. destruct (Hl x Hx) as [Nx Lx]. split; [exact Lx|right]. apply (same_trans _ h'); [now apply Hs|]. apply (same_trans _ (kspace (KPlus l))); [now apply same_sym|exact Sk].
  Qed.
  Lemma vsum_flat {X} (f : X -> list V) l : vsum W (flat_map f l) = vsum W (map (fun x => vsum W (f x)) l).
  Proof. induction l as [|x l IH]; [reflexivity|]. cbn [flat_map map]. rewrite vsum_app, IH. reflexivity. Qed.
  Lemma vsum_mul_l x l : vsum W (map (fun y => vm x y) l) = vm x (vsum W l).
  Proof. rewrite (vm_comm I W), vm_sum. f_equal. apply map_ext. intros y. apply (vm_comm I W). Qed.
  Lemma kcartesian_sum ls : vsum W (map (fun c => vprod W (map kvalue c)) (cartesian ls)) = vprod W (map (fun l => vsum W (map kvalue l)) ls).
  Proof.
    induction ls as [|l ls IH]; [apply vsum_1|]. cbn [cartesian map]. change (vprod W (vsum W (map kvalue l) :: map (fun l0 => vsum W (map kvalue l0)) ls)) with (vm (vsum W (map kvalue l)) (vprod W (map (fun l0 => vsum W (map kvalue l0)) ls))). rewrite <- IH, vm_sum, map_map.
    rewrite flat_map_concat_map, concat_map, <- flat_map_concat_map, flat_map_concat_map, map_map, <- flat_map_concat_map, vsum_flat. f_equal. apply map_ext. intros x.
    rewrite map_map. cbn [map vprod fold_right]. rewrite <- vsum_mul_l, map_map. reflexivity.
  Qed.
  (** a summand of each factor *)
  Lemma cartesian_In {X} (ls : list (list X)) c : In c (cartesian ls) -> Forall2 (fun x l => In x l) c ls.
  Proof.
    revert c. induction ls as [|l ls IH]; intros c; cbn [cartesian]; [intros [<-|[]]; constructor|]. intros H. apply in_flat_map in H. destruct H as (x & Hx & H).
    apply in_map_iff in H. destruct H as (d & <- & Hd). constructor; [exact Hx|now apply IH].
  Qed.
  Lemma mapM_kat {X} (f : X -> res ket) (v : X -> V) h l l' : (forall x k, In x l -> f x = Ok k -> kmeans k h (v x)) -> mapM f l = Ok l' -> Forall (kat h) l' /\ map kvalue l' = map v l.
  Proof.
    revert l'. induction l as [|x l IH]; intros l' H E; cbn [mapM] in E; [injection E as <-; split; [constructor|reflexivity]|].
    step E y Ey. step E r Er. injection E as <-. destruct (H x y (or_introl eq_refl) Ey) as (Ly & Vy & Sy). destruct (IH r) as [L2 V2]; [intros z k Hz; apply H; now right|reflexivity|].
    split; [constructor; [now split|exact L2]|]. cbn [map]. now rewrite Vy, V2.
  Qed.
  Lemma list_prod_sum {X Y} (f : X -> Y -> V) l m : vsum W (map (fun p => f (fst p) (snd p)) (list_prod l m)) = vsum W (map (fun x => vsum W (map (f x) m)) l).
  Proof.
    induction l as [|x l IH]; [reflexivity|]. cbn [list_prod map]. rewrite map_app, vsum_app, IH, map_map. reflexivity.
  Qed.
  Lemma kexpand_sound : forall n k k' h, kat h k -> kexpand KO Q n k = Ok k' -> kmeans k' h (kvalue k).
  Proof.
    induction n as [|n IH]; intros k k' h Kk E; [discriminate|]. cbn [kexpand] in E.
    assert (forall ret v, kmeans ret h v -> match ret with KPlus _ => kexpand KO Q n ret | _ => Ok ret end = Ok k' -> kmeans k' h v) as Fin.
    { intros ret v (Lr & Vr & Sr) Er. assert (kmeans ret h v) as M by (repeat split; assumption). destruct ret; try (injection Er as <-; exact M). rewrite <- Vr. now apply (IH (KPlus l)). }
    destruct k as [| |j l|u l|m hs|c t|l|l|a t]; try (injection E as <-; now apply kmeans_self).
    - step E t' Et. step E sm Es. step E ret Er. apply kat_scal in Kk. destruct (IH _ _ _ Kk Et) as (Lt & Vt & St). destruct (ksummands_sound t' h (conj Lt St)) as [Ls Vs].
      edestruct (mapM_kat (kc_scal Q c) (fun x => vs (ev c) (kvalue x)) h) as [Lm Vm]; [|exact Es|].
      { intros x k Hx Ex. rewrite Forall_forall in Ls. apply (q_scal W Q HQ); [now apply Ls|exact Ex]. }
      apply (Fin ret); [|exact E]. destruct (kadd_all_sound h sm ret Lm Er) as (Lr & Vr & Sr). split; [exact Lr|]. split; [|exact Sr].
      rewrite Vr, Vm. cbn [KetSpec.kvalue]. rewrite <- Vt, <- Vs, vs_sum, map_map. reflexivity.
    - step E l' El. destruct (ksummands_sound (KPlus l) h Kk) as [Ls _]. cbn [ksummands] in Ls. rewrite Forall_forall in Ls.
      destruct (mapM_kat (kexpand KO Q n) kvalue h l l') as [Lm Vm]; [intros x k Hx Ex; apply (IH x k h); [now apply Ls|exact Ex]|exact El|].
      destruct (q_plus W Q HQ l' k') as (L & Vk & Sk); [eapply Forall_impl; [|exact Lm]; now intros ? [? _]|exact E|]. apply kmeans_self; [apply Sk; now apply (kat_same_kets (I:=I))|]. rewrite Vk, Vm. reflexivity.
    - step E ks Ek. step E sm Es. step E ret Er. destruct Kk as [[Hd Hl] [?|Sk]]; [discriminate|]. rewrite klegal_fold in Hl.
      assert (Forall2 (fun k k1 => kmeans k1 (kspace k) (kvalue k)) l ks) as F.
      { clear - IH Ek Hl. revert ks Ek. induction l as [|x l IHl]; intros ks Ek; cbn [mapM] in Ek; [injection Ek as <-; constructor|]. step Ek y Ey. step Ek r Er. injection Ek as <-.
        constructor; [|apply IHl; [exact (Forall_inv_tail Hl)|reflexivity]]. apply (IH x y); [apply kat_self; exact (proj2 (Forall_inv Hl))|exact Ey]. }
      assert (forall c k, In c (cartesian (map ksummands ks)) -> kmul_combo Q c = Ok k -> kmeans k h (vprod W (map kvalue c))) as HC.
      { intros c k Hc Ec. apply cartesian_In in Hc.
        assert (Forall2 (fun x k => klegal x /\ (x = KZero \/ same_set (kspace x) (kspace k))) c l) as G.
        { clear - F Hc. revert c Hc. induction F as [|x y l ks Hxy F IHF]; intros c Hc; cbn [map] in Hc; inversion Hc as [|z w c' ls' Hz Hc']; subst; [constructor|]. constructor; [|now apply IHF].
          destruct (ksummands_sound y (kspace x)) as [Ls _]; [now apply kmeans_kat in Hxy|]. rewrite Forall_forall in Ls. exact (Ls z Hz). }
        assert (Forall klegal c) as Lc by (clear - G; induction G as [|x y c l [H _] G IHG]; constructor; assumption).
        destruct (kmul_combo_sound c k Lc Ec) as [(Lk & Vk & Skk) Dk]. split; [exact Lk|]. split; [exact Vk|].
        destruct (zero_dec k) as [->|Nk]; [now left|right]. destruct Skk as [?|Skk]; [contradiction|]. specialize (Dk Nk). apply (same_trans _ _ _ Skk).
        apply (same_trans _ (flat_map kspace l)); [|apply (same_trans _ (kspace (KTensor l))); [apply same_sym, kspace_tensor|exact Sk]].
        clear - G Dk. induction G as [|x y c l [_ H] G IHG]; [apply same_refl|]. cbn [flat_map]. apply same_app; [destruct H as [->|H]; [exfalso; apply Dk; now left|exact H]|]. apply IHG. intros Hc. apply Dk. now right. }
      destruct (mapM_kat (kmul_combo Q) (fun c => vprod W (map kvalue c)) h _ _ HC Es) as [Lm Vm].
      apply (Fin ret); [|exact E]. destruct (kadd_all_sound h sm ret Lm Er) as (Lr & Vr & Sr). split; [exact Lr|]. split; [|exact Sr].
      rewrite Vr, Vm, kcartesian_sum, map_map. cbn [KetSpec.kvalue]. f_equal. clear - F HQ. induction F as [|x y l ks Hxy F IHF]; [reflexivity|]. cbn [map]. f_equal; [|exact IHF].
      destruct (ksummands_sound y (kspace x)) as [_ Vs]; [now apply kmeans_kat in Hxy|]. rewrite Vs. apply Hxy.
    - step E a' Ea. step E t' Et. apply kat_op in Kk. destruct Kk as (Kt & La & Hi). destruct (expand_sound I KO HK _ _ _ La Ea) as [La' Va']. destruct (IH _ _ _ Kt Et) as (Lt & Vt & St).
      assert (kat h t') as Kt' by (now split). cbn [KetSpec.kvalue]. rewrite <- Vt, <- Va'.
      assert ((exists l, t' = KPlus l) \/ forall X f (g : X), match t' with KPlus l => f l | _ => g end = g) as [(l & ->)|Nt] by (destruct t'; eauto).
      + destruct (ksummands_sound _ h Kt') as [Ls _]. cbn [ksummands] in Ls. rewrite Forall_forall in Ls.
        assert ((exists os, a' = OPlus os) \/ forall X f (g : X), match a' with OPlus l => f l | _ => g end = g) as [(os & ->)|Na] by (destruct a'; eauto).
        * apply legal_plus in La'. rewrite Forall_forall in La'. step E s Es.
          edestruct (mapM_kat (fun p : ket * op => kc_op Q (snd p) (fst p)) (fun p => act (value (snd p)) (kvalue (fst p))) h) as [Lm Vm]; [|exact Es|].
          { intros [x o] k Hx Ex. apply in_prod_iff in Hx. destruct Hx as [Hx Ho]. cbn [fst snd] in *. apply (q_op W Q HQ); [now apply La'|now apply Ls|exact Ex]. }
          destruct (ksum_sound h s k' Lm E) as (L & Vk & Sk). split; [exact L|]. split; [|exact Sk]. rewrite Vk, Vm, (list_prod_sum (fun x o => act (value o) (kvalue x))).
          cbn [KetSpec.kvalue OpSpec.value]. rewrite act_sum, map_map. f_equal. apply map_ext. intros x. rewrite act_msum, map_map. reflexivity.
        * rewrite Na in E. step E s Es. edestruct (mapM_kat (kc_op Q a) (fun x => act (value a) (kvalue x)) h) as [Lm Vm]; [|exact Es|].
          { intros x k Hx Ex. apply (q_op W Q HQ); [exact La|now apply Ls|exact Ex]. }
          destruct (ksum_sound h s k' Lm E) as (L & Vk & Sk). split; [exact L|]. split; [|exact Sk]. rewrite Vk, Vm, Va'. cbn [KetSpec.kvalue]. rewrite act_sum, map_map. reflexivity.
      + rewrite Nt in E. assert ((exists os, a' = OPlus os) \/ forall X f (g : X), match a' with OPlus l => f l | _ => g end = g) as [(os & ->)|Na] by (destruct a'; eauto).
        * apply legal_plus in La'. rewrite Forall_forall in La'. step E s Es.
          edestruct (mapM_kat (fun o => kc_op Q o t') (fun o => act (value o) (kvalue t')) h) as [Lm Vm]; [|exact Es|].
          { intros o k Ho Ex. apply (q_op W Q HQ); [now apply La'|exact Kt'|exact Ex]. }
          destruct (ksum_sound h s k' Lm E) as (L & Vk & Sk). split; [exact L|]. split; [|exact Sk]. rewrite Vk, Vm. cbn [OpSpec.value]. rewrite act_msum, map_map. reflexivity.
        * rewrite Na in E. now apply (q_op W Q HQ).
  Qed.

  (** inner and outer products, expanded *)
  Definition ksumK (l : list (AlgSpec.K I)) : AlgSpec.K I := fold_right kadd k0 l.
  Lemma inner_sum_r h x l : on h x -> Forall (on (w:=W) h) l -> inner h x (vsum W l) = ksumK (map (inner h x) l).
  Proof. intros Hx. induction 1 as [|y l Hy Hl IH]; [cbn; now apply inner_z|]. cbn [vsum fold_right map ksumK]. rewrite (inner_add I W); [|exact Hx|exact Hy|now apply vsum_on]. f_equal. exact IH. Qed.
  Lemma inner_sum_l h x l : on h x -> Forall (on (w:=W) h) l -> inner h (vsum W l) x = ksumK (map (fun y => inner h y x) l).
  Proof. intros Hx. induction 1 as [|y l Hy Hl IH]; [cbn; now apply inner_zl|]. cbn [vsum fold_right map ksumK]. rewrite inner_add_l; [|exact Hy|now apply vsum_on|exact Hx]. f_equal. exact IH. Qed.
  Lemma ksumK_app l m : ksumK (l ++ m) = kadd (ksumK l) (ksumK m).
  Proof.
    assert (forall a : AlgSpec.K I, a = kadd k0 a) as R0 by (intros; ring). assert (forall a b c : AlgSpec.K I, kadd (kadd a b) c = kadd a (kadd b c)) as RA by (intros; ring).
    induction l as [|x l IH]; cbn [app]; [apply R0|]. change (kadd x (ksumK (l ++ m)) = kadd (kadd x (ksumK l)) (ksumK m)). rewrite IH. symmetry. apply RA.
  Qed.
  Lemma inner_double h la lb : Forall (kat h) la -> Forall (kat h) lb ->
    ksumK (map (fun p => inner h (kvalue (fst p)) (kvalue (snd p))) (list_prod la lb)) = inner h (vsum W (map kvalue la)) (vsum W (map kvalue lb)).
  Proof.
    intros Ha Hb. assert (Forall (on (w:=W) h) (map kvalue lb)) as Ob by (apply Forall_map; eapply Forall_impl; [|exact Hb]; intros; now apply kat_on).
    rewrite inner_sum_l; [|now apply vsum_on|apply Forall_map; eapply Forall_impl; [|exact Ha]; intros; now apply kat_on].
    induction Ha as [|x la Hx Ha IH]; [reflexivity|]. cbn [list_prod map]. rewrite map_app, ksumK_app, IH, map_map. cbn [fst snd ksumK fold_right]. f_equal.
    rewrite inner_sum_r; [|now apply kat_on|exact Ob]. rewrite map_map. reflexivity.
  Qed.
  Lemma fold_sadd l : forall c, ev (r:=I) (fold_left sadd l c) = kadd (ev c) (ksumK (map ev l)).
  Proof.
    assert (forall a : AlgSpec.K I, a = kadd a k0) as R0 by (intros; ring). assert (forall a b c : AlgSpec.K I, kadd (kadd a b) c = kadd a (kadd b c)) as RA by (intros; ring).
    induction l as [|x l IH]; intros c; cbn [fold_left map ksumK fold_right]; [apply R0|]. rewrite IH, ev_add. fold (ksumK (map (ev (r:=I)) l)). apply RA.
  Qed.
  Lemma bk_expand_sound n a b c h : kat h a -> kat h b -> bk_expand KO Q n a b = Ok c -> ev (r:=I) c = inner h (kvalue a) (kvalue b).
  Proof.
    intros Ka Kb E. unfold bk_expand in E. step E a' Ea. step E b' Eb. step E l El. injection E as <-.
    destruct (kexpand_sound _ _ _ _ Ka Ea) as (La & Va & Sa). destruct (kexpand_sound _ _ _ _ Kb Eb) as (Lb & Vb & Sb).
    destruct (ksummands_sound a' h (conj La Sa)) as [Ls Vs]. destruct (ksummands_sound b' h (conj Lb Sb)) as [Ls' Vs'].
    rewrite fold_sadd, (ev_s0 I), <- Va, <- Vb, <- Vs, <- Vs', <- inner_double by assumption.
    assert (map (ev (r:=I)) l = map (fun p => inner h (kvalue (fst p)) (kvalue (snd p))) (list_prod (ksummands a') (ksummands b'))) as ->; [|ring].
    assert (forall p, In p (list_prod (ksummands a') (ksummands b')) -> kat h (fst p) /\ kat h (snd p)) as Hp.
    { intros [x y] H. apply in_prod_iff in H. rewrite Forall_forall in Ls, Ls'. split; [now apply Ls|now apply Ls']. }
    revert l El. generalize dependent (list_prod (ksummands a') (ksummands b')). clear - HQ. intros ps Hp. induction ps as [|p ps IH]; intros l El; cbn [mapM] in El; [injection El as <-; reflexivity|].
    step El c Ec. step El r Er. injection El as <-. cbn [map]. f_equal; [|apply IH; [intros q Hq; apply Hp; now right|reflexivity]].
    destruct (Hp p (or_introl eq_refl)) as [K1 K2]. apply (q_bk W Q HQ _ _ _ _ (proj1 K1) (proj1 K2)); [now apply (two_kat (I:=I))|exact Ec].
  Qed.
  Lemma outer_sum_r h x l : on h x -> Forall (on (w:=W) h) l -> outer h x (vsum W l) = msum I (map (outer h x) l).
  Proof. intros Hx. induction 1 as [|y l Hy Hl IH]; [cbn; now apply outer_zr|]. cbn [vsum fold_right map msum]. rewrite outer_add_r; [|exact Hx|exact Hy|now apply vsum_on]. f_equal. exact IH. Qed.
  Lemma outer_sum_l h x l : on h x -> Forall (on (w:=W) h) l -> outer h (vsum W l) x = msum I (map (fun y => outer h y x) l).
  Proof. intros Hx. induction 1 as [|y l Hy Hl IH]; [cbn; now apply outer_z|]. cbn [vsum fold_right map msum]. rewrite (outer_add I W); [|exact Hy|now apply vsum_on|exact Hx]. f_equal. exact IH. Qed.
  Lemma outer_double h la lb : Forall (kat h) la -> Forall (kat h) lb ->
    msum I (map (fun p => outer h (kvalue (fst p)) (kvalue (snd p))) (list_prod la lb)) = outer h (vsum W (map kvalue la)) (vsum W (map kvalue lb)).
  Proof.
    intros Ha Hb. assert (Forall (on (w:=W) h) (map kvalue lb)) as Ob by (apply Forall_map; eapply Forall_impl; [|exact Hb]; intros; now apply kat_on).
    rewrite outer_sum_l; [|now apply vsum_on|apply Forall_map; eapply Forall_impl; [|exact Ha]; intros; now apply kat_on].
    induction Ha as [|x la Hx Ha IH]; [reflexivity|]. cbn [list_prod map]. rewrite map_app, msum_app, IH, map_map. cbn [fst snd]. rewrite msum_cons. f_equal.
    rewrite outer_sum_r; [|now apply kat_on|exact Ob]. rewrite map_map. reflexivity.
  Qed.
  Lemma kb_expand_sound n a b e h : kat h a -> kat h b -> kb_expand KO Q n a b = Ok e -> means I e (outer h (kvalue a) (kvalue b)).
  Proof.
    intros Ka Kb E. unfold kb_expand in E. step E b' Eb. step E a' Ea. step E l El.
    destruct (kexpand_sound _ _ _ _ Ka Ea) as (La & Va & Sa). destruct (kexpand_sound _ _ _ _ Kb Eb) as (Lb & Vb & Sb).
    destruct (ksummands_sound a' h (conj La Sa)) as [Ls Vs]. destruct (ksummands_sound b' h (conj Lb Sb)) as [Ls' Vs'].
    destruct (mapM_sound I (fun p : ket * ket => kc_kb Q (fst p) (snd p)) (fun p => kat h (fst p) /\ kat h (snd p)) (fun p => outer h (kvalue (fst p)) (kvalue (snd p)))) with (3 := El) as [Lm Vm].
    - intros [x y] e' [K1 K2] Ex. apply (q_kb W Q HQ _ _ _ _ (proj1 K1) (proj1 K2)); [now apply (two_kat (I:=I))|exact Ex].
    - rewrite Forall_forall in *. intros [x y] H. apply in_prod_iff in H. split; [now apply Ls|now apply Ls'].
    - destruct (OpProofs2.s_plus I KO HK _ _ Lm E) as [Le Ve]. split; [exact Le|]. rewrite Ve, Vm, outer_double by assumption. now rewrite Vs, Vs', Va, Vb.
  Qed.
End Sound.
