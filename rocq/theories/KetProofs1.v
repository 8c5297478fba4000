(** Kets: values, spaces, equality. For C43. *)
From Coq Require Import QArith Qcanon Permutation.
From Verif Require Import Prelude ListFacts SortModel SortProofs BinModel AlgSpec CAlg OpModel OpSpec OpProofs1 OpProofs2 KetModel KetSpec.
Local Open Scope nat_scope.

Section Ind.
  Context {S : Type} (P : ket S -> Prop).
  Context (H0 : P KZero) (H1 : P KTriv) (Hb : forall j l, P (KBasis j l)) (Hc : forall u l, P (KCoh u l)) (Hs : forall n h, P (KSym n h)).
  Context (Hm : forall c t, P t -> P (KScal c t)) (Hp : forall l, Forall P l -> P (KPlus l)) (Ht : forall l, Forall P l -> P (KTensor l)) (Ho : forall a t, P t -> P (KOp a t)).
  Fixpoint ket_ind' (k : ket S) : P k :=
    let go := fix go (l : list (ket S)) : Forall P l := match l with [] => Forall_nil _ | x :: l' => Forall_cons _ (ket_ind' x) (go l') end in
    match k with
    | KZero => H0 | KTriv => H1 | KBasis j l => Hb j l | KCoh u l => Hc u l | KSym n h => Hs n h
    | KScal c t => Hm c t (ket_ind' t) | KPlus l => Hp l (go l) | KTensor l => Ht l (go l) | KOp a t => Ho a t (ket_ind' t)
    end.
End Ind.

Lemma same_refl h : same_set h h. Proof. intros x. tauto. Qed.
Lemma same_sym h h' : same_set h h' -> same_set h' h. Proof. intros H x. specialize (H x). tauto. Qed.
Lemma same_trans h h' h'' : same_set h h' -> same_set h' h'' -> same_set h h''.
Proof. intros H G x. specialize (H x). specialize (G x). tauto. Qed.
Lemma same_incl h h' : same_set h h' -> incl h h'. Proof. intros H x. apply H. Qed.
Lemma same_app a b a' b' : same_set a a' -> same_set b b' -> same_set (a ++ b) (a' ++ b').
Proof. intros H G x. specialize (H x). specialize (G x). rewrite !in_app_iff. tauto. Qed.
Lemma union_app a b : same_set (sp_union a b) (a ++ b).
Proof. intros x. rewrite sp_union_In, in_app_iff. tauto. Qed.
Lemma apart_same a a' b b' : same_set a a' -> same_set b b' -> apart a b -> apart a' b'.
Proof. intros H G D x Hx Hy. apply H in Hx. apply G in Hy. exact (D x Hx Hy). Qed.
Lemma apart_incl a a' b b' : incl a' a -> incl b' b -> apart a b -> apart a' b'.
Proof. intros H G D x Hx Hy. exact (D x (H x Hx) (G x Hy)). Qed.
Lemma sp_incl_spec a b : sp_incl a b = true <-> incl a b.
Proof.
  unfold sp_incl. rewrite forallb_forall. split; intros H x Hx; [apply sp_mem_In; now apply H|apply sp_mem_In; now apply H].
Qed.

Section Facts.
  Context {S : scalars} {dim : nat -> option nat} {I : interp S dim} (W : kets I).
  Local Notation V := (V W).
  Local Notation klegal := (klegal (I:=I)).
  Local Notation kvalue := (kvalue W).
  Local Notation kmeans := (kmeans W).
  Local Notation ket := (ket S).
  Add Ring Kk : (kring I).

  (** ** Vectors *)
  Lemma va_0r (x : V) : va x vz = x. Proof. rewrite (va_comm I W). apply (va_0 I W). Qed.
  Lemma vs_z c : vs c (vz : V) = vz.
  Proof. transitivity (vs c (vs k0 (vz : V))); [now rewrite (vs_0 I W)|]. rewrite <- (vs_mul I W). replace (kmul c k0) with (@k0 I) by ring. apply (vs_0 I W). Qed.
  Lemma vm_z (x : V) : vm vz x = vz.
  Proof. transitivity (vm (vs k0 (vz : V)) x); [now rewrite (vs_0 I W)|]. rewrite (vm_smul I W). apply (vs_0 I W). Qed.
  Lemma vm_zr (x : V) : vm x vz = vz. Proof. rewrite (vm_comm I W). apply vm_z. Qed.
  Lemma vm_1r (x : V) : vm x v1 = x. Proof. rewrite (vm_comm I W). apply (vm_1 I W). Qed.
  Lemma vm_smulr c (x y : V) : vm x (vs c y) = vs c (vm x y).
  Proof. rewrite (vm_comm I W), (vm_smul I W). f_equal. apply (vm_comm I W). Qed.
  Lemma vm_addr (x y z : V) : vm x (va y z) = va (vm x y) (vm x z).
  Proof. rewrite (vm_comm I W), (vm_add I W). f_equal; apply (vm_comm I W). Qed.
  Lemma act_z a : act a (vz : V) = vz.
  Proof. transitivity (act a (vs k0 (vz : V))); [now rewrite (vs_0 I W)|]. rewrite (act_vs I W). apply (vs_0 I W). Qed.
  Lemma act_0 (x : V) : act a0 x = vz.
  Proof. rewrite <- (smul_0 I a1), (act_smul I W). apply (vs_0 I W). Qed.
  Lemma vsum_app l m : vsum W (l ++ m) = va (vsum W l) (vsum W m).
  Proof. induction l as [|x l IH]; cbn [app vsum fold_right]; [symmetry; apply (va_0 I W)|]. fold (vsum W (l ++ m)). rewrite IH. apply (va_assoc I W). Qed.
  Lemma vprod_app l m : vprod W (l ++ m) = vm (vprod W l) (vprod W m).
  Proof. induction l as [|x l IH]; cbn [app vprod fold_right]; [symmetry; apply (vm_1 I W)|]. fold (vprod W (l ++ m)). rewrite IH. apply (vm_assoc I W). Qed.
  Lemma vsum_perm l m : Permutation l m -> vsum W l = vsum W m.
  Proof.
    induction 1 as [|x l m _ IH|x y l|l m n _ IH1 _ IH2]; cbn [vsum fold_right].
    - reflexivity.
    - f_equal. exact IH.
    - rewrite !(va_assoc I W). f_equal. apply (va_comm I W).
    - congruence.
  Qed.
  Lemma vprod_perm l m : Permutation l m -> vprod W l = vprod W m.
  Proof.
    induction 1 as [|x l m _ IH|x y l|l m n _ IH1 _ IH2]; cbn [vprod fold_right].
    - reflexivity.
    - f_equal. exact IH.
    - rewrite !(vm_assoc I W). f_equal. apply (vm_comm I W).
    - congruence.
  Qed.
  Lemma vsum_1 x : vsum W [x] = x. Proof. cbn. apply va_0r. Qed.
  Lemma vprod_1 x : vprod W [x] = x. Proof. cbn. apply vm_1r. Qed.
  Lemma vprod_2 x y : vprod W [x; y] = vm x y. Proof. cbn. now rewrite vm_1r. Qed.
  Lemma vsum_2 x y : vsum W [x; y] = va x y. Proof. cbn. now rewrite va_0r. Qed.
  Lemma vprod_z l : In vz l -> vprod W l = vz.
  Proof. induction l as [|x l IH]; intros []; cbn [vprod fold_right]; [subst; apply vm_z|]. change (vm x (vprod W l) = vz). rewrite IH by assumption. apply vm_zr. Qed.
  Lemma vs_sum c l : vs c (vsum W l) = vsum W (map (vs c) l).
  Proof. induction l as [|x l IH]; cbn [map vsum fold_right]; [apply vs_z|]. rewrite (vs_addr I W). f_equal. exact IH. Qed.
  Lemma act_sum a l : act a (vsum W l) = vsum W (map (act a) l).
  Proof. induction l as [|x l IH]; cbn [map vsum fold_right]; [apply act_z|]. rewrite (act_va I W). f_equal. exact IH. Qed.
  Lemma act_msum l (x : V) : act (msum I l) x = vsum W (map (fun a => act a x) l).
  Proof. induction l as [|a l IH]; cbn [map msum vsum fold_right]; [apply act_0|]. rewrite (act_add I W). f_equal. exact IH. Qed.
  Lemma vm_sum l (x : V) : vm (vsum W l) x = vsum W (map (fun y => vm y x) l).
  Proof. induction l as [|a l IH]; cbn [map vsum fold_right]; [apply vm_z|]. rewrite (vm_add I W). f_equal. exact IH. Qed.

  (** ** Spaces *)
  Lemma klegal_fold l : fold_right (fun x P => (x <> KZero /\ klegal x) /\ P) True l <-> Forall (fun x => x <> KZero /\ klegal x) l.
  Proof. induction l as [|x l IH]; cbn [fold_right]; [split; [constructor|trivial]|]. rewrite IH. split; [intros [H G]; now constructor|intros H; inversion H; now split]. Qed.
  Lemma kspace_list l x : In x (fold_right (fun o h => sp_union (kspace (S:=S) o) h) [] l) <-> In x (flat_map kspace l).
  Proof. induction l as [|y l IH]; cbn [fold_right flat_map]; [tauto|]. rewrite sp_union_In, in_app_iff, IH. tauto. Qed.
  Lemma kspace_tensor l : same_set (kspace (S:=S) (KTensor l)) (flat_map kspace l).
  Proof. intros x. apply kspace_list. Qed.
  Lemma kspace_plus l : same_set (kspace (S:=S) (KPlus l)) (flat_map kspace l).
  Proof. intros x. apply kspace_list. Qed.
  Lemma plus_same h l : l <> [] -> Forall (fun x : ket => x <> KZero /\ klegal x) l -> same_kets h l -> same_set (kspace (KPlus l)) h.
  Proof.
    intros Hn Hl Hs. apply (same_trans _ _ _ (kspace_plus l)). rewrite Forall_forall in Hl. intros x. rewrite in_flat_map. split.
    - intros (y & Hy & Hx). destruct (Hl y Hy) as [Nz _]. now apply (Hs y Hy Nz).
    - intros Hx. destruct l as [|y l]; [contradiction|]. exists y. split; [now left|]. apply (Hs y); [now left|apply Hl; now left|exact Hx].
  Qed.
  Lemma disjoint_tail x (l : list ket) : disjoint_kets (x :: l) -> disjoint_kets l. Proof. now inversion 1. Qed.
  Lemma disjoint_head x (l : list ket) : disjoint_kets (x :: l) -> apart (kspace x) (flat_map kspace l).
  Proof. inversion 1 as [|? ? H' _]; subst. intros s Hs Hf. apply in_flat_map in Hf. destruct Hf as (y & Hy & Hs'). exact (H' y Hy s Hs Hs'). Qed.
  Lemma disjoint_app (l m : list ket) : disjoint_kets (l ++ m) <-> disjoint_kets l /\ disjoint_kets m /\ apart (flat_map kspace l) (flat_map kspace m).
  Proof.
    induction l as [|x l IH]; cbn [app flat_map].
    - split; [intros H; split; [constructor|split; [exact H|intros s []]]|tauto].
    - split.
      + intros H. inversion H as [|? ? Hx Hl]; subst. apply IH in Hl. destruct Hl as (A1 & A2 & A3). split; [constructor; [intros y Hy; apply Hx; apply in_or_app; now left|exact A1]|].
        split; [exact A2|]. intros s Hs Hm. apply in_app_iff in Hs. destruct Hs as [Hs|Hs]; [|exact (A3 s Hs Hm)].
        apply in_flat_map in Hm. destruct Hm as (y & Hy & Hm). exact (Hx y (in_or_app _ _ _ (or_intror Hy)) s Hs Hm).
      + intros (A1 & A2 & A3). inversion A1 as [|? ? Hx Hl]; subst. constructor.
        * intros y Hy. apply in_app_iff in Hy. destruct Hy as [Hy|Hy]; [now apply Hx|]. intros s Hs Hm. apply (A3 s); [apply in_or_app; now left|]. apply in_flat_map. now exists y.
        * apply IH. split; [exact Hl|]. split; [exact A2|]. intros s Hs. apply A3. apply in_or_app. now right.
  Qed.
  Lemma disjoint_perm (l m : list ket) : Permutation l m -> disjoint_kets l -> disjoint_kets m.
  Proof.
    induction 1 as [|x l m P IH|x y l|l m n _ IH1 _ IH2]; intros H; auto.
    - inversion H as [|? ? Hx Hl]; subst. constructor; [|now apply IH]. intros y Hy. apply Hx. apply (Permutation_in y (Permutation_sym P) Hy).
    - inversion H as [|? ? Hx Hl]; subst. inversion Hl as [|? ? Hy Hl']; subst. constructor.
      + intros z [<-|Hz]; [apply apart_sym; apply Hx; now left|now apply Hy].
      + constructor; [|exact Hl']. intros z Hz. apply Hx. now right.
  Qed.
  Lemma disjoint_filter p (l : list ket) : disjoint_kets l -> disjoint_kets (filter p l).
  Proof.
    induction 1 as [|x l Hx Hl IH]; cbn [filter]; [constructor|]. destruct (p x); [|exact IH]. constructor; [|exact IH]. intros y Hy. apply filter_In in Hy. now apply Hx.
  Qed.
  Lemma disjoint_two (x y : ket) : apart (kspace x) (kspace y) -> disjoint_kets [x; y].
  Proof. intros H. constructor; [intros z [<-|[]]; exact H|]. constructor; [intros z []|constructor]. Qed.

  (** ** The ket is on its space *)
  Lemma vprod_on l : Forall (fun k => on (kspace k) (kvalue k)) l -> disjoint_kets l -> on (flat_map kspace l) (vprod W (map kvalue l)).
  Proof.
    induction 1 as [|x l Hx Hl IH]; intros D; [apply (on_1 I W)|]. cbn [flat_map map vprod fold_right]. apply (on_mul I W); [now apply disjoint_head|exact Hx|]. apply IH. now inversion D.
  Qed.
  Lemma vsum_on h l : Forall (fun v => on h v) l -> on h (vsum W l).
  Proof. induction 1 as [|x l Hx Hl IH]; [apply (on_0 I W)|]. cbn [vsum fold_right]. now apply (on_add I W). Qed.
  Lemma kvalue_on k : klegal k -> on (kspace k) (kvalue k).
  Proof.
    induction k as [| |j l|u l|n h|c t IH|l IH|l IH|a t IH] using ket_ind'; cbn [KetSpec.klegal KetSpec.kvalue kspace].
    - intros _. apply (on_0 I W).
    - intros _. apply (on_1 I W).
    - apply (on_basis I W).
    - intros H. apply (on_act I W [l]); [now apply (lives_disp _ _ I)|apply incl_refl|]. apply (on_basis I W). unfold level. rewrite (boson_dim _ _ I _ (displ_boson _ _ I _ H)). exact Logic.I.
    - intros _. apply (on_sym I W).
    - intros [_ H]. apply (on_smul I W). now apply IH.
    - intros (Hn & (h & Hs) & Hl). rewrite klegal_fold in Hl. pose proof (plus_same h l Hn Hl Hs) as Hh. apply (on_same I W h); [apply same_sym; exact Hh|].
      apply vsum_on. rewrite Forall_forall in *. intros v Hv. apply in_map_iff in Hv. destruct Hv as (x & <- & Hx). destruct (Hl x Hx) as [Nz Lx].
      apply (on_same I W (kspace x)); [now apply Hs|]. now apply IH.
    - intros [Hd Hl]. rewrite klegal_fold in Hl. apply (on_same I W (flat_map kspace l)); [apply same_sym, kspace_tensor|]. apply vprod_on; [|exact Hd].
      rewrite Forall_forall in *. intros x Hx. apply IH; [exact Hx|]. now apply Hl.
    - intros (_ & Ht & Ha & Hi). apply (on_act I W (space a)); [now apply value_lives|exact Hi|now apply IH].
  Qed.
  (** legal kets on a space *)
  Definition kat (h : list nat) (k : ket) : Prop := klegal k /\ (k = KZero \/ same_set (kspace k) h).
  Lemma kat_on h k : kat h k -> on h (kvalue k).
  Proof. intros [L [->|Hs]]; [apply (on_0 I W)|]. apply (on_same I W (kspace k)); [exact Hs|now apply kvalue_on]. Qed.
  Lemma kmeans_kat k h v : kmeans k h v <-> kat h k /\ kvalue k = v.
  Proof. unfold KetSpec.kmeans, kat. tauto. Qed.
  Lemma kat_same h h' k : same_set h h' -> kat h k -> kat h' k.
  Proof. intros Hs [L [->|G]]; split; auto. right. now apply (same_trans _ h). Qed.
  Lemma kmeans_same k h h' v : same_set h h' -> kmeans k h v -> kmeans k h' v.
  Proof. intros Hs. rewrite !kmeans_kat. intros [H E]. split; [now apply (kat_same h)|exact E]. Qed.
  Lemma kat_self k : klegal k -> kat (kspace k) k. Proof. intros H. split; [exact H|right; apply same_refl]. Qed.
  Lemma kat_zero h : kat h KZero. Proof. split; [exact Logic.I|now left]. Qed.
  Lemma kat_list h l : Forall klegal l -> same_kets h l -> Forall (kat h) l.
  Proof.
    intros H Hs. rewrite Forall_forall in *. intros x Hx. split; [now apply H|]. destruct x; [now left| | | | | | | |]; right; apply (Hs _ Hx); discriminate.
  Qed.
  Lemma kat_two h a b : klegal a -> klegal b -> same_kets h [a; b] -> kat h a /\ kat h b.
  Proof. intros Ha Hb Hs. pose proof (kat_list h [a; b]) as G. rewrite !Forall_cons_iff in G. destruct G as (G1 & G2 & _); auto. Qed.
  Lemma two_kat h a b : kat h a -> kat h b -> same_kets h [a; b].
  Proof. intros [_ Ha] [_ Hb] x [<-|[<-|[]]] Nz; [destruct Ha|destruct Hb]; congruence || assumption. Qed.

  (** ** Inner and outer products *)
  Lemma inner_z h (x : V) : on h x -> inner h x vz = k0.
  Proof. intros H. rewrite <- (vs_0 I W (vz : V)), (inner_smul I W); [ring|exact H|apply (on_0 I W)]. Qed.
  Lemma inner_zl h (x : V) : on h x -> inner h vz x = k0.
  Proof. intros H. rewrite <- (inner_conj I W); [|exact H|apply (on_0 I W)]. rewrite inner_z by exact H. apply (kconj_0 I). Qed.
  Lemma inner_smul_l h c (x y : V) : on h x -> on h y -> inner h (vs c x) y = kmul (kconj c) (inner h x y).
  Proof.
    intros Hx Hy. rewrite <- (inner_conj I W h y (vs c x)); [|exact Hy|now apply (on_smul I W)]. rewrite (inner_smul I W), kconj_mul by assumption.
    f_equal. now apply (inner_conj I W).
  Qed.
  Lemma inner_add_l h (x y z : V) : on h x -> on h y -> on h z -> inner h (va x y) z = kadd (inner h x z) (inner h y z).
  Proof.
    intros Hx Hy Hz. rewrite <- (inner_conj I W h z (va x y)); [|exact Hz|now apply (on_add I W)]. rewrite (inner_add I W), kconj_add by assumption.
    f_equal; now apply (inner_conj I W).
  Qed.
  Lemma outer_smul_r h c (x y : V) : on h x -> on h y -> outer h x (vs c y) = smul (kconj c) (outer h x y).
  Proof.
    intros Hx Hy. rewrite <- (outer_star I W h (vs c y) x); [|now apply (on_smul I W)|exact Hx]. rewrite (outer_smul I W), star_smul by assumption. f_equal. now apply (outer_star I W).
  Qed.
  Lemma outer_add_r h (x y z : V) : on h x -> on h y -> on h z -> outer h x (va y z) = aadd (outer h x y) (outer h x z).
  Proof.
    intros Hx Hy Hz. rewrite <- (outer_star I W h (va y z) x); [|now apply (on_add I W)|exact Hx]. rewrite (outer_add I W), star_add by assumption. f_equal; now apply (outer_star I W).
  Qed.
  Lemma outer_act_r h h' a (x y : V) : lives h' a -> incl h' h -> on h x -> on h y -> outer h x (act a y) = amul (outer h x y) (star a).
  Proof.
    intros Ha Hi Hx Hy. rewrite <- (outer_star I W h (act a y) x); [|now apply (on_act I W h')|exact Hx]. rewrite (outer_act I W h h'), star_mul by assumption.
    f_equal. now apply (outer_star I W).
  Qed.
  Lemma outer_z h (x : V) : on h x -> outer h vz x = a0.
  Proof. intros H. rewrite <- (vs_0 I W (vz : V)), (outer_smul I W); [apply (smul_0 I)|apply (on_0 I W)|exact H]. Qed.
  Lemma outer_zr h (x : V) : on h x -> outer h x vz = a0.
  Proof. intros H. rewrite <- (vs_0 I W (vz : V)), outer_smul_r; [rewrite kconj_0; apply (smul_0 I)|exact H|apply (on_0 I W)]. Qed.

  (** ** Equal expressions have equal values *)
  Lemma keqb_value a : forall b, keqb a b = true -> kvalue a = kvalue b.
  Proof.
    assert (forall l, Forall (fun a => forall b, keqb a b = true -> kvalue a = kvalue b) l -> forall m,
      (fix go (l m : list ket) {struct l} : bool := match l, m with [], [] => true | x :: l', y :: m' => keqb x y && go l' m' | _, _ => false end) l m = true -> map kvalue l = map kvalue m) as G.
    { induction 1 as [|x l Hx Hl IH]; intros [|y m] H; try discriminate; [reflexivity|]. apply andb_prop in H. destruct H as [H1 H2]. cbn [map]. f_equal; [now apply Hx|now apply IH]. }
    induction a as [| |j l|u l|n h|c t IH|l IH|l IH|a t IH] using ket_ind'; intros [| |j' l'|u' l'|n' h'|c' t'|l'|l'|a' t'] H; cbn [keqb] in H; try discriminate; cbn [KetSpec.kvalue].
    - reflexivity.
    - reflexivity.
    - apply andb_prop in H. destruct H as [H1 H2]. apply Nat.eqb_eq in H1, H2. now subst.
    - apply andb_prop in H. destruct H as [H1 H2]. apply Nat.eqb_eq in H2. subst. now rewrite (ev_eq S I _ _ H1).
    - apply andb_prop in H. destruct H as [H1 H2]. apply Nat.eqb_eq in H1. apply eqb_list_nat_spec in H2. now subst.
    - apply andb_prop in H. destruct H as [H1 H2]. rewrite (ev_eq S I _ _ H1). f_equal. now apply IH.
    - f_equal. now apply G.
    - f_equal. now apply G.
    - apply andb_prop in H. destruct H as [H1 H2]. rewrite (oeqb_value I _ _ H1). f_equal. now apply IH.
  Qed.
End Facts.
