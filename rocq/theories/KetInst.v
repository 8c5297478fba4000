(** Kets of registers of n-level systems: complex functions of the configurations, with
    the inner product and the outer product of finite-dimensional spaces. An instance of
    the laws of KetSpec. *)
From Coq Require Import Reals QArith Qcanon Ring FunctionalExtensionality Permutation.
From Verif Require Import Prelude AlgSpec CAlg Cplx OpModel OpSpec OpProofs1 OpSites TrInst KetModel KetSpec.
Local Open Scope nat_scope.
Add Ring Crk : cring.

Section Register.
  Context (n : nat) (p0 : lev n).
  Local Notation cfg := (cfg (lev n)).
  Local Notation vec := (vec (lev n)).
  Definition lv (j : nat) : lev n := to_lev n j p0.
  Lemma lv_num j : j < n -> num n (lv j) = j.
  Proof. apply to_lev_num. Qed.
  Lemma num_lt (p : lev n) : num n p < n.
  Proof. destruct p as [i Hi]. cbn. now apply Nat.ltb_lt. Qed.
  Lemma lv_of (p : lev n) : lv (num n p) = p.
  Proof. apply lev_eq. apply lv_num, num_lt. Qed.
  Lemma to_lev_lv k p : k < n -> to_lev n k p = lv k.
  Proof. intros H. apply lev_eq. unfold lv. now rewrite !to_lev_num. Qed.

  (** ** finite sums *)
  Definition csum (g : nat -> cx) (l : list nat) : cx := fold_right cadd c0 (map g l).
  Local Notation L := (seq 0 n).
  Lemma csum_cons g x l : csum g (x :: l) = cadd (g x) (csum g l).
  Proof. reflexivity. Qed.
  Lemma csum_ext g g' l : (forall j, In j l -> g j = g' j) -> csum g l = csum g' l.
  Proof. induction l as [|x l IH]; intros H; [reflexivity|]. rewrite !csum_cons, (H x) by now left. f_equal. apply IH. intros j Hj. apply H. now right. Qed.
  Lemma csum_0 l : csum (fun _ => c0) l = c0.
  Proof. induction l as [|x l IH]; [reflexivity|]. rewrite csum_cons, IH. ring. Qed.
  Lemma csum_add g g' l : csum (fun j => cadd (g j) (g' j)) l = cadd (csum g l) (csum g' l).
  Proof. induction l as [|x l IH]; [cbn; ring|]. rewrite !csum_cons, IH. ring. Qed.
  Lemma csum_mul c g l : csum (fun j => cmul c (g j)) l = cmul c (csum g l).
  Proof. induction l as [|x l IH]; [cbn; ring|]. rewrite !csum_cons, IH. ring. Qed.
  Lemma csum_conj g l : cconj (csum g l) = csum (fun j => cconj (g j)) l.
  Proof. induction l as [|x l IH]; [apply cx_eq; cbn; ring|]. now rewrite !csum_cons, cconj_add, IH. Qed.
  Lemma csum_swap g l m : csum (fun i => csum (g i) m) l = csum (fun j => csum (fun i => g i j) l) m.
  Proof.
    induction l as [|x l IH]; [cbn; symmetry; apply csum_0|]. rewrite csum_cons, IH, <- csum_add. reflexivity.
  Qed.
  Lemma csum_pick g b l : NoDup l -> In b l -> csum (fun j => if j =? b then g j else c0) l = g b.
  Proof.
    induction l as [|x l IH]; intros Hn Hb; [destruct Hb|]. inversion Hn as [|? ? Hx Hn']; subst. rewrite csum_cons. destruct (Nat.eqb_spec x b) as [-> |Hne].
    - transitivity (cadd (g b) (csum (fun _ => c0) l)); [|rewrite csum_0; ring]. f_equal. apply csum_ext. intros c Hc. destruct (Nat.eqb_spec c b) as [-> |]; [contradiction|reflexivity].
    - rewrite IH; [ring|exact Hn'|]. destruct Hb as [->|Hb]; [contradiction|exact Hb].
  Qed.
  Lemma pick g b : b < n -> csum (fun j => if j =? b then g j else c0) L = g b.
  Proof. intros H. apply csum_pick; [apply seq_NoDup|apply in_seq; lia]. Qed.

  (** ** summing over the levels of some sites *)
  Definition sm (l : nat) (f : vec) : vec := fun c => csum (fun j => f (upd c l (lv j))) L.
  Definition sms (h : list nat) (f : vec) : vec := fold_right sm f h.
  Lemma vec_eq (f g : vec) : (forall c, f c = g c) -> f = g.
  Proof. apply functional_extensionality. Qed.
  Lemma sm_comm l l' f : l <> l' -> sm l (sm l' f) = sm l' (sm l f).
  Proof.
    intros H. apply vec_eq. intros c. unfold sm. rewrite csum_swap. apply csum_ext. intros j _. apply csum_ext. intros i _. now rewrite upd_comm.
  Qed.
  Lemma sms_perm h h' f : NoDup h -> Permutation h h' -> sms h f = sms h' f.
  Proof.
    intros Hn Hp. induction Hp as [|x a b Hp IH|x y a|a b c H1 IH1 H2 IH2].
    - reflexivity.
    - inversion Hn; subst. cbn [sms fold_right]. f_equal. now apply IH.
    - cbn [sms fold_right]. inversion Hn as [|? ? Hx _]; subst. apply sm_comm. intros ->. apply Hx. now left.
    - rewrite IH1 by exact Hn. apply IH2. now apply (Permutation_NoDup H1).
  Qed.
  Lemma sms_app h h' f : sms (h ++ h') f = sms h (sms h' f).
  Proof. unfold sms. apply fold_right_app. Qed.
  Definition nd (h : list nat) : list nat := nodup Nat.eq_dec h.
  Lemma nd_In x h : In x (nd h) <-> In x h.
  Proof. apply nodup_In. Qed.
  Lemma nd_nodup h : NoDup (nd h).
  Proof. apply NoDup_nodup. Qed.
  Lemma nd_same h h' : same_set h h' -> Permutation (nd h) (nd h').
  Proof. intros H. apply NoDup_Permutation; [apply nd_nodup|apply nd_nodup|]. intros x. rewrite !nd_In. apply H. Qed.
  Lemma nd_app h h' : apart h h' -> Permutation (nd (h ++ h')) (nd h ++ nd h').
  Proof.
    intros H. apply NoDup_Permutation; [apply nd_nodup| |].
    - assert (forall a b : list nat, NoDup a -> NoDup b -> (forall x, In x a -> In x b -> False) -> NoDup (a ++ b)) as G.
      { clear. induction a as [|x a IH]; intros b Ha Hb Hd; [exact Hb|]. inversion Ha; subst. cbn. constructor.
        - intros Hx. apply in_app_or in Hx. destruct Hx as [Hx|Hx]; [contradiction|]. apply (Hd x); [now left|exact Hx].
        - apply IH; [assumption|assumption|]. intros y Hy Hz. apply (Hd y); [now right|exact Hz]. }
      apply G; [apply nd_nodup|apply nd_nodup|]. intros x Hx Hy. rewrite nd_In in Hx, Hy. exact (H x Hx Hy).
    - intros x. rewrite in_app_iff, !nd_In, in_app_iff. reflexivity.
  Qed.
  Definition vmul (f g : vec) : vec := fun c => cmul (f c) (g c).
  Definition vconj (f : vec) : vec := fun c => cconj (f c).
  (** the function does not depend on the sites in [h] *)
  Definition free (h : list nat) (f : vec) : Prop := forall c l p, In l h -> f (upd c l p) = f c.
  Lemma sm_free l g f : free [l] g -> sm l (vmul g f) = vmul g (sm l f).
  Proof. intros H. apply vec_eq. intros c. unfold sm, vmul. rewrite <- csum_mul. apply csum_ext. intros j _. now rewrite H by now left. Qed.
  Lemma sms_free h g f : free h g -> sms h (vmul g f) = vmul g (sms h f).
  Proof.
    induction h as [|l h IH]; intros H; [reflexivity|]. cbn [sms fold_right]. change (fold_right sm (vmul g f) h) with (sms h (vmul g f)). rewrite IH.
    - apply sm_free. intros c l' p [<-|[]]. apply H. now left.
    - intros c l' p Hl. apply H. now right.
  Qed.
  Lemma sm_done l f : free [l] (sm l f).
  Proof. intros c l' p [<-|[]]. unfold sm. apply csum_ext. intros j _. now rewrite upd_upd. Qed.
  Lemma sm_keeps l h f : free h f -> free h (sm l f).
  Proof.
    intros H c l' p Hl. unfold sm. apply csum_ext. intros j _. destruct (Nat.eq_dec l l') as [<-|N]; [now rewrite upd_upd|]. rewrite upd_comm by congruence. now apply H.
  Qed.
  Lemma sms_keeps h' h f : free h f -> free h (sms h' f).
  Proof. intros H. induction h' as [|l h' IH]; [exact H|]. cbn [sms fold_right]. now apply sm_keeps. Qed.
  Lemma sms_done h f : free h (sms h f).
  Proof.
    induction h as [|l h IH]; [intros c l p []|]. cbn [sms fold_right]. intros c l' p [<-|Hl]; [apply sm_done; now left|]. now apply (sm_keeps l h).
  Qed.
  Lemma sms_add h f g : sms h (fun c => cadd (f c) (g c)) = fun c => cadd (sms h f c) (sms h g c).
  Proof.
    induction h as [|l h IH]; [reflexivity|]. cbn [sms fold_right]. change (fold_right sm ?x h) with (sms h x) in *. rewrite IH. apply vec_eq. intros c. unfold sm. apply csum_add.
  Qed.
  Lemma sms_smul h k f : sms h (fun c => cmul k (f c)) = fun c => cmul k (sms h f c).
  Proof. exact (sms_free h (fun _ => k) f (fun c l p H => eq_refl)). Qed.
  Lemma sms_conj h f : sms h (vconj f) = vconj (sms h f).
  Proof.
    induction h as [|l h IH]; [reflexivity|]. cbn [sms fold_right]. change (fold_right sm ?x h) with (sms h x) in *. rewrite IH. apply vec_eq. intros c. unfold sm, vconj. now rewrite csum_conj.
  Qed.
  (** only the values at points with the same coordinate [l] count *)
  Lemma sms_at l : forall h f g c, ~ In l h -> (forall c', c' l = c l -> f c' = g c') -> sms h f c = sms h g c.
  Proof.
    induction h as [|x h IH]; intros f g c Hl H; [now apply H|]. cbn [sms fold_right]. change (fold_right sm ?y h) with (sms h y). unfold sm.
    apply csum_ext. intros j _. apply IH; [intros Hx; apply Hl; now right|]. intros c' Hc. apply H. rewrite Hc. apply upd_other. intros E. apply Hl. now left.
  Qed.

  (** ** kets *)
  Definition on_ (h : list nat) (f : vec) : Prop := forall c c' : cfg, (forall l, In l h -> c l = c' l) -> f c = f c'.
  Lemma on_free h h' f : on_ h f -> apart h h' -> free h' f.
  Proof. intros H Ha c l p Hl. apply H. intros x Hx. apply upd_other. intros ->. exact (Ha _ Hx Hl). Qed.
  Lemma free_conj h f : free h f -> free h (vconj f).
  Proof. intros H c l p Hl. unfold vconj. now rewrite H. Qed.
  Lemma sm_on l h f : on_ (l :: h) f -> on_ h (sm l f).
  Proof.
    intros H c c' Hc. unfold sm. apply csum_ext. intros j _. apply H. intros x [<-|Hx]; [now rewrite !upd_same|]. destruct (Nat.eq_dec x l) as [->|N]; [now rewrite !upd_same|]. rewrite !upd_other by exact N. now apply Hc.
  Qed.
  Lemma on_same_ h h' f : (forall x, In x h -> In x h') -> on_ h f -> on_ h' f.
  Proof. intros H Hf c c' Hc. apply Hf. intros l Hl. apply Hc. now apply H. Qed.
  Lemma sms_on : forall a h f, on_ (a ++ h) f -> on_ h (sms a f).
  Proof.
    induction a as [|l a IH]; intros h f H; [exact H|]. cbn [sms fold_right]. change (fold_right sm f a) with (sms a f). apply sm_on. apply IH.
    eapply on_same_; [|exact H]. intros x Hx. rewrite in_app_iff in *. cbn in *. tauto.
  Qed.
  Lemma sms_const h f c c' : on_ h f -> sms (nd h) f c = sms (nd h) f c'.
  Proof.
    intros H. apply (sms_on (nd h) []); [|intros l []]. eapply on_same_; [|exact H]. intros x Hx. rewrite app_nil_r. now apply nd_In.
  Qed.
  Lemma on_mul_ h f g : on_ h f -> on_ h g -> on_ h (vmul f g).
  Proof. intros Hf Hg c c' Hc. unfold vmul. now rewrite (Hf c c' Hc), (Hg c c' Hc). Qed.
  Lemma on_conj_ h f : on_ h f -> on_ h (vconj f).
  Proof. intros Hf c c' Hc. unfold vconj. now rewrite (Hf c c' Hc). Qed.

  Definition z0 : cfg := fun _ => p0.
  Definition inn (h : list nat) (x y : vec) : cx := sms (nd h) (vmul (vconj x) y) z0.
  Program Definition out_ (h : list nat) (x y : vec) : lop (lev n) := Lop (lev n) (fun f => vmul x (sms (nd h) (vmul (vconj y) f))) _.
  Next Obligation.
    intros f g k c. unfold vmul at 1 3 5. assert (sms (nd h) (vmul (vconj y) (fun v => cadd (cmul k (f v)) (g v))) c = cadd (cmul k (sms (nd h) (vmul (vconj y) f) c)) (sms (nd h) (vmul (vconj y) g) c)) as ->; [|ring].
    transitivity (sms (nd h) (fun v => cadd (cmul k (vmul (vconj y) f v)) (vmul (vconj y) g v)) c).
    - f_equal. apply vec_eq. intros v. unfold vmul. ring.
    - rewrite sms_add, sms_smul. reflexivity.
  Qed.
  Definition out (h : list nat) (x y : vec) : A (oprs_c (lev n)) := (out_ h x y, out_ h y x).
  Local Notation M := (oprs_c (lev n)).
  Definition ap1 (a : A M) (f : vec) : vec := ap (lev n) (fst a) f.
  Definition ap2 (a : A M) (f : vec) : vec := ap (lev n) (snd a) f.
  Local Notation reg := (reg (M:=M) (mu n)).

  Lemma reg_both (R : (vec -> vec) -> (vec -> vec) -> Prop) h :
    (forall j k l, In l h -> j < n -> k < n -> R (ap1 (mu n j k l)) (ap2 (mu n j k l))) ->
    R (fun _ _ => c0) (fun _ _ => c0) -> R (fun f => f) (fun f => f) ->
    (forall a a' b b', R a a' -> R b b' -> R (fun f c => cadd (a f c) (b f c)) (fun f c => cadd (a' f c) (b' f c))) ->
    (forall a a' b b', R a a' -> R b b' -> R (fun f => a (b f)) (fun f => b' (a' f))) ->
    (forall k a a', R a a' -> R (fun f c => cmul k (a f c)) (fun f c => cmul (cconj k) (a' f c))) ->
    forall x, reg h x -> R (ap1 x) (ap2 x).
  Proof.
    intros Hu Hz H1 Ha Hm Hs x Hx. induction Hx as [j k l Hl| | |x y _ IHx _ IHy|x y _ IHx _ IHy|k x _ IH].
    - destruct (Nat.lt_ge_cases j n) as [Hj|Hj]; [destruct (Nat.lt_ge_cases k n) as [Hk|Hk]|].
      + now apply Hu.
      + rewrite mu_out by lia. exact Hz.
      + rewrite mu_out by lia. exact Hz.
    - exact Hz.
    - exact H1.
    - exact (Ha _ _ _ _ IHx IHy).
    - exact (Hm _ _ _ _ IHx IHy).
    - exact (Hs _ _ _ IH).
  Qed.
  Lemma mu_ap j k l f c : j < n -> k < n -> ap1 (mu n j k l) f c = if num n (c l) =? j then f (upd c l (lv k)) else c0.
  Proof.
    intros Hj Hk. unfold ap1, mu, both. cbn [fst]. rewrite at_slice. cbn [unit_ mono la]. unfold ok. rewrite (proj2 (Nat.ltb_lt _ _) Hj), (proj2 (Nat.ltb_lt _ _) Hk). cbn [andb].
    unfold slice. rewrite to_lev_lv by exact Hk. destruct (_ =? _); ring.
  Qed.
  Lemma mu_ap2 j k l f c : j < n -> k < n -> ap2 (mu n j k l) f c = if num n (c l) =? k then f (upd c l (lv j)) else c0.
  Proof. intros Hj Hk. exact (mu_ap k j l f c Hk Hj). Qed.
  (** an operator on [h] does not see functions of other sites *)
  Lemma reg_local h a : reg h a -> forall x y, free h y -> ap1 a (vmul x y) = vmul (ap1 a x) y.
  Proof.
    intros Ha. apply (reg_both (fun s _ => forall x y, free h y -> s (vmul x y) = vmul (s x) y) h); [| | | | | |exact Ha].
    - intros j k l Hl Hj Hk x y Hy. apply vec_eq. intros c. unfold vmul. rewrite !mu_ap by assumption. rewrite Hy by exact Hl. destruct (_ =? _); ring.
    - intros x y _. apply vec_eq. intros c. unfold vmul. ring.
    - reflexivity.
    - intros s s' t t' Hs Ht x y Hy. rewrite (Hs x y Hy), (Ht x y Hy). apply vec_eq. intros c. unfold vmul. ring.
    - intros s s' t t' Hs Ht x y Hy. now rewrite (Ht x y Hy), (Hs _ y Hy).
    - intros k s s' Hs x y Hy. rewrite (Hs x y Hy). apply vec_eq. intros c. unfold vmul. ring.
  Qed.
  Lemma reg_on h h' a x : reg h a -> incl h h' -> on_ h' x -> on_ h' (ap1 a x).
  Proof.
    intros Ha Hi. revert x. apply (reg_both (fun s _ => forall x, on_ h' x -> on_ h' (s x)) h); [| | | | | |exact Ha].
    - intros j k l Hl Hj Hk x Hx c c' Hc. rewrite !mu_ap by assumption. rewrite (Hc l) by now apply Hi. destruct (_ =? _); [|reflexivity]. apply Hx. intros y Hy.
      destruct (Nat.eq_dec y l) as [->|N]; [now rewrite !upd_same|]. rewrite !upd_other by exact N. now apply Hc.
    - intros x _ c c' _. reflexivity.
    - easy.
    - intros s s' t t' Hs Ht x Hx c c' Hc. now rewrite (Hs x Hx c c' Hc), (Ht x Hx c c' Hc).
    - intros s s' t t' Hs Ht x Hx. now apply Hs, Ht.
    - intros k s s' Hs x Hx c c' Hc. now rewrite (Hs x Hx c c' Hc).
  Qed.
  Lemma sm_adj j k l x y : j < n -> k < n -> sm l (vmul (vconj (ap1 (mu n j k l) x)) y) = sm l (vmul (vconj x) (ap2 (mu n j k l) y)).
  Proof.
    intros Hj Hk. apply vec_eq. intros c. unfold sm, vmul, vconj.
    transitivity (cmul (cconj (x (upd c l (lv k)))) (y (upd c l (lv j)))).
    - rewrite <- (pick (fun i => cmul (cconj (x (upd c l (lv k)))) (y (upd c l (lv i)))) j Hj). apply csum_ext. intros i Hi. apply in_seq in Hi.
      rewrite mu_ap by assumption. rewrite upd_same, upd_upd, lv_num by lia. destruct (_ =? _); [reflexivity|]. apply cx_eq; cbn; ring.
    - rewrite <- (pick (fun i => cmul (cconj (x (upd c l (lv i)))) (y (upd c l (lv j)))) k Hk). apply csum_ext. intros i Hi. apply in_seq in Hi.
      rewrite mu_ap2 by assumption. rewrite upd_same, upd_upd, lv_num by lia. destruct (_ =? _); [reflexivity|]. ring.
  Qed.
  Lemma reg_adj h h' a : reg h' a -> incl h' h -> forall x y, sms (nd h) (vmul (vconj (ap1 a x)) y) = sms (nd h) (vmul (vconj x) (ap2 a y)).
  Proof.
    intros Ha Hi. apply (reg_both (fun s s' => forall x y, sms (nd h) (vmul (vconj (s x)) y) = sms (nd h) (vmul (vconj x) (s' y))) h'); [| | | | | |exact Ha].
    - intros j k l Hl Hj Hk x y. apply Hi in Hl. apply (proj2 (nd_In _ _)) in Hl.
      pose proof Hl as Hl'. apply in_split in Hl'. destruct Hl' as (b & d & E). assert (forall f, sms (nd h) f = sms (b ++ d) (sm l f)) as G.
      { intros f. rewrite (sms_perm (nd h) ((b ++ d) ++ [l])); [now rewrite sms_app|apply nd_nodup|]. rewrite E, <- app_assoc. apply Permutation_app_head. apply Permutation_cons_append. }
      rewrite !G. f_equal. now apply sm_adj.
    - intros x y. f_equal. apply vec_eq. intros c. unfold vmul, vconj. apply cx_eq; cbn; ring.
    - reflexivity.
    - intros s s' t t' Hs Ht x y.
      transitivity (sms (nd h) (fun c => cadd (vmul (vconj (s x)) y c) (vmul (vconj (t x)) y c))).
      + f_equal. apply vec_eq. intros c. unfold vmul, vconj. rewrite cconj_add. ring.
      + rewrite sms_add, Hs, Ht, <- sms_add. f_equal. apply vec_eq. intros c. unfold vmul, vconj. ring.
    - intros s s' t t' Hs Ht x y. now rewrite Hs, Ht.
    - intros k s s' Hs x y. transitivity (sms (nd h) (fun c => cmul (cconj k) (vmul (vconj (s x)) y c))).
      + f_equal. apply vec_eq. intros c. unfold vmul, vconj. rewrite cconj_mul. ring.
      + rewrite sms_smul, Hs, <- sms_smul. f_equal. apply vec_eq. intros c. unfold vmul, vconj. ring.
  Qed.
  (** ** an outer product is a sum of products of matrix units *)
  Definition fix_ (l j : nat) (x : vec) : vec := fun c => x (upd c l (lv j)).
  Definition outl (h : list nat) (x y : vec) : vec -> vec := fun f => vmul x (sms h (vmul (vconj y) f)).
  Lemma outl_cons l h x y f c : ~ In l h -> outl (l :: h) x y f c = csum (fun j => csum (fun k => if num n (c l) =? j then outl h (fix_ l j x) (fix_ l k y) f (upd c l (lv k)) else c0) L) L.
  Proof.
    intros Hl. unfold outl at 1. unfold vmul at 1. cbn [sms fold_right]. change (fold_right sm ?z h) with (sms h z). unfold sm.
    transitivity (csum (fun j => if j =? num n (c l) then csum (fun k => outl h (fix_ l j x) (fix_ l k y) f (upd c l (lv k))) L else c0) L).
    - rewrite (pick (fun j => csum (fun k => outl h (fix_ l j x) (fix_ l k y) f (upd c l (lv k))) L)) by apply num_lt. rewrite <- csum_mul. apply csum_ext. intros k Hk.
      unfold outl. unfold vmul at 2. unfold fix_ at 1. rewrite upd_upd, lv_of, upd_id. f_equal.
      apply (sms_at l); [exact Hl|]. intros c' Hc. unfold vmul, vconj, fix_. rewrite upd_same in Hc. rewrite <- Hc. now rewrite upd_id.
    - apply csum_ext. intros j _. rewrite (Nat.eqb_sym j). destruct (_ =? j); [reflexivity|]. symmetry. apply csum_0.
  Qed.
  Lemma fix_on l h j x : on_ (l :: h) x -> on_ h (fix_ l j x).
  Proof.
    intros H c c' Hc. unfold fix_. apply H. intros y [<-|Hy]; [now rewrite !upd_same|]. destruct (Nat.eq_dec y l) as [->|N]; [now rewrite !upd_same|]. rewrite !upd_other by exact N. now apply Hc.
  Qed.
  Fixpoint units (h : list nat) (x y : vec) : A M :=
    match h with
    | [] => smul (cmul (x z0) (cconj (y z0)) : K M) a1
    | l :: h' => asum (fun j => asum (fun k => amul (mu n j k l) (units h' (fix_ l j x) (fix_ l k y))) L) L
    end.
  Lemma ap1_asum {X} (g : X -> A M) s f c : ap1 (asum g s) f c = fold_right cadd c0 (map (fun i => ap1 (g i) f c) s).
  Proof. induction s as [|i s IH]; [reflexivity|]. rewrite asum_cons. cbn [map fold_right]. rewrite <- IH. reflexivity. Qed.
  Lemma ap2_asum {X} (g : X -> A M) s f c : ap2 (asum g s) f c = fold_right cadd c0 (map (fun i => ap2 (g i) f c) s).
  Proof. induction s as [|i s IH]; [reflexivity|]. rewrite asum_cons. cbn [map fold_right]. rewrite <- IH. reflexivity. Qed.
  Lemma units_reg h x y : reg h (units h x y).
  Proof.
    revert x y. induction h as [|l h IH]; intros x y; [apply rg_smul, rg_1|]. cbn [units]. apply reg_asum. intros j _. apply reg_asum. intros k _. apply rg_mul; [apply rg_u; now left|].
    apply (reg_incl (mu n) h); [|apply IH]. intros z Hz. now right.
  Qed.
  Lemma units_ap1 h : NoDup h -> forall x y f, on_ h x -> on_ h y -> ap1 (units h x y) f = outl h x y f.
  Proof.
    induction h as [|l h IH]; intros Hn x y f Hx Hy; apply vec_eq; intros c.
    - change (ap1 (units [] x y) f c) with (cmul (cmul (x z0) (cconj (y z0))) (f c)). unfold outl, vmul, vconj, sms. cbn [fold_right].
      rewrite (Hx z0 c) by (intros ? []). rewrite (Hy z0 c) by (intros ? []). ring.
    - inversion Hn as [|? ? Hl Hn']; subst. rewrite outl_cons by exact Hl. cbn [units]. rewrite ap1_asum. apply csum_ext. intros j Hj. rewrite ap1_asum. apply csum_ext. intros k Hk.
      apply in_seq in Hj, Hk. change (ap1 (amul (mu n j k l) (units h (fix_ l j x) (fix_ l k y))) f c) with (ap1 (mu n j k l) (ap1 (units h (fix_ l j x) (fix_ l k y)) f) c).
      rewrite IH by (try exact Hn'; now apply fix_on). apply mu_ap; lia.
  Qed.
  Lemma units_commute l h j k x y : ~ In l h -> amul (mu n j k l) (units h x y) = amul (units h x y) (mu n j k l).
  Proof. intros Hl. apply (reg_u_comm (M:=M) (mu n) (mu_comm n) h); [apply units_reg|exact Hl]. Qed.
  Lemma units_ap2 h : NoDup h -> forall x y f, on_ h x -> on_ h y -> ap2 (units h x y) f = outl h y x f.
  Proof.
    induction h as [|l h IH]; intros Hn x y f Hx Hy; apply vec_eq; intros c.
    - change (ap2 (units [] x y) f c) with (cmul (cconj (cmul (x z0) (cconj (y z0)))) (f c)). unfold outl, vmul, vconj, sms. cbn [fold_right].
      rewrite (Hx z0 c) by (intros ? []). rewrite (Hy z0 c) by (intros ? []). rewrite cconj_mul, cconj_conj. ring.
    - inversion Hn as [|? ? Hl Hn']; subst. rewrite outl_cons by exact Hl. rewrite csum_swap. cbn [units]. rewrite ap2_asum. apply csum_ext. intros j Hj. rewrite ap2_asum. apply csum_ext. intros k Hk.
      apply in_seq in Hj, Hk. rewrite units_commute by exact Hl. change (ap2 (amul (units h (fix_ l j x) (fix_ l k y)) (mu n j k l)) f c) with (ap2 (mu n j k l) (ap2 (units h (fix_ l j x) (fix_ l k y)) f) c).
      rewrite IH by (try exact Hn'; now apply fix_on). apply mu_ap2; lia.
  Qed.
  Lemma out_units h x y : on_ h x -> on_ h y -> out h x y = units (nd h) x y.
  Proof.
    intros Hx Hy. assert (forall f, on_ h f -> on_ (nd h) f) as G by (intros f; apply on_same_; intros z; apply nd_In).
    apply opr_eq; intros f c.
    - symmetry. exact (f_equal (fun g : vec => g c) (units_ap1 (nd h) (nd_nodup h) x y f (G x Hx) (G y Hy))).
    - symmetry. exact (f_equal (fun g : vec => g c) (units_ap2 (nd h) (nd_nodup h) x y f (G x Hx) (G y Hy))).
  Qed.

  (** ** The instance *)
  Definition ebas (j l : nat) : vec := fun c => if num n (c l) =? j then c1 else c0.
  Context {S : scalars} (r : cxreading S).
  Local Notation R := (site_reading r (lev n)).
  Context (F : nat -> list nat -> A R) (HF : forall m h, TrInst.reg (M:=R) (mu n) h (F m h)).
  (** symbols stand for any normalised kets on their sites *)
  Context (E : nat -> list nat -> vec) (HE : forall m h, on_ h (E m h)) (HE1 : forall m h, inn h (E m h) (E m h) = c1).
  Definition register_kets : kets (register n r F HF).
  Proof.
    refine {| V := vec; vz := (fun _ => c0) : vec; v1 := (fun _ => c1) : vec; va := fun f g => (fun c => cadd (f c) (g c)) : vec;
      vs := fun (k : K (register n r F HF)) (f : vec) => (fun c => cmul k (f c)) : vec; vm := vmul; act := fun (a : A (register n r F HF)) (f : vec) => ap1 a f; on := on_; inner := inn : list nat -> vec -> vec -> K (register n r F HF); outer := out : list nat -> vec -> vec -> A (register n r F HF);
      ebasis := ebas; esym := E |}; cbn beta.
    - intros x y. apply vec_eq. intros c. ring.
    - intros x y z. apply vec_eq. intros c. ring.
    - intros x. apply vec_eq. intros c. ring.
    - intros x. apply vec_eq. intros c. change (cmul c1 (x c) = x c). ring.
    - intros x. apply vec_eq. intros c. change (cmul c0 (x c) = c0). ring.
    - intros a b x. apply vec_eq. intros c. change (cmul (cmul a b) (x c) = cmul a (cmul b (x c))). ring.
    - intros a b x. apply vec_eq. intros c. change (cmul (cadd a b) (x c) = cadd (cmul a (x c)) (cmul b (x c))). ring.
    - intros k x y. apply vec_eq. intros c. ring.
    - intros x y. apply vec_eq. intros c. unfold vmul. ring.
    - intros x y z. apply vec_eq. intros c. unfold vmul. ring.
    - intros x. apply vec_eq. intros c. unfold vmul. ring.
    - intros x y z. apply vec_eq. intros c. unfold vmul. ring.
    - intros k x y. apply vec_eq. intros c. unfold vmul. ring.
    - reflexivity.
    - reflexivity.
    - reflexivity.
    - reflexivity.
    - intros a x y. apply vec_eq. intros c. exact (lin_add (lev n) (fst a) x y c).
    - intros a k x. apply vec_eq. intros c. exact (lin_smul (lev n) (fst a) k x c).
    - intros h h' x H. apply on_same_. intros y. apply H.
    - intros h c c' _. reflexivity.
    - intros c c' _. reflexivity.
    - intros h x y Hx Hy c c' Hc. now rewrite (Hx c c' Hc), (Hy c c' Hc).
    - intros h k x Hx c c' Hc. now rewrite (Hx c c' Hc).
    - intros h h' x y _ Hx Hy. apply on_mul_; [apply (on_same_ h)|apply (on_same_ h')]; try assumption; intros z Hz; apply in_or_app; [now left|now right].
    - intros h h' a x. apply reg_on.
    - intros j l _ c c' Hc. unfold ebas. rewrite (Hc l); [reflexivity|now left].
    - exact HE.
    - intros h h' h'' a x y Ha Hi Hap Hx Hy. apply (reg_local h); [exact Ha|]. apply (on_free h''); [exact Hy|]. intros z Hz Hz'. exact (Hap z (Hi z Hz') Hz).
    - intros h h' x y H. unfold inn. now rewrite (sms_perm (nd h) (nd h') _ (nd_nodup h) (nd_same h h' H)).
    - intros h x y z _ _ _. unfold inn. change (sms (nd h) (vmul (vconj x) (fun c => cadd (y c) (z c))) z0 = cadd (sms (nd h) (vmul (vconj x) y) z0) (sms (nd h) (vmul (vconj x) z) z0)).
      transitivity (sms (nd h) (fun c => cadd (vmul (vconj x) y c) (vmul (vconj x) z c)) z0); [|now rewrite sms_add]. f_equal. apply vec_eq. intros c. unfold vmul. ring.
    - intros h k x y _ _. unfold inn. change (sms (nd h) (vmul (vconj x) (fun c => cmul k (y c))) z0 = cmul k (sms (nd h) (vmul (vconj x) y) z0)).
      transitivity (sms (nd h) (fun c => cmul k (vmul (vconj x) y c)) z0); [|now rewrite sms_smul]. f_equal. apply vec_eq. intros c. unfold vmul. ring.
    - intros h x y _ _. unfold inn. change (cconj (sms (nd h) (vmul (vconj x) y) z0) = sms (nd h) (vmul (vconj y) x) z0).
      change (vconj (sms (nd h) (vmul (vconj x) y)) z0 = sms (nd h) (vmul (vconj y) x) z0). rewrite <- sms_conj. f_equal. apply vec_eq. intros c. unfold vmul, vconj. rewrite cconj_mul, cconj_conj. ring.
    - intros h h' a x y Ha Hi _ _. unfold inn. now rewrite (reg_adj h h' a Ha Hi).
    - intros h h' x y x' y' Hap Hx Hy Hx' Hy'. unfold inn.
      change (sms (nd (h ++ h')) (vmul (vconj (vmul x x')) (vmul y y')) z0 = cmul (sms (nd h) (vmul (vconj x) y) z0) (sms (nd h') (vmul (vconj x') y') z0)).
      rewrite (sms_perm _ _ _ (nd_nodup _) (nd_app h h' Hap)), sms_app.
      assert (sms (nd h') (vmul (vconj (vmul x x')) (vmul y y')) = vmul (vmul (vconj x) y) (sms (nd h') (vmul (vconj x') y'))) as ->.
      { rewrite <- sms_free; [f_equal; apply vec_eq; intros c; unfold vmul, vconj; rewrite cconj_mul; ring|]. intros c l p Hl. rewrite nd_In in Hl.
        refine (on_free h h' _ _ Hap c l p Hl). apply on_mul_; [now apply on_conj_|exact Hy]. }
      transitivity (sms (nd h) (vmul (fun _ => sms (nd h') (vmul (vconj x') y') z0) (vmul (vconj x) y)) z0).
      + apply (f_equal (fun g => sms (nd h) g z0)). apply vec_eq. intros c. transitivity (cmul (vmul (vconj x) y c) (sms (nd h') (vmul (vconj x') y') c)); [reflexivity|]. rewrite (sms_const h' (vmul (vconj x') y') c z0); [unfold vmul at 3; ring|]. apply on_mul_; [now apply on_conj_|exact Hy'].
      + rewrite sms_free by (intros c l p _; reflexivity). unfold vmul at 1. ring.
    - intros j k l Hj Hk. cbn in Hj, Hk. change (inn [l] (ebas j l) (ebas k l) = if j =? k then c1 else c0). unfold inn, sms. cbn [nd nodup in_dec fold_right]. unfold sm, vmul, vconj, ebas.
      transitivity (csum (fun i => if i =? k then if j =? k then c1 else c0 else c0) (seq 0 n)); [|now apply (pick (fun _ => if j =? k then c1 else c0))].
      apply csum_ext. intros i Hi. apply in_seq in Hi. rewrite upd_same, lv_num by lia. rewrite (Nat.eqb_sym i k). destruct (Nat.eqb_spec k i) as [<-|].
      + rewrite (Nat.eqb_sym k j). destruct (j =? k); apply cx_eq; cbn; ring.
      + apply cx_eq; cbn; ring.
    - exact HE1.
    - intros h x y Hx Hy. change (TrInst.reg (M:=R) (mu n) h (out h x y)). rewrite (out_units h x y Hx Hy). apply (reg_incl (mu n) (nd h)); [|apply units_reg]. intros z. now rewrite nd_In.
    - intros h x y z Hx Hy Hz. change (vmul x (sms (nd h) (vmul (vconj y) z)) = fun c => cmul (inn h y z) (x c)). apply vec_eq. intros c. unfold inn, vmul at 1.
      rewrite (sms_const h (vmul (vconj y) z) c z0) by (apply on_mul_; [now apply on_conj_|exact Hz]). ring.
    - intros h h' x y H. assert (forall a b, out_ h a b = out_ h' a b) as G.
      { intros a b. apply lop_eq. intros f c. cbn. now rewrite (sms_perm (nd h) (nd h') _ (nd_nodup h) (nd_same h h' H)). }
      change (out h x y = out h' x y). unfold out. now rewrite !G.
    - intros h x y z _ _ _. apply opr_eq; intros f c.
      + change (vmul (fun c => cadd (x c) (y c)) (sms (nd h) (vmul (vconj z) f)) c = cadd (vmul x (sms (nd h) (vmul (vconj z) f)) c) (vmul y (sms (nd h) (vmul (vconj z) f)) c)). unfold vmul at 1 3 5. ring.
      + change (vmul z (sms (nd h) (vmul (vconj (fun c => cadd (x c) (y c))) f)) c = cadd (vmul z (sms (nd h) (vmul (vconj x) f)) c) (vmul z (sms (nd h) (vmul (vconj y) f)) c)).
        assert (vmul (vconj (fun c => cadd (x c) (y c))) f = fun c => cadd (vmul (vconj x) f c) (vmul (vconj y) f c)) as -> by (apply vec_eq; intros d; unfold vmul, vconj; rewrite cconj_add; ring).
        rewrite sms_add. unfold vmul at 1 4 6. ring.
    - intros h k x y _ _. apply opr_eq; intros f c.
      + change (vmul (fun c => cmul k (x c)) (sms (nd h) (vmul (vconj y) f)) c = cmul k (vmul x (sms (nd h) (vmul (vconj y) f)) c)). unfold vmul at 1 3. ring.
      + change (vmul y (sms (nd h) (vmul (vconj (fun c => cmul k (x c))) f)) c = cmul (cconj k) (vmul y (sms (nd h) (vmul (vconj x) f)) c)).
        assert (vmul (vconj (fun c => cmul k (x c))) f = fun c => cmul (cconj k) (vmul (vconj x) f c)) as -> by (apply vec_eq; intros d; unfold vmul, vconj; rewrite cconj_mul; ring).
        rewrite sms_smul. unfold vmul at 1 3. ring.
    - reflexivity.
    - intros h h' a x y Ha Hi _ _. apply opr_eq; intros f c.
      + change (vmul (ap1 a x) (sms (nd h) (vmul (vconj y) f)) c = ap1 a (vmul x (sms (nd h) (vmul (vconj y) f))) c). rewrite (reg_local h' a Ha); [reflexivity|].
        intros d l p Hl. apply sms_done. rewrite nd_In. now apply Hi.
      + change (vmul y (sms (nd h) (vmul (vconj (ap1 a x)) f)) c = vmul y (sms (nd h) (vmul (vconj x) (ap2 a f))) c). now rewrite (reg_adj h h' a Ha Hi).
    - intros h h' x y x' y' Hap Hx Hy Hx' Hy'.
      assert (forall a b a' b' f, on_ h a -> on_ h b -> on_ h' a' -> on_ h' b' ->
        vmul (vmul a a') (sms (nd (h ++ h')) (vmul (vconj (vmul b b')) f)) = vmul a (sms (nd h) (vmul (vconj b) (vmul a' (sms (nd h') (vmul (vconj b') f)))))) as G.
      { intros a b a' b' f Ha Hb Ha' Hb'. rewrite (sms_perm _ _ _ (nd_nodup _) (nd_app h h' Hap)), sms_app.
        assert (sms (nd h') (vmul (vconj (vmul b b')) f) = vmul (vconj b) (sms (nd h') (vmul (vconj b') f))) as ->.
        { rewrite <- sms_free; [f_equal; apply vec_eq; intros c; unfold vmul, vconj; rewrite cconj_mul; ring|]. intros c l p Hl. rewrite nd_In in Hl. apply free_conj with (h:=h'); [|exact Hl]. now apply (on_free h). }
        transitivity (vmul a (vmul a' (sms (nd h) (vmul (vconj b) (sms (nd h') (vmul (vconj b') f)))))); [apply vec_eq; intros c; unfold vmul; ring|].
        f_equal. rewrite <- sms_free.
        - f_equal. apply vec_eq. intros c. unfold vmul. ring.
        - intros c l p Hl. rewrite nd_In in Hl. refine (on_free h' h a' Ha' _ c l p Hl). intros z Hz Hz'. exact (Hap z Hz' Hz). }
      assert (forall a b a' b', on_ h a -> on_ h b -> on_ h' a' -> on_ h' b' -> 
        forall f, vmul a (sms (nd h) (vmul (vconj b) (vmul a' (sms (nd h') (vmul (vconj b') f))))) = vmul a' (sms (nd h') (vmul (vconj b') (vmul a (sms (nd h) (vmul (vconj b) f)))))) as G2.
      { intros a b a' b' Ha Hb Ha' Hb' f. pose proof (reg_commute (M:=oprs_c (lev n)) (mu n) (mu_comm n) h h' (out h a b) (out h' a' b')) as C.
        assert (TrInst.reg (M:=oprs_c (lev n)) (mu n) h (out h a b)) as R1.
        { rewrite (out_units h a b Ha Hb). apply (reg_incl (mu n) (nd h)); [|apply units_reg]. intros z. now rewrite nd_In. }
        assert (TrInst.reg (M:=oprs_c (lev n)) (mu n) h' (out h' a' b')) as R2.
        { rewrite (out_units h' a' b' Ha' Hb'). apply (reg_incl (mu n) (nd h')); [|apply units_reg]. intros z. now rewrite nd_In. }
        exact (f_equal (fun t => ap1 t f) (C R1 R2 Hap)). }
      apply opr_eq; intros f c.
      + exact (f_equal (fun g : vec => g c) (G x y x' y' f Hx Hy Hx' Hy')).
      + change (vmul (vmul y y') (sms (nd (h ++ h')) (vmul (vconj (vmul x x')) f)) c = vmul y' (sms (nd h') (vmul (vconj x') (vmul y (sms (nd h) (vmul (vconj x) f))))) c).
        rewrite (G y x y' x' f Hy Hx Hy' Hx'). now rewrite (G2 y x y' x' Hy Hx Hy' Hx').
    - intros j k l Hj Hk. cbn in Hj, Hk. assert (forall a b f c, a < n -> b < n -> vmul (ebas a l) (sms (nd [l]) (vmul (vconj (ebas b l)) f)) c = ap1 (mu n a b l) f c) as G.
      { intros a b f c Ha Hb. rewrite mu_ap by assumption. unfold vmul at 1. unfold sms. cbn [nd nodup in_dec fold_right]. unfold sm. unfold ebas at 1.
        transitivity (cmul (if num n (c l) =? a then c1 else c0) (f (upd c l (lv b)))); [|destruct (_ =? _); ring]. f_equal.
        rewrite <- (pick (fun i => f (upd c l (lv i))) b Hb). apply csum_ext. intros i Hi. apply in_seq in Hi. unfold vmul, vconj, ebas. rewrite upd_same, lv_num by lia.
        destruct (_ =? _); apply cx_eq; cbn; ring. }
      apply opr_eq; intros f c; [exact (G j k f c Hj Hk)|exact (G k j f c Hk Hj)].
    - intros j k m l Hj Hk Hm. cbn in Hj, Hk, Hm. apply vec_eq. intros c. change (ap1 (mu n j k l) (ebas m l) c = (if k =? m then ebas j l else (fun _ => c0)) c). rewrite mu_ap by assumption.
      unfold ebas at 1. rewrite upd_same, lv_num by exact Hk. destruct (k =? m); [unfold ebas|]; destruct (_ =? j); reflexivity.
    - intros u v l [].
  Defined.
End Register.
