(** Kets: what does not depend on the monitors. For C43. *)
From Coq Require Import QArith Qcanon.
From Verif Require Import Prelude ListFacts SortModel SortProofs BinModel OpModel OpSpec OpForms OpLocal KetModel KetSpec.
Local Open Scope nat_scope.

Section Free.
  Context {S : scalars} (dim : nat -> option nat).
  Context (klt : ket S -> ket S -> bool) (slt : list nat -> list nat -> bool).
  Context (K K' : ocreators S) (bk bk' : ket S -> ket S -> S) (kb kb' : ket S -> ket S -> op S).
  Context (cp cp' : S -> bool) (cs cs' : list (op S) -> list (op S) -> list nat -> list nat -> bool).
  Local Notation Q := (kcreators_n dim K klt slt bk kb cp cs).
  Local Notation Q' := (kcreators_n dim K' klt slt bk' kb' cp' cs').
  (** multiples, sums and tensor products use nothing else *)
  Lemma kets_free n : kc_scal (Q n) = kc_scal (Q' n) /\ kc_plus (Q n) = kc_plus (Q' n) /\ kc_tens (Q n) = kc_tens (Q' n).
  Proof.
    induction n as [|n (E1 & E2 & E3)]; [repeat split; reflexivity|]. cbn [kcreators_n kc_scal kc_plus kc_tens]. repeat split.
    - unfold kscal_step. now rewrite E1.
    - unfold kplus_step. now rewrite E1, E2.
    - unfold ktens_step, tens_cls, t001, t002. now rewrite E1, E3.
  Qed.
  (** so does a local operator that is neither a phase nor a displacement, applied to a
      basis state *)
  Lemma basis_free n a j l : kc_op (Q n) (OAtom a) (KBasis j l) = kc_op (Q' n) (OAtom a) (KBasis j l).
  Proof.
    destruct n as [|n]; [reflexivity|]. cbn [kcreators_n kc_op kop_step]. unfold atom_basis. now rewrite (proj1 (kets_free n)).
  Qed.
  Lemma bk_free n j l j' l' : kc_bk (Q n) (KBasis j l) (KBasis j' l') = kc_bk (Q' n) (KBasis j l) (KBasis j' l').
  Proof. now destruct n. Qed.
End Free.

(** ** One local space: the order of the factors of a product is never changed *)
Section Site.
  Context {S : scalars} (dim : nat -> option nat) (l : nat).
  Local Notation loc := (local_to (S:=S) l).
  Local Notation kloc := (ket_of (S:=S) l).
  Lemma kloc_plus ks : kloc (KPlus ks) <-> Forall kloc ks.
  Proof.
    cbn [ket_of]. induction ks as [|x ks IH]; cbn [fold_right]; [split; constructor|]. rewrite IH. split.
    - intros [H1 H2]. now constructor.
    - intros H. inversion H; subst. now split.
  Qed.
  Definition kagree (r r' : res (ket S)) : Prop := r = r' /\ forall k, r = Ok k -> kloc k.
  Lemma kagree_ok k : kloc k -> kagree (Ok k) (Ok k).
  Proof. intros H. split; [reflexivity|]. intros k' E. now injection E as <-. Qed.
  Lemma kagree_err x : kagree (Err x) (Err x).
  Proof. split; [reflexivity|discriminate]. Qed.
  Lemma kagree_bind r r' f f' : kagree r r' -> (forall k, kloc k -> kagree (f k) (f' k)) -> kagree (bind r f) (bind r' f').
  Proof. intros [-> H] Hk. destruct r' as [k|x]; [apply Hk, H; reflexivity|apply kagree_err]. Qed.
  Lemma kagree_bindO r r' f f' : agree l r r' -> (forall a, loc a -> kagree (f a) (f' a)) -> kagree (bind r f) (bind r' f').
  Proof. intros [-> H] Hk. destruct r' as [k|x]; [apply Hk, H; reflexivity|apply kagree_err]. Qed.
  Lemma kagree_bindS (r : res S) f f' : (forall c, kagree (f c) (f' c)) -> kagree (bind r f) (bind r f').
  Proof. intros Hk. destruct r as [c|x]; [apply Hk|apply kagree_err]. Qed.
  Definition kagrees (r r' : res (list (ket S))) : Prop := r = r' /\ forall ks, r = Ok ks -> Forall kloc ks.
  Lemma kagrees_mapM {X} (f f' : X -> res (ket S)) xs : (forall x, In x xs -> kagree (f x) (f' x)) -> kagrees (mapM f xs) (mapM f' xs).
  Proof.
    induction xs as [|x xs IH]; intros H; [split; [reflexivity|intros es E; injection E as <-; constructor]|]. cbn [mapM].
    destruct (H x (or_introl eq_refl)) as [E1 H1]. rewrite E1. destruct (f' x) as [y|e]; [|split; [reflexivity|discriminate]]. cbn [bind].
    destruct IH as [E2 H2]; [intros z Hz; apply H; now right|]. rewrite E2. destruct (mapM f' xs) as [ys|e]; [|split; [reflexivity|discriminate]]. cbn [bind].
    split; [reflexivity|]. intros es E. injection E as <-. constructor; [apply H1; exact E1|apply H2; exact E2].
  Qed.
  Lemma kagrees_bind r r' f f' : kagrees r r' -> (forall ks, Forall kloc ks -> kagree (f ks) (f' ks)) -> kagree (bind r f) (bind r' f').
  Proof. intros [-> H] Hk. destruct r' as [e|x]; [apply Hk, H; reflexivity|apply kagree_err]. Qed.

  Context (K K' : ocreators S) (HK : agreeK l K K').
  Context (klt : ket S -> ket S -> bool) (slt : list nat -> list nat -> bool).
  Context (bk : ket S -> ket S -> S) (kb : ket S -> ket S -> op S) (Hkb : forall a b, kloc a -> kloc b -> loc (kb a b)).
  Context (cp : S -> bool) (cs cs' : list (op S) -> list (op S) -> list nat -> list nat -> bool).
  Record agreeQ (Q Q' : kcreators S) : Prop := {
    b_scal : forall c t, kloc t -> kagree (kc_scal Q c t) (kc_scal Q' c t);
    b_plus : forall ks, Forall kloc ks -> kagree (kc_plus Q ks) (kc_plus Q' ks);
    b_op : forall a t, loc a -> kloc t -> kagree (kc_op Q a t) (kc_op Q' a t);
    b_bk : forall a b, kloc a -> kloc b -> kc_bk Q a b = kc_bk Q' a b;
    b_kb : forall a b, kloc a -> kloc b -> agree l (kc_kb Q a b) (kc_kb Q' a b)
  }.
  Section Step.
    Context (Q Q' : kcreators S) (HQ : agreeQ Q Q').
    Ltac prim := first [apply kagree_err | apply kagree_ok; assumption
      | apply (b_scal Q Q' HQ) | apply (b_plus Q Q' HQ) | apply (b_op Q Q' HQ)].
    Lemma kscal_agree c t : kloc t -> kagree (kscal_step Q c t) (kscal_step Q' c t).
    Proof.
      intros H. unfold kscal_step. destruct (seqb c s1); [now apply kagree_ok|]. destruct (seqb c s0); [now apply kagree_ok|].
      destruct t; try (now apply kagree_ok). now apply (b_scal Q Q' HQ).
    Qed.
    Lemma kmap_add_In c (t : ket S) m x d : In (x, d) (kmap_add c t m) -> (exists d', In (x, d') m) \/ x = t.
    Proof.
      induction m as [|[t' c'] m IH]; cbn [kmap_add].
      - intros [E|[]]. injection E as <- _. now right.
      - destruct (keqb t' t); intros [E|H].
        + injection E as <- _. left. exists c'. now left.
        + left. exists d. now right.
        + injection E as <- _. left. exists c'. now left.
        + destruct (IH H) as [[d' Hd]|E]; [left; exists d'; now right|now right].
    Qed.
    Lemma kcollect_loc ks x d : Forall kloc ks -> In (x, d) (kcollect ks) -> kloc x.
    Proof.
      intros H. unfold kcollect. assert (forall m, (forall y e, In (y, e) m -> kloc y) -> In (x, d) (fold_left (fun m o => let '(c, t) := kcoeff_term o in kmap_add c t m) ks m) -> kloc x) as G; [|apply G; intros y e []].
      induction H as [|k ks Hk _ IH]; intros m Hm; cbn [fold_left]; [apply Hm|]. apply IH. intros y e Hy. destruct (kcoeff_term k) as [c t] eqn:E.
      apply kmap_add_In in Hy. destruct Hy as [[d' Hd]|E2]; [now apply (Hm y d')|]. subst y. destruct k; cbn in E; injection E as _ <-; exact Hk.
    Qed.
    Lemma kplus_agree ks : Forall kloc ks -> kagree (kplus_step klt slt Q ks) (kplus_step klt slt Q' ks).
    Proof.
      intros H. unfold kplus_step. destruct ks as [|k ks]; [apply kagree_bind; [now apply (b_plus Q Q' HQ)|intros; apply kagree_err]|].
      assert (Forall kloc (pysorted (kfull_lt klt slt) (kflat_plus (k :: ks)))) as H'.
      { rewrite Forall_forall in *. intros x Hx. apply pysorted_In in Hx. unfold kflat_plus in Hx. apply in_flat_map in Hx. destruct Hx as (y & Hy & Hx). apply H in Hy.
        destruct y; try (destruct Hx as [<-|[]]; exact Hy). apply kloc_plus in Hy. rewrite Forall_forall in Hy. now apply Hy. }
      apply kagrees_bind.
      - apply kagrees_mapM. intros [t c] Ht. apply (b_scal Q Q' HQ). exact (kcollect_loc _ t c H' Ht).
      - intros es Hes. assert (Forall kloc (filter (fun o => negb (is_kzero o)) es)) as Hf by (rewrite Forall_forall in *; intros x Hx; apply filter_In in Hx; now apply Hes).
        destruct (filter _ es) as [|x [|y fl]]; [now apply kagree_ok|apply kagree_ok; now inversion Hf|]. destruct (same_space _); [|apply kagree_err]. apply kagree_ok. now apply kloc_plus.
    Qed.
    Lemma kop_new_loc a t : loc a -> kloc t -> kagree (kop_new a t) (kop_new a t).
    Proof. intros Ha Ht. unfold kop_new. destruct (sp_incl _ _); [|apply kagree_err]. apply kagree_ok. now split. Qed.
    Lemma knext_loc j d : kloc (knext dim j l d).
    Proof. unfold knext. now destruct (in_range _ _ _). Qed.
    Lemma atom_basis_agree a j : loc (OAtom a) -> kagree (atom_basis dim Q a j l) (atom_basis dim Q' a j l).
    Proof.
      intros Ha. pose proof (kop_new_loc (OAtom a) (KBasis j l) Ha eq_refl) as Ho. pose proof (knext_loc j) as Hn.
      destruct a; cbn [atom_basis]; try exact Ho; destruct (_ =? _); cbn [andb]; try exact Ho.
      - apply (b_scal Q Q' HQ), Hn.
      - apply (b_scal Q Q' HQ), Hn.
      - now apply (b_scal Q Q' HQ).
      - destruct (dim l); [apply kagree_err|]. now apply (b_scal Q Q' HQ).
      - destruct (_ && _); [|exact Ho]. now apply kagree_ok.
      - apply kagree_bindS. intros c. apply (b_scal Q Q' HQ), Hn.
      - apply kagree_bindS. intros c. apply (b_scal Q Q' HQ), Hn.
      - apply kagree_bindS. intros c. now apply (b_scal Q Q' HQ).
    Qed.
    Lemma atom_coh_agree a v : loc (OAtom a) -> kagree (atom_coh K cp Q a v l) (atom_coh K' cp Q' a v l).
    Proof.
      intros Ha. pose proof (kop_new_loc (OAtom a) (KCoh v l) Ha eq_refl) as Ho.
      destruct a; cbn [atom_coh]; try exact Ho; destruct (_ =? _); try exact Ho.
      - now apply (b_scal Q Q' HQ).
      - destruct (cp _); [now apply kagree_ok|apply kagree_err].
      - apply kagree_bindO; [apply (a_times l K K' HK); constructor; [now right|constructor; [now right|constructor]]|]. intros d Hd. now apply (b_op Q Q' HQ).
    Qed.
    Lemma times_local_agree ops t : Forall loc ops -> kloc t -> kagree (times_local K Q ops t) (times_local K' Q' ops t).
    Proof.
      intros Ho Ht. unfold times_local. pose proof (kop_new_loc (OTimes ops) t (proj2 (loc_times l ops) Ho) Ht) as Hn. destruct (rev ops) as [|o r] eqn:E; [exact Hn|].
      destruct o as [| |b|c u|es|es|a b|a|a h|s a]; try exact Hn. destruct r as [|o2 r]; [exact Hn|]. destruct (is_local b); [|exact Hn].
      assert (loc (OAtom b)) as Hb by (rewrite Forall_forall in Ho; apply Ho; apply in_rev; rewrite E; now left).
      apply kagree_bindO.
      - apply (a_times l K K' HK). rewrite Forall_forall in *. intros x Hx. apply Ho. clear - Hx. induction ops as [|y ops IH]; [destruct Hx|]. cbn [removelast] in Hx. destruct ops as [|z ops]; [destruct Hx|]. destruct Hx as [<-|Hx]; [now left|right; now apply IH].
      - intros p Hp. apply kagree_bind; [now apply (b_op Q Q' HQ)|]. intros x Hx. now apply (b_op Q Q' HQ).
    Qed.
    Lemma kop_agree f f' a t : loc a -> kloc t -> kagree (kop_step dim K cp cs Q f a t) (kop_step dim K' cp cs' Q' f' a t).
    Proof.
      intros Ha Ht. pose proof (kop_new_loc a t Ha Ht) as Hn.
      assert (forall v p, kloc p -> kagree (do x <- kc_op Q a p; kc_scal Q v x) (do x <- kc_op Q' a p; kc_scal Q' v x)) as H1.
      { intros v p Hp. apply kagree_bind; [now apply (b_op Q Q' HQ)|]. intros x Hx. now apply (b_scal Q Q' HQ). }
      assert (forall b p, loc b -> kloc p -> kagree (do x <- kc_op Q b p; if keqb x (KOp b p) then do ab <- k_times K [a; b]; kc_op Q ab p else kc_op Q a x)
        (do x <- kc_op Q' b p; if keqb x (KOp b p) then do ab <- k_times K' [a; b]; kc_op Q' ab p else kc_op Q' a x)) as H2.
      { intros b p Hb Hp. apply kagree_bind; [now apply (b_op Q Q' HQ)|]. intros x Hx. destruct (keqb _ _); [|now apply (b_op Q Q' HQ)].
        apply kagree_bindO; [apply (a_times l K K' HK); constructor; [exact Ha|constructor; [exact Hb|constructor]]|]. intros ab Hab. now apply (b_op Q Q' HQ). }
      unfold kop_step. destruct a as [| |x|c u|es|es|a1 a2|a1|a1 h|s a1]; try (now apply kagree_ok); destruct t as [| |j l'|v l'|nm h'|v p|ks|ks|b p]; try (now apply kagree_ok); try (exfalso; exact Ht); try (apply H1; exact Ht); try (apply H2; apply Ht); try exact Hn;
        try (apply kagree_bind; [now apply (b_op Q Q' HQ)|intros y Hy; now apply (b_scal Q Q' HQ)]).
      - cbn in Ht. subst l'. now apply atom_basis_agree.
      - cbn in Ht. subst l'. now apply atom_coh_agree.
      - apply times_local_agree; [now apply loc_times|exact Ht].
      - apply times_local_agree; [now apply loc_times|exact Ht].
    Qed.
    Lemma bk_agree f f' a b : kloc a -> kloc b -> bk_step K bk Q f a b = bk_step K' bk Q' f' a b.
    Proof.
      intros Ha Hb.
      assert (forall o p t, loc o -> kloc p -> kloc t -> (do x' <- oadj K o; do y <- kc_op Q x' t; kc_bk Q p y) = (do x' <- oadj K' o; do y <- kc_op Q' x' t; kc_bk Q' p y)) as H0.
      { intros o p t Ho Hp Ht. destruct (oadj_agree l K K' HK o Ho) as [E Hl]. rewrite <- E. destruct (oadj K o) as [o'|]; cbn [bind]; [|reflexivity].
        destruct (b_op Q Q' HQ o' t (Hl o' eq_refl) Ht) as [E2 H2]. rewrite <- E2. destruct (kc_op Q o' t) as [y|]; cbn [bind]; [|reflexivity]. apply (b_bk Q Q' HQ); [exact Hp|now apply H2]. }
      unfold bk_step.
      destruct a as [| |j l'|v l'|nm h'|v p|ks|ks|o p]; destruct b as [| |j2 l2|v2 l2|nm2 h2|v2 p2|ks2|ks2|o2 p2]; try reflexivity; try (exfalso; exact Ha); try (exfalso; exact Hb); cbn [andb keqb];
        repeat match goal with
        | |- context [if ?c then _ else _] => destruct c; try reflexivity
        end;
        try (rewrite (b_bk Q Q' HQ) by (first [exact Ha|exact Hb]); reflexivity);
        (apply H0; [exact (proj1 Ha)|exact (proj2 Ha)|exact Hb]).
    Qed.
    Lemma kb_new_agree a b : kloc a -> kloc b -> agree l (kb_new kb a b) (kb_new kb a b).
    Proof. intros Ha Hb. unfold kb_new. destruct (same_space _); [|apply agree_err]. apply agree_ok. now apply Hkb. Qed.
    Lemma kb_agree f f' a b : kloc a -> kloc b -> agree l (kb_step K kb Q f a b) (kb_step K' kb Q' f' a b).
    Proof.
      intros Ha Hb. pose proof (kb_new_agree a b Ha Hb) as Hn.
      assert (forall e e', loc e -> loc e' -> agree l (k_times K [e; e']) (k_times K' [e; e'])) as Ht by (intros; apply (a_times l K K' HK); constructor; [assumption|constructor; [assumption|constructor]]).
      unfold kb_step, kb_rest.
      destruct a as [| |j l'|v l'|nm h'|v p|ks|ks|o p]; destruct b as [| |j2 l2|v2 l2|nm2 h2|v2 p2|ks2|ks2|o2 p2]; try (exfalso; exact Ha); try (exfalso; exact Hb); try exact Hn;
        try (apply agree_bind; [now apply (b_kb Q Q' HQ)|intros e He; apply (a_scal l K K' HK); exact He]);
        try (apply agree_bind; [apply (b_kb Q Q' HQ); first [exact Ha|exact Hb|exact (proj2 Ha)|exact (proj2 Hb)|reflexivity|exact (eq_trans Ha eq_refl)]|intros e He; first
             [ apply Ht; [first [exact (proj1 Ha)|cbn in Ha; subst; now right]|exact He]
             | apply Ht; [exact He|cbn in Hb; subst; now right]
             | apply agree_bind; [apply (oadj_agree l K K' HK); exact (proj1 Hb)|intros e2 He2; now apply Ht] ]]).
      - destruct (_ =? _); [|exact Hn]. apply agree_ok. cbn in Ha. subst. now right.
    Qed.
  End Step.
  Theorem kcreators_agree : forall n n', n = n' -> agreeQ (kcreators_n dim K klt slt bk kb cp cs n) (kcreators_n dim K' klt slt bk kb cp cs' n').
  Proof.
    intros n n' <-. induction n as [|n IH]; constructor; cbn [kcreators_n kc_scal kc_plus kc_op kc_bk kc_kb]; intros; try (apply kagree_err); try (apply agree_err); try reflexivity.
    - now apply kscal_agree.
    - now apply kplus_agree.
    - now apply kop_agree.
    - now apply bk_agree.
    - now apply kb_agree.
  Qed.
End Site.
