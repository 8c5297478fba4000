From Coq Require Import List ZArith Bool Arith Lia.
From Verif Require Import Prelude DvModel DvSpec.
Import ListNotations.
Local Open Scope nat_scope.

(** * dicts in order *)
Lemma has_in x l : has x l = true <-> In x l.
Proof. unfold has. rewrite existsb_exists. split; [intros [y [Y1 Y2]]; apply Nat.eqb_eq in Y2; now subst|]. intros H. exists x. now rewrite Nat.eqb_refl. Qed.
Lemma dget_in {T} (d : list (nat * T)) x v : dget d x = Some v -> In (x, v) d.
Proof. induction d as [|[y w] r IH]; cbn [dget]; [discriminate|]. destruct (Nat.eqb_spec y x); [intros [= <-]; subst; now left|]. intros H. right. now apply IH. Qed.
Lemma dget_none {T} (d : list (nat * T)) x : dget d x = None <-> ~ In x (map fst d).
Proof.
  induction d as [|[y w] r IH]; cbn [dget map fst In]; [tauto|]. destruct (Nat.eqb_spec y x); [split; [discriminate|intros H; exfalso; apply H; now left]|].
  rewrite IH. tauto.
Qed.
Lemma dset_keys {T} (d : list (nat * T)) x v z : In z (map fst (dset d x v)) <-> z = x \/ In z (map fst d).
Proof.
  induction d as [|[y w] r IH]; cbn [dset map fst In]; [intuition auto|]. destruct (Nat.eqb_spec y x); [subst; cbn [map fst In]; intuition auto|].
  destruct (Nat.ltb_spec x y); cbn [map fst In]; [intuition auto|]. rewrite IH. intuition auto.
Qed.
Lemma dset_incr {T} (d : list (nat * T)) x v : incr (map fst d) -> incr (map fst (dset d x v)).
Proof.
  induction d as [|[y w] r IH]; cbn [dset map fst incr]; [intros _; repeat constructor|]. intros [H1 H2]. destruct (Nat.eqb_spec y x); [subst; now split|].
  destruct (Nat.ltb_spec x y); cbn [map fst incr].
  - split; [|now split]. constructor; [exact H|]. eapply Forall_impl; [|exact H1]. intros; lia.
  - split; [|now apply IH]. apply Forall_forall. intros z Hz. apply dset_keys in Hz. rewrite Forall_forall in H1. destruct Hz as [->|Hz]; [lia|now apply H1].
Qed.
Lemma dset_in {T} (d : list (nat * T)) x v p : In p (dset d x v) -> p = (x, v) \/ In p d.
Proof.
  induction d as [|[y w] r IH]; cbn [dset]; [intros [<-|[]]; now left|]. destruct (y =? x); [intros [<-|H]; [now left|right; now right]|].
  destruct (x <? y); [intros [<-|H]; [now left|now right]|]. intros [<-|H]; [right; now left|]. destruct (IH H); [now left|right; now right].
Qed.
Lemma dupdate_incr {T} (l d : list (nat * T)) : incr (map fst d) -> incr (map fst (dupdate d l)).
Proof. unfold dupdate. revert d. induction l as [|[x v] l IH]; intros d H; [exact H|]. apply IH. now apply dset_incr. Qed.
Lemma dupdate_in {T} (l d : list (nat * T)) p : In p (dupdate d l) -> In p d \/ In p l.
Proof. unfold dupdate. revert d. induction l as [|[x v] l IH]; intros d H; [now left|]. destruct (IH _ H) as [F|F]; [|right; now right]. destruct (dset_in _ _ _ _ F) as [->|G]; [right; now left|now left]. Qed.
Lemma dset_last {T} (d : list (nat * T)) x v : Forall (fun k => k < x) (map fst d) -> dset d x v = d ++ [(x, v)].
Proof.
  induction d as [|[y w] r IH]; cbn [dset map fst app]; [reflexivity|]. intros H. inversion H; subst. destruct (Nat.eqb_spec y x); [lia|]. destruct (Nat.ltb_spec x y); [lia|]. now rewrite IH.
Qed.
Lemma incr_app l x r : incr (l ++ x :: r) -> Forall (fun k => k < x) l /\ incr (l ++ [x] ++ r).
Proof.
  intros H. split; [|exact H]. induction l as [|y l IH]; [constructor|]. cbn [app incr] in H. destruct H as [H1 H2]. constructor; [|now apply IH].
  rewrite Forall_forall in H1. apply H1, in_or_app. right. now left.
Qed.
Lemma dupdate_same {T} (l d : list (nat * T)) : incr (map fst d ++ map fst l) -> dupdate d l = d ++ l.
Proof.
  unfold dupdate. revert d. induction l as [|[x v] l IH]; intros d H; [now rewrite app_nil_r|]. cbn [fold_left fst snd]. cbn [map fst] in H. destruct (incr_app _ _ _ H) as [H1 H2].
  rewrite dset_last by exact H1. rewrite IH; [now rewrite <- app_assoc|]. rewrite map_app, <- app_assoc. exact H2.
Qed.
Lemma zdict_keys ds : map fst (zdict ds) = map fst ds.
Proof. unfold zdict. rewrite map_map. reflexivity. Qed.
Lemma zdict_back ds : map (fun p => (fst p, Z.to_nat (snd p))) (zdict ds) = ds.
Proof. unfold zdict. rewrite map_map. rewrite <- (map_id ds) at 2. apply map_ext. intros [x n]. cbn [fst snd]. now rewrite Nat2Z.id. Qed.

(** * the constructor *)
Lemma new_deriv_ok op dz vs e : new_deriv op dz vs = Ok e ->
  e = DDer op (map (fun p => (fst p, Z.to_nat (snd p))) (dupdate [] dz)) (dupdate [] vs) /\ (dwf op -> dwf e).
Proof.
  unfold new_deriv. destruct (existsb _ (dupdate [] dz)) eqn:E1; [discriminate|]. destruct (existsb _ (dupdate [] vs)) eqn:E2; [discriminate|]. intros [= <-]. split; [reflexivity|].
  intros Hw. cbn [dwf]. rewrite map_map. cbn [fst]. split; [exact Hw|]. split; [apply dupdate_incr; exact I|]. split; [apply dupdate_incr; exact I|]. split.
  - apply Forall_forall. intros p Hp. apply in_map_iff in Hp. destruct Hp as [q [<- Hq]]. cbn [snd]. assert (F : (snd q <=? 0)%Z = false).
    { destruct (snd q <=? 0)%Z eqn:F; [|reflexivity]. assert (existsb (fun p => (snd p <=? 0)%Z) (dupdate [] dz) = true) by (apply existsb_exists; eauto). congruence. }
    apply Z.leb_gt in F. lia.
  - intros z Hz. apply in_map_iff in Hz. destruct Hz as [q [<- Hq]]. assert (F : negb (has (fst q) (map fst (dupdate [] dz))) = false).
    { destruct (negb (has (fst q) (map fst (dupdate [] dz)))) eqn:F; [|reflexivity]. assert (existsb (fun p => negb (has (fst p) (map fst (dupdate [] dz)))) (dupdate [] vs) = true) by (apply existsb_exists; eauto). congruence. }
    apply negb_false_iff, has_in in F. exact F.
Qed.
Lemma new_deriv_same op ds vs e : incr (map fst ds) -> incr (map fst vs) -> new_deriv op (zdict ds) vs = Ok e -> e = DDer op ds vs /\ (dwf op -> dwf e).
Proof.
  intros H1 H2 H. apply new_deriv_ok in H. destruct H as [-> H]. split; [|exact H].
  rewrite !dupdate_same; cbn [app map]; [|exact H2|now rewrite zdict_keys]. now rewrite zdict_back.
Qed.

Section P.
Context (J : interp) (ofree : nat -> list nat) (still : nat -> nat -> bool) (HL : legal J ofree still).
Local Notation env := (env J).
Local Notation den := (den J).
Local Notation partial := (partial J).
Local Notation partials := (partials J).
Local Notation upd := (upd J).

(** * what a function depends on *)
Definition depends (P : nat -> bool) (f : env -> iA J) : Prop := forall e e', (forall z, P z = true -> e z = e' z) -> f e = f e'.
Lemma partial_depends P x f : depends P f -> depends P (partial x f).
Proof.
  intros H e e' E. unfold DvSpec.partial. destruct (P x) eqn:Px.
  - rewrite <- (E x Px). apply iD_ext. intros u. apply H. intros z Hz. unfold DvSpec.upd. destruct (z =? x); [reflexivity|now apply E].
  - transitivity (izero J); [|symmetry].
    + rewrite <- (iD_const J (f e) (e x)). apply iD_ext. intros u. apply H. intros z Hz. unfold DvSpec.upd. destruct (Nat.eqb_spec z x); [congruence|reflexivity].
    + rewrite <- (iD_const J (f e') (e' x)). apply iD_ext. intros u. apply H. intros z Hz. unfold DvSpec.upd. destruct (Nat.eqb_spec z x); [congruence|reflexivity].
Qed.
Lemma partials_depends P ds : forall f, depends P f -> depends P (partials ds f).
Proof.
  induction ds as [|[x n] r IH]; intros f H; cbn [DvSpec.partials]; [exact H|]. apply IH. revert f H. induction n as [|n IHn]; intros f H; cbn [times_partial]; [exact H|]. apply IHn. now apply partial_depends.
Qed.
Lemma vden_free v e e' : (forall x, In x (afree ofree v) -> e x = e' x) -> vden J v e = vden J v e'.
Proof. destruct v as [x|z|k]; cbn [vden afree]; intros H; [apply H; now left|reflexivity|now apply (l_free _ _ _ HL)]. Qed.
Lemma den_ext t : depends (fun _ => true) (den t).
Proof.
  induction t as [|f args|op IH ds vs]; intros e e' E; cbn [DvSpec.den]; [reflexivity| |].
  - f_equal. apply map_ext. intros v. apply vden_free. intros; now apply E.
  - apply (partials_depends _ ds _ IH). intros z _. unfold at_point. destruct (dget vs z); [apply vden_free; intros; now apply E|now apply E].
Qed.
Lemma vfree_afree v l : vfree ofree v = Ok l -> l = afree ofree v.
Proof. destruct v; cbn; now intros [= <-]. Qed.
Lemma vfrees_in vs l k v x : vfrees ofree vs = Ok l -> In (k, v) vs -> In x (afree ofree v) -> In x l.
Proof.
  revert l. induction vs as [|[k' v'] r IH]; intros l H Hi Hx; [destruct Hi|]. cbn [vfrees] in H. destruct (vfree ofree v') as [a|] eqn:E1; [|discriminate]. cbn [bind] in H. destruct (vfrees ofree r) as [b|] eqn:E2; [|discriminate]. injection H as <-.
  apply in_or_app. destruct Hi as [[= -> ->]|Hi]; [left; apply vfree_afree in E1; now subst|right; eapply IH; eauto].
Qed.
Lemma free_depends t : forall fs, free_symbols ofree t = Ok fs -> depends (fun x => has x fs) (den t).
Proof.
  induction t as [|f args|op IH ds vs]; intros fs H e e' E; cbn [DvSpec.den].
  - reflexivity.
  - injection H as <-. f_equal. apply map_ext_in. intros v Hv. apply vden_free. intros x Hx. apply E, has_in, in_flat_map. eauto.
  - destruct vs as [|p vs].
    + cbn [free_symbols] in H. apply (partials_depends _ ds _ (IH _ H)). intros z Hz. unfold at_point. cbn [dget]. now apply E.
    + remember (p :: vs) as ws eqn:Ews. assert (H' : (do f <- free_symbols ofree op; do g <- vfrees ofree ws; Ok (filter (fun x => negb (has x (map fst ws))) f ++ g)) = Ok fs) by (subst ws; exact H).
      clear H Ews. destruct (free_symbols ofree op) as [fo|] eqn:E1; [|discriminate]. cbn [bind] in H'. destruct (vfrees ofree ws) as [g|] eqn:E2; [|discriminate]. injection H' as <-.
      apply (partials_depends _ ds _ (IH _ eq_refl)). intros z Hz. unfold at_point. destruct (dget ws z) as [v|] eqn:E3.
      * apply vden_free. intros x Hx. apply E, has_in, in_or_app. right. apply dget_in in E3. eapply vfrees_in; eauto.
      * apply E, has_in, in_or_app. left. apply filter_In. split; [now apply has_in|]. apply dget_none in E3. apply negb_true_iff. destruct (has z (map fst ws)) eqn:F; [|reflexivity]. now apply has_in in F.
Qed.
Lemma indep_zero t x fs e : free_symbols ofree t = Ok fs -> ~ In x fs -> partial x (den t) e = izero J.
Proof.
  intros H Hx. unfold DvSpec.partial. rewrite <- (iD_const J (den t e) (e x)). apply iD_ext. intros u. apply (free_depends t fs H). intros z Hz. apply has_in in Hz. unfold DvSpec.upd. destruct (Nat.eqb_spec z x); [now subst|reflexivity].
Qed.

(** * partial derivatives *)
Lemma partial_ext x f g : (forall e, f e = g e) -> forall e, partial x f e = partial x g e.
Proof. intros H e. apply iD_ext. intros u. apply H. Qed.
Lemma times_ext x n : forall f g, (forall e, f e = g e) -> forall e, times_partial J x n f e = times_partial J x n g e.
Proof. induction n as [|n IH]; intros f g H e; cbn [times_partial]; [apply H|]. apply IH. now apply partial_ext. Qed.
Lemma partials_ext ds : forall f g, (forall e, f e = g e) -> forall e, partials ds f e = partials ds g e.
Proof. induction ds as [|[x n] r IH]; intros f g H e; cbn [DvSpec.partials]; [apply H|]. apply IH. now apply times_ext. Qed.

Context (sm : (env -> iA J) -> Prop) (HS : smooth J sm).
Lemma times_sm x n : forall f, sm f -> sm (times_partial J x n f).
Proof. induction n as [|n IH]; intros f H; cbn [times_partial]; [exact H|]. apply IH. now apply (s_partial _ _ HS). Qed.
Lemma partials_sm ds : forall f, sm f -> sm (partials ds f).
Proof. induction ds as [|[x n] r IH]; intros f H; cbn [DvSpec.partials]; [exact H|]. apply IH. now apply times_sm. Qed.
Lemma den_sm t : sm (den t).
Proof. induction t as [|f args|op IH ds vs]; [apply (s_zero _ _ HS)|apply (s_leaf _ _ HS)|]. cbn [DvSpec.den]. apply (s_at _ _ HS). now apply partials_sm. Qed.
Lemma times_comm x y n : forall f e, sm f -> partial x (times_partial J y n f) e = times_partial J y n (partial x f) e.
Proof.
  induction n as [|n IH]; intros f e H; cbn [times_partial]; [reflexivity|]. rewrite IH by now apply (s_partial _ _ HS). apply times_ext. intros e'. now apply (s_comm _ _ HS).
Qed.
Lemma partials_comm x ds : forall f e, sm f -> partial x (partials ds f) e = partials ds (partial x f) e.
Proof.
  induction ds as [|[y n] r IH]; intros f e H; cbn [DvSpec.partials]; [reflexivity|]. rewrite IH by now apply times_sm. apply partials_ext. intros e'. now apply times_comm.
Qed.
Lemma partials_ins x ds : incr (map fst ds) -> forall f e, sm f ->
  partials (dset ds x (match dget ds x with Some n => S n | None => 1 end)) f e = partial x (partials ds f) e.
Proof.
  induction ds as [|[y w] r IH]; cbn [dget dset map fst incr]; intros Hi f e H; [reflexivity|]. destruct Hi as [H1 H2]. destruct (Nat.eqb_spec y x).
  - subst. cbn [DvSpec.partials times_partial]. rewrite partials_comm by now apply times_sm. apply partials_ext. intros e'. symmetry. now apply times_comm.
  - destruct (Nat.ltb_spec x y).
    + assert (dget r x = None) as ->. { apply dget_none. intros F. rewrite Forall_forall in H1. apply H1 in F. lia. }
      cbn [DvSpec.partials times_partial]. symmetry. exact (partials_comm x ((y, w) :: r) f e H).
    + cbn [DvSpec.partials]. apply IH; [exact H2|now apply times_sm].
Qed.

(** * one differentiation *)
Lemma at_upd vs x u e z : (forall k v, In (k, v) vs -> ~ In x (afree ofree v)) -> ~ In x (map fst vs) ->
  at_point J vs (upd e x u) z = upd (at_point J vs e) x u z.
Proof.
  intros H1 H2. unfold DvSpec.upd at 2. destruct (Nat.eqb_spec z x) as [->|Hz]; unfold at_point.
  - assert (dget vs x = None) as -> by now apply dget_none. unfold DvSpec.upd. now rewrite Nat.eqb_refl.
  - destruct (dget vs z) as [v|] eqn:E.
    + apply dget_in in E. apply vden_free. intros y Hy. unfold DvSpec.upd. destruct (Nat.eqb_spec y x); [subst; now apply H1 in E|reflexivity].
    + unfold DvSpec.upd. destruct (Nat.eqb_spec z x); [contradiction|reflexivity].
Qed.
Lemma diff1_ok x t t' : dwf t -> clear_of ofree x t -> diff1 still x t = Ok t' ->
  dwf t' /\ (forall y, clear_of ofree y t -> clear_of ofree y t') /\ forall e, den t' e = partial x (den t) e.
Proof.
  intros Hw Hc H. destruct t as [|f args|op ds vs]; cbn [diff1] in H.
  - injection H as <-. split; [exact I|]. split; [auto|]. intros e. cbn [DvSpec.den]. unfold DvSpec.partial. symmetry. apply iD_const.
  - destruct (forallb (arg_still still x) args) eqn:F.
    + injection H as <-. split; [exact I|]. split; [auto|]. intros e. cbn [DvSpec.den]. unfold DvSpec.partial. rewrite <- (iD_const J (leafI J f (map (fun v => vden J v e) args)) (e x)). apply iD_ext. intros u. f_equal.
      apply map_ext_in. intros v Hv. rewrite forallb_forall in F. specialize (F v Hv). destruct v as [y|z|k]; cbn [arg_still vden] in *; [|reflexivity|symmetry; now apply (l_still _ _ _ HL)].
      unfold DvSpec.upd. destruct (y =? x); [discriminate|reflexivity].
    + injection H as <-. split; [split; [exact I|]; split; [split; [constructor|exact I]|]; split; [exact I|]; split; [constructor; [apply Nat.lt_0_1|constructor]|intros ? []]|]. split; [intros y _ k v []|]. intros e. reflexivity.
  - destruct Hw as [W1 [W2 [W3 [W4 W5]]]]. destruct (has x (map fst vs)) eqn:E1.
    + injection H as <-. apply has_in in E1. split; [exact I|]. split; [intros; exact I|]. intros e. cbn [DvSpec.den]. unfold DvSpec.partial.
      rewrite <- (iD_const J (partials ds (den op) (at_point J vs e)) (e x)). apply iD_ext. intros u. apply (partials_depends _ ds _ (den_ext op)). intros z _. unfold at_point. destruct (dget vs z) as [v|] eqn:E.
      * apply dget_in in E. apply vden_free. intros y Hy. unfold DvSpec.upd. destruct (Nat.eqb_spec y x); [|reflexivity]. subst. destruct (Hc z v E Hy) as [_ F]. contradiction.
      * apply dget_none in E. unfold DvSpec.upd. destruct (Nat.eqb_spec z x); [now subst|reflexivity].
    + assert (Hx : ~ In x (map fst vs)) by (intros F; apply has_in in F; congruence). destruct (existsb _ vs) eqn:E2.
      * injection H as <-. split; [split; [exact (conj W1 (conj W2 (conj W3 (conj W4 W5))))|]; split; [split; [constructor|exact I]|]; split; [exact I|]; split; [constructor; [apply Nat.lt_0_1|constructor]|intros ? []]|]. split; [intros y _ k v []|]. intros e. reflexivity.
      * apply new_deriv_same in H; [|now apply dset_incr|exact W3]. destruct H as [-> H]. split; [now apply H|]. split; [intros y Hy; exact Hy|]. intros e. cbn [DvSpec.den].
        rewrite partials_ins by (auto using den_sm). unfold DvSpec.partial.
        replace (at_point J vs e x) with (e x) by (unfold at_point; assert (dget vs x = None) as -> by (now apply dget_none); reflexivity).
        apply iD_ext. intros u. apply (partials_depends _ ds _ (den_ext op)). intros z _. symmetry. apply at_upd; [|exact Hx]. intros k v Hk Hv. destruct (Hc k v Hk Hv) as [-> _].
        assert (existsb (fun p => is_sym x (snd p)) vs = true) by (apply existsb_exists; exists (k, VSym x); split; [exact Hk|cbn; apply Nat.eqb_refl]). congruence.
Qed.
Lemma diff_times_ok x n : forall t t', dwf t -> clear_of ofree x t -> diff_times still x n t = Ok t' ->
  dwf t' /\ (forall y, clear_of ofree y t -> clear_of ofree y t') /\ forall e, den t' e = times_partial J x n (den t) e.
Proof.
  induction n as [|n IH]; intros t t' Hw Hc H; cbn [diff_times] in H; [injection H as <-; auto|]. destruct (diff1 still x t) as [u|] eqn:E; [|discriminate]. cbn [bind] in H.
  destruct (diff1_ok x t u Hw Hc E) as [A1 [A2 A3]]. destruct (IH u t' A1 (A2 x Hc) H) as [B1 [B2 B3]]. split; [exact B1|]. split; [auto|]. intros e. rewrite B3. cbn [times_partial]. now apply times_ext.
Qed.
Lemma partials_zero ds f : (forall e, f e = izero J) -> forall e, partials ds f e = izero J.
Proof.
  revert f. induction ds as [|[x n] r IH]; intros f H e; cbn [DvSpec.partials]; [apply H|]. apply IH. clear e. revert f H. induction n as [|n IHn]; intros f H e; cbn [times_partial]; [apply H|]. apply IHn. intros e'.
  unfold DvSpec.partial. rewrite <- (iD_const J (izero J) (e' x)). apply iD_ext. intros u. apply H.
Qed.
Lemma create_loop_ok ds : forall t t', dwf t -> Forall (fun p => clear_of ofree (fst p) t /\ (0 < snd p)%Z) ds -> create_loop ofree still ds t = Ok t' ->
  dwf t' /\ (forall y, clear_of ofree y t -> clear_of ofree y t') /\ forall e, den t' e = partials (map (fun p => (fst p, Z.to_nat (snd p))) ds) (den t) e.
Proof.
  induction ds as [|[x n] r IH]; intros t t' Hw Hc H; cbn [create_loop] in H; [injection H as <-; auto|]. inversion Hc as [|? ? [C1 C1'] C2]; subst. cbn [fst snd] in *.
  destruct (free_symbols ofree t) as [fs|] eqn:E; [|discriminate]. cbn [bind] in H. destruct (has x fs) eqn:E1.
  - destruct (diff_times still x (Z.to_nat n) t) as [u|] eqn:E2; [|discriminate]. cbn [bind] in H. destruct (diff_times_ok x _ t u Hw C1 E2) as [A1 [A2 A3]].
    destruct (IH u t' A1) as [B1 [B2 B3]]; [|exact H|].
    { eapply Forall_impl; [|exact C2]. intros p [P1 P2]. split; [now apply A2|exact P2]. }
    split; [exact B1|]. split; [auto|]. intros e. rewrite B3. cbn [map DvSpec.partials fst snd]. now apply partials_ext.
  - injection H as <-. split; [exact I|]. split; [intros; exact I|]. intros e. cbn [map DvSpec.partials fst snd DvSpec.den]. symmetry. apply partials_zero. intros e'.
    destruct (Z.to_nat n) as [|m] eqn:En; [lia|]. cbn [times_partial]. assert (Hx : ~ In x fs) by (intros F; apply has_in in F; congruence).
    assert (Q : forall m f, (forall e, f e = izero J) -> forall e, times_partial J x m f e = izero J).
    { clear - J. intros m0 f Hf e1. exact (partials_zero [(x, m0)] f Hf e1). }
    apply Q. intros e''. now apply (indep_zero t x fs).
Qed.
End P.
