(** check_permutation, invert, permute, compose. *)
From Verif Require Import Prelude ListFacts PermModel PermSpec.

Definition is_perm (p : list nat) : Prop := Permutation p (seq 0 (length p)).

Lemma is_perm_bij p : is_perm p <-> bijection p.
Proof.
  unfold is_perm, bijection. split.
  - intros Hp. split; [|split].
    + intros i Hi. assert (In (nth i p 0) (seq 0 (length p))) as H.
      { eapply Permutation_in; [exact Hp|apply nth_In; exact Hi]. }
      apply in_seq in H; lia.
    + intros i j Hi Hj Heq. assert (NoDup p) as Hnd.
      { eapply Permutation_NoDup; [symmetry; exact Hp|apply seq_NoDup]. }
      eapply (proj1 (NoDup_nth p 0) Hnd); eauto.
    + intros y Hy. assert (In y p) as H.
      { eapply Permutation_in; [symmetry; exact Hp|apply in_seq; lia]. }
      apply In_nth with (d := 0) in H as (i & Hi & H). eauto.
  - intros (H1 & H2 & H3). apply NoDup_Permutation.
    + apply (NoDup_nth p 0). exact H2.
    + apply seq_NoDup.
    + intros x; rewrite in_seq; split.
      * intros Hx. apply In_nth with (d := 0) in Hx as (i & Hi & <-). specialize (H1 i Hi); lia.
      * intros Hx. destruct (H3 x ltac:(lia)) as (i & Hi & <-). apply nth_In; exact Hi.
Qed.

Lemma is_perm_intro p : NoDup p -> (forall x, In x p -> x < length p) -> is_perm p.
Proof.
  intros Hnd Hlt. unfold is_perm.
  apply NoDup_Permutation_bis; [exact Hnd|rewrite seq_length; lia|].
  intros x Hx; apply in_seq; specialize (Hlt x Hx); lia.
Qed.

Lemma is_perm_NoDup p : is_perm p -> NoDup p.
Proof. intros H; eapply Permutation_NoDup; [symmetry; exact H|apply seq_NoDup]. Qed.

Lemma is_perm_In p x : is_perm p -> (In x p <-> x < length p).
Proof.
  intros H. split; intros Hx.
  - apply (Permutation_in _ H) in Hx. apply in_seq in Hx; lia.
  - apply (Permutation_in _ (Permutation_sym H)). apply in_seq; lia.
Qed.

Lemma is_perm_nth_lt p i : is_perm p -> i < length p -> nth i p 0 < length p.
Proof. intros H Hi; apply (is_perm_In p); [exact H|apply nth_In; exact Hi]. Qed.

Lemma is_perm_inj p i j : is_perm p -> i < length p -> j < length p ->
  nth i p 0 = nth j p 0 -> i = j.
Proof. intros H; apply (proj1 (is_perm_bij p) H). Qed.

Lemma checkp_spec p : checkp p = true <-> is_perm p.
Proof.
  unfold checkp, check_permutation. rewrite map_length, sort_eq_range_iff. split.
  - apply Permutation_map_of_nat.
  - apply Permutation_map.
Qed.

Lemma checkp_bij p : checkp p = true <-> bijection p.
Proof. rewrite checkp_spec; apply is_perm_bij. Qed.

Lemma check_permutation_spec p : check_permutation p = true <-> bijectionZ p.
Proof.
  unfold check_permutation. rewrite sort_eq_range_iff. unfold bijectionZ. split.
  - intros Hp. split; [|split].
    + intros i Hi. assert (In (nth i p 0%Z) (map Z.of_nat (seq 0 (length p)))) as H.
      { eapply Permutation_in; [exact Hp|apply nth_In; exact Hi]. }
      apply in_map_iff in H as (k & <- & Hk). apply in_seq in Hk; lia.
    + intros i j Hi Hj Heq. assert (NoDup p) as Hnd.
      { eapply Permutation_NoDup; [symmetry; exact Hp|].
        apply FinFun.Injective_map_NoDup; [intros a b Hab; lia|apply seq_NoDup]. }
      eapply (proj1 (NoDup_nth p 0%Z) Hnd); eauto.
    + intros y Hy. assert (In (Z.of_nat y) p) as H.
      { eapply Permutation_in; [symmetry; exact Hp|apply in_map, in_seq; lia]. }
      apply In_nth with (d := 0%Z) in H as (i & Hi & H). eauto.
  - intros (H1 & H2 & H3). apply NoDup_Permutation.
    + apply (NoDup_nth p 0%Z). exact H2.
    + apply FinFun.Injective_map_NoDup; [intros a b Hab; lia|apply seq_NoDup].
    + intros x; rewrite in_map_iff; split.
      * intros Hx. apply In_nth with (d := 0%Z) in Hx as (i & Hi & <-). specialize (H1 i Hi).
        exists (Z.to_nat (nth i p 0%Z)). rewrite in_seq. lia.
      * intros (k & <- & Hk). apply in_seq in Hk.
        destruct (H3 k ltac:(lia)) as (i & Hi & <-). apply nth_In; exact Hi.
Qed.

(** invert *)
Definition inv_of (p : list nat) : list nat :=
  map (fun x => match index_of x p with Some i => i | None => 0 end) (seq 0 (length p)).

Lemma invert_ok p : is_perm p -> invert_permutation p = Ok (inv_of p).
Proof.
  intros Hp. unfold invert_permutation, inv_of. apply mapM_ok.
  intros x Hx. apply in_seq in Hx.
  destruct (index_of_In x p) as [i Hi]; [apply is_perm_In; [exact Hp|lia]|].
  rewrite Hi; reflexivity.
Qed.

Lemma inv_of_length p : length (inv_of p) = length p.
Proof. unfold inv_of; rewrite map_length, seq_length; reflexivity. Qed.

Lemma inv_of_nth p y : is_perm p -> y < length p ->
  nth y (inv_of p) 0 < length p /\ nth (nth y (inv_of p) 0) p 0 = y.
Proof.
  intros Hp Hy. unfold inv_of.
  set (f := fun x => match index_of x p with Some i => i | None => 0 end).
  rewrite (nth_indep _ 0 (f 0)) by (rewrite map_length, seq_length; exact Hy).
  rewrite map_nth, seq_nth by exact Hy. cbn [Nat.add]. unfold f.
  destruct (index_of_In y p) as [i Hi]; [apply is_perm_In; assumption|].
  rewrite Hi. destruct (index_of_Some _ _ _ Hi) as (H1 & H2 & _).
  split; [exact H2|]. apply nth_error_nth; exact H1.
Qed.

Lemma inv_of_nth' p i : is_perm p -> i < length p ->
  nth (nth i p 0) (inv_of p) 0 = i.
Proof.
  intros Hp Hi. pose proof (is_perm_nth_lt p i Hp Hi) as Hlt.
  destruct (inv_of_nth p (nth i p 0) Hp Hlt) as [H1 H2].
  eapply is_perm_inj; eauto.
Qed.

Lemma inv_of_perm p : is_perm p -> is_perm (inv_of p).
Proof.
  intros Hp. apply is_perm_bij. unfold bijection. rewrite inv_of_length.
  split; [|split].
  - intros i Hi; apply inv_of_nth; assumption.
  - intros i j Hi Hj Heq.
    destruct (inv_of_nth p i Hp Hi) as [_ Hi2]; destruct (inv_of_nth p j Hp Hj) as [_ Hj2].
    rewrite <- Hi2, <- Hj2, Heq; reflexivity.
  - intros y Hy. exists (nth y p 0). split; [apply is_perm_nth_lt; assumption|].
    apply inv_of_nth'; assumption.
Qed.

Lemma inv_of_inv p : is_perm p -> inv_of (inv_of p) = p.
Proof.
  intros Hp. apply list_eq_nth with (d := 0); rewrite !inv_of_length; [reflexivity|].
  intros i Hi. pose proof (inv_of_perm p Hp) as Hq.
  assert (i < length (inv_of p)) as Hi' by (rewrite inv_of_length; exact Hi).
  destruct (inv_of_nth (inv_of p) i Hq Hi') as [H1 H2].
  rewrite inv_of_length in H1.
  eapply (is_perm_inj (inv_of p)); [exact Hq| | |];
    rewrite ?inv_of_length; [exact H1|apply is_perm_nth_lt; assumption|].
  rewrite H2, inv_of_nth'; auto.
Qed.

(** permute / compose *)
Definition comp (a b : list nat) : list nat := map (fun j => nth j a 0) b.

Lemma comp_length a b : length (comp a b) = length b.
Proof. apply map_length. Qed.

Lemma comp_nth a b j : j < length b -> nth j (comp a b) 0 = nth (nth j b 0) a 0.
Proof.
  intros Hj. unfold comp. apply (nth_map_lt (fun k => nth k a 0)); exact Hj.
Qed.

Lemma permute_ok {A} (s : list A) (p : list nat) (d : A) :
  length s = length p -> is_perm p -> permute s p = Ok (map (fun j => nth j s d) p).
Proof.
  intros Hl Hp. unfold permute. rewrite Hl, Nat.eqb_refl. cbn [negb].
  rewrite (proj2 (checkp_spec p) Hp). cbn [negb]. apply mapM_ok.
  intros x Hx. apply (is_perm_In p) in Hx; [|exact Hp].
  rewrite (nth_error_nth' s d) by lia. reflexivity.
Qed.

Lemma compose_ok a b : length a = length b -> is_perm b -> compose_permutations a b = Ok (comp a b).
Proof. intros; apply permute_ok; assumption. Qed.

Lemma comp_perm a b : length a = length b -> is_perm a -> is_perm b -> is_perm (comp a b).
Proof.
  intros Hl Ha Hb. apply is_perm_bij. unfold bijection. rewrite comp_length. split; [|split].
  - intros i Hi. rewrite comp_nth by exact Hi. rewrite <- Hl. apply is_perm_nth_lt; [exact Ha|].
    rewrite Hl; apply is_perm_nth_lt; assumption.
  - intros i j Hi Hj. rewrite !comp_nth by assumption. intros Heq.
    apply (is_perm_inj a) in Heq; try assumption.
    + eapply (is_perm_inj b); eauto.
    + rewrite Hl; apply is_perm_nth_lt; assumption.
    + rewrite Hl; apply is_perm_nth_lt; assumption.
  - intros y Hy. rewrite <- Hl in Hy.
    destruct (inv_of_nth a y Ha Hy) as [H1 H2]. rewrite Hl in H1.
    destruct (inv_of_nth b _ Hb H1) as [H3 H4].
    exists (nth (nth y (inv_of a) 0) (inv_of b) 0). split; [exact H3|].
    rewrite comp_nth by exact H3. rewrite H4; exact H2.
Qed.

Lemma comp_assoc a b c : length a = length b -> length b = length c ->
  is_perm b -> is_perm c -> comp a (comp b c) = comp (comp a b) c.
Proof.
  intros H1 H2 Hb Hc. apply list_eq_nth with (d := 0); rewrite !comp_length; [reflexivity|].
  intros i Hi. rewrite !comp_nth; rewrite ?comp_length; try assumption; try reflexivity.
  rewrite H2; apply is_perm_nth_lt; assumption.
Qed.

Lemma comp_id_l p : is_perm p -> comp (seq 0 (length p)) p = p.
Proof.
  intros Hp. apply list_eq_nth with (d := 0); rewrite comp_length; [reflexivity|].
  intros i Hi. rewrite comp_nth by exact Hi.
  rewrite seq_nth; [reflexivity|]. apply is_perm_nth_lt; assumption.
Qed.

Lemma comp_id_r p : comp p (seq 0 (length p)) = p.
Proof.
  apply list_eq_nth with (d := 0); rewrite comp_length, seq_length; [reflexivity|].
  intros i Hi. rewrite comp_nth by (rewrite seq_length; exact Hi).
  rewrite seq_nth by exact Hi. reflexivity.
Qed.

Lemma comp_inv_r p : is_perm p -> comp p (inv_of p) = seq 0 (length p).
Proof.
  intros Hp. apply list_eq_nth with (d := 0); rewrite comp_length, inv_of_length, ?seq_length; [reflexivity|].
  intros i Hi. rewrite comp_nth by (rewrite inv_of_length; exact Hi).
  rewrite seq_nth by exact Hi. apply inv_of_nth; assumption.
Qed.

Lemma comp_inv_l p : is_perm p -> comp (inv_of p) p = seq 0 (length p).
Proof.
  intros Hp. apply list_eq_nth with (d := 0); rewrite comp_length, ?seq_length; [reflexivity|].
  intros i Hi. rewrite comp_nth by exact Hi.
  rewrite seq_nth by exact Hi. apply inv_of_nth'; assumption.
Qed.

Lemma is_perm_seq n : is_perm (seq 0 n).
Proof. unfold is_perm; rewrite seq_length; reflexivity. Qed.
