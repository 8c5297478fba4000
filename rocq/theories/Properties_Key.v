(** C47: cache keys built with nested_tuple. *)
From Verif Require Import Prelude SortModel KeyModel KeySpec KeyProofs.

(** Two containers have the same key only if they hold the same entries. *)
Theorem C47_keys_equal_same_entries x y :
  sortable x -> sortable y -> nested_tuple x = nested_tuple y -> same_data x y.
Proof. apply nt_injective. Qed.

(** Equal containers have the same key: the iteration order of dicts and sets
    does not matter. *)
Theorem C47_order_independent x y :
  sortable x -> sortable y -> pyeq x y -> nested_tuple x = nested_tuple y.
Proof. apply nt_order_independent. Qed.

(** The key is a tuple of tuples, hashable exactly when every object in the
    original structure is. *)
Theorem C47_hashable x : sortable x -> hashable (nested_tuple x) <-> hashable_leaves x.
Proof. apply nt_hashable. Qed.

(** On keys of one sortable type (for instance all strings) equal keys mean equal
    Python values. *)
Theorem C47_typed_injective t x y :
  has_ty t x -> has_ty t y -> nested_tuple x = nested_tuple y <-> pyeq x y.
Proof.
  intros Hx Hy. split; [apply (typed_inj t x y Hx Hy)|].
  assert (H : forall t x, has_ty t x -> sortable x).
  { clear. induction t as [| | |ts IH|t IH] using kty_ind'; intros x Hx.
    - destruct x; try contradiction; exact I.
    - destruct x; try contradiction; exact I.
    - destruct x; try contradiction; exact I.
    - apply has_tup in Hx. destruct Hx as [l [-> Hl]]. apply sortable_cont. split; [|exact I].
      revert l Hl. induction IH as [|t ts Ht _ IHts]; intros l Hl.
      + inversion Hl. constructor.
      + inversion Hl as [|? x ? l1 Hx Hl1]. subst. constructor; [apply Ht, Hx|apply IHts, Hl1].
    - apply has_froz in Hx. destruct Hx as [l [-> Hl]]. apply sortable_cont. split; [|exists t; exact Hl].
      eapply Forall_impl; [|exact Hl]. exact IH. }
  apply nt_order_independent; apply (H t); assumption.
Qed.

(** Instance keys: for the same number of positional arguments the key determines
    the class, every positional argument and the keyword arguments. *)
Theorem C47_instance_key cls cls' args args' kw kw' :
  sortable (PCont KTup args) -> sortable (PCont KTup args') ->
  sortable (PCont KDict kw) -> sortable (PCont KDict kw') ->
  length args = length args' ->
  instance_key cls args kw = instance_key cls' args' kw' ->
  cls = cls' /\ Forall2 same_data args args' /\ same_data (PCont KDict kw) (PCont KDict kw').
Proof.
  intros H1 H2 H3 H4 HL E. unfold instance_key in E. cbn [nested_tuple entries] in E.
  injection E as <- E. split; [reflexivity|].
  assert (E' : map nested_tuple args = map nested_tuple args'
               /\ nested_tuple (PCont KDict kw) = nested_tuple (PCont KDict kw')).
  { cbn [nested_tuple]. revert E. generalize (sorted_if_possible (map nested_tuple kw)) (sorted_if_possible (map nested_tuple kw')).
    clear - HL. revert args' HL. induction args as [|a args IH]; intros [|b args'] HL u v E; try discriminate.
    - cbn in E. subst. auto.
    - cbn in E. injection E as Ea E. destruct (IH args' ltac:(cbn in HL; congruence) u v E) as [E1 E2].
      cbn. rewrite Ea, E1, E2. auto. }
  destruct E' as [Ea Ek]. split.
  - apply (map_F2 nested_tuple); [exact Ea|]. apply sortable_cont in H1, H2.
    destruct H1 as [H1 _], H2 as [H2 _]. rewrite Forall_forall in H1, H2.
    intros x y Hx Hy. apply nt_injective; auto.
  - apply nt_injective; assumption.
Qed.

(** and equal arguments give equal keys *)
Theorem C47_instance_key_complete cls args args' kw kw' :
  sortable (PCont KTup args) -> sortable (PCont KTup args') ->
  sortable (PCont KDict kw) -> sortable (PCont KDict kw') ->
  pyeq (PCont KTup args) (PCont KTup args') -> pyeq (PCont KDict kw) (PCont KDict kw') ->
  instance_key cls args kw = instance_key cls args' kw'.
Proof.
  intros H1 H2 H3 H4 E1 E2. unfold instance_key.
  rewrite (nt_order_independent _ _ H1 H2 E1), (nt_order_independent _ _ H3 H4 E2). reflexivity.
Qed.

(** ** Where the claim fails *)

(** The kind of the container is lost: [[1]] and [(1,)] have the same key, and so
    do the dict [{1: 2}] and the tuple [((1, 2),)]. *)
Theorem C47_container_kind_refuted :
  nested_tuple (PCont KList [PInt 1]) = nested_tuple (PCont KTup [PInt 1])
  /\ ~ pyeq (PCont KList [PInt 1]) (PCont KTup [PInt 1])
  /\ nested_tuple (PCont KDict [PCont KTup [PInt 1; PInt 2]])
     = nested_tuple (PCont KTup [PCont KTup [PInt 1; PInt 2]]).
Proof.
  split; [reflexivity|]. split; [|reflexivity]. intros H. inversion H; contradiction.
Qed.

(** Entries that cannot be sorted are lost altogether: the handler of
    sorted_if_possible reads an iterator that is already exhausted. All sets and
    dictionaries with two unsortable entries share the key [()], whatever they
    hold: [{1, "a"}], [{2, "b"}] and [{None: x, 1: y}] for any x and y. *)
Theorem C47_unsortable_lost_refuted a b c d x y :
  nested_tuple (PCont KSet [PInt a; PStr b]) = PCont KTup []
  /\ nested_tuple (PCont KSet [PInt c; PStr d]) = PCont KTup []
  /\ nested_tuple (PCont KDict [PCont KTup [PNone; x]; PCont KTup [PInt a; y]]) = PCont KTup []
  /\ (a <> c -> ~ same_data (PCont KSet [PInt a; PStr b]) (PCont KSet [PInt c; PStr d])).
Proof.
  split; [reflexivity|]. split; [reflexivity|]. split; [reflexivity|].
  intros Hne H. inversion H as [? HL|? ? ? ? l2 HF Hp _]; [contradiction|]. subst.
  inversion HF as [|? u ? l3 Hu _]. subst.
  assert (Hin : In u [PInt c; PStr d]) by (apply (Permutation_in u Hp); left; reflexivity).
  destruct Hin as [<-|[<-|[]]]; inversion Hu; subst; contradiction.
Qed.

(** A positional argument [("a", 1)] and the keyword argument [a=1] give the same
    instance key. *)
Theorem C47_args_kwargs_refuted cls :
  instance_key cls [PCont KTup [PStr [97]; PInt 1]] [] = instance_key cls [] [PCont KTup [PStr [97]; PInt 1]].
Proof. reflexivity. Qed.

(** The hypotheses are met: keyword arguments [{"b": {3, 1}, "a": [obj, None]}]
    in two iteration orders. *)
Definition ex_kw1 := PCont KDict [PCont KTup [PStr [98]; PCont KSet [PInt 3; PInt 1]];
                                  PCont KTup [PStr [97]; PCont KList [PObj true 7; PNone]]].
Definition ex_kw2 := PCont KDict [PCont KTup [PStr [97]; PCont KList [PObj true 7; PNone]];
                                  PCont KTup [PStr [98]; PCont KSet [PInt 1; PInt 3]]].
Example C47_hyps : sortable ex_kw1 /\ sortable ex_kw2 /\ pyeq ex_kw1 ex_kw2 /\ hashable_leaves ex_kw1
  /\ nested_tuple ex_kw1 = PCont KTup [PCont KTup [PStr [97]; PCont KTup [PObj true 7; PNone]];
                                      PCont KTup [PStr [98]; PCont KTup [PInt 1; PInt 3]]].
Proof.
  assert (D : forall s t, s <> t -> ~ pyeq (PStr s) (PStr t)) by (intros s t Hst H; inversion H; congruence).
  split; [|split; [|split; [|split]]].
  - cbn. repeat split; try (exists TyInt; solve [repeat constructor]).
    exists TyStr, [PStr [98]; PStr [97]]. repeat split; repeat constructor; try (eexists; reflexivity).
    apply D; discriminate.
  - cbn. repeat split; try (exists TyInt; solve [repeat constructor]).
    exists TyStr, [PStr [97]; PStr [98]]. repeat split; repeat constructor; try (eexists; reflexivity).
    apply D; discriminate.
  - unfold ex_kw1, ex_kw2. eapply eq_cont; [|apply perm_swap|contradiction].
    constructor; [|constructor; [|constructor]].
    + eapply eq_cont; [|apply Permutation_refl|reflexivity].
      constructor; [constructor; exact I|constructor; [|constructor]].
      eapply eq_cont; [|apply perm_swap|contradiction]. repeat constructor.
    + eapply eq_cont; [|apply Permutation_refl|reflexivity].
      constructor; [constructor; exact I|constructor; [|constructor]].
      eapply eq_cont; [|apply Permutation_refl|reflexivity]. repeat constructor.
  - cbn. repeat split.
  - reflexivity.
Qed.
Example C47_typed_hyps : has_ty (TyTup [TyStr; TyFroz TyInt]) (PCont KTup [PStr [1]; PCont KSet [PInt 2; PInt 1]]).
Proof. cbn. repeat constructor. Qed.

Print Assumptions C47_keys_equal_same_entries.
Print Assumptions C47_order_independent.
Print Assumptions C47_hashable.
Print Assumptions C47_typed_injective.
Print Assumptions C47_instance_key.
Print Assumptions C47_instance_key_complete.
Print Assumptions C47_container_kind_refuted.
Print Assumptions C47_unsortable_lost_refuted.
Print Assumptions C47_args_kwargs_refuted.
