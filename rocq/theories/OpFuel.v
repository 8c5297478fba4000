(** More recursion depth, and a sorting step defined on more lists, never change an
    answer of the operator simplifier. *)
From Verif Require Import Prelude ListFacts SortModel BinModel OpModel.

Definition undef {A} (r : res A) : Prop := r = Err OutOfFuel \/ r = Err Unmodelled.
Definition le {A} (r r' : res A) : Prop := undef r \/ r = r'.
Definition leo {A} (r r' : outcome A) : Prop := r = Raises OutOfFuel \/ r = Raises Unmodelled \/ r = r'.
Lemma le_refl {A} (r : res A) : le r r.
Proof. now right. Qed.
Lemma le_fuel {A} (r : res A) : le (Err OutOfFuel) r.
Proof. left. now left. Qed.
Lemma le_bind {A B} (r r' : res A) (f f' : A -> res B) : le r r' -> (forall x, le (f x) (f' x)) -> le (bind r f) (bind r' f').
Proof. intros [[-> | ->] | ->] H; [apply le_fuel|left; now right|]. destruct r' as [x|e]; [apply H|apply le_refl]. Qed.
Lemma le_mapM {A B} (f f' : A -> res B) l : (forall x, le (f x) (f' x)) -> le (mapM f l) (mapM f' l).
Proof.
  intros H. induction l as [|x l IH]; [apply le_refl|]. cbn [mapM]. apply le_bind; [apply H|]. intros y. apply le_bind; [exact IH|].
  intros ys. apply le_refl.
Qed.
Lemma le_ok {A} (r r' : res A) x : le r r' -> r = Ok x -> r' = Ok x.
Proof. intros [[-> | ->] | ->]; [discriminate|discriminate|easy]. Qed.
Lemma leo_refl {A} (r : outcome A) : leo r r.
Proof. right. now right. Qed.
Lemma leo_lift {A} (r r' : res A) : le r r' -> leo (olift r) (olift r').
Proof. intros [[-> | ->] | ->]; [now left|right; now left|apply leo_refl]. Qed.

Section Bin.
  Context {A : Type} (cls cls' : bincls A).
  Context (Hr : Forall2 (fun f g => forall a b, leo (f a b) (g a b)) (binary_rules cls) (binary_rules cls'))
          (Hn : is_neutral cls = is_neutral cls') (Hne : neutral cls = neutral cls') (Hi : instance_args cls = instance_args cls').
  Lemma try_rules_mono a b : le (get_binary_replacement cls a b) (get_binary_replacement cls' a b).
  Proof.
    unfold get_binary_replacement. pose proof Hr as H. clear - H. induction H as [|f g rs rs' Hfg _ IH]; [apply le_refl|]. cbn [try_rules].
    destruct (Hfg a b) as [-> | [-> | ->]]; [apply le_fuel|left; now right|]. destruct (g a b); [exact IH|exact IH|apply le_refl|apply le_refl].
  Qed.
  Lemma combine_mono : forall f f' a b, f <= f' -> le (mrb_combine cls f a b) (mrb_combine cls' f' a b).
  Proof.
    induction f as [|f IH]; intros f' a b Hf; [apply le_fuel|]. destruct f' as [|f']; [lia|]. cbn [mrb_combine].
    destruct (split_last a) as [[a' x]|]; [|apply le_refl]. destruct b as [|y b]; [apply le_refl|].
    apply le_bind; [apply try_rules_mono|]. intros [r|]; [|apply le_refl]. rewrite <- Hn, <- Hi.
    destruct (is_neutral cls r); [apply IH; lia|]. apply le_bind; [apply IH; lia|]. intros l. apply IH; lia.
  Qed.
  Lemma reduce_mono f f' : f <= f' -> forall d l, le (mrb_reduce cls d f l) (mrb_reduce cls' d f' l).
  Proof.
    intros Hf. induction d as [|d IH]; intros l; [apply le_fuel|]. cbn [mrb_reduce]. destruct (length l <=? 1); [apply le_refl|].
    apply le_bind; [apply IH|]. intros x. apply le_bind; [apply IH|]. intros y. now apply combine_mono.
  Qed.
  Lemma match_replace_mono f f' l : f <= f' -> le (match_replace_binary cls f l) (match_replace_binary cls' f' l).
  Proof.
    intros Hf. unfold match_replace_binary. apply le_bind; [now apply reduce_mono|]. intros fops. rewrite Hne. apply le_refl.
  Qed.
End Bin.

Section Mono.
  Context {S : scalars} (dim : nat -> option nat) (olt : op S -> op S -> bool) (slt : list nat -> list nat -> bool).
  Context (ord ord' : list (op S) -> res (list (op S))) (Hord : forall l, le (ord l) (ord' l)).
  Local Notation op := (op S).
  Record leK (K K' : ocreators S) : Prop := {
    m_scal : forall c a, le (k_scal K c a) (k_scal K' c a);
    m_plus : forall l, le (k_plus K l) (k_plus K' l);
    m_times : forall l, le (k_times K l) (k_times K' l);
    m_comm : forall a b, le (k_comm K a b) (k_comm K' a b)
  }.

  Section Step.
  Context (K K' : ocreators S) (HK : leK K K').
  Ltac mono :=
    repeat first
      [ apply (m_scal K K' HK) | apply (m_plus K K' HK) | apply (m_times K K' HK) | apply (m_comm K K' HK)
      | apply le_refl
      | apply le_mapM; intros
      | apply le_bind; [|intros]
      | match goal with |- le (match ?x with _ => _ end) _ => destruct x end ].
  Lemma scal_mono c a : le (scal_step K c a) (scal_step K' c a).
  Proof. unfold scal_step. mono. Qed.
  Lemma plus_mono l : le (plus_step olt slt K l) (plus_step olt slt K' l).
  Proof. unfold plus_step, collect_summands. mono. Qed.
  Ltac rule := intros a b; unfold r001, r002, r003, r004, r005, r009, r010, r011, r012, r013, r014, r015, r016, r017, r018, r019, r020, r021,
      r022, r023, r024, r025, r026, r027, r028, r029, r030, local_rule, add_scalar;
    first [apply leo_refl | idtac];
    repeat match goal with |- leo (match ?x with _ => _ end) _ => destruct x; try apply leo_refl end;
    try (apply leo_lift; mono).
  Lemma times_rules_mono : Forall2 (fun f g => forall a b, leo (f a b) (g a b)) (times_rules dim K) (times_rules dim K').
  Proof. unfold times_rules. repeat (apply Forall2_cons; [solve [rule]|]). apply Forall2_nil. Qed.
  Lemma times_mono f f' l : f <= f' -> le (times_step dim ord K f l) (times_step dim ord' K' f' l).
  Proof.
    intros Hf. unfold times_step. apply le_bind; [apply Hord|]. intros [|x l']; [apply le_refl|].
    destruct (filter _ _) as [|y [|z l2]]; [apply le_refl|apply le_refl|]. apply le_bind; [|intros; apply le_refl].
    apply match_replace_mono; try reflexivity; [apply times_rules_mono|exact Hf].
  Qed.
  Lemma comm_mono a b : le (comm_step olt slt K a b) (comm_step olt slt K' a b).
  Proof.
    unfold comm_step. destruct (sp_disjoint _ _); [apply le_refl|]. destruct (ofull_lt _ _ _ _); [mono|].
    unfold comm_rules. destruct (oeqb a b); [apply le_refl|]. unfold written_out, osub. mono.
  Qed.
  Lemma oadj_mono : forall e, le (oadj K e) (oadj K' e).
  Proof.
    fix IH 1. intros [| |a|c t|l|l|a b|a|a h|s a]; cbn [oadj]; try apply le_refl.
    - apply le_bind; [apply IH|]. intros; apply le_refl.
    - apply le_bind; [|intros; apply le_refl]. induction l as [|x l IHl]; [apply le_refl|]. apply le_bind; [apply IH|]. intros. apply le_bind; [exact IHl|]. intros; apply le_refl.
    - apply le_bind; [|intros; apply (m_times K K' HK)]. induction l as [|x l IHl]; [apply le_refl|]. apply le_bind; [apply IH|]. intros. apply le_bind; [exact IHl|]. intros; apply le_refl.
    - apply le_bind; [apply IH|]. intros. apply le_bind; [apply IH|]. intros; apply le_refl.
    - apply le_bind; [apply IH|]. intros; apply le_refl.
  Qed.
  Lemma le_foldM {X Y} (f f' : X -> Y -> res X) l : (forall x y, le (f x y) (f' x y)) -> forall a, le (foldM f a l) (foldM f' a l).
  Proof. intros H. induction l as [|y l IH]; intros a; [apply le_refl|]. cbn [foldM]. apply le_bind; [apply H|]. exact IH. Qed.
  Lemma expand_mono : forall n n' e, n <= n' -> le (expand K n e) (expand K' n' e).
  Proof.
    induction n as [|n IH]; intros n' e Hn; [apply le_fuel|]. destruct n' as [|n']; [lia|]. assert (n <= n') as Hn' by lia. cbn [expand].
    assert (forall l, le (add_all K l) (add_all K' l)) as Hadd.
    { intros [|x l]; [apply le_refl|]. cbn [add_all]. apply le_foldM. intros; apply (m_plus K K' HK). }
    assert (forall ret, le match ret with OPlus _ => expand K n ret | _ => Ok ret end match ret with OPlus _ => expand K' n' ret | _ => Ok ret end) as Hfin.
    { intros ret. destruct ret; try apply le_refl. now apply IH. }
    destruct e as [| |a|c t|l|l|a b|a|a h|s a]; try apply le_refl.
    - apply le_bind; [now apply IH|]. intros t'. apply le_bind; [apply le_mapM; intros; apply (m_scal K K' HK)|]. intros. apply le_bind; [apply Hadd|]. intros; apply Hfin.
    - apply le_bind; [apply le_mapM; intros; now apply IH|]. intros. apply (m_plus K K' HK).
    - apply le_bind; [apply le_mapM; intros; now apply IH|]. intros. apply le_bind.
      + apply le_mapM. intros [|x0 c0]; [apply le_refl|]. apply le_foldM. intros; apply (m_times K K' HK).
      + intros. apply le_bind; [apply Hadd|]. intros; apply Hfin.
    - apply le_bind; [now apply IH|]. intros. apply le_bind; [now apply IH|]. intros. apply le_bind.
      + apply le_mapM. intros [|u1 [|u2 [|u3 u4]]]; try apply le_refl. apply (m_comm K K' HK).
      + intros. apply (m_plus K K' HK).
    - apply le_bind; [now apply IH|]. intros a'. destruct a'; try apply le_refl; apply oadj_mono.
  Qed.
  End Step.

  Theorem creators_mono : forall n n', n <= n' -> leK (creators_n dim olt slt ord n) (creators_n dim olt slt ord' n').
  Proof.
    induction n as [|n IH]; intros n' Hn; [constructor; intros; apply le_fuel|]. destruct n' as [|n']; [lia|]. assert (n <= n') as Hn' by lia.
    pose proof (IH n' Hn') as HK. cbn [creators_n]. constructor; cbn [k_scal k_plus k_times k_comm].
    - intros. now apply scal_mono.
    - intros. now apply plus_mono.
    - intros. now apply times_mono.
    - intros. now apply comm_mono.
  Qed.
End Mono.
