(** More recursion depth never changes an answer of the simplifier. *)
From Verif Require Import Prelude ListFacts PermModel CircModel BinModel CSimpModel.

Definition le {A} (r r' : res A) : Prop := r = Err OutOfFuel \/ r = r'.
Definition leo {A} (r r' : outcome A) : Prop := r = Raises OutOfFuel \/ r = r'.
Lemma le_refl {A} (r : res A) : le r r.
Proof. now right. Qed.
Lemma le_fuel {A} (r : res A) : le (Err OutOfFuel) r.
Proof. now left. Qed.
Lemma le_bind {A B} (r r' : res A) (f f' : A -> res B) : le r r' -> (forall x, le (f x) (f' x)) -> le (bind r f) (bind r' f').
Proof. intros [-> | ->] H; [left; reflexivity|]. destruct r' as [x|e]; [apply H|apply le_refl]. Qed.
Lemma le_mapM {A B} (f f' : A -> res B) l : (forall x, le (f x) (f' x)) -> le (mapM f l) (mapM f' l).
Proof.
  intros H. induction l as [|x l IH]; [apply le_refl|]. cbn [mapM]. apply le_bind; [apply H|]. intros y. apply le_bind; [exact IH|].
  intros ys. apply le_refl.
Qed.
Lemma leo_refl {A} (r : outcome A) : leo r r.
Proof. now right. Qed.
Lemma leo_lift {X} (r r' : res (circ X)) : le r r' -> leo (lift r) (lift r').
Proof. intros [-> | ->]; [left; reflexivity|apply leo_refl]. Qed.

Section Bin.
  Context {A : Type} (cls cls' : bincls A).
  Context (Hr : Forall2 (fun f g => forall a b, leo (f a b) (g a b)) (binary_rules cls) (binary_rules cls'))
          (Hn : is_neutral cls = is_neutral cls') (Hne : neutral cls = neutral cls') (Hi : instance_args cls = instance_args cls').
  Lemma try_rules_mono a b : le (get_binary_replacement cls a b) (get_binary_replacement cls' a b).
  Proof.
    unfold get_binary_replacement. pose proof Hr as H. clear - H. induction H as [|f g rs rs' Hfg _ IH]; [apply le_refl|]. cbn [try_rules].
    destruct (Hfg a b) as [-> | ->]; [apply le_fuel|]. destruct (g a b); [exact IH|exact IH|apply le_refl|apply le_refl].
  Qed.
  Lemma combine_mono : forall f f' a b, f <= f' -> le (mrb_combine cls f a b) (mrb_combine cls' f' a b).
  Proof.
    induction f as [|f IH]; intros f' a b Hf; [apply le_fuel|]. destruct f' as [|f']; [lia|]. cbn [mrb_combine].
    destruct (split_last a) as [[a' x]|]; [|apply le_refl]. destruct b as [|y b]; [apply le_refl|].
    apply le_bind; [apply try_rules_mono|]. intros [r|]; [|apply le_refl]. rewrite <- Hn, <- Hi.
    destruct (is_neutral cls r); [apply IH; lia|]. apply le_bind; [apply IH; lia|]. intros l. apply IH; lia.
  Qed.
  Lemma reduce_mono f f' : f <= f' -> forall d l, le (mrb_reduce cls d f l) (mrb_reduce cls' d f' l).
  Proof.
    intros Hf. induction d as [|d IH]; intros l; [apply le_fuel|]. cbn [mrb_reduce]. destruct (length l <=? 1); [apply le_refl|].
    apply le_bind; [apply IH|]. intros x. apply le_bind; [apply IH|]. intros y. now apply combine_mono.
  Qed.
  Lemma match_replace_mono f f' l : f <= f' -> le (match_replace_binary cls f l) (match_replace_binary cls' f' l).
  Proof.
    intros Hf. unfold match_replace_binary. apply le_bind; [now apply reduce_mono|]. intros fops. rewrite Hne. apply le_refl.
  Qed.
End Bin.

Section Mono.
  Context {X : Type} (lit : lits X).
  Local Notation circ := (circ X).
  Record leK (K K' : creators X) : Prop := {
    m_series : forall l, le (k_series K l) (k_series K' l);
    m_concat : forall l, le (k_concat K l) (k_concat K' l);
    m_fb : forall c o i, le (k_fb K c o i) (k_fb K' c o i);
    m_inv : forall c, le (k_inv K c) (k_inv K' c);
    m_minv : forall c, le (k_minv K c) (k_minv K' c);
    m_mfb : forall c o i, le (k_mfb K c o i) (k_mfb K' c o i)
  }.
  Context (K K' : creators X) (HK : leK K K').

  Ltac mono :=
    repeat first
      [ apply (m_series K K' HK) | apply (m_concat K K' HK) | apply (m_fb K K' HK) | apply (m_inv K K' HK)
      | apply (m_minv K K' HK) | apply (m_mfb K K' HK)
      | apply le_refl
      | apply le_mapM; intros
      | apply le_bind; [|intros]
      | match goal with |- le (match ?x with _ => _ end) _ => destruct x end ].

  Lemma group_ops_mono : forall bs l, le (group_ops K bs l) (group_ops K' bs l).
  Proof. induction bs as [|b bs IH]; intros l; [apply le_refl|]. cbn [group_ops]. mono; try apply IH; mono. Qed.
  Lemma own_blocks_mono : forall c, le (own_blocks K c) (own_blocks K' c).
  Proof.
    fix IH 1. intros [l n|s n|p| | |ops|ops|d o i|d]; try apply le_refl. cbn [own_blocks].
    apply le_bind; [|intros; apply le_bind; [apply le_refl|intros; apply group_ops_mono]].
    induction ops as [|x ops IHo]; [apply le_refl|]. apply le_bind; [apply IH|]. intros b. apply le_bind; [exact IHo|]. intros r. apply le_refl.
  Qed.
  Lemma get_blocks_mono c bs : le (get_blocks K c bs) (get_blocks K' c bs).
  Proof.
    destruct c; try apply le_refl. cbn [get_blocks]. apply le_bind; [apply le_mapM, own_blocks_mono|]. intros. apply group_ops_mono.
  Qed.
  Ltac mono2 :=
    repeat first
      [ apply group_ops_mono | apply own_blocks_mono | apply get_blocks_mono
      | apply (m_series K K' HK) | apply (m_concat K K' HK) | apply (m_fb K K' HK) | apply (m_inv K K' HK)
      | apply (m_minv K K' HK) | apply (m_mfb K K' HK)
      | apply le_refl
      | apply le_mapM; intros
      | apply le_bind; [|intros]
      | match goal with |- le (match ?x with _ => _ end) _ => destruct x end ].
  Lemma tds_mono a b : le (tensor_decompose_series K a b) (tensor_decompose_series K' a b).
  Proof. unfold tensor_decompose_series. destruct b; mono2. Qed.
  Lemma ffr_mono p c : le (factorize_for_rhs K p c) (factorize_for_rhs K' p c).
  Proof. unfold factorize_for_rhs. mono2. Qed.
  Lemma fpb_mono p c : le (factor_permutation_for_blocks lit K p c) (factor_permutation_for_blocks lit K' p c).
  Proof. unfold factor_permutation_for_blocks. mono2. Qed.
  Ltac rule := intros a b; first [apply leo_refl | idtac];
    repeat match goal with |- leo (match ?x with _ => _ end) _ => destruct x; try apply leo_refl end;
    try (apply leo_lift; mono2).
  Lemma series_rules_mono : Forall2 (fun f g => forall a b, leo (f a b) (g a b)) (series_rules lit K) (series_rules lit K').
  Proof.
    unfold series_rules. repeat (apply Forall2_cons; [rule|]); try apply Forall2_nil; try apply tds_mono; try apply fpb_mono.
  Qed.
  Lemma concat_rules_mono : Forall2 (fun f g => forall a b, leo (f a b) (g a b)) (concat_rules lit K) (concat_rules lit K').
  Proof.
    unfold concat_rules. repeat (apply Forall2_cons; [rule|]); try apply Forall2_nil.
  Qed.
  Lemma create_series_mono f f' l : f <= f' -> le (create_series lit K f l) (create_series lit K' f' l).
  Proof.
    intros Hf. unfold create_series. destruct (flat_series l) as [|o ops]; [apply le_refl|].
    destruct (filter _ _) as [|x [|y l']]; [apply le_refl|apply le_refl|]. destruct (same_cdims _); [|apply le_refl].
    apply le_bind; [|intros; apply le_refl]. apply match_replace_mono; try reflexivity; [apply series_rules_mono|exact Hf].
  Qed.
  Lemma create_concat_mono f f' l : f <= f' -> le (create_concat lit K f l) (create_concat lit K' f' l).
  Proof.
    intros Hf. unfold create_concat. destruct (flat_concat l) as [|o ops]; [apply le_refl|].
    destruct (filter _ _) as [|x [|y l']]; [apply le_refl|apply le_refl|].
    apply le_bind; [|intros; apply le_refl]. apply match_replace_mono; try reflexivity; [apply concat_rules_mono|exact Hf].
  Qed.
  Lemma concat_feedback_mono ops o i : le (concat_feedback K ops o i) (concat_feedback K' ops o i).
  Proof. unfold concat_feedback. mono2. Qed.
  Lemma split_blocks_mono c p : le (split_blocks K c p) (split_blocks K' c p).
  Proof. unfold split_blocks. mono2. Qed.
  Lemma fb_impl_mono c o i : match fb_impl lit K c o i, fb_impl lit K' c o i with
    | Some r, Some r' => le r r' | None, None => True | _, _ => False end.
  Proof. destruct c; cbn [fb_impl]; try exact I; try apply le_refl. apply concat_feedback_mono. Qed.
  Lemma method_feedback_mono c o i : le (method_feedback lit K c o i) (method_feedback lit K' c o i).
  Proof.
    unfold method_feedback. pose proof (fb_impl_mono c o i) as H. destruct (fb_impl lit K c o i), (fb_impl lit K' c o i); try easy. mono.
  Qed.
  Lemma method_inverse_mono c : le (method_inverse lit K c) (method_inverse lit K' c).
  Proof. destruct c; cbn [method_inverse]; mono2. Qed.
  Lemma create_inv_mono c : le (create_inv lit K c) (create_inv lit K' c).
  Proof. destruct c; cbn [create_inv]; try apply le_refl; apply method_inverse_mono. Qed.
  Lemma fb_rules_mono : Forall2 (fun f g => forall c o i, leo (f c o i) (g c o i)) (fb_rules lit K) (fb_rules lit K').
  Proof.
    unfold fb_rules. repeat (apply Forall2_cons; [intros c o i|]); try apply Forall2_nil.
    - destruct c; try apply leo_refl. apply leo_lift. unfold series_feedback. mono2.
    - destruct c as [| | | | |[|[] [|r rest]]| | |]; try apply leo_refl. apply leo_lift. unfold pull_out_perm_lhs. mono2.
    - destruct c as [| | | | |[|[] [|r rest]]| | |]; try apply leo_refl. apply leo_lift. unfold pull_out_unaffected_blocks_lhs.
      mono2.
    - destruct c as [| | | | |ops| | |]; try apply leo_refl. destruct (split_last ops) as [[[|r rest] []]|]; try apply leo_refl.
      apply leo_lift. unfold pull_out_perm_rhs. mono2.
    - destruct c as [| | | | |ops| | |]; try apply leo_refl. destruct (split_last ops) as [[[|r rest] []]|]; try apply leo_refl.
      apply leo_lift. unfold pull_out_unaffected_blocks_rhs. mono2.
  Qed.
  Lemma match_replace_fb_mono rs rs' (c : circ) o i : Forall2 (fun f g => forall c o i, leo (f c o i) (g c o i)) rs rs' ->
    le (match_replace_fb rs c o i) (match_replace_fb rs' c o i).
  Proof.
    intros H. induction H as [|f g rs rs' Hfg _ IH]; [apply le_refl|]. cbn [match_replace_fb].
    destruct (Hfg c o i) as [-> | ->]; [apply le_fuel|]. destruct (g c o i) as [| |[r|]|e]; try exact IH; apply le_refl.
  Qed.
  Lemma create_fb_mono c o i : le (create_fb lit K c o i) (create_fb lit K' c o i).
  Proof.
    unfold create_fb. destruct (cdim c <=? 1); [apply le_refl|]. pose proof (fb_impl_mono c o i) as H.
    destruct (fb_impl lit K c o i), (fb_impl lit K' c o i); try easy. apply match_replace_fb_mono, fb_rules_mono.
  Qed.
  Lemma step_mono f f' : f <= f' -> leK (step lit f K) (step lit f' K').
  Proof.
    intros Hf. constructor; cbn [step k_series k_concat k_fb k_inv k_minv k_mfb]; intros.
    - now apply create_series_mono.
    - now apply create_concat_mono.
    - apply create_fb_mono.
    - apply create_inv_mono.
    - apply method_inverse_mono.
    - apply method_feedback_mono.
  Qed.
End Mono.

Section Fuel.
  Context {X : Type} (lit : lits X).
  Lemma simp_mono : forall f f', f <= f' -> leK (simp lit f) (simp lit f').
  Proof.
    induction f as [|f IH]; intros f' Hf.
    - constructor; cbn [simp no_fuel k_series k_concat k_fb k_inv k_minv k_mfb]; intros; apply le_fuel.
    - destruct f' as [|f']; [lia|]. cbn [simp]. apply step_mono; [apply IH; lia|lia].
  Qed.
  Lemma le_agree {A} (r r' : res A) : le r r' -> r <> Err OutOfFuel -> r' = r.
  Proof. intros [-> | ->] H; [congruence|reflexivity]. Qed.
End Fuel.
