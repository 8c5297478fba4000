(** Partial traces of operators without commutators contain none. *)
From Coq Require Import QArith Qcanon.
From Verif Require Import Prelude ListFacts SortModel SortProofs BinModel OpModel OpSpec OpProofs1 OpFuel TrModel DoitModel DoitSpec DoitProofs1 DoitProofs2 DoitProofs3.
Local Open Scope nat_scope.
Local Ltac step H x E := match type of H with bind ?r _ = Ok _ => destruct r as [x|] eqn:E; [cbn [bind] in H|discriminate H] end.

Section Tr.
  Context {S : scalars} (cl : classes) (dim : nat -> option nat) (K : ocreators S) (HK : goodK cl K).
  Local Notation op := (op S).
  Local Notation expl := (expl cl).
  Context (chk : nat -> list op -> bool).
  Lemma k_scal_expl c x e : expl x -> k_scal K c x = Ok e -> expl e.
  Proof. intros H. exact (proj2 (f_scal _ K (g_fine cl K HK) c x H) e). Qed.
  Lemma k_plus_expl l e : Forall expl l -> k_plus K l = Ok e -> expl e.
  Proof. intros H. exact (proj2 (f_plus _ K (g_fine cl K HK) l H) e). Qed.
  Lemma k_times_expl l e : Forall expl l -> k_times K l = Ok e -> expl e.
  Proof. intros H. exact (proj2 (f_times _ K (g_fine cl K HK) l H) e). Qed.
  Lemma filter_expl f (l : list op) : Forall expl l -> Forall expl (filter f l).
  Proof. intros H. rewrite Forall_forall in *. intros x Hx. apply filter_In in Hx. now apply H. Qed.
  Lemma first_sigma_expl (l : list op) j b f : Forall expl l -> first_sigma l = Some (j, (b, f)) -> Forall expl b /\ Forall expl f.
  Proof.
    revert j b f. induction l as [|x l IH]; intros j b f Hl H; [discriminate|].
    destruct x as [| |a|c t|es|es|a b0|a|a h|s a]; try (cbn [first_sigma] in H; destruct (first_sigma l) as [[j0 [b1 f1]]|] eqn:E; [|discriminate H]; injection H as <- <- <-;
      destruct (IH _ _ _ (Forall_inv_tail Hl) eq_refl) as [H1 H2]; split; [constructor; [exact (Forall_inv Hl)|exact H1]|exact H2]).
    destruct a; try (cbn [first_sigma] in H; destruct (first_sigma l) as [[j0 [b1 f1]]|] eqn:E; [|discriminate H]; injection H as <- <- <-;
      destruct (IH _ _ _ (Forall_inv_tail Hl) eq_refl) as [H1 H2]; split; [constructor; [exact (Forall_inv Hl)|exact H1]|exact H2]).
    cbn [first_sigma] in H. injection H as <- <- <-. split; [constructor|exact Hl].
  Qed.
  Lemma rotate_expl ls (l l' : list op) : Forall expl l -> rotate ls l = Ok l' -> Forall expl l'.
  Proof.
    intros Hl H. unfold rotate in H. destruct l as [|x l]; [discriminate H|]. destruct (is_sigma x && _); [now injection H as <-|].
    destruct (first_sigma (x :: l)) as [[m [b f]]|] eqn:E; [|now injection H as <-]. injection H as <-. destruct (first_sigma_expl _ _ _ _ Hl E) as [H1 H2].
    apply Forall_app. split; [exact H2|]. apply Forall_app. split; [exact H1|]. constructor; [reflexivity|constructor].
  Qed.
  Section Step.
  Context (rec : list nat -> op -> res op) (Hrec : forall h e e', expl e -> rec h e = Ok e' -> expl e').
  Lemma pulled_expl ls p r e : Forall expl p -> Forall expl r -> pulled K rec ls p r = Ok e -> expl e.
  Proof.
    intros Hp Hr H. unfold pulled in H. step H a Ea. step H b Eb. step H t Et. apply (k_times_expl [a; t] e); [|exact H].
    constructor; [exact (k_times_expl _ _ Hp Ea)|]. constructor; [|constructor]. exact (Hrec _ _ _ (k_times_expl _ _ Hr Eb) Et).
  Qed.
  Lemma factor_expl ls e x : expl e -> factor_for_trace dim K chk rec ls e = Ok (Some x) -> expl x.
  Proof.
    intros He H. unfold factor_for_trace in H. destruct (eqb_list_nat (space e) [ls]).
    - destruct e as [| |a|c t|es|es|a b|a|a h|s a]; try discriminate H. apply (c_times _ (expl_closed cl)) in He.
      set (p := filter (fun o : op => match space o with [] => true | _ => false end) es) in *. assert (Forall expl p) as Hp by now apply filter_expl.
      clearbody p. destruct p as [|p0 p]; [discriminate H|]. destruct (pulled _ _ _ _ _) as [y|] eqn:E; [|discriminate H]. cbn [rmap] in H. injection H as <-.
      apply (pulled_expl _ _ _ _ Hp (filter_expl _ _ He) E).
    - destruct (negb (sp_mem ls (space e))).
      + destruct (dim ls) as [d|]; [|discriminate H]. destruct (k_scal K _ e) as [y|] eqn:E; [|discriminate H]. cbn [rmap] in H. injection H as <-. exact (k_scal_expl _ _ _ He E).
      + destruct e as [| |a|c t|es|es|a b|a|a h|s a]; try discriminate H. apply (c_times _ (expl_closed cl)) in He. step H r Er.
        apply (rotate_expl _ _ _ (filter_expl _ _ He)) in Er.
        set (p := filter (fun o : op => negb (sp_mem ls (space o))) es) in *. assert (Forall expl p) as Hp by now apply filter_expl.
        clearbody p. destruct p as [|p0 p]; [discriminate H|]. destruct (chk ls es); [|discriminate H].
        destruct (pulled _ _ _ _ _) as [y|] eqn:E; [|discriminate H]. cbn [rmap] in H. injection H as <-. exact (pulled_expl _ _ _ _ Hp Er E).
  Qed.
  Lemma trace_step_expl h e e' : expl e -> trace_step dim K chk rec h e = Ok e' -> expl e'.
  Proof.
    intros He H. unfold trace_step in H. destruct h as [|h0 h]; [now injection H as <-|].
    assert (forall r : res op, (match h with [] => r | _ => do t <- rec [last (h0 :: h) 0] e; rec (removelast (h0 :: h)) t end) = Ok e' -> (r = Ok e' -> expl e') -> expl e') as Hsplit.
    { intros r Hr Hk. destruct h as [|h1 h]; [now apply Hk|]. step Hr t Et. exact (Hrec _ _ _ (Hrec _ _ _ He Et) Hr). }
    assert (forall hh, (do r <- factor_for_trace dim K chk rec h0 e; match r with Some x => Ok x | None => Ok (OTr e hh) end) = Ok e' -> expl e') as Hby.
    { intros hh Hb. step Hb r Er. destruct r as [x|]; injection Hb as <-; [exact (factor_expl _ _ _ He Er)|exact He]. }
    destruct e as [| |a|c t|es|es|a b|a|a h'|s a].
    - now injection H as <-.
    - step H d Ed. now apply k_scal_expl in H.
    - apply Hsplit in H; [exact H|]. intros H'. destruct a; try exact (Hby _ H'); cbn beta iota in H'.
      + match type of H' with (if ?b then _ else _) = _ => destruct b end; [now injection H' as <-|exact (Hby _ H')].
      + match type of H' with (if ?b then _ else _) = _ => destruct b end; [now injection H' as <-|exact (Hby _ H')].
      + match type of H' with (if ?b then _ else _) = _ => destruct b end; [now apply k_scal_expl in H'|exact (Hby _ H')].
    - step H x Ex. exact (k_scal_expl _ _ _ (Hrec _ t _ He Ex) H).
    - step H l' El. apply (c_plus _ (expl_closed cl)) in He. apply (k_plus_expl l' e'); [|exact H]. clear H Hsplit Hby. revert l' El. induction He as [|x es Hx _ IH]; intros l' El; cbn [mapM] in El; [injection El as <-; constructor|].
      step El y Ey. step El ys Eys. injection El as <-. constructor; [exact (Hrec _ _ _ Hx Ey)|now apply IH].
    - apply Hsplit in H; [exact H|exact (Hby _)].
    - apply Hsplit in H; [exact H|exact (Hby _)].
    - step H t Et. exact (proj2 (adj_fine cl K HK t (Hrec _ a _ He Et)) _ H).
    - apply Hsplit in H; [exact H|exact (Hby _)].
    - apply Hsplit in H; [exact H|exact (Hby _)].
  Qed.
  End Step.
  Theorem trace_expl : forall n h e e', expl e -> trace_create dim K chk n h e = Ok e' -> expl e'.
  Proof. induction n as [|n IH]; intros h e e' He H; [discriminate|]. exact (trace_step_expl _ IH h e e' He H). Qed.
End Tr.
