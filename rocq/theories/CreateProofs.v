From Verif Require Import Prelude CreateModel CreateSpec.

Scheme creates_mut := Induction for creates Sort Prop
  with simplifies_mut := Induction for simplifies Sort Prop
  with evaluates_mut := Induction for evaluates Sort Prop.
Combined Scheme create_ind from creates_mut, simplifies_mut, evaluates_mut.

Section P.
  Context {C AR V K : Type} (W : classes C AR V K) (Keqb : K -> K -> bool).
  Hypothesis sound : keys_sound W Keqb.
  Hypothesis idem : idempotent_claims_hold W Keqb.

  Definition consistent (s : cache V K) : Prop := forall c a v,
    lookup Keqb (get_instance_key W c a) s = Some v -> creates W c a (Ok v).

  Lemma consistent_nil : consistent [].
  Proof. intros c a v H. discriminate. Qed.

  Lemma store_consistent k v s : consistent s ->
    (forall c a, Keqb (get_instance_key W c a) k = true -> creates W c a (Ok v)) -> consistent (store k v s).
  Proof.
    intros Hs Hk c a v' H. unfold store in H. cbn in H.
    destruct (Keqb (get_instance_key W c a) k) eqn:E.
    - injection H as <-. apply Hk, E.
    - apply Hs; exact H.
  Qed.

  Definition call_ok (call : C -> AR -> cache V K -> option (res V * cache V K)) : Prop :=
    forall c a s r s', consistent s -> call c a s = Some (r, s') -> creates W c a r /\ consistent s'.

  Lemma run_ok call : call_ok call -> forall p s r s', consistent s ->
    run call p s = Some (r, s') -> evaluates W p r /\ consistent s'.
  Proof.
    intros Hc p. induction p as [r0|e|c a k IH]; intros s r s' Hs H; cbn in H.
    - injection H as <- <-. split; [constructor|exact Hs].
    - injection H as <- <-. split; [constructor|exact Hs].
    - destruct (call c a s) as [[r1 s1]|] eqn:E; [|discriminate].
      apply Hc in E; [|exact Hs]. destruct E as [E1 E2].
      apply IH in H; [|exact E2]. destruct H as [H1 H2]. split; [|exact H2].
      econstructor; eassumption.
  Qed.

  Lemma record1_ok b c a v s : consistent s -> creates W c a (Ok v) ->
    consistent (record1 b (get_instance_key W c a) v s).
  Proof.
    intros Hs H. destruct b; cbn; [|exact Hs]. apply store_consistent; [exact Hs|].
    intros c' a' E. exact (sound _ _ _ _ _ E H).
  Qed.

  Lemma loop_ok b call : call_ok call -> forall c a0 simps a s r s',
    consistent s -> (forall r, simplifies W c simps a r -> creates W c a0 r) ->
    simplify_loop W b call c (get_instance_key W c a0) simps a s = Some (r, s') ->
    simplifies W c simps a r /\ consistent s'.
  Proof.
    intros Hcall c a0. induction simps as [|f rest IH]; intros a s r s' Hs Hcr H; cbn [simplify_loop] in H.
    - destruct (run call (instantiate W c a) s) as [[[[v|a']|e] s1]|] eqn:E; try discriminate;
        injection H as <- <-; apply (run_ok call Hcall) in E; try exact Hs; destruct E as [E1 E2].
      + split; [constructor; exact E1|].
        assert (creates W c a0 (Ok v)) as Hv by (apply Hcr; constructor; exact E1).
        unfold record2. destruct (create_idempotent W c) eqn:I; cbn [andb].
        * destruct b; [|apply (record1_ok false c a0 v s1 E2 Hv)].
          apply store_consistent; [apply (record1_ok true c a0 v s1 E2 Hv)|].
          intros c' a' Ek. apply (sound _ _ _ _ _ Ek).
          destruct (idem c I) as [_ I2]. apply I2; exact E1.
        * apply (record1_ok b c a0 v s1 E2 Hv).
      + split; [econstructor; exact E1|exact E2].
      + split; [constructor; exact E1|exact E2].
    - destruct (run call (f a) s) as [[[[v|a']|e] s1]|] eqn:E; try discriminate;
        apply (run_ok call Hcall) in E; try exact Hs; destruct E as [E1 E2].
      + injection H as <- <-. split; [constructor; exact E1|].
        assert (creates W c a0 (Ok v)) as Hv by (apply Hcr; constructor; exact E1).
        unfold record2. destruct (instance_key W v) as [k2|] eqn:Ik; [|apply (record1_ok b c a0 v s1 E2 Hv)].
        destruct (create_idempotent W c) eqn:I; cbn [andb].
        * destruct b; [|apply (record1_ok false c a0 v s1 E2 Hv)].
          apply store_consistent; [apply (record1_ok true c a0 v s1 E2 Hv)|].
          intros c' a' Ek. destruct (idem c I) as [I1 _]. exact (I1 a0 v k2 c' a' Hv Ik Ek).
        * apply (record1_ok b c a0 v s1 E2 Hv).
      + apply IH in H; [|exact E2|].
        * destruct H as [H1 H2]. split; [|exact H2]. eapply simplifies_args; eassumption.
        * intros r' Hr'. apply Hcr. eapply simplifies_args; eassumption.
      + injection H as <- <-. split; [constructor; exact E1|exact E2].
  Qed.

  Lemma create_ok b depth : call_ok (create W Keqb b depth).
  Proof.
    induction depth as [|d IH]; intros c a s r s' Hs H; cbn [create] in H; [discriminate|].
    destruct (if b then lookup Keqb (get_instance_key W c a) s else None) as [v|] eqn:L.
    - injection H as <- <-. destruct b; [|discriminate]. split; [apply Hs; exact L|exact Hs].
    - apply (loop_ok b _ IH) in H; [|exact Hs|].
      + destruct H as [H1 H2]. split; [constructor; exact H1|exact H2].
      + intros r' Hr'. constructor; exact Hr'.
  Qed.
End P.

(** *** completeness: enough depth always exists *)
Section Q.
  Context {C AR V K : Type} (W : classes C AR V K) (Keqb : K -> K -> bool).

  Lemma run_mono (call call' : C -> AR -> cache V K -> option (res V * cache V K)) :
    (forall c a s x, call c a s = Some x -> call' c a s = Some x) ->
    forall (p : prog C AR V) s (x : res (V + AR) * cache V K), run call p s = Some x -> run call' p s = Some x.
  Proof.
    intros Hc p. induction p as [r0|e|c a k IH]; intros s x H; cbn in *; try exact H.
    destruct (call c a s) as [[r1 s1]|] eqn:E; [|discriminate].
    rewrite (Hc _ _ _ _ E). apply IH; exact H.
  Qed.
  Lemma loop_mono b call call' : (forall c a s x, call c a s = Some x -> call' c a s = Some x) ->
    forall c key simps a s x, simplify_loop W b call c key simps a s = Some x ->
      simplify_loop W b call' c key simps a s = Some x.
  Proof.
    intros Hc c key. induction simps as [|f rest IH]; intros a s x H; cbn [simplify_loop] in *.
    - destruct (run call (instantiate W c a) s) as [[r s1]|] eqn:E; [|discriminate].
      rewrite (run_mono _ _ Hc _ _ _ E). exact H.
    - destruct (run call (f a) s) as [[r s1]|] eqn:E; [|discriminate].
      rewrite (run_mono _ _ Hc _ _ _ E). destruct r as [[v|a']|e]; try exact H. apply IH; exact H.
  Qed.
  Lemma create_mono b d : forall c a s x, create W Keqb b d c a s = Some x -> create W Keqb b (S d) c a s = Some x.
  Proof.
    induction d as [|d IH]; intros c a s x H; [discriminate|].
    cbn [create] in H. cbn [create]. destruct (if b then _ else None); [exact H|].
    eapply loop_mono; [|exact H]. intros c' a' s' x' H'. apply IH in H'. exact H'.
  Qed.
  Lemma create_le b d d' c a s x : d <= d' -> create W Keqb b d c a s = Some x -> create W Keqb b d' c a s = Some x.
  Proof. induction 1; [auto|]. intros H'. apply create_mono. auto. Qed.

  (** in the absence of any consistency, depth is enough for *some* result
      provided the cache is consistent; here with caching off *)
  Lemma uncached_complete :
    (forall c a r, creates W c a r -> forall s, exists d, create W Keqb false d c a s = Some (r, s)) /\
    (forall c simps a r, simplifies W c simps a r -> forall key s, exists d,
       simplify_loop W false (create W Keqb false d) c key simps a s = Some (r, s)) /\
    (forall p r, evaluates W p r -> forall s, exists d, run (create W Keqb false d) p s = Some (r, s)).
  Proof.
    apply (create_ind C AR V K W
      (fun c a r _ => forall s, exists d, create W Keqb false d c a s = Some (r, s))
      (fun c simps a r _ => forall key s, exists d, simplify_loop W false (create W Keqb false d) c key simps a s = Some (r, s))
      (fun p r _ => forall s, exists d, run (create W Keqb false d) p s = Some (r, s))).
    - intros c a r _ IH s. destruct (IH (get_instance_key W c a) s) as [d Hd]. exists (S d). exact Hd.
    - intros c a v _ IH key s. destruct (IH s) as [d Hd]. exists d. cbn [simplify_loop]. rewrite Hd.
      unfold record2, record1. rewrite andb_false_r. reflexivity.
    - intros c a e _ IH key s. destruct (IH s) as [d Hd]. exists d. cbn [simplify_loop]. rewrite Hd. reflexivity.
    - intros c a a' _ IH key s. destruct (IH s) as [d Hd]. exists d. cbn [simplify_loop]. rewrite Hd. reflexivity.
    - intros c f rest a v _ IH key s. destruct (IH s) as [d Hd]. exists d. cbn [simplify_loop]. rewrite Hd.
      unfold record2, record1. rewrite andb_false_r. destruct (instance_key W v); reflexivity.
    - intros c f rest a a' r _ IH1 _ IH2 key s. destruct (IH1 s) as [d1 H1]. destruct (IH2 key s) as [d2 H2].
      exists (d1 + d2). cbn [simplify_loop].
      rewrite (run_mono (create W Keqb false d1) _) with (x := (Ok (inr a'), s));
        [|intros; eapply create_le; [|eassumption]; lia|exact H1].
      eapply loop_mono; [|exact H2]. intros; eapply create_le; [|eassumption]; lia.
    - intros c f rest a e _ IH key s. destruct (IH s) as [d Hd]. exists d. cbn [simplify_loop]. rewrite Hd. reflexivity.
    - intros r s. exists 0. reflexivity.
    - intros e s. exists 0. reflexivity.
    - intros c a k r r' _ IH1 _ IH2 s. destruct (IH1 s) as [d1 H1]. destruct (IH2 s) as [d2 H2].
      exists (d1 + d2). cbn [run]. rewrite (create_le false d1 (d1 + d2) c a s _ ltac:(lia) H1).
      eapply run_mono; [|exact H2]. intros; eapply create_le; [|eassumption]; lia.
  Qed.

  Lemma creates_det c a r r' : creates W c a r -> creates W c a r' -> r = r'.
  Proof.
    intros H H'. destruct (proj1 uncached_complete c a r H []) as [d Hd].
    destruct (proj1 uncached_complete c a r' H' []) as [d' Hd'].
    apply (create_le false d (d + d')) in Hd; [|lia]. apply (create_le false d' (d + d')) in Hd'; [|lia].
    congruence.
  Qed.
End Q.

Section R.
  Context {C AR V K : Type} (W : classes C AR V K) (Keqb : K -> K -> bool).
  Hypothesis sound : keys_sound W Keqb.
  Hypothesis idem : idempotent_claims_hold W Keqb.

  Lemma evaluates_det p r r' : evaluates W p r -> evaluates W p r' -> r = r'.
  Proof.
    intros H H'. destruct (proj2 (proj2 (uncached_complete W Keqb)) p r H []) as [d Hd].
    destruct (proj2 (proj2 (uncached_complete W Keqb)) p r' H' []) as [d' Hd'].
    apply (run_mono _ (create W Keqb false (d + d'))) in Hd; [|intros; eapply create_le; [|eassumption]; lia].
    apply (run_mono _ (create W Keqb false (d + d'))) in Hd'; [|intros; eapply create_le; [|eassumption]; lia].
    congruence.
  Qed.

  (** cached create reaches a result whenever the uncached one does *)
  Lemma cached_complete b :
    (forall c a r, creates W c a r -> forall s, consistent W Keqb s -> exists d s', create W Keqb b d c a s = Some (r, s')) /\
    (forall c simps a r, simplifies W c simps a r -> forall key s, consistent W Keqb s -> exists d s',
       simplify_loop W b (create W Keqb b d) c key simps a s = Some (r, s')) /\
    (forall p r, evaluates W p r -> forall s, consistent W Keqb s -> exists d s', run (create W Keqb b d) p s = Some (r, s')).
  Proof.
    apply (create_ind C AR V K W
      (fun c a r _ => forall s, consistent W Keqb s -> exists d s', create W Keqb b d c a s = Some (r, s'))
      (fun c simps a r _ => forall key s, consistent W Keqb s -> exists d s', simplify_loop W b (create W Keqb b d) c key simps a s = Some (r, s'))
      (fun p r _ => forall s, consistent W Keqb s -> exists d s', run (create W Keqb b d) p s = Some (r, s'))).
    - intros c a r Hsim IH s Hs. destruct (IH (get_instance_key W c a) s Hs) as (d & s' & Hd).
      exists (S d). cbn [create].
      destruct (if b then lookup Keqb (get_instance_key W c a) s else None) as [v|] eqn:L.
      + exists s. destruct b; [|discriminate]. apply Hs in L.
        rewrite (creates_det W Keqb c a r (Ok v) (creates_intro W c a r Hsim) L). reflexivity.
      + exists s'. exact Hd.
    - intros c a v _ IH key s Hs. destruct (IH s Hs) as (d & s' & Hd). exists d. eexists. cbn [simplify_loop]. rewrite Hd. reflexivity.
    - intros c a e _ IH key s Hs. destruct (IH s Hs) as (d & s' & Hd). exists d. eexists. cbn [simplify_loop]. rewrite Hd. reflexivity.
    - intros c a a' _ IH key s Hs. destruct (IH s Hs) as (d & s' & Hd). exists d. eexists. cbn [simplify_loop]. rewrite Hd. reflexivity.
    - intros c f rest a v _ IH key s Hs. destruct (IH s Hs) as (d & s' & Hd). exists d. eexists. cbn [simplify_loop]. rewrite Hd. reflexivity.
    - intros c f rest a a' r _ IH1 _ IH2 key s Hs. destruct (IH1 s Hs) as (d1 & s1 & H1).
      pose proof (run_ok W Keqb _ (create_ok W Keqb sound idem b d1) _ _ _ _ Hs H1) as [_ Hs1].
      destruct (IH2 key s1 Hs1) as (d2 & s2 & H2).
      exists (d1 + d2), s2. cbn [simplify_loop].
      rewrite (run_mono (create W Keqb b d1) (create W Keqb b (d1 + d2))) with (x := (Ok (inr a'), s1));
        [|intros; eapply create_le; [|eassumption]; lia|exact H1].
      eapply loop_mono; [|exact H2]. intros; eapply create_le; [|eassumption]; lia.
    - intros c f rest a e _ IH key s Hs. destruct (IH s Hs) as (d & s' & Hd). exists d. eexists. cbn [simplify_loop]. rewrite Hd. reflexivity.
    - intros r s Hs. exists 0. eexists. reflexivity.
    - intros e s Hs. exists 0. eexists. reflexivity.
    - intros c a k r r' _ IH1 _ IH2 s Hs. destruct (IH1 s Hs) as (d1 & s1 & H1).
      pose proof (create_ok W Keqb sound idem b d1 c a s r s1 Hs H1) as [_ Hs1].
      destruct (IH2 s1 Hs1) as (d2 & s2 & H2).
      exists (d1 + d2), s2. cbn [run]. rewrite (create_le W Keqb b d1 (d1 + d2) c a s _ ltac:(lia) H1).
      eapply run_mono; [|exact H2]. intros; eapply create_le; [|eassumption]; lia.
  Qed.

  Lemma session_ok d calls : forall s rs s', consistent W Keqb s -> session W Keqb d calls s = Some (rs, s') ->
    Forall2 (fun call r => creates W (snd (fst call)) (snd call) r) calls rs /\ consistent W Keqb s'.
  Proof.
    induction calls as [|[[b c] a] rest IH]; intros s rs s' Hs H; cbn [session] in H.
    - injection H as <- <-. split; [constructor|exact Hs].
    - destruct (create W Keqb b d c a s) as [[r s1]|] eqn:E; [|discriminate].
      destruct (create_ok W Keqb sound idem b d c a s r s1 Hs E) as [H1 Hs1].
      destruct (session W Keqb d rest s1) as [[rs1 s2]|] eqn:E2; [|discriminate].
      injection H as <- <-. destruct (IH s1 rs1 s2 Hs1 E2) as [H2 Hs2].
      split; [constructor; [exact H1|exact H2]|exact Hs2].
  Qed.
End R.
