From Verif Require Import Prelude CtxModel CtxSpec.

Lemma attr_eqb_spec a b : reflect (a = b) (attr_eqb a b).
Proof. destruct a, b; constructor; congruence. Qed.

Section P.
  Variable mro : nat -> list nat.
  Hypothesis hier : hierarchy mro.
  Notation getattr := (getattr mro).

  Lemma first_own_none st a l : first_own st a l = None <-> forall c, In c l -> own st a c = None.
  Proof.
    induction l as [|x l IH]; cbn.
    - split; [intros _ c []|reflexivity].
    - destruct (own st a x) as [p|] eqn:E.
      + split; [discriminate|]. intros H. rewrite (H x (or_introl eq_refl)) in E. discriminate.
      + rewrite IH. split.
        * intros H c [<-|Hc]; [exact E|apply H; exact Hc].
        * intros H c Hc. apply H. right; exact Hc.
  Qed.
  Lemma getattr_none st d a : getattr st d a = None <-> forall c, In c (mro d) -> own st a c = None.
  Proof. apply first_own_none. Qed.
  Lemma first_own_some st a l p : first_own st a l = Some p -> exists c, In c l /\ own st a c = Some p.
  Proof.
    induction l as [|x l IH]; cbn; [discriminate|]. destruct (own st a x) as [q|] eqn:E.
    - intros H; injection H as <-. exists x. split; [left; reflexivity|exact E].
    - intros H. destruct (IH H) as (c & Hc & Hp). exists c. split; [right; exact Hc|exact Hp].
  Qed.
  Lemma first_own_ext st st' a l : (forall c, In c l -> own st a c = own st' a c) -> first_own st a l = first_own st' a l.
  Proof.
    induction l as [|x l IH]; intros H; cbn; [reflexivity|]. rewrite (H x (or_introl eq_refl)).
    rewrite IH; [reflexivity|]. intros c Hc; apply H; right; exact Hc.
  Qed.

  Lemma getattr_ext st st' d a : own st = own st' -> getattr st d a = getattr st' d a.
  Proof. intros H. apply first_own_ext. intros; rewrite H; reflexivity. Qed.
  Lemma mro_head : forall c, exists l, mro c = c :: l.
  Proof. exact (proj1 hier). Qed.
  Lemma mro_self c : In c (mro c).
  Proof. destruct (mro_head c) as [l ->]. left; reflexivity. Qed.
  Lemma getattr_own st c a p : own st a c = Some p -> getattr st c a = Some p.
  Proof. intros H. unfold CtxModel.getattr. destruct (mro_head c) as [l ->]. cbn. rewrite H. reflexivity. Qed.

  Definition shape (st st' : state) : Prop := forall d a, getattr st d a = None <-> getattr st' d a = None.
  Lemma shape_refl st : shape st st. Proof. intros d a; reflexivity. Qed.
  Lemma shape_trans a b c : shape a b -> shape b c -> shape a c.
  Proof. intros H1 H2 d at_. etransitivity; [apply H1|apply H2]. Qed.

  Lemma shape_ext st st' : own st = own st' -> shape st st'.
  Proof. intros H d a. rewrite (getattr_ext st st' d a H). reflexivity. Qed.

  Lemma own_setattr c a p st a' d : own (setattr c a p st) a' d = if attr_eqb a' a && (d =? c) then Some p else own st a' d.
  Proof. reflexivity. Qed.

  Lemma shape_setattr c a p st : getattr st c a <> None -> shape st (setattr c a p st).
  Proof.
    intros Hn d a'. rewrite !getattr_none. split.
    - intros H x Hx. rewrite own_setattr. destruct (attr_eqb_spec a' a) as [->|]; cbn [andb]; [|apply H; exact Hx].
      destruct (Nat.eqb_spec x c) as [->|]; [|apply H; exact Hx].
      exfalso. apply Hn. apply getattr_none. intros y Hy. apply H. exact (proj2 hier c d Hx y Hy).
    - intros H x Hx. specialize (H x Hx). rewrite own_setattr in H.
      destruct (attr_eqb a' a && (x =? c)); [discriminate|exact H].
  Qed.
  Lemma getattr_lt st c a p : well_formed st -> getattr st c a = Some p -> p < next st.
  Proof. intros W H. apply first_own_some in H. destruct H as (d & _ & H). exact (W a d p H). Qed.

  (** *** swap *)
  Lemma swap_facts a f c st st' o : well_formed st -> swap mro a f c st = (st', o) ->
    next st <= next st' /\ well_formed st' /\ shape st st' /\
    (forall a' p, p < next st -> heap st' a' p = heap st a' p) /\
    o = getattr st c a /\
    (forall a' d, (a' <> a \/ d <> c) -> own st' a' d = own st a' d) /\
    (o <> None -> exists q, own st' a c = Some q /\ next st <= q).
  Proof.
    intros W. unfold swap. destruct (getattr st c a) as [p|] eqn:E.
    - cbn. intros H. injection H as <- <-.
      split; [cbn; lia|]. split.
      { intros a' d q H. rewrite own_setattr in H. cbn in H. cbn.
        destruct (attr_eqb a' a && (d =? c)); [injection H as <-; lia|apply W in H; lia]. }
      split.
      { eapply shape_trans; [|apply shape_setattr].
        - apply shape_ext. reflexivity.
        - intros X. rewrite (getattr_ext _ st c a) in X by reflexivity. congruence. }
      split.
      { intros a' q Hq. cbn. destruct (attr_eqb a' a); cbn [andb]; [|reflexivity].
        destruct (Nat.eqb_spec q (next st)); [lia|reflexivity]. }
      split; [reflexivity|]. split.
      { intros a' d Hne. rewrite own_setattr. cbn. destruct (attr_eqb_spec a' a) as [->|]; cbn [andb]; [|reflexivity].
        destruct (Nat.eqb_spec d c) as [->|]; [|reflexivity]. destruct Hne; congruence. }
      intros _. exists (next st). split; [|lia]. rewrite own_setattr.
      destruct (attr_eqb_spec a a); [|congruence]. rewrite Nat.eqb_refl. reflexivity.
    - intros H. injection H as <- <-. split; [lia|]. split; [exact W|]. split; [apply shape_refl|].
      split; [reflexivity|]. split; [reflexivity|]. split; [reflexivity|]. congruence.
  Qed.

  (** *** the invariant for one attribute *)
  Section At.
    Variables (at0 : attr) (N0 : nat).
    Definition Inv (scope : list nat) (st : state) : Prop :=
      N0 <= next st /\ well_formed st /\
      forall d, In d scope -> (exists p, own st at0 d = Some p /\ N0 <= p) \/ getattr st d at0 = None.

    Definition viewc (c : nat) (d : dict) : dict :=
      match at0 with AInst => filter (fun e => fst (fst e) =? c) d | _ => d end.
    Definition Pres (scope : list nat) (st st' : state) : Prop :=
      forall c p, In c scope -> p < N0 -> viewc c (heap st' at0 p) = viewc c (heap st at0 p).
    Lemma Pres_refl sc st : Pres sc st st. Proof. intros c p _ _. reflexivity. Qed.
    Lemma Pres_trans sc a b c : Pres sc a b -> Pres sc b c -> Pres sc a c.
    Proof. intros H1 H2 x p Hx Hp. rewrite H2 by assumption. apply H1; assumption. Qed.
    Lemma Pres_heap sc st st' : N0 <= next st ->
      (forall a p, p < next st -> heap st' a p = heap st a p) -> Pres sc st st'.
    Proof. intros HN H c p _ Hp. rewrite H by lia. reflexivity. Qed.

    Lemma swap_Inv a f c st st' o scope : Inv scope st -> swap mro a f c st = (st', o) -> Inv scope st'.
    Proof.
      intros (I1 & I2 & I3) H. apply swap_facts in H; [|exact I2].
      destruct H as (F1 & F2 & F3 & F4 & F5 & F6 & F7). split; [lia|]. split; [exact F2|].
      intros d Hd. destruct (attr_eqb_spec at0 a) as [->|Hne].
      - destruct (Nat.eq_dec d c) as [->|Hne].
        + destruct o as [p|].
          * left. destruct (F7 ltac:(discriminate)) as (q & Hq & Hl). exists q. split; [exact Hq|lia].
          * right. apply F3. symmetry; exact F5.
        + rewrite (F6 a d) by (right; exact Hne). destruct (I3 d Hd) as [H|H]; [left; exact H|].
          right. apply F3; exact H.
      - rewrite (F6 at0 d) by (left; exact Hne). destruct (I3 d Hd) as [H|H]; [left; exact H|].
        right. apply F3; exact H.
    Qed.
    Lemma swap_new a f c st st' o scope : Inv scope st -> a = at0 -> swap mro a f c st = (st', o) -> Inv (scope ++ [c]) st'.
    Proof.
      intros HI -> H. pose proof (swap_Inv _ _ _ _ _ _ _ HI H) as (J1 & J2 & J3).
      destruct HI as (I1 & I2 & I3). apply swap_facts in H; [|exact I2].
      destruct H as (F1 & F2 & F3 & F4 & F5 & F6 & F7). split; [lia|]. split; [exact F2|].
      intros d Hd. apply in_app_or in Hd. destruct Hd as [Hd|[<-|[]]]; [apply J3; exact Hd|].
      destruct o as [p|].
      - left. destruct (F7 ltac:(discriminate)) as (q & Hq & Hl). exists q. split; [exact Hq|lia].
      - right. apply F3. symmetry; exact F5.
    Qed.
    Lemma Inv_incl sc sc' st : incl sc' sc -> Inv sc st -> Inv sc' st.
    Proof. intros H (I1 & I2 & I3). split; [exact I1|]. split; [exact I2|]. intros d Hd. apply I3, H, Hd. Qed.
    (** Inv of scope ++ [c] survives further swaps *)

    Definition field (a : attr) (x : saved) : option nat :=
      match x with (_, (i, s, r, b)) => match a with AInst => i | ASimp => s | ARules => r | ABin => b end end.
    (** a saved record is harmless to restore *)
    Definition good (scope : list nat) (st : state) (x : saved) : Prop :=
      (forall a p, field a x = Some p -> getattr st (fst x) a <> None /\ p < next st) /\
      (In (fst x) scope -> forall p, field at0 x = Some p -> N0 <= p).
    Lemma good_mono scope st st' x : shape st st' -> next st <= next st' -> good scope st x -> good scope st' x.
    Proof.
      intros Hs Hn (G1 & G2). split; [|exact G2]. intros a p H. destruct (G1 a p H) as [H1 H2].
      split; [|lia]. intros E. apply H1. apply Hs. exact E.
    Qed.
    Lemma Inv_saved scope st c p : Inv scope st -> In c scope -> getattr st c at0 = Some p -> N0 <= p.
    Proof.
      intros (I1 & I2 & I3) Hc H. destruct (I3 c Hc) as [(q & Hq & Hl)|E]; [|congruence].
      apply getattr_own in Hq. rewrite Hq in H. injection H as <-. exact Hl.
    Qed.

    Definition one_ok (covers : bool) (one : nat -> state -> state * (saved + exn)) : Prop :=
      forall c st st' r scope, Inv scope st -> one c st = (st', r) ->
        Inv scope st' /\ next st <= next st' /\ shape st st' /\
        (forall a p, p < next st -> heap st' a p = heap st a p) /\
        match r with
        | inr _ => True
        | inl x => fst x = c /\ good scope st' x /\ (covers = true -> Inv (scope ++ [c]) st')
        end.

    Ltac sw H s o E :=
      match type of H with context [swap mro ?a ?f ?c ?st] =>
        destruct (swap mro a f c st) as [s o] eqn:E; cbn beta iota in H end.

    Lemma swap_shape_pack a f c st st' o scope : Inv scope st -> swap mro a f c st = (st', o) ->
      Inv scope st' /\ next st <= next st' /\ shape st st' /\ (forall a p, p < next st -> heap st' a p = heap st a p) /\
      o = getattr st c a /\ (forall p, o = Some p -> p < next st') /\ (forall a' d, (a' <> a \/ d <> c) -> own st' a' d = own st a' d).
    Proof.
      intros HI H. split; [eapply swap_Inv; eassumption|]. destruct HI as (I1 & I2 & I3).
      pose proof H as H'. apply swap_facts in H; [|exact I2].
      destruct H as (F1 & F2 & F3 & F4 & F5 & F6 & F7). repeat (split; [assumption|]).
      split; [|exact F6]. intros p ->. symmetry in F5. apply getattr_lt in F5; [lia|exact I2].
    Qed.

    Lemma enter_cache_ok : one_ok (attr_eqb at0 AInst) (enter_cache_one mro).
    Proof.
      intros c st st' r scope HI H. unfold enter_cache_one in H. sw H st1 o1 E1.
      destruct (swap_shape_pack _ _ _ _ _ _ _ HI E1) as (J1 & J2 & J3 & J4 & J5 & J6 & J7).
      destruct o1 as [p|].
      - injection H as <- <-. repeat (split; [assumption|]). split; [reflexivity|]. split.
        + split.
          * intros a q. cbn. destruct a; try discriminate. intros Hq; injection Hq as <-. split; [|apply J6; reflexivity].
            intros X. apply J3 in X. congruence.
          * cbn. intros Hc q Hq. destruct at0 eqn:Ea; try discriminate. injection Hq as <-.
            symmetry in J5. rewrite <- Ea in J5. exact (Inv_saved scope st c p HI Hc J5).
        + intros Hc. destruct (attr_eqb_spec at0 AInst) as [Ea|]; [|discriminate].
          eapply swap_new; [exact HI| |exact E1]. symmetry; exact Ea.
      - injection H as <- <-. repeat (split; [assumption|]). exact I.
    Qed.

    Lemma enter_rules_ok clear : one_ok true (enter_rules_one mro clear).
    Proof.
      intros c st st' r scope HI H. unfold enter_rules_one in H. sw H st1 o1 E1.
      destruct (swap_shape_pack _ _ _ _ _ _ _ HI E1) as (J1 & J2 & J3 & J4 & J5 & J6 & J7).
      destruct o1 as [p1|].
      2:{ injection H as <- <-. repeat (split; [assumption|]). exact I. }
      sw H st2 o2 E2.
      destruct (swap_shape_pack _ _ _ _ _ _ _ J1 E2) as (K1 & K2 & K3 & K4 & K5 & K6 & K7).
      destruct o2 as [p2|].
      2:{ injection H as <- <-. split; [exact K1|]. split; [lia|]. split; [eapply shape_trans; eassumption|].
          split; [|exact I]. intros a p Hp. rewrite K4 by lia. apply J4; exact Hp. }
      sw H st3 o3 E3.
      destruct (swap_shape_pack _ _ _ _ _ _ _ K1 E3) as (L1 & L2 & L3 & L4 & L5 & L6 & L7).
      sw H st4 o4 E4.
      destruct (swap_shape_pack _ _ _ _ _ _ _ L1 E4) as (M1 & M2 & M3 & M4 & M5 & M6 & M7).
      injection H as <- <-.
      assert (shape st1 st4) as S14 by (eapply shape_trans; [exact K3|eapply shape_trans; eassumption]).
      assert (shape st2 st4) as S24 by (eapply shape_trans; eassumption).
      split; [exact M1|]. split; [lia|]. split; [eapply shape_trans; eassumption|].
      split. { intros a p Hp. rewrite M4, L4, K4 by lia. apply J4; exact Hp. }
      split; [reflexivity|]. split.
      - split.
        + intros a q. cbn. destruct a; intros Hq; (injection Hq as Hq || idtac); subst.
          * split; [|specialize (J6 _ eq_refl); lia]. intros X.
            apply S14 in X. apply J3 in X. congruence.
          * split; [|specialize (K6 _ eq_refl); lia]. intros X.
            apply S24 in X. apply K3 in X. congruence.
          * split; [|specialize (L6 _ Hq); lia]. intros X. apply M3 in X. apply L3 in X. congruence.
          * split; [|specialize (M6 _ Hq); lia]. intros X. apply M3 in X. congruence.
        + cbn. intros Hc q Hq. destruct at0 eqn:Ea; rewrite <- Ea in *.
          * injection Hq as <-. symmetry in J5. rewrite <- ?Ea in J5. exact (Inv_saved scope st c _ HI Hc J5).
          * injection Hq as <-. symmetry in K5. rewrite <- ?Ea in K5. exact (Inv_saved scope st1 c _ J1 Hc K5).
          * subst o3. rewrite <- ?Ea in Hq. exact (Inv_saved scope st2 c _ K1 Hc Hq).
          * subst o4. rewrite <- ?Ea in Hq. exact (Inv_saved scope st3 c _ L1 Hc Hq).
      - intros _.
        destruct at0 eqn:Ea; rewrite <- Ea in *.
        + pose proof (swap_new _ _ _ _ _ _ _ HI eq_refl E1) as N1.
          pose proof (swap_Inv _ _ _ _ _ _ _ N1 E2) as N2. pose proof (swap_Inv _ _ _ _ _ _ _ N2 E3) as N3.
          exact (swap_Inv _ _ _ _ _ _ _ N3 E4).
        + pose proof (swap_new _ _ _ _ _ _ _ J1 eq_refl E2) as N2. pose proof (swap_Inv _ _ _ _ _ _ _ N2 E3) as N3.
          exact (swap_Inv _ _ _ _ _ _ _ N3 E4).
        + pose proof (swap_new _ _ _ _ _ _ _ K1 eq_refl E3) as N3.
          exact (swap_Inv _ _ _ _ _ _ _ N3 E4).
        + exact (swap_new _ _ _ _ _ _ _ L1 eq_refl E4).
    Qed.

    Lemma enter_ok covers one : one_ok covers one -> forall cs st st' r scope, Inv scope st ->
      enter one cs st = (st', r) ->
      Inv scope st' /\ next st <= next st' /\ shape st st' /\
      (forall a p, p < next st -> heap st' a p = heap st a p) /\
      match r with
      | inr _ => True
      | inl l => map fst l = cs /\ Forall (good scope st') l /\ (covers = true -> Inv (scope ++ cs) st')
      end.
    Proof.
      intros Ho. induction cs as [|c cs IH]; intros st st' r scope HI H; cbn [enter] in H.
      - injection H as <- <-. split; [exact HI|]. split; [lia|]. split; [apply shape_refl|]. split; [reflexivity|].
        split; [reflexivity|]. split; [constructor|]. intros _. rewrite app_nil_r. exact HI.
      - destruct (one c st) as [st1 [x|e]] eqn:E1.
        2:{ injection H as <- <-. apply (Ho _ _ _ _ scope HI) in E1. destruct E1 as (A1 & A2 & A3 & A4 & _).
            repeat (split; [assumption|]). exact I. }
        pose proof (Ho _ _ _ _ scope HI E1) as (A1 & A2 & A3 & A4 & A5 & A6 & A7).
        destruct (enter one cs st1) as [st2 [xs|e]] eqn:E2.
        + injection H as <- <-. destruct (IH _ _ _ scope A1 E2) as (B1 & B2 & B3 & B4 & B5 & B6 & B7).
          split; [exact B1|]. split; [lia|]. split; [eapply shape_trans; eassumption|].
          split. { intros a p Hp. rewrite B4 by lia. apply A4; exact Hp. }
          split; [cbn; rewrite A5, B5; reflexivity|]. split.
          * constructor; [|exact B6]. eapply good_mono; [exact B3|lia|exact A6].
          * intros Hc. destruct (IH _ _ _ (scope ++ [c]) (A7 Hc) E2) as (_ & _ & _ & _ & _ & _ & B8).
            specialize (B8 Hc). rewrite <- app_assoc in B8. exact B8.
        + injection H as <- <-. destruct (IH _ _ _ scope A1 E2) as (B1 & B2 & B3 & B4 & _).
          split; [exact B1|]. split; [lia|]. split; [eapply shape_trans; eassumption|].
          split; [|exact I]. intros a p Hp. rewrite B4 by lia. apply A4; exact Hp.
    Qed.

    Lemma restore1_ok a x p st scope : Inv scope st -> getattr st x a <> None -> p < next st ->
      (a = at0 -> In x scope -> N0 <= p) ->
      Inv scope (setattr x a p st) /\ shape st (setattr x a p st).
    Proof.
      intros (I1 & I2 & I3) Hn Hp Hs. pose proof (shape_setattr x a p st Hn) as Sh. split; [|exact Sh].
      split; [exact I1|]. split.
      - intros a' d q H. rewrite own_setattr in H. cbn. destruct (attr_eqb a' a && (d =? x)); [injection H as <-; exact Hp|].
        exact (I2 a' d q H).
      - intros d Hd. rewrite own_setattr. destruct (attr_eqb_spec at0 a) as [Ea|]; cbn [andb].
        + destruct (Nat.eqb_spec d x) as [->|].
          * left. exists p. split; [reflexivity|]. apply Hs; [symmetry; exact Ea|exact Hd].
          * destruct (I3 d Hd) as [H|H]; [left; exact H|right; apply Sh; exact H].
        + destruct (I3 d Hd) as [H|H]; [left; exact H|right; apply Sh; exact H].
    Qed.

    Lemma restore_one_ok x st scope : Inv scope st -> good scope st x ->
      let st' := match x with (c, (i, s, r, b)) =>
         restore1 ABin c b (restore1 ARules c r (restore1 ASimp c s (restore1 AInst c i st))) end in
      Inv scope st' /\ shape st st' /\ next st' = next st /\ heap st' = heap st.
    Proof.
      intros HI (G1 & G2). destruct x as [c [[[i s] r] b]]. cbn zeta. cbn [fst] in *.
      assert (forall a o st1, Inv scope st1 -> shape st st1 -> next st1 = next st -> heap st1 = heap st ->
        (forall p, o = Some p -> getattr st c a <> None /\ p < next st) ->
        (a = at0 -> In c scope -> forall p, o = Some p -> N0 <= p) ->
        Inv scope (restore1 a c o st1) /\ shape st (restore1 a c o st1) /\ next (restore1 a c o st1) = next st /\ heap (restore1 a c o st1) = heap st) as Step.
      { intros a o st1 HI1 Hs Hn Hh Ho1 Ho2. destruct o as [p|]; cbn [restore1]; [|split; [exact HI1|]; split; [exact Hs|]; split; [exact Hn|exact Hh]].
        destruct (Ho1 p eq_refl) as [X1 X2].
        destruct (restore1_ok a c p st1 scope HI1) as [Y1 Y2].
        - intros X. apply X1. apply Hs. exact X.
        - lia.
        - intros Ha Hc. exact (Ho2 Ha Hc p eq_refl).
        - split; [exact Y1|]. split; [eapply shape_trans; eassumption|]. split; [exact Hn|exact Hh]. }
      destruct (Step AInst i st HI (shape_refl st) eq_refl eq_refl (fun p => G1 AInst p)) as (A1 & A2 & A3 & A4).
      { intros Ha Hc p Hp. apply (G2 Hc). rewrite <- Ha. exact Hp. }
      destruct (Step ASimp s _ A1 A2 A3 A4 (fun p => G1 ASimp p)) as (B1 & B2 & B3 & B4).
      { intros Ha Hc p Hp. apply (G2 Hc). rewrite <- Ha. exact Hp. }
      destruct (Step ARules r _ B1 B2 B3 B4 (fun p => G1 ARules p)) as (C1 & C2 & C3 & C4).
      { intros Ha Hc p Hp. apply (G2 Hc). rewrite <- Ha. exact Hp. }
      apply (Step ABin b _ C1 C2 C3 C4 (fun p => G1 ABin p)).
      intros Ha Hc p Hp. apply (G2 Hc). rewrite <- Ha. exact Hp.
    Qed.

    Lemma restore_ok l : forall st scope, Inv scope st -> Forall (good scope st) l ->
      Inv scope (restore l st) /\ shape st (restore l st) /\ next (restore l st) = next st /\ heap (restore l st) = heap st.
    Proof.
      induction l as [|x l IH]; intros st scope HI HG.
      - cbn. split; [exact HI|]. split; [apply shape_refl|]. split; reflexivity.
      - apply Forall_cons_iff in HG. destruct HG as [G Gs].
        pose proof (restore_one_ok x st scope HI G) as R. destruct x as [c [[[i s] r] b]]. cbn zeta in R.
        destruct R as (R1 & R2 & R3 & R4). cbn [restore].
        match goal with |- context [restore l ?s1] => set (st1 := s1) in * end.
        destruct (IH st1 scope R1) as (Q1 & Q2 & Q3 & Q4).
        { eapply Forall_impl; [|exact Gs]. intros y Hy. eapply good_mono; [exact R2|lia|exact Hy]. }
        split; [exact Q1|]. split; [eapply shape_trans; eassumption|]. split; congruence.
    Qed.

    (** *** primitives *)
    Lemma own_mutate a p f st : own (mutate a p f st) = own st. Proof. reflexivity. Qed.
    Lemma getattr_mutate a p f st d a' : getattr (mutate a p f st) d a' = getattr st d a'.
    Proof. apply first_own_ext. reflexivity. Qed.
    Lemma mutate_Inv a p f st scope : Inv scope st -> Inv scope (mutate a p f st).
    Proof.
      intros (I1 & I2 & I3). split; [exact I1|]. split; [exact I2|]. intros d Hd.
      destruct (I3 d Hd) as [H|H]; [left; exact H|right; rewrite getattr_mutate; exact H].
    Qed.
    Lemma mutate_shape a p f st : shape st (mutate a p f st).
    Proof. intros d a'. rewrite getattr_mutate. reflexivity. Qed.

    Lemma del_names_ok a p names : forall st st' e scope, Inv scope st -> (a = at0 -> N0 <= p) ->
      del_names a p names st = (st', e) ->
      Inv scope st' /\ next st <= next st' /\ shape st st' /\ Pres scope st st'.
    Proof.
      induction names as [|n ns IH]; intros st st' e scope HI Hp H; cbn [del_names] in H.
      - injection H as <- <-. split; [exact HI|]. split; [lia|]. split; [apply shape_refl|apply Pres_refl].
      - destruct (has_key (0, n) (heap st a p)).
        + apply (IH _ _ _ scope (mutate_Inv a p _ st scope HI) Hp) in H. destruct H as (H1 & H2 & H3 & H4).
          split; [exact H1|]. split; [exact H2|]. split; [eapply shape_trans; [apply mutate_shape|exact H3]|].
          eapply Pres_trans; [|exact H4]. intros c q Hc Hq. cbn.
          destruct (attr_eqb_spec at0 a) as [->|]; cbn [andb]; [|reflexivity].
          destruct (Nat.eqb_spec q p) as [->|]; [specialize (Hp eq_refl); lia|reflexivity].
        + injection H as <- <-. split; [exact HI|]. split; [lia|]. split; [apply shape_refl|apply Pres_refl].
    Qed.

    Definition prim_within (scope : list nat) (p : prim) : Prop :=
      match p with
      | PAddRule _ c _ _ | PDelRules _ c _ | PAppendSimp c _ | PSetSimp c _ => In c scope
      | PStore _ _ _ => True
      end.

    Lemma mutate_pres a p f st scope : (a = at0 -> N0 <= p) -> Pres scope st (mutate a p f st).
    Proof.
      intros Hp c q Hc Hq. cbn. destruct (attr_eqb_spec at0 a) as [->|]; cbn [andb]; [|reflexivity].
      destruct (Nat.eqb_spec q p) as [->|]; [specialize (Hp eq_refl); lia|reflexivity].
    Qed.
    Lemma alloc_set_ok a content c st scope : Inv scope st -> getattr st c a <> None ->
      let st' := setattr c a (next st) (fst (alloc a content st)) in
      Inv scope st' /\ next st <= next st' /\ shape st st' /\ Pres scope st st'.
    Proof.
      intros HI Hn. cbn zeta. destruct HI as (I1 & I2 & I3).
      assert (Inv scope (fst (alloc a content st))) as HI1.
      { split; [cbn; lia|]. split; [intros a' d q H; apply I2 in H; cbn; lia|]. intros d Hd.
        destruct (I3 d Hd) as [H|H]; [left; exact H|right]. rewrite <- H. apply first_own_ext. reflexivity. }
      assert (forall d a', getattr (fst (alloc a content st)) d a' = getattr st d a') as G
        by (intros; apply first_own_ext; reflexivity).
      destruct (restore1_ok a c (next st) _ scope HI1) as [Y1 Y2].
      - rewrite G. exact Hn.
      - cbn. lia.
      - intros _ _. exact I1.
      - split; [exact Y1|]. split; [cbn; lia|]. split.
        + eapply shape_trans; [|exact Y2]. intros d a'. rewrite G. reflexivity.
        + intros x q Hx Hq. cbn. destruct (attr_eqb at0 a); cbn [andb]; [|reflexivity].
          destruct (Nat.eqb_spec q (next st)); [lia|reflexivity].
    Qed.

    Lemma filter_del c d k l : d <> c ->
      filter (fun e : key * nat => fst (fst e) =? c) (del_key (d, k) l) = filter (fun e => fst (fst e) =? c) l.
    Proof.
      intros Hne. unfold del_key. induction l as [|[[d' k'] v] l IH]; cbn; [reflexivity|].
      unfold key_eqb; cbn. destruct (Nat.eqb_spec d d') as [->|]; cbn.
      - destruct (Nat.eqb_spec k k'); cbn; [|destruct (Nat.eqb_spec d' c); [congruence|exact IH]].
        destruct (Nat.eqb_spec d' c); [congruence|exact IH].
      - destruct (d' =? c); [f_equal; exact IH|exact IH].
    Qed.

    Lemma prim_ok p st st' e scope : Inv scope st -> (at0 <> AInst -> prim_within scope p) ->
      exec_prim mro p st = (st', e) ->
      Inv scope st' /\ next st <= next st' /\ shape st st' /\ Pres scope st st'.
    Proof.
      intros HI Hw H.
      assert (Inv scope st /\ next st <= next st /\ shape st st /\ Pres scope st st) as Triv.
      { split; [exact HI|]. split; [lia|]. split; [apply shape_refl|apply Pres_refl]. }
      assert (forall a c q, (a <> AInst -> at0 <> AInst -> In c scope) -> a <> AInst -> getattr st c a = Some q -> a = at0 -> N0 <= q) as Own.
      { intros a c q Hc Ha G Ea. subst a. exact (Inv_saved scope st c q HI (Hc Ha Ha) G). }
      destruct p as [b c name v|b c names|c v|c l|c k v]; cbn [exec_prim] in H.
      - destruct (getattr st c (rules_attr b)) as [q|] eqn:G; [|injection H as <- <-; exact Triv].
        destruct (has_key _ _); injection H as <- <-; [exact Triv|].
        split; [apply mutate_Inv; exact HI|]. split; [cbn; lia|]. split; [apply mutate_shape|].
        apply mutate_pres. apply (Own (rules_attr b) c q); [intros _ Ha; exact (Hw Ha)|destruct b; discriminate|exact G].
      - destruct (getattr st c (rules_attr b)) as [q|] eqn:G; [|injection H as <- <-; exact Triv].
        destruct names as [|n ns].
        + cbn in H. injection H as <- <-. apply (alloc_set_ok (rules_attr b) [] c st scope HI). rewrite G; discriminate.
        + apply (del_names_ok _ _ _ _ _ _ _ HI) in H; [exact H|].
          apply (Own (rules_attr b) c q); [intros _ Ha; exact (Hw Ha)|destruct b; discriminate|exact G].
      - destruct (getattr st c ASimp) as [q|] eqn:G; injection H as <- <-; [|exact Triv].
        split; [apply mutate_Inv; exact HI|]. split; [cbn; lia|]. split; [apply mutate_shape|].
        apply mutate_pres. apply (Own ASimp c q); [intros _ Ha; exact (Hw Ha)|discriminate|exact G].
      - destruct (getattr st c ASimp) as [q|] eqn:G; [|injection H as <- <-; exact Triv].
        cbn in H. injection H as <- <-. apply (alloc_set_ok ASimp l c st scope HI). rewrite G; discriminate.
      - destruct (getattr st c AInst) as [q|] eqn:G; injection H as <- <-; [|exact Triv].
        split; [apply mutate_Inv; exact HI|]. split; [cbn; lia|]. split; [apply mutate_shape|].
        intros x r Hx Hr. cbn. destruct (attr_eqb_spec at0 AInst) as [Ea|]; cbn [andb]; [|reflexivity].
        destruct (Nat.eqb_spec r q) as [->|]; [|reflexivity].
        destruct (Nat.eq_dec c x) as [->|Hne].
        + rewrite <- Ea in G. pose proof (Inv_saved scope st x q HI Hx G). lia.
        + unfold viewc. rewrite Ea. cbn. destruct (Nat.eqb_spec c x); [congruence|]. apply filter_del; exact Hne.
    Qed.

    Lemma flag_Inv b st scope : Inv scope st -> Inv scope (setflag b st).
    Proof.
      intros (I1 & I2 & I3). split; [exact I1|]. split; [exact I2|]. intros d Hd.
      destruct (I3 d Hd) as [H|H]; [left; exact H|right]. rewrite <- H. apply first_own_ext. reflexivity.
    Qed.
    Lemma flag_shape b st : shape st (setflag b st).
    Proof. intros d a. assert (getattr (setflag b st) d a = getattr st d a) as -> by (apply first_own_ext; reflexivity). reflexivity. Qed.

    Lemma exec_ok s : forall st st' e scope, Inv scope st -> (at0 <> AInst -> modifies_within scope s) ->
      exec mro s st = (st', e) ->
      Inv scope st' /\ next st <= next st' /\ shape st st' /\ Pres scope st st'.
    Proof.
      induction s as [|s1 IH1 s2 IH2|p|e0|s IH|cs clear body IH|cs body IH|body IH];
        intros st st' e scope HI Hw H; cbn [exec] in H.
      - injection H as <- <-. split; [exact HI|]. split; [lia|]. split; [apply shape_refl|apply Pres_refl].
      - destruct (exec mro s1 st) as [st1 [e1|]] eqn:E1.
        + injection H as <- <-. eapply IH1; [exact HI| |exact E1]. intros Ha. exact (proj1 (Hw Ha)).
        + apply (IH1 _ _ _ scope HI) in E1; [|intros Ha; exact (proj1 (Hw Ha))].
          destruct E1 as (A1 & A2 & A3 & A4).
          apply (IH2 _ _ _ scope A1) in H; [|intros Ha; exact (proj2 (Hw Ha))].
          destruct H as (B1 & B2 & B3 & B4). split; [exact B1|]. split; [lia|].
          split; [eapply shape_trans; eassumption|eapply Pres_trans; eassumption].
      - eapply prim_ok; [exact HI|exact Hw|exact H].
      - injection H as <- <-. split; [exact HI|]. split; [lia|]. split; [apply shape_refl|apply Pres_refl].
      - injection H as <- <-. destruct (exec mro s st) as [st1 e1] eqn:E1. exact (IH _ _ _ scope HI Hw E1).
      - destruct (enter (enter_rules_one mro clear) cs st) as [st1 [l|e1]] eqn:E1.
        2:{ injection H as <- <-. apply (enter_ok true _ (enter_rules_ok clear) _ _ _ _ scope HI) in E1.
            destruct E1 as (A1 & A2 & A3 & A4 & _). split; [exact A1|]. split; [exact A2|]. split; [exact A3|].
            apply Pres_heap; [apply HI|exact A4]. }
        apply (enter_ok true _ (enter_rules_ok clear) _ _ _ _ scope HI) in E1.
        destruct E1 as (A1 & A2 & A3 & A4 & A5 & A6 & A7). specialize (A7 eq_refl).
        destruct (exec mro body st1) as [st2 e2] eqn:E2. injection H as <- <-.
        apply (IH _ _ _ (scope ++ cs) A7) in E2; [|exact Hw]. destruct E2 as (B1 & B2 & B3 & B4).
        assert (incl scope (scope ++ cs)) as Hincl by (intros x Hx; apply in_or_app; left; exact Hx).
        destruct (restore_ok l st2 scope (Inv_incl _ _ _ Hincl B1)) as (C1 & C2 & C3 & C4).
        { eapply Forall_impl; [|exact A6]. intros y Hy. eapply good_mono; [exact B3|exact B2|exact Hy]. }
        split; [exact C1|]. split; [lia|]. split; [eapply shape_trans; [exact A3|eapply shape_trans; eassumption]|].
        eapply Pres_trans; [apply Pres_heap; [apply HI|exact A4]|].
        intros c p Hc Hp. rewrite C4. apply B4; [apply Hincl; exact Hc|exact Hp].
      - destruct (enter (enter_cache_one mro) cs st) as [st1 [l|e1]] eqn:E1.
        2:{ injection H as <- <-. apply (enter_ok _ _ enter_cache_ok _ _ _ _ scope HI) in E1.
            destruct E1 as (A1 & A2 & A3 & A4 & _). split; [exact A1|]. split; [exact A2|]. split; [exact A3|].
            apply Pres_heap; [apply HI|exact A4]. }
        apply (enter_ok _ _ enter_cache_ok _ _ _ _ scope HI) in E1.
        destruct E1 as (A1 & A2 & A3 & A4 & A5 & A6 & A7).
        destruct (exec mro body st1) as [st2 e2] eqn:E2. injection H as <- <-.
        apply (IH _ _ _ scope A1) in E2; [|exact Hw]. destruct E2 as (B1 & B2 & B3 & B4).
        destruct (restore_ok l st2 scope B1) as (C1 & C2 & C3 & C4).
        { eapply Forall_impl; [|exact A6]. intros y Hy. eapply good_mono; [exact B3|exact B2|exact Hy]. }
        split; [exact C1|]. split; [lia|]. split; [eapply shape_trans; [exact A3|eapply shape_trans; eassumption]|].
        eapply Pres_trans; [apply Pres_heap; [apply HI|exact A4]|].
        intros c p Hc Hp. rewrite C4. apply B4; assumption.
      - destruct (exec mro body (setflag false st)) as [st1 e1] eqn:E1. injection H as <- <-.
        apply (IH _ _ _ scope (flag_Inv false st scope HI)) in E1; [|exact Hw]. destruct E1 as (A1 & A2 & A3 & A4).
        split; [apply flag_Inv; exact A1|]. split; [exact A2|].
        split; [eapply shape_trans; [apply flag_shape|eapply shape_trans; [exact A3|apply flag_shape]]|].
        exact A4.
    Qed.
  End At.

  Lemma exec_flag s : forall st st' e, exec mro s st = (st', e) -> flag st' = flag st.
  Proof.
    assert (forall l st, flag (restore l st) = flag st) as R.
    { induction l as [|[c [[[i s0] r] b]] l IH]; intros st; cbn [restore]; [reflexivity|]. rewrite IH.
      destruct i, s0, r, b; reflexivity. }
    assert (forall a f c st, flag (fst (swap mro a f c st)) = flag st) as Sw.
    { intros a f c st. unfold swap. destruct (getattr st c a); reflexivity. }
    assert (forall clear c st, flag (fst (enter_rules_one mro clear c st)) = flag st) as O1.
    { intros clear c st. unfold enter_rules_one.
      destruct (swap mro AInst _ c st) as [st1 [i|]] eqn:E1; [|rewrite <- (Sw AInst (fun _ => []) c st), E1; reflexivity].
      destruct (swap mro ASimp _ c st1) as [st2 [s0|]] eqn:E2.
      2:{ cbn. rewrite <- (Sw AInst (fun _ => []) c st), E1. cbn. rewrite <- (Sw ASimp (fun d => d) c st1), E2. reflexivity. }
      destruct (swap mro ARules _ c st2) as [st3 r] eqn:E3. destruct (swap mro ABin _ c st3) as [st4 b] eqn:E4. cbn.
      rewrite <- (Sw AInst (fun _ => []) c st), E1. cbn. rewrite <- (Sw ASimp (fun d => d) c st1), E2. cbn.
      rewrite <- (Sw ARules (fun d => if clear then [] else d) c st2), E3. cbn.
      rewrite <- (Sw ABin (fun d => if clear then [] else d) c st3), E4. reflexivity. }
    assert (forall c st, flag (fst (enter_cache_one mro c st)) = flag st) as O2.
    { intros c st. unfold enter_cache_one.
      destruct (swap mro AInst _ c st) as [st1 [i|]] eqn:E1; rewrite <- (Sw AInst (fun _ => []) c st), E1; reflexivity. }
    assert (forall one cs, (forall c st, flag (fst (one c st)) = flag st) -> forall st, flag (fst (enter one cs st)) = flag st) as En.
    { intros one cs Ho. induction cs as [|c cs IH]; intros st; cbn [enter]; [reflexivity|].
      destruct (one c st) as [st1 [x|e]] eqn:E1; [|rewrite <- (Ho c st), E1; reflexivity].
      specialize (IH st1). destruct (enter one cs st1) as [st2 [xs|e]] eqn:E2; cbn in *; rewrite IH, <- (Ho c st), E1; reflexivity. }
    assert (forall a p ns st, flag (fst (del_names a p ns st)) = flag st) as Dn.
    { intros a p ns. induction ns as [|n ns IH]; intros st; cbn [del_names]; [reflexivity|].
      destruct (has_key _ _); [rewrite IH; reflexivity|reflexivity]. }
    induction s as [|s1 IH1 s2 IH2|p|e0|s IH|cs clear body IH|cs body IH|body IH]; intros st st' e H; cbn [exec] in H.
    - injection H as <- <-. reflexivity.
    - destruct (exec mro s1 st) as [st1 [e1|]] eqn:E1; [injection H as <- <-; eapply IH1; exact E1|].
      rewrite (IH2 _ _ _ H). eapply IH1; exact E1.
    - destruct p as [b c name v|b c names|c v|c l|c k v]; cbn [exec_prim] in H.
      + destruct (getattr st c _); [|injection H as <- <-; reflexivity].
        destruct (has_key _ _); injection H as <- <-; reflexivity.
      + destruct (getattr st c _) as [q|]; [|injection H as <- <-; reflexivity].
        destruct names; [cbn in H; injection H as <- <-; reflexivity|].
        rewrite <- (Dn (rules_attr b) q (n :: names) st), H. reflexivity.
      + destruct (getattr st c _); injection H as <- <-; reflexivity.
      + destruct (getattr st c _); cbn in H; injection H as <- <-; reflexivity.
      + destruct (getattr st c _); injection H as <- <-; reflexivity.
    - injection H as <- <-. reflexivity.
    - injection H as <- <-. destruct (exec mro s st) as [st1 e1] eqn:E1. eapply IH; exact E1.
    - pose proof (En _ cs (O1 clear) st) as F.
      destruct (enter (enter_rules_one mro clear) cs st) as [st1 [l|e1]]; cbn in F; [|injection H as <- <-; exact F].
      destruct (exec mro body st1) as [st2 e2] eqn:E2. injection H as <- <-. rewrite R, (IH _ _ _ E2). exact F.
    - pose proof (En _ cs O2 st) as F.
      destruct (enter (enter_cache_one mro) cs st) as [st1 [l|e1]]; cbn in F; [|injection H as <- <-; exact F].
      destruct (exec mro body st1) as [st2 e2] eqn:E2. injection H as <- <-. rewrite R, (IH _ _ _ E2). exact F.
    - destruct (exec mro body (setflag false st)) as [st1 e1] eqn:E1. injection H as <- <-. reflexivity.
  Qed.

  (** *** what is saved *)
  Lemma enter_saved (ats : list attr) one :
    (forall c st, well_formed st -> exists st' r, one c st = (st', r) /\ well_formed st' /\
       (forall a d, d <> c -> own st' a d = own st a d) /\
       match r with inl x => fst x = c /\ forall a, field a x = if existsb (attr_eqb a) ats then getattr st c a else None
                  | inr _ => True end) ->
    forall cs st st' l, well_formed st -> independent mro cs -> enter one cs st = (st', inl l) ->
      map fst l = cs /\
      Forall (fun x => forall a, field a x = if existsb (attr_eqb a) ats then getattr st (fst x) a else None) l.
  Proof.
    intros Hone. induction cs as [|c cs IH]; intros st st' l W Hi H; cbn [enter] in H.
    - injection H as <- <-. split; [reflexivity|constructor].
    - destruct (Hone c st W) as (st1 & r & E1 & W1 & Ho & Hr). rewrite E1 in H.
      destruct r as [x|]; [|discriminate]. destruct Hr as [Hc Hf].
      destruct (enter one cs st1) as [st2 [xs|]] eqn:E2; [|discriminate]. injection H as <- <-.
      inversion Hi as [|c' cs' Hc1 Hi1]; subst c' cs'. destruct (IH st1 st2 xs W1 Hi1 E2) as [H1 H2].
      split; [cbn; rewrite Hc, H1; reflexivity|]. constructor; [rewrite Hc; exact Hf|].
      apply Forall_forall. intros y Hy a. rewrite Forall_forall in H2. rewrite (H2 y Hy a).
      destruct (existsb (attr_eqb a) ats); [|reflexivity]. apply first_own_ext.
      intros d Hd. apply Ho. intros ->. rewrite Forall_forall in Hc1.
      apply (Hc1 (fst y)); [|exact Hd]. rewrite <- H1. apply in_map; exact Hy.
  Qed.

  Lemma one_saved_cache : forall c st, well_formed st -> exists st' r, enter_cache_one mro c st = (st', r) /\ well_formed st' /\
       (forall a d, d <> c -> own st' a d = own st a d) /\
       match r with inl x => fst x = c /\ forall a, field a x = if existsb (attr_eqb a) [AInst] then getattr st c a else None
                  | inr _ => True end.
  Proof.
    intros c st W. unfold enter_cache_one. destruct (swap mro AInst _ c st) as [st1 o] eqn:E.
    apply swap_facts in E; [|exact W]. destruct E as (F1 & F2 & F3 & F4 & F5 & F6 & F7).
    destruct o as [p|]; eexists; eexists; (split; [reflexivity|]); (split; [exact F2|]);
      (split; [intros a d Hd; apply F6; right; exact Hd|]); [|exact I].
    split; [reflexivity|]. intros a. destruct a; cbn; try reflexivity. exact F5.
  Qed.
  Lemma one_saved_rules clear : forall c st, well_formed st -> exists st' r, enter_rules_one mro clear c st = (st', r) /\ well_formed st' /\
       (forall a d, d <> c -> own st' a d = own st a d) /\
       match r with inl x => fst x = c /\ forall a, field a x = if existsb (attr_eqb a) [AInst; ASimp; ARules; ABin] then getattr st c a else None
                  | inr _ => True end.
  Proof.
    intros c st W. unfold enter_rules_one. 
    destruct (swap mro AInst _ c st) as [st1 o1] eqn:E1.
    pose proof (swap_facts _ _ _ _ _ _ W E1) as (F1 & F2 & F3 & F4 & F5 & F6 & F7).
    destruct o1 as [p1|].
    2:{ eexists; eexists. split; [reflexivity|]. split; [exact F2|]. split; [intros a d Hd; apply F6; right; exact Hd|exact I]. }
    destruct (swap mro ASimp _ c st1) as [st2 o2] eqn:E2.
    pose proof (swap_facts _ _ _ _ _ _ F2 E2) as (G1 & G2 & G3 & G4 & G5 & G6 & G7).
    destruct o2 as [p2|].
    2:{ eexists; eexists. split; [reflexivity|]. split; [exact G2|].
        split; [intros a d Hd; rewrite G6, F6 by (right; exact Hd); reflexivity|exact I]. }
    destruct (swap mro ARules _ c st2) as [st3 o3] eqn:E3.
    pose proof (swap_facts _ _ _ _ _ _ G2 E3) as (K1 & K2 & K3 & K4 & K5 & K6 & K7).
    destruct (swap mro ABin _ c st3) as [st4 o4] eqn:E4.
    pose proof (swap_facts _ _ _ _ _ _ K2 E4) as (L1 & L2 & L3 & L4 & L5 & L6 & L7).
    eexists; eexists. split; [reflexivity|]. split; [exact L2|].
    split; [intros a d Hd; rewrite L6, K6, G6, F6 by (right; exact Hd); reflexivity|].
    split; [reflexivity|].
    assert (forall a, a <> AInst -> getattr st1 c a = getattr st c a) as Q1
      by (intros a Ha; apply first_own_ext; intros d _; apply F6; left; exact Ha).
    assert (forall a, a <> ASimp -> getattr st2 c a = getattr st1 c a) as Q2
      by (intros a Ha; apply first_own_ext; intros d _; apply G6; left; exact Ha).
    assert (forall a, a <> ARules -> getattr st3 c a = getattr st2 c a) as Q3
      by (intros a Ha; apply first_own_ext; intros d _; apply K6; left; exact Ha).
    intros a. destruct a; cbn.
    - exact F5.
    - rewrite G5. apply Q1; discriminate.
    - rewrite K5, Q2, Q1 by discriminate. reflexivity.
    - rewrite L5, Q3, Q2, Q1 by discriminate. reflexivity.
  Qed.

  (** *** what is restored *)
  Lemma restore_other l : forall st a d, ~ In d (map fst l) -> own (restore l st) a d = own st a d.
  Proof.
    induction l as [|[c [[[i s] r] b]] l IH]; intros st a d H; cbn [restore]; [reflexivity|].
    cbn in H. rewrite IH by tauto. assert (d <> c) as Hne by (intros ->; tauto).
    destruct i, s, r, b; cbn; destruct (Nat.eqb_spec d c); try congruence; rewrite ?andb_false_r; reflexivity.
  Qed.
  Lemma restore_own l : forall st, NoDup (map fst l) -> forall x, In x l -> forall a p, field a x = Some p ->
    own (restore l st) a (fst x) = Some p.
  Proof.
    induction l as [|[c [[[i s] r] b]] l IH]; intros st Hd x Hx a p Hf; [destruct Hx|].
    cbn in Hd. apply NoDup_cons_iff in Hd. destruct Hd as [Hn Hd]. destruct Hx as [<-|Hx].
    - cbn [restore fst]. rewrite restore_other by exact Hn.
      destruct a, i, s, r, b; cbn in *; try discriminate; injection Hf as ->; rewrite ?Nat.eqb_refl; reflexivity.
    - cbn [restore]. apply IH; assumption.
  Qed.
  Lemma independent_NoDup cs : independent mro cs -> NoDup cs.
  Proof.
    induction 1 as [|c cs H _ IH]; constructor; [|exact IH]. intros Hc. rewrite Forall_forall in H.
    exact (H c Hc (mro_self c)).
  Qed.

  (** main lemma: a context manager with entry function [one] that covers [ats] *)
  Lemma context_restores (ats : list attr) one (Hsv : forall c st, well_formed st -> exists st' r, one c st = (st', r) /\ well_formed st' /\
       (forall a d, d <> c -> own st' a d = own st a d) /\
       match r with inl x => fst x = c /\ forall a, field a x = if existsb (attr_eqb a) ats then getattr st c a else None
                  | inr _ => True end)
    (Hok : forall at0 N0, one_ok at0 N0 (existsb (attr_eqb at0) ats) one) :
    forall cs body st st1 l st2 e a, well_formed st -> independent mro cs ->
      enter one cs st = (st1, inl l) -> exec mro body st1 = (st2, e) ->
      existsb (attr_eqb a) ats = true -> (a <> AInst -> modifies_within cs body) ->
      forall c, In c cs -> sees mro (restore l st2) c a = sees mro st c a.
  Proof.
    intros cs body st st1 l st2 e a W Hind E1 E2 Ha Hw c Hc.
    destruct (enter_saved ats one Hsv cs st st1 l W Hind E1) as [Hm Hf].
    assert (Inv a (next st) [] st) as I0 by (split; [lia|]; split; [exact W|intros d []]).
    destruct (enter_ok a (next st) _ one (Hok a (next st)) cs st st1 (inl l) [] I0 E1) as (A1 & A2 & A3 & A4 & A5 & A6 & A7).
    specialize (A7 Ha). cbn [app] in A7.
    destruct (exec_ok a (next st) body st1 st2 e cs A7 Hw E2) as (B1 & B2 & B3 & B4).
    destruct (restore_ok a (next st) l st2 [] (Inv_incl a (next st) cs [] st2 (incl_nil_l _) B1)) as (C1 & C2 & C3 & C4).
    { eapply Forall_impl; [|exact A6]. intros y Hy. eapply good_mono; [exact B3|exact B2|exact Hy]. }
    assert (shape st (restore l st2)) as Sh by (eapply shape_trans; [exact A3|eapply shape_trans; eassumption]).
    rewrite <- Hm in Hc. apply in_map_iff in Hc. destruct Hc as (x & <- & Hx).
    assert (In (fst x) cs) as Hin by (rewrite <- Hm; apply in_map; exact Hx).
    rewrite Forall_forall in Hf. specialize (Hf x Hx a). rewrite Ha in Hf.
    unfold sees. destruct (getattr st (fst x) a) as [p|] eqn:G.
    - assert (NoDup (map fst l)) as Nd by (rewrite Hm; apply independent_NoDup; exact Hind).
      pose proof (restore_own l st2 Nd x Hx a p Hf) as Ro. rewrite (getattr_own _ _ _ _ Ro).
      apply getattr_lt in G; [|exact W].
      rewrite C4. specialize (B4 (fst x) p Hin G). unfold viewc in B4. rewrite (A4 a p G) in B4.
      do 2 f_equal. destruct a; exact B4.
    - apply Sh in G. rewrite G. reflexivity.
  Qed.

  Lemma one_total_rules clear c st : well_formed st -> expression_class mro st c ->
    exists st' x, enter_rules_one mro clear c st = (st', inl x).
  Proof.
    intros W [D1 D2]. unfold enter_rules_one.
    destruct (swap mro AInst _ c st) as [st1 o1] eqn:E1.
    pose proof (swap_facts _ _ _ _ _ _ W E1) as (F1 & F2 & F3 & F4 & F5 & F6 & F7).
    destruct o1; [|congruence].
    destruct (swap mro ASimp _ c st1) as [st2 o2] eqn:E2.
    pose proof (swap_facts _ _ _ _ _ _ F2 E2) as (G1 & G2 & G3 & G4 & G5 & G6 & G7).
    destruct o2; [|exfalso; apply D2; apply F3; symmetry; exact G5].
    destruct (swap mro ARules _ c st2) as [st3 o3]. destruct (swap mro ABin _ c st3) as [st4 o4].
    eexists; eexists; reflexivity.
  Qed.
  Lemma one_total_cache c st : well_formed st -> expression_class mro st c ->
    exists st' x, enter_cache_one mro c st = (st', inl x).
  Proof.
    intros W [D1 D2]. unfold enter_cache_one.
    destruct (swap mro AInst _ c st) as [st1 o1] eqn:E1.
    pose proof (swap_facts _ _ _ _ _ _ W E1) as (F1 & F2 & F3 & F4 & F5 & F6 & F7).
    destruct o1; [|congruence]. eexists; eexists; reflexivity.
  Qed.
  Lemma enter_total at0 N0 covers one (Hok : one_ok at0 N0 covers one)
    (Hone : forall c st, well_formed st -> expression_class mro st c -> exists st' x, one c st = (st', inl x)) :
    forall cs st, Inv at0 N0 [] st -> Forall (expression_class mro st) cs ->
    exists st' l, enter one cs st = (st', inl l).
  Proof.
    induction cs as [|c cs IH]; intros st HI HF; cbn [enter]; [eexists; eexists; reflexivity|].
    apply Forall_cons_iff in HF. destruct HF as [Hc HF].
    destruct (Hone c st (proj1 (proj2 HI)) Hc) as (st1 & x & E). rewrite E.
    destruct (Hok _ _ _ _ _ HI E) as (A1 & _ & A3 & _).
    destruct (IH st1 A1) as (st2 & l & E2).
    - eapply Forall_impl; [|exact HF]. intros d [H1 H2]. split; intros X; [apply H1|apply H2]; apply A3; exact X.
    - rewrite E2. eexists; eexists; reflexivity.
  Qed.
End P.
