(** Proofs for C20: matching agrees with the declarative specification. *)
From Verif Require Import Prelude ListFacts PatModel PatSpec.

Lemma disjoint_sym a b : disjoint a b -> disjoint b a.
Proof. intros H x Ha Hb. exact (H x Hb Ha). Qed.

Lemma FOP_app {A} (R : A -> A -> Prop) l1 l2 :
  ForallOrdPairs R (l1 ++ l2) <->
  ForallOrdPairs R l1 /\ ForallOrdPairs R l2 /\ (forall a b, In a l1 -> In b l2 -> R a b).
Proof.
  induction l1 as [|x l1 IH]; simpl.
  - split; [intros H; split; [constructor|split; [exact H|intros a b []]]|intros (_ & H & _); exact H].
  - split.
    + intros H. inversion H as [|? ? Hx Ht]; subst. apply IH in Ht as (H1 & H2 & H3).
      rewrite Forall_app in Hx. destruct Hx as [Hx1 Hx2]. rewrite Forall_forall in Hx2.
      split; [constructor; assumption|split; [assumption|]].
      intros a b [<-|Ha] Hb; [exact (Hx2 b Hb)|exact (H3 a b Ha Hb)].
    + intros (H1 & H2 & H3). inversion H1 as [|? ? Hx Ht]; subst. constructor.
      * rewrite Forall_app. split; [exact Hx|]. rewrite Forall_forall. intros b Hb. apply H3; [left; reflexivity|exact Hb].
      * apply IH. split; [exact Ht|split; [exact H2|]]. intros a b Ha Hb. apply H3; [right; exact Ha|exact Hb].
Qed.
Lemma FOP_rev {A} (R : A -> A -> Prop) (Rs : forall a b, R a b -> R b a) l :
  ForallOrdPairs R l -> ForallOrdPairs R (rev l).
Proof.
  induction 1 as [|a l Ha Hl IH]; simpl; [constructor|].
  apply FOP_app. split; [exact IH|split; [constructor; constructor|]].
  intros x y Hx [<-|[]]. apply Rs. rewrite <- in_rev in Hx. rewrite Forall_forall in Ha. exact (Ha x Hx).
Qed.

Section PatInd.
  Context {E : Type} (P : pat E -> Prop)
          (HE : forall e, P (PExpr e))
          (HP : forall h args kwargs md wc cs,
              match args with Some ps => Forall P ps | None => True end ->
              match kwargs with Some ks => Forall (fun kq => P (snd kq)) ks | None => True end ->
              P (Pat h args kwargs md wc cs)).
  Fixpoint pat_ind' (p : pat E) : P p.
  Proof.
    destruct p as [e|h args kwargs md wc cs].
    - exact (HE e).
    - apply HP.
      + destruct args as [ps|]; [|exact I]. induction ps as [|q ps IH]; constructor; [exact (pat_ind' q)|exact IH].
      + destruct kwargs as [ks|]; [|exact I]. induction ks as [|[k q] ks IH]; constructor; [exact (pat_ind' q)|exact IH].
  Defined.
End PatInd.

Section Dict.
  Context {E : Type} (E_eqb : E -> E -> bool) (E_eqb_spec : forall x y, E_eqb x y = true <-> x = y).
  Implicit Types m o r : mdict E.

  Lemma list_eqb_spec a b : list_eqb E_eqb a b = true <-> a = b.
  Proof.
    revert b. induction a as [|x a IH]; intros [|y b]; simpl; try (split; [discriminate|discriminate]).
    - split; reflexivity.
    - rewrite andb_true_iff, E_eqb_spec, IH. split; [intros [-> ->]; reflexivity|intros H; injection H; auto].
  Qed.
  Lemma binding_eqb_spec u v : binding_eqb E_eqb u v = true <-> u = v.
  Proof.
    destruct u as [x|x], v as [y|y]; simpl; try (split; discriminate).
    - rewrite E_eqb_spec. split; [intros ->; reflexivity|intros H; injection H; auto].
    - rewrite list_eqb_spec. split; [intros ->; reflexivity|intros H; injection H; auto].
  Qed.

  Definition sub m (sigma : nat -> option (binding E)) := forall k v, In (k, v) m -> sigma k = Some v.
  Definition lkey m k := exists l, In (k, BList l) m.

  Lemma get_In m k v : get m k = Some v -> In (k, v) m.
  Proof.
    induction m as [|[k' v'] m IH]; simpl; [discriminate|].
    destruct (Nat.eqb_spec k k') as [->|]; [intros H; injection H as ->; left; reflexivity|intros H; right; exact (IH H)].
  Qed.
  Lemma get_None m k : get m k = None -> ~ In k (map fst m).
  Proof.
    induction m as [|[k' v'] m IH]; simpl; [auto|].
    destruct (Nat.eqb_spec k k') as [->|Hn]; [discriminate|]. intros H [<-|Hi]; [congruence|exact (IH H Hi)].
  Qed.
  Lemma get_NoDup m k v : NoDup (map fst m) -> In (k, v) m -> get m k = Some v.
  Proof.
    induction m as [|[k' v'] m IH]; simpl; [intros _ []|].
    intros Hnd. inversion Hnd as [|? ? Hni Ht]; subst. intros [H|H].
    - injection H as -> ->. rewrite Nat.eqb_refl. reflexivity.
    - destruct (Nat.eqb_spec k k') as [->|Hn]; [|exact (IH Ht H)].
      exfalso. apply Hni. apply (in_map fst) in H. exact H.
  Qed.
  Lemma get_None' m k : ~ In k (map fst m) -> get m k = None.
  Proof.
    intros H. destruct (get m k) as [v|] eqn:Hg; [|reflexivity].
    exfalso. apply H. apply get_In in Hg. apply (in_map fst) in Hg. exact Hg.
  Qed.
  Lemma NoDup_snoc {A} (l : list A) x : NoDup l -> ~ In x l -> NoDup (l ++ [x]).
  Proof.
    intros H Hx. apply NoDup_rev in H. rewrite <- (rev_involutive l), <- (rev_involutive [x]), <- rev_app_distr.
    apply NoDup_rev. simpl. constructor; [rewrite <- in_rev; exact Hx|exact H].
  Qed.

  (** setting without merging two lists *)
  Lemma set_item_plain mg m k v :
    (mg = NoMerge \/ (forall a b, get m k = Some (BList a) -> v = BList b -> False)) ->
    NoDup (map fst m) ->
    match set_item E_eqb mg m k v with
    | Some r => NoDup (map fst r) /\ (forall k' v', In (k', v') r <-> In (k', v') m \/ (k' = k /\ v' = v))
    | None => exists u, get m k = Some u /\ u <> v
    end.
  Proof.
    intros Hc Hnd. unfold set_item. destruct (get m k) as [u|] eqn:Hg.
    - assert (Hp : match (if binding_eqb E_eqb u v then Some m else None) with
                   | Some r => NoDup (map fst r) /\ (forall k' v', In (k', v') r <-> In (k', v') m \/ (k' = k /\ v' = v))
                   | None => exists u0, Some u = Some u0 /\ u0 <> v
                   end).
      { destruct (binding_eqb E_eqb u v) eqn:Hb.
        - apply binding_eqb_spec in Hb. subst v. split; [exact Hnd|]. intros k' v'. split; [auto|].
          intros [H|[-> ->]]; [exact H|]. apply get_In in Hg. exact Hg.
        - exists u. split; [reflexivity|]. intros ->. assert (binding_eqb E_eqb v v = true) by (apply binding_eqb_spec; reflexivity). congruence. }
      destruct u as [x|x], v as [y|y], mg; try exact Hp;
        (destruct Hc as [Hc|Hc]; [discriminate|exfalso; exact (Hc x y eq_refl eq_refl)]).
    - split.
      + rewrite map_app. simpl. apply NoDup_snoc; [exact Hnd|apply get_None; exact Hg].
      + intros k' v'. rewrite in_app_iff. simpl. split.
        * intros [H|[H|[]]]; [auto|]. injection H as -> ->. auto.
        * intros [H|[-> ->]]; auto.
  Qed.

  Lemma update_plain mg m o :
    (mg = NoMerge \/ (NoDup (map fst o) /\ forall k, lkey m k -> lkey o k -> False)) ->
    NoDup (map fst m) ->
    match update E_eqb mg m o with
    | Some r => NoDup (map fst r) /\ (forall k v, In (k, v) r <-> In (k, v) m \/ In (k, v) o)
    | None => forall sigma, sub m sigma -> sub o sigma -> False
    end.
  Proof.
    revert m. induction o as [|[k v] o IH]; intros m Hc Hnd; simpl.
    - split; [exact Hnd|]. intros k v. tauto.
    - pose proof (set_item_plain mg m k v) as Hs.
      assert (Hcs : mg = NoMerge \/ (forall a b, get m k = Some (BList a) -> v = BList b -> False)).
      { destruct Hc as [Hc|[_ Hc]]; [left; exact Hc|right]. intros a b Ha ->.
        apply (Hc k); [exists a; apply get_In; exact Ha|exists b; left; reflexivity]. }
      specialize (Hs Hcs Hnd). destruct (set_item E_eqb mg m k v) as [m'|].
      + destruct Hs as [Hnd' Hin].
        assert (Hc' : mg = NoMerge \/ (NoDup (map fst o) /\ forall k, lkey m' k -> lkey o k -> False)).
        { destruct Hc as [Hc|[Hno Hc]]; [left; exact Hc|right]. inversion Hno as [|? ? Hni Hno']; subst.
          split; [exact Hno'|]. intros k' [l Hl] [l' Hl']. apply Hin in Hl as [Hl|[-> _]].
          - apply (Hc k'); [exists l; exact Hl|exists l'; right; exact Hl'].
          - apply Hni. apply (in_map fst) in Hl'. exact Hl'. }
        specialize (IH m' Hc' Hnd'). destruct (update E_eqb mg m' o) as [r|].
        * destruct IH as [Hr1 Hr2]. split; [exact Hr1|]. intros k' v'. rewrite Hr2, Hin. simpl.
          split; [intros [[H|[-> ->]]|H]; auto|intros [H|[H|H]]; auto].
          injection H as -> ->. auto.
        * intros sigma H1 H2. apply (IH sigma).
          -- intros k' v' H. apply Hin in H as [H|[-> ->]]; [exact (H1 _ _ H)|]. apply H2. left. reflexivity.
          -- intros k' v' H. apply H2. right. exact H.
      + destruct Hs as [u [Hg Hu]]. intros sigma H1 H2. apply get_In, H1 in Hg.
        specialize (H2 k v (or_introl eq_refl)). congruence.
  Qed.

  Lemma update_app mg m o1 o2 :
    update E_eqb mg m (o1 ++ o2) = match update E_eqb mg m o1 with Some r => update E_eqb mg r o2 | None => None end.
  Proof.
    revert m. induction o1 as [|[k v] o1 IH]; intros m; simpl; [reflexivity|].
    destruct (set_item E_eqb mg m k v); [apply IH|reflexivity].
  Qed.

  Lemma replace_keys m k v : map fst (replace m k v) = map fst m.
  Proof.
    unfold replace. rewrite map_map. apply map_ext. intros [k' v']. simpl.
    destruct (Nat.eqb_spec k' k) as [->|]; reflexivity.
  Qed.
  Lemma replace_In m w u k v : k <> w -> In (k, v) (replace m w u) <-> In (k, v) m.
  Proof.
    intros Hk. unfold replace. rewrite in_map_iff. split.
    - intros [[k' v'] [He Hi]]. simpl in He. destruct (Nat.eqb_spec k' w) as [->|].
      + injection He as -> _. congruence.
      + rewrite <- He. exact Hi.
    - intros Hi. exists (k, v). simpl. destruct (Nat.eqb_spec k w) as [->|]; [congruence|]. auto.
  Qed.
  Lemma replace_get m w u v : get m w = Some v -> get (replace m w u) w = Some u.
  Proof.
    induction m as [|[k' v'] m IH]; simpl; [discriminate|].
    destruct (Nat.eqb_spec w k') as [->|Hn].
    - intros _. rewrite Nat.eqb_refl. simpl. rewrite Nat.eqb_refl. reflexivity.
    - intros H. destruct (Nat.eqb_spec k' w) as [->|]; [congruence|]. simpl.
      destruct (Nat.eqb_spec w k'); [congruence|]. exact (IH H).
  Qed.
End Dict.

Definition strip {E} (p : pat E) : pat E :=
  match p with PExpr e => PExpr e | Pat h a k md _ cs => Pat h a k md None cs end.

Section Main.
  Context {E : Type} (E_eqb : E -> E -> bool) (E_eqb_spec : forall x y, E_eqb x y = true <-> x = y)
          (eargs : E -> option (list E)) (ekwargs : E -> option (list (nat * E)))
          (isinst : E -> nat -> bool) (cond : nat -> E -> bool).
  Notation pmatch := (pmatch E_eqb eargs ekwargs isinst cond).
  Notation matches := (matches eargs ekwargs isinst cond).
  Notation shape := (shape eargs ekwargs isinst cond).
  Implicit Types m o r : mdict E.
  Implicit Types p q : pat E.

  Definition exc {A} (x : mres A) : Prop := x = MExc UnboundLocalError.

  (** agreement of a matching function with a specification [S] *)
  Definition agrees (names : list nat) (f : E -> mres E) (S : (nat -> option (binding E)) -> E -> Prop) : Prop :=
    forall e,
      (forall m, f e = MOk m -> NoDup (map fst m) /\ (forall k, lkey m k -> In k names)
                                /\ (forall sigma, sub m sigma -> S sigma e))
      /\ (forall sigma, S sigma e -> (exists m, f e = MOk m /\ sub m sigma) \/ exc (f e)).

  Definition dis (mg : merge) (r : mdict E) (names : list nat) : Prop :=
    mg = NoMerge \/ forall k, lkey r k -> In k names -> False.

  (** one [res.update(match_pattern(q, a))] *)
  Lemma step_ok mg names f S a r :
    agrees names f S -> dis mg r names -> NoDup (map fst r) ->
    (forall r', step E_eqb mg f a r = MOk r' ->
       NoDup (map fst r') /\ (forall k, lkey r' k -> lkey r k \/ In k names)
       /\ (forall sigma, sub r' sigma -> sub r sigma /\ S sigma a))
    /\ (forall sigma, sub r sigma -> S sigma a ->
         (exists r', step E_eqb mg f a r = MOk r' /\ sub r' sigma) \/ exc (step E_eqb mg f a r)).
  Proof.
    intros Ha Hd Hnd. destruct (Ha a) as [Hs Hc]. unfold step. split.
    - destruct (f a) as [m| |ex]; try discriminate. destruct (Hs m eq_refl) as (Hm1 & Hm2 & Hm3).
      intros r'. pose proof (update_plain E_eqb E_eqb_spec mg r m) as Hu.
      destruct (update E_eqb mg r m) as [r1|]; [|discriminate]. intros H. injection H as ->.
      destruct Hu as [Hu1 Hu2]; [|exact Hnd|].
      { destruct Hd as [Hd|Hd]; [left; exact Hd|right]. split; [exact Hm1|]. intros k H1 H2. exact (Hd k H1 (Hm2 k H2)). }
      split; [exact Hu1|split].
      + intros k [l Hl]. apply Hu2 in Hl as [Hl|Hl]; [left; exists l; exact Hl|right; apply Hm2; exists l; exact Hl].
      + intros sigma Hsub. split.
        * intros k v H. apply Hsub, Hu2. auto.
        * apply Hm3. intros k v H. apply Hsub, Hu2. auto.
    - intros sigma Hsub HS. destruct (Hc sigma HS) as [[m [Hm Hms]]|He].
      + destruct (Hs m Hm) as (Hm1 & Hm2 & Hm3). rewrite Hm.
        pose proof (update_plain E_eqb E_eqb_spec mg r m) as Hu.
        assert (Hcc : mg = NoMerge \/ NoDup (map fst m) /\ (forall k, lkey r k -> lkey m k -> False)).
        { destruct Hd as [Hd|Hd]; [left; exact Hd|right]. split; [exact Hm1|]. intros k H1 H2. exact (Hd k H1 (Hm2 k H2)). }
        specialize (Hu Hcc Hnd). destruct (update E_eqb mg r m) as [r1|].
        * left. exists r1. split; [reflexivity|]. intros k v H. apply Hu in H as [H|H]; [exact (Hsub _ _ H)|exact (Hms _ _ H)].
        * exfalso. exact (Hu sigma Hsub Hms).
      + right. unfold exc in *. rewrite He. reflexivity.
  Qed.

  Notation F := (fun q => (mode_of q, wc_of q, pmatch q)).
  Definition good q := agrees (list_names q) (pmatch q) (fun sigma => matches sigma q).
  Definition disl (mg : merge) (r : mdict E) (ps : list (pat E)) : Prop :=
    mg = NoMerge \/ ((forall q, In q ps -> forall k, lkey r k -> In k (list_names q) -> False)
                     /\ ForallOrdPairs disjoint (map list_names ps)).

  Lemma disl_step mg r r' q ps :
    disl mg r (q :: ps) -> (forall k, lkey r' k -> lkey r k \/ In k (list_names q)) -> disl mg r' ps.
  Proof.
    intros [H|[H1 H2]] Hk; [left; exact H|right]. simpl in H2. inversion H2 as [|? ? Ha Hb]; subst.
    split; [|exact Hb]. intros q' Hq' k Hl Hn. destruct (Hk k Hl) as [Hl'|Hl'].
    - exact (H1 q' (or_intror Hq') k Hl' Hn).
    - rewrite Forall_forall in Ha. exact (Ha (list_names q') (in_map list_names _ _ Hq') k Hl' Hn).
  Qed.
  Lemma disl_dis mg r q ps : disl mg r (q :: ps) -> dis mg r (list_names q).
  Proof. intros [H|[H1 _]]; [left; exact H|right]. exact (H1 q (or_introl eq_refl)). Qed.

  Definition started {A} (cur : bool) (ps : list A) : bool := cur || negb (match ps with [] => true | _ => false end).

  Lemma loop_singles mg ps tail : forall cur as_ r,
    Forall (fun q => nonsingle (mode_of q) = false) ps -> Forall good ps ->
    disl mg r ps -> NoDup (map fst r) ->
    (forall r', loop E_eqb mg (map F (ps ++ tail)) cur as_ r = MOk r' ->
       exists as1 as2 r1, as_ = as1 ++ as2 /\ length as1 = length ps
         /\ loop E_eqb mg (map F tail) (started cur ps) as2 r1 = MOk r'
         /\ NoDup (map fst r1) /\ (forall k, lkey r1 k -> lkey r k \/ In k (concat (map list_names ps)))
         /\ (forall sigma, sub r1 sigma -> sub r sigma /\ Forall2 (matches sigma) ps as1))
    /\ (forall sigma as1 as2, as_ = as1 ++ as2 -> sub r sigma -> Forall2 (matches sigma) ps as1 ->
         (exists r1, loop E_eqb mg (map F (ps ++ tail)) cur as_ r = loop E_eqb mg (map F tail) (started cur ps) as2 r1
            /\ NoDup (map fst r1) /\ (forall k, lkey r1 k -> lkey r k \/ In k (concat (map list_names ps)))
            /\ sub r1 sigma)
         \/ exc (loop E_eqb mg (map F (ps ++ tail)) cur as_ r)).
  Proof.
    induction ps as [|q ps IH]; intros cur as_ r Hsing Hg Hd Hnd.
    - simpl. split.
      + intros r' Hl. exists [], as_, r. replace (started cur (@nil (pat E))) with cur by (destruct cur; reflexivity).
        split; [reflexivity|split; [reflexivity|split; [exact Hl|split; [exact Hnd|split; [auto|]]]]].
        intros sigma Hs. split; [exact Hs|constructor].
      + intros sigma as1 as2 -> Hs Hf. inversion Hf; subst. left. exists r.
        replace (started cur (@nil (pat E))) with cur by (destruct cur; reflexivity).
        split; [reflexivity|split; [exact Hnd|split; [auto|exact Hs]]].
    - inversion Hsing as [|? ? Hq Hsing']; subst. inversion Hg as [|? ? Hgq Hg']; subst.
      destruct as_ as [|a as_].
      + simpl. split.
        * intros r'. unfold check_last. destruct cur; [|discriminate]. destruct (mode_of q); discriminate.
        * intros sigma as1 as2 H Hs Hf. inversion Hf; subst. discriminate.
      + simpl. rewrite Hq.
        destruct (step_ok mg (list_names q) (pmatch q) (fun sigma => matches sigma q) a r Hgq (disl_dis _ _ _ _ Hd) Hnd) as [Hs1 Hs2].
        assert (Hst : started cur (q :: ps) = started true ps) by (destruct cur; reflexivity).
        rewrite Hst. split.
        * intros r'. destruct (step E_eqb mg (pmatch q) a r) as [r0| |] eqn:Hstep; try discriminate.
          destruct (Hs1 r0 eq_refl) as (Hr0 & Hk0 & Hsig0). intros Hl.
          destruct (IH true as_ r0 Hsing' Hg' (disl_step _ _ _ _ _ Hd Hk0) Hr0) as [IH1 _].
          destruct (IH1 r' Hl) as (as1 & as2 & r1 & -> & Hlen & Hl1 & Hnd1 & Hk1 & Hsig1).
          exists (a :: as1), as2, r1. split; [reflexivity|split; [simpl; lia|split; [exact Hl1|split; [exact Hnd1|split]]]].
          -- intros k Hk. simpl. rewrite in_app_iff. destruct (Hk1 k Hk) as [H|H]; [|auto]. destruct (Hk0 k H); auto.
          -- intros sigma Hsig. destruct (Hsig1 sigma Hsig) as [Ha Hb]. destruct (Hsig0 sigma Ha) as [Hc Hd'].
             split; [exact Hc|constructor; assumption].
        * intros sigma as1 as2 Has Hsub Hf. inversion Hf as [|? b ? as1' Hqa Hf' He1 He2]; subst.
          simpl in Has. injection Has as <- ->.
          destruct (Hs2 sigma Hsub Hqa) as [[r0 [Hstep Hsub0]]|He].
          -- destruct (Hs1 r0 Hstep) as (Hr0 & Hk0 & Hsig0). rewrite Hstep.
             destruct (IH true (as1' ++ as2) r0 Hsing' Hg' (disl_step _ _ _ _ _ Hd Hk0) Hr0) as [_ IH2].
             destruct (IH2 sigma as1' as2 eq_refl Hsub0 Hf') as [(r1 & Hl1 & Hnd1 & Hk1 & Hsig1)|He]; [|right; exact He].
             left. exists r1. split; [exact Hl1|split; [exact Hnd1|split; [|exact Hsig1]]].
             intros k Hk. simpl. rewrite in_app_iff. destruct (Hk1 k Hk) as [H|H]; [|auto]. destruct (Hk0 k H); auto.
          -- right. unfold exc in *. rewrite He. reflexivity.
  Qed.

  (** keyword arguments *)
  Lemma kwloop_ok mg have ks : forall r,
    Forall (fun kq => good (snd kq)) ks -> disl mg r (map snd ks) -> NoDup (map fst r) ->
    let L := kwloop E_eqb mg (map (fun kq => (fst kq, pmatch (snd kq))) ks) have r in
    let SP sigma := Forall (fun kq : nat * pat E => exists kw v, have = Some kw /\ lookup (fst kq) kw = Some v
                                          /\ matches sigma (snd kq) v) ks in
    (forall r', L = MOk r' -> NoDup (map fst r') /\ (forall k, lkey r' k -> lkey r k \/ In k (concat (map (fun kq => list_names (snd kq)) ks)))
         /\ (forall sigma, sub r' sigma -> sub r sigma /\ SP sigma))
    /\ (forall sigma, sub r sigma -> SP sigma -> (exists r', L = MOk r' /\ sub r' sigma) \/ exc L).
  Proof.
    induction ks as [|[k q] ks IH]; intros r Hg Hd Hnd; simpl.
    - split.
      + intros r' H. injection H as ->. split; [exact Hnd|split; [auto|]]. intros sigma H. split; [exact H|constructor].
      + intros sigma H _. left. exists r. auto.
    - inversion Hg as [|? ? Hgq Hg']; subst. simpl in Hgq, Hd.
      destruct have as [kw|].
      2:{ split; [discriminate|]. intros sigma _ H. inversion H as [|? ? (kw & v & H0 & _) _]; subst. discriminate. }
      destruct (lookup k kw) as [v|] eqn:Hlk.
      2:{ split; [discriminate|]. intros sigma _ H. inversion H as [|? ? (kw' & v & H0 & H1 & _) _]; subst.
          injection H0 as <-. simpl in H1. congruence. }
      destruct (step_ok mg (list_names q) (pmatch q) (fun sigma => matches sigma q) v r Hgq (disl_dis _ _ _ _ Hd) Hnd) as [Hs1 Hs2].
      split.
      + intros r'. destruct (step E_eqb mg (pmatch q) v r) as [r0| |] eqn:Hstep; try discriminate.
        destruct (Hs1 r0 eq_refl) as (Hr0 & Hk0 & Hsig0). intros Hl.
        destruct (IH r0 Hg' (disl_step _ _ _ _ _ Hd Hk0) Hr0) as [IH1 _].
        destruct (IH1 r' Hl) as (Hnd1 & Hk1 & Hsig1). split; [exact Hnd1|split].
        * intros k' Hk. rewrite in_app_iff. destruct (Hk1 k' Hk) as [H|H]; [|auto]. destruct (Hk0 k' H); auto.
        * intros sigma Hsig. destruct (Hsig1 sigma Hsig) as [Ha Hb]. destruct (Hsig0 sigma Ha) as [Hc Hd'].
          split; [exact Hc|constructor; [|exact Hb]]. exists kw, v. simpl. auto.
      + intros sigma Hsub Hf. inversion Hf as [|? ? (kw' & v' & H0 & H1 & H2) Hf']; subst.
        injection H0 as <-. simpl in H1, H2. rewrite Hlk in H1. injection H1 as <-.
        destruct (Hs2 sigma Hsub H2) as [[r0 [Hstep Hsub0]]|He].
        * destruct (Hs1 r0 Hstep) as (Hr0 & Hk0 & Hsig0). rewrite Hstep.
          destruct (IH r0 Hg' (disl_step _ _ _ _ _ Hd Hk0) Hr0) as [_ IH2]. exact (IH2 sigma Hsub0 Hf').
        * right. unfold exc in *. rewrite He. reflexivity.
  Qed.

  (** ** the non-single argument *)
  Lemma many_plain mg f S as_ : agrees [] f S -> forall r, NoDup (map fst r) ->
    (forall r', many E_eqb mg f as_ r = MOk r' ->
       NoDup (map fst r') /\ (forall k, lkey r' k -> lkey r k)
       /\ (forall sigma, sub r' sigma -> sub r sigma /\ Forall (S sigma) as_))
    /\ (forall sigma, sub r sigma -> Forall (S sigma) as_ ->
         (exists r', many E_eqb mg f as_ r = MOk r' /\ sub r' sigma) \/ exc (many E_eqb mg f as_ r)).
  Proof.
    intros Ha. induction as_ as [|a as_ IH]; intros r Hnd; simpl.
    - split.
      + intros r' H. injection H as ->. split; [exact Hnd|split; [auto|]]. intros sigma H. split; [exact H|constructor].
      + intros sigma H _. left. exists r. auto.
    - destruct (step_ok mg [] f S a r Ha) as [Hs1 Hs2]; [right; intros k _ []|exact Hnd|]. split.
      + intros r'. destruct (step E_eqb mg f a r) as [r0| |] eqn:Hstep; try discriminate.
        destruct (Hs1 r0 eq_refl) as (Hr0 & Hk0 & Hsig0). intros Hl. destruct (IH r0 Hr0) as [IH1 _].
        destruct (IH1 r' Hl) as (H1 & H2 & H3). split; [exact H1|split].
        * intros k Hk. destruct (Hk0 k (H2 k Hk)) as [H|[]]. exact H.
        * intros sigma Hs. destruct (H3 sigma Hs) as [Hx Hy]. destruct (Hsig0 sigma Hx) as [Hz Hw]. split; [exact Hz|constructor; assumption].
      + intros sigma Hsub Hf. inversion Hf as [|? ? HSa Hf']; subst.
        destruct (Hs2 sigma Hsub HSa) as [[r0 [Hstep Hsub0]]|He].
        * destruct (Hs1 r0 Hstep) as (Hr0 & _ & _). rewrite Hstep. destruct (IH r0 Hr0) as [_ IH2]. exact (IH2 sigma Hsub0 Hf').
        * right. unfold exc in *. rewrite He. reflexivity.
  Qed.

  Definition sub_but (w : nat) (m : mdict E) (sigma : nat -> option (binding E)) :=
    forall k v, k <> w -> In (k, v) m -> sigma k = Some v.
  Definition wstate (w : nat) (r : mdict E) (acc : list E) :=
    get r w = Some (BList acc) \/ (acc = [] /\ get r w = None).
  Definition joins (mg : merge) (acc as_ : list E) : list E :=
    match mg with Prepend => rev as_ ++ acc | _ => acc ++ as_ end.

  Lemma joins_cons mg acc a as_ : joins mg acc (a :: as_) = joins mg (joins mg acc [a]) as_.
  Proof. unfold joins. destruct mg; simpl; rewrite <- !app_assoc; reflexivity. Qed.

  Lemma set_item_w mg w r a : mg <> NoMerge -> NoDup (map fst r) ->
    (forall r', set_item E_eqb mg r w (BList [a]) = Some r' ->
       NoDup (map fst r') /\ (exists acc, wstate w r acc /\ get r' w = Some (BList (joins mg acc [a])))
       /\ (forall k v, k <> w -> In (k, v) r' <-> In (k, v) r))
    /\ (forall acc, wstate w r acc -> exists r', set_item E_eqb mg r w (BList [a]) = Some r').
  Proof.
    intros Hmg Hnd. unfold set_item, wstate.
    destruct (get r w) as [[x|x]|] eqn:Hg.
    - simpl. split; [destruct mg; discriminate|]. intros acc [H|[_ H]]; discriminate.
    - assert (Hgen : forall L, (forall r', Some (replace r w (BList (joins mg x [a]))) = Some r' ->
         NoDup (map fst r') /\ (exists acc, (Some (BList x) = Some (BList acc) \/ acc = [] /\ Some (BList x) = None) /\ get r' w = Some (BList (joins mg acc [a])))
         /\ (forall k v, k <> w -> In (k, v) r' <-> In (k, v) r))
         /\ (forall acc : list E, Some (BList x) = Some (BList acc) \/ acc = [] /\ Some (BList x) = None -> exists r', Some (replace r w (BList L)) = Some r')).
      { intros L. split.
        - intros r' H. injection H as <-. rewrite replace_keys. split; [exact Hnd|split].
          + exists x. split; [auto|]. exact (replace_get _ _ _ _ Hg).
          + intros k v Hk. apply replace_In. exact Hk.
        - intros acc _. eexists. reflexivity. }
      unfold joins in Hgen. destruct mg; [congruence| |]; exact (Hgen _).
    - split.
      + intros r' H. injection H as <-. rewrite map_app. simpl. split; [apply NoDup_snoc; [exact Hnd|apply get_None; exact Hg]|split].
        * exists []. split; [auto|]. rewrite (get_NoDup _ w (BList [a])).
          -- unfold joins. destruct mg; reflexivity.
          -- rewrite map_app. apply NoDup_snoc; [exact Hnd|apply get_None; exact Hg].
          -- rewrite in_app_iff. right. left. reflexivity.
        * intros k v Hk. rewrite in_app_iff. simpl. split; [|auto]. intros [H|[H|[]]]; [exact H|]. congruence.
      + intros acc _. eexists. reflexivity.
  Qed.

  Section Named.
    Variable (mg mgq : merge) (md : mode) (w : nat) (g : E -> mres E) (S : (nat -> option (binding E)) -> E -> Prop).
    Hypothesis (Hmg : mg <> NoMerge) (Hmd : nonsingle md = true) (Hg : agrees [] g S).
    Let f := fun a => match g a with MOk r0 => record E_eqb mgq md (Some w) a r0 | x => x end.

    Lemma f_ok a m : f a = MOk m -> exists r0, g a = MOk r0 /\ m = r0 ++ [(w, BList [a])] /\ ~ In w (map fst r0)
        /\ NoDup (map fst r0) /\ (forall k, ~ lkey r0 k) /\ (forall sigma, sub r0 sigma -> S sigma a).
    Proof.
      unfold f, record. rewrite Hmd. destruct (g a) as [r0| |] eqn:Hga; try discriminate.
      destruct (Hg a) as [Hs _]. destruct (Hs r0 Hga) as (H1 & H2 & H3).
      unfold set_item. destruct (get r0 w) as [[x|x]|] eqn:Hgw.
      - simpl. destruct mgq; discriminate.
      - exfalso. apply (H2 w). exists x. apply get_In. exact Hgw.
      - intros H. injection H as <-. exists r0. split; [reflexivity|split; [reflexivity|split; [apply get_None; exact Hgw|]]].
        split; [exact H1|split; [intros k Hk; exact (H2 k Hk)|exact H3]].
    Qed.

    Lemma upd_app r r0 a : NoDup (map fst r) -> NoDup (map fst r0) -> (forall k, ~ lkey r0 k) ->
      match update E_eqb mg r (r0 ++ [(w, BList [a])]) with
      | Some r' => exists r1, NoDup (map fst r1) /\ (forall k v, In (k, v) r1 <-> In (k, v) r \/ In (k, v) r0)
                             /\ set_item E_eqb mg r1 w (BList [a]) = Some r'
      | None => (forall sigma, sub r sigma -> sub r0 sigma -> False)
                \/ exists r1, NoDup (map fst r1) /\ (forall k v, In (k, v) r1 <-> In (k, v) r \/ In (k, v) r0)
                             /\ set_item E_eqb mg r1 w (BList [a]) = None
      end.
    Proof.
      intros Hnd Hnd0 Hl0. rewrite update_app.
      pose proof (update_plain E_eqb E_eqb_spec mg r r0) as Hu.
      assert (Hc : mg = NoMerge \/ NoDup (map fst r0) /\ (forall k, lkey r k -> lkey r0 k -> False)).
      { right. split; [exact Hnd0|]. intros k _ Hk. exact (Hl0 k Hk). }
      specialize (Hu Hc Hnd). destruct (update E_eqb mg r r0) as [r1|]; [|left; exact Hu].
      destruct Hu as [Hu1 Hu2]. simpl. destruct (set_item E_eqb mg r1 w (BList [a])) as [r'|] eqn:Hsi.
      - exists r1. auto.
      - right. exists r1. auto.
    Qed.

    Lemma get_transfer r r0 r1 : NoDup (map fst r) -> NoDup (map fst r1) -> ~ In w (map fst r0) ->
      (forall k v, In (k, v) r1 <-> In (k, v) r \/ In (k, v) r0) -> get r1 w = get r w.
    Proof.
      intros Hnd Hnd1 Hw Hin. destruct (get r w) as [v|] eqn:Hgr.
      - apply get_NoDup; [exact Hnd1|]. apply Hin. left. apply get_In. exact Hgr.
      - apply get_None'. intros Hi. apply in_map_iff in Hi as [[k v] [Hk Hi]]. simpl in Hk. subst k.
        apply Hin in Hi as [Hi|Hi].
        + apply (in_map fst) in Hi. exact (get_None _ _ Hgr Hi).
        + apply (in_map fst) in Hi. exact (Hw Hi).
    Qed.

    Lemma step_w a r : NoDup (map fst r) ->
      (forall r', step E_eqb mg f a r = MOk r' ->
        NoDup (map fst r') /\ (exists acc, wstate w r acc /\ get r' w = Some (BList (joins mg acc [a])))
        /\ (forall k, k <> w -> lkey r' k -> lkey r k)
        /\ (forall sigma, sub_but w r' sigma -> sub_but w r sigma /\ S sigma a))
      /\ (forall sigma acc, wstate w r acc -> sub_but w r sigma -> (exists l, sigma w = Some (BList l)) -> S sigma a ->
           (exists r', step E_eqb mg f a r = MOk r' /\ sub_but w r' sigma) \/ exc (step E_eqb mg f a r)).
    Proof.
      intros Hnd. unfold step. split.
      - intros r'. destruct (f a) as [m| |] eqn:Hfa; try discriminate.
        destruct (f_ok a m Hfa) as (r0 & Hga & -> & Hw & Hnd0 & Hl0 & HS).
        pose proof (upd_app r r0 a Hnd Hnd0 Hl0) as Hu.
        destruct (update E_eqb mg r (r0 ++ [(w, BList [a])])) as [r2|]; [|discriminate].
        intros H. injection H as ->. destruct Hu as (r1 & Hnd1 & Hin1 & Hsi).
        destruct (set_item_w mg w r1 a Hmg Hnd1) as [Hs1 _]. destruct (Hs1 r' Hsi) as (H1 & (acc & H2 & H3) & H4).
        split; [exact H1|split; [|split]].
        + exists acc. split; [|exact H3]. unfold wstate in *. rewrite <- (get_transfer r r0 r1 Hnd Hnd1 Hw Hin1). exact H2.
        + intros k Hk [l Hl]. apply (H4 k _ Hk) in Hl. apply Hin1 in Hl as [Hl|Hl]; [exists l; exact Hl|]. exfalso. apply (Hl0 k). exists l. exact Hl.
        + intros sigma Hsub. split.
          * intros k v Hk Hi. apply (Hsub k v Hk). apply (H4 k v Hk), Hin1. auto.
          * apply HS. intros k v Hi. assert (Hk : k <> w). { intros ->. apply Hw. apply (in_map fst) in Hi. exact Hi. }
            apply (Hsub k v Hk). apply (H4 k v Hk), Hin1. auto.
      - intros sigma acc Hws Hsub [l Hl] HSa. destruct (Hg a) as [Hs Hc].
        destruct (Hc sigma HSa) as [[r0 [Hga Hsub0]]|He].
        2:{ right. unfold exc, f in *. rewrite He. reflexivity. }
        destruct (Hs r0 Hga) as (Hnd0 & Hl0 & _).
        assert (Hw : ~ In w (map fst r0)).
        { intros Hi. apply in_map_iff in Hi as [[k v] [Hk Hi]]. simpl in Hk. subst k.
          pose proof (Hsub0 _ _ Hi) as Hv. rewrite Hl in Hv. injection Hv as <-. apply (Hl0 w). exists l. exact Hi. }
        assert (Hfa : f a = MOk (r0 ++ [(w, BList [a])])).
        { unfold f, record. rewrite Hga, Hmd. unfold set_item. rewrite (get_None' _ _ Hw). reflexivity. }
        rewrite Hfa. pose proof (upd_app r r0 a Hnd Hnd0 (fun k Hk => Hl0 k Hk)) as Hu.
        destruct (update E_eqb mg r (r0 ++ [(w, BList [a])])) as [r2|].
        + destruct Hu as (r1 & Hnd1 & Hin1 & Hsi). left. exists r2. split; [reflexivity|].
          destruct (set_item_w mg w r1 a Hmg Hnd1) as [Hs1 _]. destruct (Hs1 r2 Hsi) as (_ & _ & H4).
          intros k v Hk Hi. apply (H4 k v Hk), Hin1 in Hi as [Hi|Hi]; [exact (Hsub k v Hk Hi)|exact (Hsub0 k v Hi)].
        + exfalso. destruct Hu as [Hu|(r1 & Hnd1 & Hin1 & Hsi)].
          * (* adjust sigma at w so that it covers r *)
            set (sigma' := fun k => if k =? w then get r w else sigma k).
            apply (Hu sigma').
            -- intros k v Hi. unfold sigma'. destruct (Nat.eqb_spec k w) as [->|Hk]; [apply get_NoDup; assumption|exact (Hsub k v Hk Hi)].
            -- intros k v Hi. unfold sigma'. destruct (Nat.eqb_spec k w) as [->|Hk]; [|exact (Hsub0 k v Hi)].
               exfalso. apply Hw. apply (in_map fst) in Hi. exact Hi.
          * destruct (set_item_w mg w r1 a Hmg Hnd1) as [_ Hs2].
            destruct (Hs2 acc) as [r' Hr']; [|congruence].
            unfold wstate in *. rewrite (get_transfer r r0 r1 Hnd Hnd1 Hw Hin1). exact Hws.
    Qed.

    Lemma many_w as_ : forall r, NoDup (map fst r) ->
      (forall r', many E_eqb mg f as_ r = MOk r' ->
        NoDup (map fst r') /\ (as_ = [] /\ r' = r \/ exists acc, wstate w r acc /\ get r' w = Some (BList (joins mg acc as_)))
        /\ (forall k, k <> w -> lkey r' k -> lkey r k)
        /\ (forall sigma, sub_but w r' sigma -> sub_but w r sigma /\ Forall (S sigma) as_))
      /\ (forall sigma acc, wstate w r acc -> sub_but w r sigma -> (exists l, sigma w = Some (BList l)) -> Forall (S sigma) as_ ->
           (exists r', many E_eqb mg f as_ r = MOk r' /\ sub_but w r' sigma) \/ exc (many E_eqb mg f as_ r)).
    Proof.
      induction as_ as [|a as_ IH]; intros r Hnd; simpl.
      - split.
        + intros r' H. injection H as ->. split; [exact Hnd|split; [auto|split; [auto|]]]. intros sigma H. split; [exact H|constructor].
        + intros sigma acc _ H _ _. left. exists r. auto.
      - destruct (step_w a r Hnd) as [Hs1 Hs2]. split.
        + intros r'. destruct (step E_eqb mg f a r) as [r0| |] eqn:Hstep; try discriminate.
          destruct (Hs1 r0 eq_refl) as (H1 & (acc & H2 & H3) & H4 & H5). intros Hl.
          destruct (IH r0 H1) as [IH1 _]. destruct (IH1 r' Hl) as (J1 & J2 & J3 & J4).
          split; [exact J1|split; [right|split]].
          * exists acc. split; [exact H2|]. rewrite joins_cons. destruct J2 as [[-> ->]|(acc' & [K1|[_ K1]] & K2)].
            -- rewrite H3. unfold joins. destruct mg; simpl; rewrite ?app_nil_r; reflexivity.
            -- rewrite H3 in K1. injection K1 as <-. exact K2.
            -- congruence.
          * intros k Hk Hlk. exact (H4 k Hk (J3 k Hk Hlk)).
          * intros sigma Hs. destruct (J4 sigma Hs) as [Hx Hy]. destruct (H5 sigma Hx) as [Hz Hw]. split; [exact Hz|constructor; assumption].
        + intros sigma acc Hws Hsub Hl Hf. inversion Hf as [|? ? HSa Hf']; subst.
          destruct (Hs2 sigma acc Hws Hsub Hl HSa) as [[r0 [Hstep Hsub0]]|He].
          * destruct (Hs1 r0 Hstep) as (H1 & (acc' & H2 & H3) & H4 & H5). rewrite Hstep.
            destruct (IH r0 H1) as [_ IH2]. exact (IH2 sigma _ (or_introl H3) Hsub0 Hl Hf').
          * right. unfold exc in *. rewrite He. reflexivity.
    Qed.
  End Named.

  Definition args_of p := match p with PExpr _ => None | Pat _ a _ _ _ _ => a end.
  Lemma pmatch_strip p e :
    pmatch p e = match pmatch (strip p) e with MOk r => record E_eqb (merge_of (args_of p)) (mode_of p) (wc_of p) e r | x => x end.
  Proof.
    destruct p as [e'|h args kwargs md wc cs].
    - cbn [PatModel.pmatch strip args_of mode_of wc_of]. destruct (E_eqb e' e); reflexivity.
    - cbn [PatModel.pmatch strip args_of mode_of wc_of].
      destruct (negb match h with None => true | Some h0 => isinst e h0 end); [reflexivity|].
      destruct (negb (forallb (fun c => cond c e) cs)); [reflexivity|].
      match goal with |- match ?A with _ => _ end = _ => destruct A as [r| |] end; try reflexivity.
      match goal with |- match ?A with _ => _ end = _ => destruct A as [r'| |] end; reflexivity.
  Qed.
  Lemma list_names_strip p :
    list_names p = (if nonsingle (mode_of p) then match wc_of p with Some w => [w] | None => [] end else []) ++ list_names (strip p).
  Proof.
    destruct p as [e|h args kwargs md wc cs]; [reflexivity|]. cbn [list_names strip mode_of wc_of].
    destruct (nonsingle md); reflexivity.
  Qed.
  Definition good' q := agrees (list_names (strip q)) (pmatch (strip q)) (fun sigma => shape sigma q).

  Notation matches1 sigma q seg := (count_ok (mode_of q) (length seg) /\ Forall (shape sigma q) seg
                                    /\ assigned sigma (wc_of q) (mode_of q) seg).

  (** the last (in iteration order) pattern, when it is the non-single one *)
  Lemma tail_ok mg q cur as_ r :
    mg <> NoMerge -> nonsingle (mode_of q) = true -> good' q ->
    list_names q = match wc_of q with Some w => [w] | None => [] end ->
    (forall k, lkey r k -> In k (list_names q) -> False) -> NoDup (map fst r) ->
    let seg := joins mg [] as_ in
    (forall r', loop E_eqb mg (map F [q]) cur as_ r = MOk r' ->
       NoDup (map fst r') /\ (forall k, lkey r' k -> lkey r k \/ In k (list_names q))
       /\ (forall sigma, sub r' sigma -> sub r sigma /\ matches1 sigma q seg))
    /\ (forall sigma, sub r sigma -> matches1 sigma q seg ->
         (exists r', loop E_eqb mg (map F [q]) cur as_ r = MOk r' /\ sub r' sigma) \/ exc (loop E_eqb mg (map F [q]) cur as_ r)).
  Proof.
    intros Hmg Hq Hg Hln Hd Hnd seg.
    assert (Hls : list_names (strip q) = []).
    { pose proof (list_names_strip q) as H. rewrite Hq, Hln in H. destruct (wc_of q) as [w|]; [|symmetry; exact H].
      simpl in H. injection H as H. symmetry. exact H. }
    unfold good' in Hg. rewrite Hls in Hg.
    assert (Hseg : forall P, Forall P seg <-> Forall P as_).
    { intros P. unfold seg, joins. destruct mg; simpl; rewrite ?app_nil_r; try reflexivity.
      split; intros H; [apply Forall_rev in H; rewrite rev_involutive in H; exact H|apply Forall_rev; exact H]. }
    assert (Hlen : length seg = length as_).
    { unfold seg, joins. destruct mg; simpl; rewrite ?app_nil_r, ?rev_length; reflexivity. }
    destruct as_ as [|a0 as0].
    - assert (Hs : seg = []) by (destruct seg; [reflexivity|discriminate]). rewrite Hs.
      cbn [map loop]. unfold check_last. destruct cur; cbn [negb].
      2:{ split; [discriminate|]. intros. right. reflexivity. }
      destruct (mode_of q) eqn:Hmode.
      + discriminate.
      + split; [discriminate|]. intros sigma _ (H & _). simpl in H. lia.
      + destruct (wc_of q) as [w|] eqn:Hw.
        * pose proof (update_plain E_eqb E_eqb_spec mg r [(w, BList [])]) as Hu.
          assert (Hc : mg = NoMerge \/ NoDup (map fst [(w, BList (E:=E) [])]) /\ (forall k, lkey r k -> lkey [(w, BList (E:=E) [])] k -> False)).
          { right. split; [simpl; constructor; [intros []|constructor]|].
            intros k Hk [l [Hl|[]]]. injection Hl as <- _. apply (Hd w Hk). rewrite Hln. left. reflexivity. }
          specialize (Hu Hc Hnd).
          destruct (update E_eqb mg r [(w, BList [])]) as [r1|].
          -- destruct Hu as [Hu1 Hu2]. split.
             ++ intros r' H. injection H as <-. split; [exact Hu1|split].
                ** intros k [l Hl]. apply Hu2 in Hl as [Hl|[Hl|[]]]; [left; exists l; exact Hl|right].
                   injection Hl as <- _. rewrite Hln. left. reflexivity.
                ** intros sigma Hs'. split; [intros k v H; apply Hs', Hu2; auto|].
                   split; [exact I|split; [constructor|]]. simpl. exists (BList []). split; [|reflexivity].
                   apply Hs', Hu2. right. left. reflexivity.
             ++ intros sigma Hsub (_ & _ & v & Hv1 & Hv2). simpl in Hv2. subst v. left. exists r1. split; [reflexivity|].
                intros k v H. apply Hu2 in H as [H|[H|[]]]; [exact (Hsub k v H)|]. injection H as <- <-. exact Hv1.
          -- split; [discriminate|]. intros sigma Hsub (_ & _ & v & Hv1 & Hv2). simpl in Hv2. subst v.
             exfalso. apply (Hu sigma Hsub). intros k v [H|[]]. injection H as <- <-. exact Hv1.
        * split.
          -- intros r' H. injection H as <-. split; [exact Hnd|split; [auto|]]. intros sigma Hs'. split; [exact Hs'|].
             split; [exact I|split; [constructor|exact I]].
          -- intros sigma Hsub _. left. exists r. auto.
    - assert (Hloop : loop E_eqb mg (map F [q]) cur (a0 :: as0) r = many E_eqb mg (pmatch q) (a0 :: as0) r).
      { cbn [map loop]. rewrite Hq. reflexivity. }
      rewrite Hloop. clear Hloop.
      assert (Hcnt : count_ok (mode_of q) (length seg)).
      { rewrite Hlen. destruct (mode_of q); simpl; [discriminate|lia|exact I]. }
      destruct (wc_of q) as [w|] eqn:Hw.
      + set (f := fun a => match pmatch (strip q) a with MOk r0 => record E_eqb (merge_of (args_of q)) (mode_of q) (Some w) a r0 | x => x end).
        assert (Hext : forall l r1, many E_eqb mg (pmatch q) l r1 = many E_eqb mg f l r1).
        { induction l as [|a l IH]; intros r1; simpl; [reflexivity|].
          assert (Hst : step E_eqb mg (pmatch q) a r1 = step E_eqb mg f a r1).
          { unfold step. rewrite pmatch_strip, Hw. reflexivity. }
          rewrite Hst. destruct (step E_eqb mg f a r1); [apply IH|reflexivity|reflexivity]. }
        rewrite Hext. clear Hext.
        destruct (many_w mg (merge_of (args_of q)) (mode_of q) w (pmatch (strip q)) (fun sigma => shape sigma q) Hmg Hq Hg (a0 :: as0) r Hnd) as [Hm1 Hm2].
        change (fun a => match pmatch (strip q) a with MOk r0 => record E_eqb (merge_of (args_of q)) (mode_of q) (Some w) a r0 | x => x end) with f in Hm1, Hm2.
        split.
        * intros r' Hr'. destruct (Hm1 r' Hr') as (H1 & H2 & H3 & H4). destruct H2 as [[H2 _]|(acc & H2 & H2')]; [discriminate|].
          assert (Hacc : acc = [] /\ get r w = None).
          { destruct H2 as [H2|H2]; [|exact H2]. exfalso. apply (Hd w); [exists acc; apply get_In; exact H2|]. rewrite Hln. left. reflexivity. }
          destruct Hacc as [-> Hgn]. fold seg in H2'. split; [exact H1|split].
          -- intros k Hk. destruct (Nat.eq_dec k w) as [->|Hkw]; [right; rewrite Hln; left; reflexivity|left; exact (H3 k Hkw Hk)].
          -- intros sigma Hs. assert (Hsb : sub_but w r' sigma) by (intros k v _ H; exact (Hs k v H)).
             destruct (H4 sigma Hsb) as [H5 H6]. split; [|split; [exact Hcnt|split]].
             ++ intros k v H. apply (H5 k v); [|exact H]. intros ->. apply (get_None _ _ Hgn). apply (in_map fst) in H. exact H.
             ++ apply Hseg. exact H6.
             ++ simpl. exists (BList seg). split; [apply Hs, get_In; exact H2'|]. destruct (mode_of q); [discriminate|reflexivity|reflexivity].
        * intros sigma Hsub (_ & Hf & v & Hv1 & Hv2).
          assert (Hv : v = BList seg) by (destruct (mode_of q); [discriminate|exact Hv2|exact Hv2]). subst v.
          assert (Hgn : get r w = None).
          { destruct (get r w) as [u|] eqn:Hu; [|reflexivity]. exfalso. pose proof (Hsub _ _ (get_In _ _ _ Hu)) as Hu'.
            rewrite Hv1 in Hu'. injection Hu' as <-. apply (Hd w); [exists seg; apply get_In; exact Hu|]. rewrite Hln. left. reflexivity. }
          destruct (Hm2 sigma [] (or_intror (conj eq_refl Hgn))) as [[r' [Hr' Hs']]|He].
          -- intros k v _ H. exact (Hsub k v H).
          -- exists seg. exact Hv1.
          -- apply Hseg. exact Hf.
          -- left. exists r'. split; [exact Hr'|]. destruct (Hm1 r' Hr') as (H1 & H2 & _ & _).
             destruct H2 as [[H2 _]|(acc & H2 & H2')]; [discriminate|].
             destruct H2 as [H2|[-> _]]; [congruence|]. fold seg in H2'.
             intros k v H. destruct (Nat.eq_dec k w) as [->|Hkw]; [|exact (Hs' k v Hkw H)].
             apply (get_NoDup _ _ _ H1) in H. congruence.
          -- right. exact He.
      + assert (Hg' : agrees [] (pmatch q) (fun sigma => shape sigma q)).
        { intros e. rewrite pmatch_strip, Hw. destruct (Hg e) as [Hg1 Hg2]. split.
          - intros m. destruct (pmatch (strip q) e); try discriminate. simpl. intros H. injection H as ->. exact (Hg1 m eq_refl).
          - intros sigma HS. destruct (Hg2 sigma HS) as [[m [Hm1 Hm2]]|He].
            + left. exists m. rewrite Hm1. simpl. auto.
            + right. unfold exc in *. rewrite He. reflexivity. }
        destruct (many_plain mg (pmatch q) _ (a0 :: as0) Hg' r Hnd) as [Hm1 Hm2]. split.
        * intros r' Hr'. destruct (Hm1 r' Hr') as (H1 & H2 & H3). split; [exact H1|split; [auto|]].
          intros sigma Hs. destruct (H3 sigma Hs) as [H4 H5]. split; [exact H4|split; [exact Hcnt|split; [apply Hseg; exact H5|exact I]]].
        * intros sigma Hsub (_ & Hf & _). apply Hm2; [exact Hsub|]. apply Hseg. exact Hf.
  Qed.

  (** ** segments *)
  Notation G sigma := (fun q => (mode_of q, wc_of q, shape sigma q)).
  Lemma segmented_app sigma (l1 l2 : list (mode * option nat * (E -> Prop))) : forall as_,
    segmented sigma (l1 ++ l2) as_ <-> exists a1 a2, as_ = a1 ++ a2 /\ segmented sigma l1 a1 /\ segmented sigma l2 a2.
  Proof.
    induction l1 as [|[[m wc] P] l1 IH]; intros as_; simpl.
    - split; [intros H; exists [], as_; auto|intros (a1 & a2 & -> & -> & H); exact H].
    - split.
      + intros (seg & rest & -> & H1 & H2 & H3 & H4). apply IH in H4 as (a1 & a2 & -> & H5 & H6).
        exists (seg ++ a1), a2. split; [apply app_assoc|split; [|exact H6]]. exists seg, a1. auto 6.
      + intros (a1 & a2 & -> & (seg & rest & -> & H1 & H2 & H3 & H4) & H5).
        exists seg, (rest ++ a2). split; [symmetry; apply app_assoc|split; [exact H1|split; [exact H2|split; [exact H3|]]]].
        apply IH. exists rest, a2. auto.
  Qed.
  Lemma segmented_singles sigma ps : Forall (fun q => nonsingle (mode_of q) = false) ps -> forall as_,
    segmented sigma (map (G sigma) ps) as_ <-> Forall2 (matches sigma) ps as_.
  Proof.
    induction 1 as [|q ps Hq _ IH]; intros as_; simpl.
    - split; [intros ->; constructor|intros H; inversion H; reflexivity].
    - assert (Hm : mode_of q = Single) by (destruct (mode_of q); [reflexivity|discriminate|discriminate]).
      split.
      + intros (seg & rest & -> & H1 & H2 & H3 & H4). rewrite Hm in H1. simpl in H1.
        destruct seg as [|a [|b seg]]; try discriminate. simpl. constructor; [|apply IH; exact H4].
        inversion H2; subst. split; assumption.
      + intros H. inversion H as [|? a ? rest [Ha1 Ha2] Hr]; subst. exists [a], rest.
        split; [reflexivity|]. rewrite Hm in *. split; [reflexivity|split; [constructor; [exact Ha1|constructor]|split; [exact Ha2|]]].
        apply IH. exact Hr.
  Qed.
  Lemma segmented_one sigma q as_ : segmented sigma (map (G sigma) [q]) as_ <-> matches1 sigma q as_.
  Proof.
    simpl. split.
    - intros (seg & rest & -> & H1 & H2 & H3 & ->). rewrite app_nil_r. auto.
    - intros (H1 & H2 & H3). exists as_, []. rewrite app_nil_r. auto.
  Qed.

  Lemma Forall2_rev {A B} (R : A -> B -> Prop) l l' : Forall2 R l l' -> Forall2 R (rev l) (rev l').
  Proof. induction 1; simpl; [constructor|]. apply Forall2_app; [assumption|constructor; [assumption|constructor]]. Qed.


  (** recording the pattern's own wildcard *)
  Lemma record_ok mg md wc names g S :
    agrees names g S ->
    (mg = NoMerge \/ disjoint (if nonsingle md then match wc with Some w => [w] | None => [] end else []) names) ->
    agrees ((if nonsingle md then match wc with Some w => [w] | None => [] end else []) ++ names)
           (fun e => match g e with MOk r => record E_eqb mg md wc e r | x => x end)
           (fun sigma e => S sigma e /\ assigned sigma wc md [e]).
  Proof.
    intros Hg Hd e. destruct (Hg e) as [Hs Hc]. destruct wc as [w|].
    2:{ split.
        - intros m. destruct (g e) as [r| |]; try discriminate. intros H. injection H as ->. destruct (Hs m eq_refl) as (H1 & H2 & H3).
          split; [exact H1|split]; [intros k Hk; rewrite in_app_iff; right; exact (H2 k Hk)|]. intros sigma Hsub. split; [exact (H3 sigma Hsub)|exact I].
        - intros sigma [HS _]. destruct (Hc sigma HS) as [[m [Hm1 Hm2]]|He].
          + left. exists m. rewrite Hm1. auto.
          + right. unfold exc in *. rewrite He. reflexivity. }
    set (v := if nonsingle md then BList [e] else BOne e).
    assert (Hval : forall u, value_of md [e] u <-> u = v).
    { intros u. unfold v. destruct md; simpl; try tauto. split; [intros (a & H & ->); injection H as ->; reflexivity|intros ->; exists e; auto]. }
    assert (Hplain : forall r, g e = MOk r -> 
              match set_item E_eqb mg r w v with
              | Some r' => NoDup (map fst r') /\ (forall k' v', In (k', v') r' <-> In (k', v') r \/ (k' = w /\ v' = v))
              | None => exists u, get r w = Some u /\ u <> v
              end).
    { intros r Hr. destruct (Hs r Hr) as (H1 & H2 & _). apply set_item_plain; [exact E_eqb_spec| |exact H1].
      destruct Hd as [Hd|Hd]; [left; exact Hd|right]. intros a b Ha Hb.
      unfold v in Hb. destruct (nonsingle md); [|discriminate]. apply (Hd w); [left; reflexivity|]. apply H2. exists a. apply get_In. exact Ha. }
    split.
    - intros m. destruct (g e) as [r| |]; try discriminate. simpl. fold v. specialize (Hplain r eq_refl).
      destruct (set_item E_eqb mg r w v) as [r'|]; [|discriminate]. intros H. injection H as ->.
      destruct Hplain as [Hp1 Hp2]. destruct (Hs r eq_refl) as (H1 & H2 & H3). split; [exact Hp1|split].
      + intros k [l Hl]. apply Hp2 in Hl as [Hl|[-> Hl]]; rewrite in_app_iff; [right; apply H2; exists l; exact Hl|left].
        unfold v in Hl. destruct (nonsingle md); [left; reflexivity|discriminate].
      + intros sigma Hsub. split.
        * apply H3. intros k u H. apply Hsub, Hp2. auto.
        * simpl. exists v. split; [apply Hsub, Hp2; auto|]. apply Hval. reflexivity.
    - intros sigma [HS (u & Hu1 & Hu2)]. apply Hval in Hu2. subst u. destruct (Hc sigma HS) as [[r [Hr1 Hr2]]|He].
      + specialize (Hplain r Hr1). rewrite Hr1. simpl. fold v. destruct (set_item E_eqb mg r w v) as [r'|].
        * left. exists r'. split; [reflexivity|]. intros k u H. apply Hplain in H as [H|[-> ->]]; [exact (Hr2 k u H)|exact Hu1].
        * exfalso. destruct Hplain as (u & Hg1 & Hg2). apply get_In, Hr2 in Hg1. congruence.
      + right. unfold exc in *. rewrite He. reflexivity.
  Qed.

  Definition args_cond (ps : list (pat E)) : Prop :=
    Forall (fun q => nonsingle (mode_of q) = false) ps
    \/ exists (l : list (pat E)) q (r : list (pat E)), ps = l ++ q :: r /\ (l = [] \/ r = []) /\ nonsingle (mode_of q) = true
             /\ Forall (fun q => nonsingle (mode_of q) = false) (l ++ r)
             /\ list_names q = match wc_of q with Some w => [w] | None => [] end
             /\ ForallOrdPairs disjoint (map list_names ps).

  Lemma disl_nil mg ps : mg = NoMerge \/ ForallOrdPairs disjoint (map list_names ps) -> disl mg [] ps.
  Proof. intros [H|H]; [left; exact H|right]. split; [|exact H]. intros q _ k [l []]. Qed.

  Lemma in_concat_names (ps : list (pat E)) q k : In q ps -> In k (list_names q) -> In k (concat (map list_names ps)).
  Proof. intros Hq Hk. apply in_concat. exists (list_names q). split; [apply in_map; exact Hq|exact Hk]. Qed.

  Lemma args_ok ps : args_cond ps -> Forall good ps -> Forall good' ps ->
    let L as_ := loop E_eqb (merge_of (Some ps)) (iterate (Some ps) (map F ps)) false (iterate (Some ps) as_) [] in
    agrees (concat (map list_names ps))
      (fun e => match eargs e with None => MFail | Some as_ => L as_ end)
      (fun sigma e => exists as_, eargs e = Some as_ /\ segmented sigma (map (G sigma) ps) as_).
  Proof.
    intros Hcond Hg Hg' L.
    assert (Hmain : forall as_,
      (forall r, L as_ = MOk r -> NoDup (map fst r) /\ (forall k, lkey r k -> In k (concat (map list_names ps)))
                                  /\ (forall sigma, sub r sigma -> segmented sigma (map (G sigma) ps) as_))
      /\ (forall sigma, segmented sigma (map (G sigma) ps) as_ -> (exists r, L as_ = MOk r /\ sub r sigma) \/ exc (L as_))).
    { intros as_. unfold L. destruct Hcond as [Hs|(l & q & r0 & -> & Hlr & Hq & Hs & Hln & Hfop)].
      - (* only single patterns *)
        assert (Hns : has_non_single_arg (Some ps) = false).
        { simpl. clear - Hs. induction Hs as [|q ps Hq _ IH]; simpl; [reflexivity|rewrite Hq, IH; reflexivity]. }
        assert (Hol : non_single_on_left (Some ps) = false).
        { destruct ps as [|q ps]; [reflexivity|]. inversion Hs; subst. assumption. }
        assert (Hmg : merge_of (Some ps) = NoMerge) by (unfold merge_of; rewrite Hns; reflexivity).
        rewrite Hmg. unfold iterate. rewrite Hol.
        destruct (loop_singles NoMerge ps [] false as_ [] Hs Hg (or_introl eq_refl) (NoDup_nil _)) as [H1 H2].
        rewrite app_nil_r in H1, H2. split.
        + intros r Hr. destruct (H1 r Hr) as (as1 & as2 & r1 & -> & Hlen & Hl & Hnd & Hk & Hsig). simpl in Hl.
          destruct as2 as [|? ?]; [|discriminate]. injection Hl as ->. rewrite app_nil_r. split; [exact Hnd|split].
          * intros k Hk'. destruct (Hk k Hk') as [[x []]|H]; exact H.
          * intros sigma Hsub. apply segmented_singles; [exact Hs|]. exact (proj2 (Hsig sigma Hsub)).
        + intros sigma Hseg. apply segmented_singles in Hseg; [|exact Hs].
          destruct (H2 sigma as_ [] (eq_sym (app_nil_r as_))) as [(r1 & Hl & Hnd & Hk & Hsig)|He].
          * intros k v [].
          * exact Hseg.
          * left. exists r1. split; [exact Hl|exact Hsig].
          * right. exact He.
      - assert (Hns : has_non_single_arg (Some (l ++ q :: r0)) = true).
        { simpl. apply existsb_exists. exists q. split; [rewrite in_app_iff; right; left; reflexivity|exact Hq]. }
        assert (HFg : Forall good (l ++ r0) /\ good' q).
        { rewrite Forall_app in Hg, Hg' |- *. destruct Hg as [Hg1 Hg2]. destruct Hg' as [_ Hg3]. inversion Hg2; subst. inversion Hg3; subst. auto. }
        destruct HFg as [Hgs Hgq].
        assert (Hsplit : forall mg singles as2 sigma cur,
          mg <> NoMerge -> Forall (fun q => nonsingle (mode_of q) = false) singles -> Forall good singles ->
          ForallOrdPairs disjoint (map list_names (singles ++ [q])) ->
          (forall r, loop E_eqb mg (map F (singles ++ [q])) cur as2 [] = MOk r ->
             NoDup (map fst r) /\ (forall k, lkey r k -> In k (concat (map list_names (singles ++ [q]))))
             /\ (forall sigma, sub r sigma -> exists b1 b2, as2 = b1 ++ b2 /\ Forall2 (matches sigma) singles b1
                                                            /\ matches1 sigma q (joins mg [] b2)))
          /\ (forall b1 b2, as2 = b1 ++ b2 -> Forall2 (matches sigma) singles b1 -> matches1 sigma q (joins mg [] b2) ->
               (exists r, loop E_eqb mg (map F (singles ++ [q])) cur as2 [] = MOk r /\ sub r sigma)
               \/ exc (loop E_eqb mg (map F (singles ++ [q])) cur as2 []))).
        { clear - Hq Hln Hgq E_eqb_spec. intros mg singles as2 sigma cur Hmg Hs Hg Hfop.
          rewrite map_app in Hfop. apply FOP_app in Hfop as (Hf1 & _ & Hf2).
          assert (Hdd : forall r1 : mdict E, (forall k, lkey r1 k -> lkey (E:=E) [] k \/ In k (concat (map list_names singles))) ->
                        forall k, lkey r1 k -> In k (list_names q) -> False).
          { intros r1 Hr1 k Hk Hkq. destruct (Hr1 k Hk) as [[x []]|Hin]. apply in_concat in Hin as (ns & Hns & Hkn).
            exact (Hf2 ns (list_names q) Hns (or_introl eq_refl) k Hkn Hkq). }
          destruct (loop_singles mg singles [q] cur as2 [] Hs Hg (disl_nil _ _ (or_intror Hf1)) (NoDup_nil _)) as [H1 H2].
          split.
          - intros r Hr. destruct (H1 r Hr) as (b1 & b2 & r1 & -> & _ & Hl & Hnd & Hk & Hsig).
            destruct (tail_ok mg q (started cur singles) b2 r1 Hmg Hq Hgq Hln (Hdd r1 Hk) Hnd) as [Ht _].
            destruct (Ht r Hl) as (T1 & T2 & T3). split; [exact T1|split].
            + intros k Hkk. rewrite map_app, concat_app, in_app_iff. simpl. rewrite app_nil_r.
              destruct (T2 k Hkk) as [H|H]; [|auto]. destruct (Hk k H) as [[x []]|H']. auto.
            + intros sg Hsub. destruct (T3 sg Hsub) as [T4 T5]. exists b1, b2. split; [reflexivity|split; [|exact T5]]. exact (proj2 (Hsig sg T4)).
          - intros b1 b2 -> Hf Hm. destruct (H2 sigma b1 b2 eq_refl) as [(r1 & Hl & Hnd & Hk & Hsig)|He].
            + intros k v [].
            + exact Hf.
            + destruct (tail_ok mg q (started cur singles) b2 r1 Hmg Hq Hgq Hln (Hdd r1 Hk) Hnd) as [_ Ht].
              rewrite Hl. exact (Ht sigma Hsig Hm).
            + right. exact He. }
        assert (Hcases : l = [] \/ (r0 = [] /\ non_single_on_left (Some (l ++ [q])) = false)).
        { destruct l as [|x l]; [auto|]. right. destruct Hlr as [Hlr|Hlr]; [discriminate|]. split; [exact Hlr|].
          simpl. simpl in Hs. inversion Hs; subst. assumption. }
        destruct Hcases as [->|[-> Hol]].
        + (* on the left: reversed iteration *)
          simpl in Hs, Hgs. assert (Hmg : merge_of (Some (q :: r0)) = Prepend).
          { unfold merge_of. simpl in Hns |- *. rewrite Hns, Hq. reflexivity. }
          assert (Hit : forall A (x : list A), iterate (Some (q :: r0)) x = rev x).
          { intros A x. unfold iterate, non_single_on_left. rewrite Hq. reflexivity. }
          cbn [app]. rewrite Hmg, !Hit, <- map_rev. cbn [rev].
          assert (Hsr : Forall (fun q => nonsingle (mode_of q) = false) (rev r0)) by (apply Forall_rev; exact Hs).
          assert (Hgr : Forall good (rev r0)) by (apply Forall_rev; exact Hgs).
          assert (Hfr : ForallOrdPairs disjoint (map list_names (rev r0 ++ [q]))).
          { change (rev r0 ++ [q]) with (rev (q :: r0)). rewrite map_rev. apply FOP_rev; [exact disjoint_sym|exact Hfop]. }
          split.
          * intros r Hr. destruct (Hsplit Prepend (rev r0) (rev as_) (fun _ => None) false ltac:(discriminate) Hsr Hgr Hfr) as [K _].
            destruct (K r Hr) as (K1 & K2 & K3). split; [exact K1|split].
            -- intros k Hk. specialize (K2 k Hk). apply in_concat in K2 as (ns & Hns' & Hkn). apply in_concat. exists ns. split; [|exact Hkn].
               apply in_map_iff in Hns' as (x & <- & Hx). apply in_map. rewrite in_app_iff, <- in_rev in Hx. simpl in Hx |- *. tauto.
            -- intros sigma Hsub. destruct (K3 sigma Hsub) as (b1 & b2 & Hb & Hf & Hm).
               assert (Has : as_ = joins Prepend [] b2 ++ rev b1).
               { unfold joins. rewrite app_nil_r, <- rev_app_distr, <- Hb, rev_involutive. reflexivity. }
               change (map (G sigma) (q :: r0)) with (map (G sigma) [q] ++ map (G sigma) r0).
               apply segmented_app. exists (joins Prepend [] b2), (rev b1). split; [exact Has|split].
               ++ apply segmented_one. exact Hm.
               ++ apply segmented_singles; [exact Hs|]. rewrite <- (rev_involutive r0). apply Forall2_rev. exact Hf.
          * intros sigma Hseg. change (map (G sigma) (q :: r0)) with (map (G sigma) [q] ++ map (G sigma) r0) in Hseg.
            apply segmented_app in Hseg as (a1 & a2 & -> & Hm & Hf). apply segmented_one in Hm. apply segmented_singles in Hf; [|exact Hs].
            destruct (Hsplit Prepend (rev r0) (rev (a1 ++ a2)) sigma false ltac:(discriminate) Hsr Hgr Hfr) as [_ K].
            apply (K (rev a2) (rev a1)); [apply rev_app_distr|apply Forall2_rev; exact Hf|].
            unfold joins. rewrite app_nil_r, rev_involutive. exact Hm.
        + (* on the right *)
          rewrite app_nil_r in Hs, Hgs. assert (Hmg : merge_of (Some (l ++ [q])) = Append).
          { unfold merge_of. rewrite Hns, Hol. reflexivity. }
          assert (Hit : forall A (x : list A), iterate (Some (l ++ [q])) x = x).
          { intros A x. unfold iterate. rewrite Hol. reflexivity. }
          rewrite Hmg, !Hit. split.
          * intros r Hr. destruct (Hsplit Append l as_ (fun _ => None) false ltac:(discriminate) Hs Hgs Hfop) as [K _].
            destruct (K r Hr) as (K1 & K2 & K3). split; [exact K1|split; [exact K2|]].
            intros sigma Hsub. destruct (K3 sigma Hsub) as (b1 & b2 & -> & Hf & Hm). rewrite map_app.
            apply segmented_app. exists b1, b2. split; [reflexivity|split; [apply segmented_singles; assumption|apply segmented_one; exact Hm]].
          * intros sigma Hseg. rewrite map_app in Hseg.
            apply segmented_app in Hseg as (a1 & a2 & -> & Hf & Hm). apply segmented_one in Hm. apply segmented_singles in Hf; [|exact Hs].
            destruct (Hsplit Append l (a1 ++ a2) sigma false ltac:(discriminate) Hs Hgs Hfop) as [_ K].
            exact (K a1 a2 eq_refl Hf Hm). }
    intros e. destruct (eargs e) as [as_|].
    - destruct (Hmain as_) as [H1 H2]. split.
      + intros m Hm. destruct (H1 m Hm) as (A & B & C). split; [exact A|split; [exact B|]]. intros sigma Hs. exists as_. split; [reflexivity|exact (C sigma Hs)].
      + intros sigma (as' & Ha & Hseg). injection Ha as <-. exact (H2 sigma Hseg).
    - split; [discriminate|]. intros sigma (as' & Ha & _). discriminate.
  Qed.

  Lemma good_of_good' h args kwargs md wc cs :
    let p := Pat h args kwargs md wc cs in
    pattern_ok p -> good' p -> good p.
  Proof.
    intros p Hok Hg.
    pose proof (record_ok (merge_of args) md wc (list_names (strip p)) (pmatch (strip p)) (fun sigma => shape sigma p) Hg) as Hr.
    assert (Hd : merge_of args = NoMerge \/
       disjoint (if nonsingle md then match wc with Some w => [w] | None => [] end else []) (list_names (strip p))).
    { destruct args as [ps|]; [|left; reflexivity]. unfold p in Hok. simpl in Hok. destruct Hok as [(_ & Hc) _].
      destruct Hc as [Hc|(l & q & r & -> & _ & _ & _ & _ & Hfop)].
      - left. unfold merge_of. assert (Hns : has_non_single_arg (Some ps) = false).
        { simpl. clear - Hc. induction Hc as [|q ps Hq _ IH]; simpl; [reflexivity|rewrite Hq, IH; reflexivity]. }
        rewrite Hns. reflexivity.
      - right. inversion Hfop as [|? ? Ha _]; subst. rewrite Forall_forall in Ha. intros k Hk1 Hk2.
        unfold p in Hk2. cbn [strip list_names] in Hk2.
        replace ((if nonsingle md then [] else []) ++ concat (map list_names (l ++ q :: r)) ++ match kwargs with Some ks => concat (map (fun kq => list_names (snd kq)) ks) | None => [] end)
          with (concat (map list_names (l ++ q :: r)) ++ match kwargs with Some ks => concat (map (fun kq : nat * pat E => list_names (snd kq)) ks) | None => [] end) in Hk2
          by (destruct (nonsingle md); reflexivity).
        rewrite in_app_iff in Hk2. destruct Hk2 as [Hk2|Hk2].
        + apply in_concat in Hk2 as (ns & Hns & Hkn). apply (Ha ns) with (x := k); [rewrite in_app_iff; left; exact Hns|exact Hk1|exact Hkn].
        + destruct kwargs as [ks|]; [|destruct Hk2]. apply in_concat in Hk2 as (ns & Hns & Hkn). apply (Ha ns) with (x := k); [rewrite in_app_iff; right; exact Hns|exact Hk1|exact Hkn]. }
    specialize (Hr Hd). unfold good. rewrite list_names_strip. intros e. rewrite pmatch_strip. exact (Hr e).
  Qed.

  Lemma kw_names ks : concat (map (fun kq : nat * pat E => list_names (snd kq)) ks) = concat (map list_names (map snd ks)).
  Proof. rewrite map_map. reflexivity. Qed.

  Lemma fold_ok ps : fold_right (fun (q : pat E) P => pattern_ok q /\ P) True ps -> Forall pattern_ok ps.
  Proof. induction ps as [|q ps IH]; simpl; [constructor|]. intros [H1 H2]. constructor; auto. Qed.
  Lemma fold_okk ks : fold_right (fun (kq : nat * pat E) P => pattern_ok (snd kq) /\ P) True ks -> Forall (fun kq => pattern_ok (snd kq)) ks.
  Proof. induction ks as [|q ps IH]; simpl; [constructor|]. intros [H1 H2]. constructor; auto. Qed.

  Theorem pmatch_good p : pattern_ok p -> good' p /\ good p.
  Proof.
    induction p as [e'|h args kwargs md wc cs IHa IHk] using pat_ind'; intros Hok.
    - assert (H : agrees [] (fun e => if E_eqb e' e then MOk [] else MFail) (fun _ e => e' = e)).
      { intros e. destruct (E_eqb e' e) eqn:He.
        - split.
          + intros m H. injection H as <-. split; [constructor|split; [intros k [l []]|]]. intros _ _. apply E_eqb_spec. exact He.
          + intros sigma _. left. exists []. split; [reflexivity|intros k v []].
        - split; [discriminate|]. intros sigma Heq. apply E_eqb_spec in Heq. congruence. }
      split; [exact H|]. intros e. destruct (H e) as [H1 H2]. split.
      + intros m Hm. destruct (H1 m Hm) as (A & B & C). split; [exact A|split; [exact B|]]. intros sigma Hs. split; [exact (C sigma Hs)|exact I].
      + intros sigma [Hs _]. exact (H2 sigma Hs).
    - assert (Hg' : good' (Pat h args kwargs md wc cs)).
      { pose proof Hok as Hok0. destruct Hok as [Hoka Hokk].
        (* positional arguments *)
        assert (HA : agrees (match args with None => [] | Some ps => concat (map list_names ps) end)
                   (fun e => match args with None => MOk [] | Some ps => match eargs e with None => MFail | Some as_ =>
                        loop E_eqb (merge_of args) (iterate args (map F ps)) false (iterate args as_) [] end end)
                   (fun sigma e => match args with None => True | Some ps => exists as_, eargs e = Some as_ /\ segmented sigma (map (G sigma) ps) as_ end)).
        { destruct args as [ps|].
          - destruct Hoka as [Hf Hc]. apply fold_ok in Hf.
            assert (Hgg : Forall (fun q => good' q /\ good q) ps).
            { rewrite Forall_forall in *. intros q Hq. exact (IHa q Hq (Hf q Hq)). }
            apply args_ok.
            + destruct Hc as [Hc|(l & q & r & H1 & H2 & H3 & H4 & H5 & H6)]; [left; exact Hc|right].
              exists l, q, r. split; [exact H1|split; [exact H2|split; [exact H3|split; [exact H4|split; [exact H5|]]]]].
              inversion H6 as [|? ? _ H7]; subst. apply FOP_app in H7. exact (proj1 H7).
            + eapply Forall_impl; [|exact Hgg]. intros q [_ H]. exact H.
            + eapply Forall_impl; [|exact Hgg]. intros q [H _]. exact H.
          - intros e. split.
            + intros m H. injection H as <-. split; [constructor|split; [intros k [l []]|auto]].
            + intros sigma _. left. exists []. split; [reflexivity|intros k v []]. }
        assert (Hgk : forall ks, kwargs = Some ks -> Forall (fun kq => good (snd kq)) ks).
        { intros ks ->. apply fold_okk in Hokk. rewrite Forall_forall in *. intros kq Hq. exact (proj2 (IHk kq Hq (Hokk kq Hq))). }
        assert (Hdk : forall ks (r : mdict E), kwargs = Some ks ->
                 (forall k, lkey r k -> In k (match args with None => [] | Some ps => concat (map list_names ps) end)) ->
                 disl (merge_of args) r (map snd ks)).
        { intros ks r -> Hr. destruct args as [ps|]; [|left; reflexivity].
          destruct Hoka as [_ Hc]. destruct Hc as [Hc|(l & q & r0 & H1 & H2 & H3 & H4 & H5 & H6)].
          - left. unfold merge_of. assert (Hns : has_non_single_arg (Some ps) = false).
            { simpl. clear - Hc. induction Hc as [|q ps Hq _ IH]; simpl; [reflexivity|rewrite Hq, IH; reflexivity]. }
            rewrite Hns. reflexivity.
          - right. inversion H6 as [|? ? _ H7]; subst. apply FOP_app in H7 as (_ & H8 & H9).
            rewrite map_map. split; [|exact H8].
            intros q' Hq' k Hk Hkn. apply Hr in Hk. apply in_concat in Hk as (ns & Hns & Hk').
            apply in_map_iff in Hq' as (kq & <- & Hkq).
            exact (H9 ns (list_names (snd kq)) Hns (in_map (fun kq => list_names (snd kq)) _ _ Hkq) k Hk' Hkn). }
        intros e. unfold strip. destruct (HA e) as [HA1 HA2]. clear HA.
        cbn [PatModel.pmatch PatSpec.shape list_names].
        replace ((if nonsingle md then [] else []) ++
                  match args with Some ps => concat (map list_names ps) | None => [] end ++
                  match kwargs with Some ks => concat (map (fun kq => list_names (snd kq)) ks) | None => [] end)
          with (match args with Some ps => concat (map list_names ps) | None => [] end ++
                  match kwargs with Some ks => concat (map (fun kq : nat * pat E => list_names (snd kq)) ks) | None => [] end)
          by (destruct (nonsingle md); reflexivity).
        set (HD := match h with None => True | Some h0 => isinst e h0 = true end).
        destruct (match h with None => true | Some h0 => isinst e h0 end) eqn:Hh; cbn [negb].
        2:{ split; [discriminate|]. intros sigma (H & _). exfalso. unfold HD in H. destruct h; congruence. }
        assert (HhD : HD) by (unfold HD; destruct h; [exact Hh|exact I]).
        destruct (forallb (fun c => cond c e) cs) eqn:Hcs; cbn [negb].
        2:{ split; [discriminate|]. intros sigma (_ & H & _). exfalso.
            assert (forallb (fun c => cond c e) cs = true) by (apply forallb_forall; intros c Hc; rewrite Forall_forall in H; exact (H c Hc)). congruence. }
        assert (HcsF : Forall (fun c => cond c e = true) cs) by (apply Forall_forall; intros c Hc; rewrite forallb_forall in Hcs; exact (Hcs c Hc)).
        destruct (match args with None => MOk [] | Some ps => match eargs e with None => MFail | Some as_ =>
                        loop E_eqb (merge_of args) (iterate args (map F ps)) false (iterate args as_) [] end end) as [r| |ex] eqn:Hargs.
        + destruct (HA1 r eq_refl) as (Hr1 & Hr2 & Hr3).
          destruct kwargs as [ks|].
          * destruct (kwloop_ok (merge_of args) (ekwargs e) ks r (Hgk ks eq_refl) (Hdk ks r eq_refl Hr2) Hr1) as [K1 K2].
            assert (Heqv : forall sigma,
               Forall (fun kq : nat * pat E * (E -> Prop) => exists kw v, ekwargs e = Some kw /\ lookup (fst (fst kq)) kw = Some v
                       /\ snd kq v /\ assigned sigma (wc_of (snd (fst kq))) (mode_of (snd (fst kq))) [v])
                  (map (fun kq => (kq, shape sigma (snd kq))) ks)
               <-> Forall (fun kq : nat * pat E => exists kw v, ekwargs e = Some kw /\ lookup (fst kq) kw = Some v
                                          /\ matches sigma (snd kq) v) ks).
            { intros sigma. rewrite Forall_map. split; apply Forall_impl; intros [k q]; simpl; unfold PatSpec.matches.
              - intros (kw & v & A & B & C & D). exists kw, v. auto.
              - intros (kw & v & A & B & C & D). exists kw, v. auto. }
            split.
            -- intros m. destruct (kwloop E_eqb (merge_of args) (map (fun kq => (fst kq, pmatch (snd kq))) ks) (ekwargs e) r) as [r'| |] eqn:Hkw; try discriminate.
               simpl. intros H. injection H as <-. destruct (K1 r' eq_refl) as (A & B & C). split; [exact A|split].
               ++ intros k Hk. rewrite in_app_iff. destruct (B k Hk) as [H|H]; [left; exact (Hr2 k H)|right; exact H].
               ++ intros sigma Hsub. destruct (C sigma Hsub) as [D F']. split; [exact HhD|split; [exact HcsF|split; [exact (Hr3 sigma D)|]]].
                  apply Heqv. exact F'.
            -- intros sigma (_ & _ & Hsa & Hsk). apply Heqv in Hsk.
               destruct (HA2 sigma Hsa) as [[r1 [Hm Hsub]]|He]; [|discriminate]. injection Hm as <-.
               destruct (K2 sigma Hsub Hsk) as [[r' [Hr' Hs']]|He].
               ++ left. exists r'. rewrite Hr'. simpl. auto.
               ++ right. unfold exc in *. rewrite He. reflexivity.
          * split.
            -- intros m H. simpl in H. injection H as <-. split; [exact Hr1|split].
               ++ intros k Hk. rewrite app_nil_r. exact (Hr2 k Hk).
               ++ intros sigma Hsub. split; [exact HhD|split; [exact HcsF|split; [exact (Hr3 sigma Hsub)|exact I]]].
            -- intros sigma (_ & _ & Hsa & _). destruct (HA2 sigma Hsa) as [[r1 [Hm Hsub]]|He]; [|discriminate]. injection Hm as <-.
               left. exists r. simpl. auto.
        + split; [discriminate|]. intros sigma (_ & _ & Hsa & _). destruct (HA2 sigma Hsa) as [[r1 [Hm _]]|He]; discriminate.
        + split; [discriminate|]. intros sigma (_ & _ & Hsa & _). destruct (HA2 sigma Hsa) as [[r1 [Hm _]]|He]; [discriminate|]. right. exact He. }
      split; [exact Hg'|]. exact (good_of_good' h args kwargs md wc cs Hok Hg').
  Qed.
End Main.

(** ** exceptions *)
Section NoExc.
  Context {E : Type} (E_eqb : E -> E -> bool) (eargs : E -> option (list E)) (ekwargs : E -> option (list (nat * E)))
          (isinst : E -> nat -> bool) (cond : nat -> E -> bool).
  Notation pmatch := (pmatch E_eqb eargs ekwargs isinst cond).
  Notation F := (fun q => (mode_of q, wc_of q, pmatch q)).

  Lemma step_exc mg f a r x : step E_eqb mg f a r = MExc x -> f a = MExc x.
  Proof. unfold step. destruct (f a); try discriminate; [|auto]. destruct (update E_eqb mg r m); discriminate. Qed.
  Lemma many_exc mg f as_ : forall r x, many E_eqb mg f as_ r = MExc x -> exists a, f a = MExc x.
  Proof.
    induction as_ as [|a as_ IH]; intros r x; simpl; [discriminate|].
    destruct (step E_eqb mg f a r) eqn:Hs; try discriminate.
    - apply IH.
    - intros H. injection H as ->. exists a. exact (step_exc _ _ _ _ _ Hs).
  Qed.
  Lemma loop_exc mg fs : forall cur as_ r x, loop E_eqb mg fs cur as_ r = MExc x ->
    (x = UnboundLocalError /\ cur = false /\ as_ = [] /\ fs <> []) \/ exists g a, In g fs /\ snd g a = MExc x.
  Proof.
    induction fs as [|[[md wc] f] fs IH]; intros cur as_ r x; simpl.
    - destruct as_; discriminate.
    - destruct as_ as [|a as_].
      + unfold check_last. destruct cur; simpl.
        * destruct md; try discriminate. destruct wc as [w|]; [|discriminate].
          destruct (set_item E_eqb mg r w (BList [])); discriminate.
        * intros H. injection H as <-. left. split; [reflexivity|split; [reflexivity|split; [reflexivity|discriminate]]].
      + destruct (nonsingle md).
        * intros H. apply (many_exc mg f (a :: as_)) in H as [b Hb]. right. exists (md, wc, f), b. split; [left; reflexivity|exact Hb].
        * destruct (step E_eqb mg f a r) eqn:Hs; try discriminate.
          -- intros H. apply IH in H as [(_ & H & _)|(g & b & Hg & Hb)]; [discriminate|]. right. exists g, b. split; [right; exact Hg|exact Hb].
          -- intros H. injection H as ->. right. exists (md, wc, f), a. split; [left; reflexivity|exact (step_exc _ _ _ _ _ Hs)].
  Qed.
  Lemma kwloop_exc mg fs have : forall r x, kwloop E_eqb mg fs have r = MExc x -> exists g a, In g fs /\ snd g a = MExc x.
  Proof.
    induction fs as [|[k f] fs IH]; intros r x; simpl; [discriminate|].
    destruct have as [kw|]; [|discriminate]. destruct (lookup k kw) as [v|]; [|discriminate].
    destruct (step E_eqb mg f v r) eqn:Hs; try discriminate.
    - intros H. apply IH in H as (g & b & Hg & Hb). exists g, b. split; [right; exact Hg|exact Hb].
    - intros H. injection H as ->. exists (k, f), v. split; [left; reflexivity|exact (step_exc _ _ _ _ _ Hs)].
  Qed.
  Lemma record_exc mg md wc e r x : record E_eqb mg md wc e r <> MExc x.
  Proof. unfold record. destruct wc as [w|]; [|discriminate]. destruct (set_item E_eqb mg r w (if nonsingle md then BList [e] else BOne e)); discriminate. Qed.

  (** the only exception is the UnboundLocalError, on an expression without arguments *)
  Lemma pmatch_exc p : forall e x, pmatch p e = MExc x -> x = UnboundLocalError /\ exists e', eargs e' = Some [].
  Proof.
    induction p as [e'|h args kwargs md wc cs IHa IHk] using pat_ind'; intros e x.
    - simpl. destruct (E_eqb e' e); discriminate.
    - cbn [PatModel.pmatch].
      destruct (negb match h with None => true | Some h0 => isinst e h0 end); [discriminate|].
      destruct (negb (forallb (fun c => cond c e) cs)); [discriminate|].
      match goal with |- match ?A with _ => _ end = _ -> _ => destruct A as [r| |y] eqn:Hargs end; try discriminate.
      + match goal with |- match ?A with _ => _ end = _ -> _ => destruct A as [r'| |y] eqn:Hkw end; try discriminate.
        * intros H. exfalso. exact (record_exc _ _ _ _ _ _ H).
        * intros H. injection H as ->. destruct kwargs as [ks|]; [|discriminate].
          apply kwloop_exc in Hkw as (g & b & Hg & Hb). apply in_map_iff in Hg as (kq & <- & Hkq). simpl in Hb.
          rewrite Forall_forall in IHk. exact (IHk kq Hkq b x Hb).
      + intros H. injection H as ->. destruct args as [ps|]; [|discriminate].
        destruct (eargs e) as [as_|] eqn:Hea; [|discriminate].
        apply loop_exc in Hargs as [(-> & _ & Has & _)|(g & b & Hg & Hb)].
        * split; [reflexivity|]. exists e. rewrite Hea. f_equal. unfold iterate in Has.
          destruct (non_single_on_left (Some ps)); [|exact Has]. rewrite <- (rev_involutive as_), Has. reflexivity.
        * assert (Hg' : In g (map F ps)).
          { unfold iterate in Hg. destruct (non_single_on_left (Some ps)); [apply in_rev; exact Hg|exact Hg]. }
          apply in_map_iff in Hg' as (q & <- & Hq). simpl in Hb. rewrite Forall_forall in IHa. exact (IHa q Hq b x Hb).
  Qed.
End NoExc.
