(** Meanings of circuit expressions: functionality, lists, block decompositions. *)
From Verif Require Import Prelude ListFacts PermModel PermSpec PermProofs1 PermProofs3 PermProofs4 CircModel CircSpec CircProofs1 CircProofs2 BinModel BinSpec BinProofs CSimpModel CSimpSpec CSimpProofs1 CSimpProofs2.

Section CircInd.
  Context {X : Type} (P : circ X -> Prop).
  Context (Hsym : forall l n, P (CSym l n)) (Hslh : forall s n, P (CSlh s n)) (Hperm : forall p, P (CPerm p)) (Hid : P CId) (Hz : P CZero)
    (Hser : forall ops, Forall P ops -> P (CSeries ops)) (Hcat : forall ops, Forall P ops -> P (CConcat ops))
    (Hfb : forall c o i, P c -> P (CFeedback c o i)) (Hinv : forall c, P c -> P (CSInv c)).
  Fixpoint circ_ind' (c : circ X) : P c :=
    let go := fix go (l : list (circ X)) : Forall P l :=
      match l with [] => Forall_nil _ | x :: l' => Forall_cons x (circ_ind' x) (go l') end in
    match c with
    | CSym l n => Hsym l n | CSlh s n => Hslh s n | CPerm p => Hperm p | CId => Hid | CZero => Hz
    | CSeries ops => Hser ops (go ops) | CConcat ops => Hcat ops (go ops)
    | CFeedback c o i => Hfb c o i (circ_ind' c) | CSInv c => Hinv c (circ_ind' c)
    end.
End CircInd.

Scheme mean_mut := Minimality for mean Sort Prop
  with smean_mut := Minimality for smean Sort Prop
  with cmean_mut := Minimality for cmean Sort Prop.

Section Sem.
  Context (M : cmodel) {X : Type} (lit : lits X) (sym : nat -> nat -> dom M) (lden : X -> dom M).
  Local Notation ok := (mok M). Local Notation ser := (mser M). Local Notation cat := (mcat M).
  Local Notation inv := (minv M). Local Notation prm := (mprm M). Local Notation fb := (mfb M).
  Local Notation idn := (idn M). Local Notation cat3 := (cat3 M).
  Local Notation mports := (mports M). Local Notation loop := (loop M).
  Local Notation mean := (mean M sym lden). Local Notation smean := (smean M sym lden). Local Notation cmean := (cmean M sym lden).
  Local Notation circ := (circ X).
  Implicit Types (a b d : dom M) (n m : nat) (c : circ) (l : list circ).

  Lemma mean_facts c n a : mean c n a -> ok n a /\ cdim c = n.
  Proof.
    apply (mean_mut M X sym lden (fun c n a => ok n a /\ cdim c = n)
             (fun l n a => ok n a /\ Forall (fun o => cdim o = n) l)
             (fun l n a => ok n a /\ sum (map cdim l) = n)); cbn [cdim].
    - intros l k Hk H. now split.
    - intros s k Hk H. now split.
    - intros p Hp Hq. split; [now apply ok_prm|reflexivity].
    - split; [apply ok_id1|reflexivity].
    - split; [apply ok_nil|reflexivity].
    - intros ops k x He Hk _ [H1 H2]. split; [exact H1|]. destruct ops as [|o ops]; [easy|]. now apply Forall_inv in H2.
    - intros ops k x He _ [H1 H2] _. now split.
    - intros c' k x o i y _ [H1 H2] Hk Ho Hi Hl. split; [eapply ok_loop; [exact H1|exact Ho|exact Hi|exact Hl]|]. rewrite H2. lia.
    - intros c' k x _ [H1 H2] Hk Hn. split; [now apply ok_inv|exact H2].
    - intros k. split; [apply ok_idn|constructor].
    - intros c' l k x y _ [H1 H2] _ [H3 H4]. split; [now apply ok_ser|]. constructor; assumption.
    - split; [apply ok_nil|reflexivity].
    - intros c' l k k' x y _ [H1 H2] _ [H3 H4]. split; [now apply ok_cat|]. cbn [map]. rewrite sum_cons. now f_equal.
  Qed.
  Lemma mean_ok c n a : mean c n a -> ok n a.
  Proof. apply mean_facts. Qed.
  Lemma mean_cdim c n a : mean c n a -> cdim c = n.
  Proof. apply mean_facts. Qed.
  Lemma smean_ok l n a : smean l n a -> ok n a.
  Proof. induction 1; [apply ok_idn|]. apply ok_ser; [eapply mean_ok; eassumption|assumption]. Qed.
  Lemma cmean_ok l n a : cmean l n a -> ok n a.
  Proof. induction 1; [apply ok_nil|]. apply ok_cat; [eapply mean_ok; eassumption|assumption]. Qed.
  Lemma smean_cdim l n a : smean l n a -> Forall (fun o => cdim o = n) l.
  Proof. induction 1; constructor; [eapply mean_cdim; eassumption|assumption]. Qed.
  Lemma cmean_cdim l n a : cmean l n a -> sum (map cdim l) = n.
  Proof. induction 1; [reflexivity|]. cbn [map]. rewrite sum_cons. f_equal; [eapply mean_cdim; eassumption|assumption]. Qed.

  Lemma mean_fun c n a : mean c n a -> forall n' b, mean c n' b -> n = n' /\ a = b.
  Proof.
    apply (mean_mut M X sym lden (fun c n a => forall n' b, mean c n' b -> n = n' /\ a = b)
             (fun l n a => forall b, smean l n b -> a = b)
             (fun l n a => forall n' b, cmean l n' b -> n = n' /\ a = b)).
    - intros l k Hk H n' b Hb. inversion Hb; subst. now split.
    - intros s k Hk H n' b Hb. inversion Hb; subst. now split.
    - intros p Hp Hq n' b Hb. inversion Hb; subst. now split.
    - intros n' b Hb. inversion Hb; subst. now split.
    - intros n' b Hb. inversion Hb; subst. now split.
    - intros ops k x He Hk Hs IH n' b Hb. inversion Hb as [| | | | |? ? ? ? ? Hs'| | |]; subst.
      assert (k = n').
      { destruct ops as [|o ops]; [easy|]. apply smean_cdim, Forall_inv in Hs, Hs'. congruence. }
      subst n'. split; [reflexivity|]. now apply IH.
    - intros ops k x He _ IH _ n' b Hb. inversion Hb; subst. now apply IH.
    - intros c' k x o i y Hm IH Hk Ho Hi Hl n' b Hb. inversion Hb as [| | | | | | |? ? y' ? ? ? Hm' Hk' Ho' Hi' Hl'|]; subst.
      apply IH in Hm'. destruct Hm' as [E1 E2]. injection E1 as E1. subst. split; [reflexivity|].
      eapply loop_fun; [eapply mean_ok; exact Hm|exact Ho|exact Hi|exact Hl|exact Hl'].
    - intros c' k x Hm IH Hk Hn n' b Hb. inversion Hb as [| | | | | | | |? ? y' Hm' Hk' Hn']; subst.
      apply IH in Hm'. destruct Hm' as [-> ->]. now split.
    - intros k b Hb. inversion Hb; subst. reflexivity.
    - intros c' l k x y _ IH1 _ IH2 b Hb. inversion Hb; subst. f_equal; [eapply IH1; eassumption|now apply IH2].
    - intros n' b Hb. inversion Hb; subst. now split.
    - intros c' l k k' x y _ IH1 _ IH2 n' b Hb. inversion Hb as [|? ? k1 k2 x1 y1 Hm Hc]; subst.
      apply IH1 in Hm. apply IH2 in Hc. destruct Hm as [-> ->], Hc as [-> ->]. now split.
  Qed.
  Lemma mean_zero_inv c a : mean c 0 a -> c = CZero /\ a = prm [].
  Proof.
    inversion 1; subst; try lia; try easy.
    - destruct p; [easy|discriminate].
    - match goal with Hc : cmean _ 0 _, Hp : Forall _ _ |- _ => apply cmean_cdim in Hc; destruct ops as [|o ops]; [easy|];
        apply Forall_inv in Hp; cbn [map] in Hc; rewrite sum_cons in Hc; lia end.
  Qed.

  (** *** lists *)
  Lemma smean_app l1 l2 n a b : smean l1 n a -> smean l2 n b -> smean (l1 ++ l2) n (ser n a b).
  Proof.
    induction 1 as [n|c l n x y Hc Hl IH]; intros H2; cbn [app].
    - fold (idn n). rewrite idn_l by (eapply smean_ok; exact H2). exact H2.
    - rewrite ser_assoc by (try (eapply mean_ok; eassumption); eapply smean_ok; eassumption).
      constructor; [exact Hc|]. now apply IH.
  Qed.
  Lemma smean_app_inv l1 l2 n a : smean (l1 ++ l2) n a -> exists x y, smean l1 n x /\ smean l2 n y /\ a = ser n x y.
  Proof.
    revert a. induction l1 as [|c l1 IH]; cbn [app]; intros a H.
    - exists (idn n), a. split; [constructor|]. split; [exact H|]. now rewrite idn_l by (eapply smean_ok; exact H).
    - inversion H as [|? ? ? x y Hc Hl]; subst. apply IH in Hl. destruct Hl as (x1 & y1 & H1 & H2 & ->).
      exists (ser n x x1), y1. split; [now constructor|]. split; [exact H2|].
      symmetry. apply ser_assoc; [eapply mean_ok; eassumption| |]; eapply smean_ok; eassumption.
  Qed.
  Lemma cmean_app l1 l2 n m a b : cmean l1 n a -> cmean l2 m b -> cmean (l1 ++ l2) (n + m) (cat n m a b).
  Proof.
    induction 1 as [|c l n1 n2 x y Hc Hl IH]; intros H2; cbn [app].
    - rewrite cat_0_l by (eapply cmean_ok; exact H2). exact H2.
    - rewrite cat_assoc by (try (eapply mean_ok; eassumption); eapply cmean_ok; eassumption).
      rewrite <- Nat.add_assoc. constructor; [exact Hc|]. now apply IH.
  Qed.
  Lemma cmean_app_inv l1 l2 n a : cmean (l1 ++ l2) n a ->
    exists n1 n2 x y, n = n1 + n2 /\ cmean l1 n1 x /\ cmean l2 n2 y /\ a = cat n1 n2 x y.
  Proof.
    revert n a. induction l1 as [|c l1 IH]; cbn [app]; intros n a H.
    - exists 0, n, (prm []), a. split; [reflexivity|]. split; [constructor|]. split; [exact H|].
      now rewrite cat_0_l by (eapply cmean_ok; exact H).
    - inversion H as [|? ? k1 k2 x y Hc Hl]; subst. apply IH in Hl. destruct Hl as (n1 & n2 & x1 & y1 & -> & H1 & H2 & ->).
      exists (k1 + n1), n2, (cat k1 n1 x x1), y1. split; [lia|]. split; [now constructor|]. split; [exact H2|].
      symmetry. apply cat_assoc; [eapply mean_ok; eassumption| |]; eapply cmean_ok; eassumption.
  Qed.
  Lemma smean_1 c n a : mean c n a -> smean [c] n a.
  Proof. intros H. rewrite <- (idn_r M n a) by (eapply mean_ok; exact H). constructor; [exact H|constructor]. Qed.
  Lemma smean_1_inv c n a : smean [c] n a -> mean c n a.
  Proof.
    inversion 1 as [|? ? ? x y Hc Hl]; subst. inversion Hl; subst. fold (idn n). rewrite idn_r by (eapply mean_ok; exact Hc). exact Hc.
  Qed.
  Lemma smean_2 c c' n a b : mean c n a -> mean c' n b -> smean [c; c'] n (ser n a b).
  Proof. intros H1 H2. constructor; [exact H1|]. now apply smean_1. Qed.
  Lemma smean_2_inv c c' n a : smean [c; c'] n a -> exists x y, mean c n x /\ mean c' n y /\ a = ser n x y.
  Proof. inversion 1 as [|? ? ? x y Hc Hl]; subst. apply smean_1_inv in Hl. now exists x, y. Qed.
  Lemma cmean_1 c n a : mean c n a -> cmean [c] n a.
  Proof.
    intros H. rewrite <- (cat_0_r M n a) by (eapply mean_ok; exact H). rewrite <- (Nat.add_0_r n) at 1. constructor; [exact H|constructor].
  Qed.
  Lemma cmean_1_inv c n a : cmean [c] n a -> mean c n a.
  Proof.
    inversion 1 as [|? ? n1 n2 x y Hc Hl]; subst. inversion Hl; subst. rewrite cat_0_r by (eapply mean_ok; exact Hc).
    now rewrite Nat.add_0_r.
  Qed.
  Lemma cmean_2 c c' n m a b : mean c n a -> mean c' m b -> cmean [c; c'] (n + m) (cat n m a b).
  Proof. intros H1 H2. constructor; [exact H1|]. now apply cmean_1. Qed.
  Lemma cmean_2_inv c c' n a : cmean [c; c'] n a -> exists n1 n2 x y, n = n1 + n2 /\ mean c n1 x /\ mean c' n2 y /\ a = cat n1 n2 x y.
  Proof. inversion 1 as [|? ? n1 n2 x y Hc Hl]; subst. apply cmean_1_inv in Hl. now exists n1, n2, x, y. Qed.

  (** *** identities and permutations *)
  Lemma cmean_ids n : cmean (repeat CId n) n (idn n).
  Proof.
    induction n as [|n IH]; [constructor|]. cbn [repeat].
    assert (idn (S n) = cat 1 n (prm [0]) (idn n)) as ->.
    { pose proof (idn_cat M 1 n) as E. change (CSimpProofs1.idn M 1) with (prm [0]) in E. now rewrite E. }
    apply (cmean_cons M sym lden CId (repeat CId n) 1 n); [constructor|exact IH].
  Qed.
  Lemma mean_cid n : mean (circuit_identity n) n (idn n).
  Proof.
    destruct n as [|[|n]]; [constructor|constructor|]. cbn [circuit_identity]. constructor; [discriminate|apply cmean_ids|].
    apply Forall_forall. intros x Hx. apply repeat_spec in Hx. subst x. cbn. lia.
  Qed.
  Lemma mean_pc p n : is_perm p -> length p = n -> mean (pc p) n (prm p).
  Proof.
    intros Hp <-. destruct (pc_cases (X := X) p) as [[E1 E2]|[E1 E2]]; rewrite E2.
    - rewrite E1 at 3. apply mean_cid.
    - apply mean_perm; [|exact Hp]. intros ->. now apply E1.
  Qed.
  Lemma mean_perm' p n : is_perm p -> length p = n -> 0 < n -> mean (CPerm p) n (prm p).
  Proof. intros Hp <- Hn. apply mean_perm; [|exact Hp]. intros ->. cbn in Hn. lia. Qed.
  Lemma mean_cid_inv n m a : mean (circuit_identity n) m a -> m = n /\ a = idn n.
  Proof. intros H. destruct (mean_fun _ _ _ H _ _ (mean_cid n)) as [-> ->]. now split. Qed.

  Lemma ceqb_ids l n : (fix go (l m : list circ) {struct l} : bool :=
      match l, m with [], [] => true | x :: l', y :: m' => ceqb lit x y && go l' m' | _, _ => false end) l (repeat CId n) = true -> l = repeat CId n.
  Proof.
    revert n. induction l as [|x l IH]; intros [|n] H; try discriminate; [reflexivity|]. cbn [repeat] in *.
    apply andb_prop in H as [H1 H2]. apply IH in H2. destruct x; try discriminate. now f_equal.
  Qed.
  Lemma is_cid_eq n c : is_cid lit n c = true -> c = circuit_identity n.
  Proof.
    unfold is_cid. destruct n as [|[|n]]; cbn [circuit_identity]; intros H; destruct c; try discriminate; try reflexivity.
    f_equal. apply (ceqb_ids operands (S (S n))). exact H.
  Qed.
  Lemma cid_is_cid n : is_cid lit n (circuit_identity n) = true.
  Proof.
    unfold is_cid. destruct n as [|[|n]]; cbn [circuit_identity]; try reflexivity.
    cbn [ceqb]. induction (S (S n)) as [|k IH]; [reflexivity|]. cbn [repeat ceqb andb]. exact IH.
  Qed.

  Context (x_eq_sound : forall s s', x_eq lit s s' = true -> s = s').
  Lemma ceqb_eq c : forall c', ceqb lit c c' = true -> no_feedback c' -> c = c'.
  Proof.
    induction c using circ_ind'; intros c' He Hn; destruct c'; try discriminate; cbn [ceqb] in He; try reflexivity.
    - apply andb_prop in He as [E1 E2]. apply Nat.eqb_eq in E1, E2. now subst.
    - apply andb_prop in He as [E1 E2]. apply Nat.eqb_eq in E2. apply x_eq_sound in E1. now subst.
    - apply eqb_list_nat_spec in He. now subst.
    - f_equal. cbn [no_feedback] in Hn. revert operands He Hn.
      induction H as [|x l Hx Hl IH]; intros [|y m] He Hn; try discriminate; [reflexivity|].
      apply andb_prop in He as [E1 E2]. destruct Hn as [N1 N2]. f_equal; [now apply Hx|now apply IH].
    - f_equal. cbn [no_feedback] in Hn. revert operands He Hn.
      induction H as [|x l Hx Hl IH]; intros [|y m] He Hn; try discriminate; [reflexivity|].
      apply andb_prop in He as [E1 E2]. destruct Hn as [N1 N2]. f_equal; [now apply Hx|now apply IH].
    - destruct Hn.
    - f_equal. now apply IHc.
  Qed.

  (** *** block structures *)
  Lemma block_perms_ok p : p <> [] -> is_perm p -> exists bps, block_perms p = Ok bps /\ permutation_from_block_permutations bps = p /\
    sum (map (@length nat) bps) = length p /\ Forall is_perm bps /\ positive (map (@length nat) bps).
  Proof.
    intros He Hp. destruct (to_blocks_ok p He Hp) as (bps & E & H1 & H2 & H3 & H4). exists bps.
    split; [exact E|]. split; [exact H1|]. split; [exact H2|]. split; [exact H3|].
    intros x Hx. apply in_map_iff in Hx. destruct Hx as (b & <- & Hb). rewrite Forall_forall in H4. destruct (H4 b Hb) as [Hne _].
    destruct b; [easy|cbn; lia].
  Qed.
  Lemma block_structure_ok c : forall n a, mean c n a -> 0 < n -> exists bs, block_structure c = Ok bs /\ sum bs = n /\ positive bs.
  Proof.
    assert (forall n, 0 < n -> exists bs, Ok [n] = Ok bs /\ sum bs = n /\ positive bs) as Hb.
    { intros n Hn. exists [n]. split; [reflexivity|]. split; [cbn; lia|]. intros x [<-|[]]. exact Hn. }
    induction c using circ_ind'; intros k a Hm Hk; pose proof (mean_cdim _ _ _ Hm) as Hd; cbn [block_structure];
      try (rewrite Hd; apply Hb; exact Hk).
    - inversion Hm; subst. destruct (block_perms_ok p) as (bps & E & G1 & G2 & G3 & G4); try assumption.
      rewrite E. cbn [bind]. now eexists.
    - inversion Hm as [| | | | | |? ? ? Hne Hc Hpos| |]; subst ops0 n a0. clear - H Hc Hpos.
      revert k a Hc Hpos. induction H as [|o l Ho Hl IH]; intros k a Hc Hpos.
      + exists []. split; [reflexivity|]. inversion Hc; subst. split; [reflexivity|]. intros x [].
      + inversion Hc as [|? ? n1 n2 x y Hc1 Hc2]; subst. pose proof (mean_cdim _ _ _ Hc1) as Hd. 
        destruct (Ho _ _ Hc1) as (b1 & E1 & S1 & P1); [apply Forall_inv in Hpos; lia|].
        destruct (IH _ _ Hc2) as (b2 & E2 & S2 & P2); [now apply Forall_inv_tail in Hpos|].
        exists (b1 ++ b2). rewrite E1. cbn [bind]. rewrite E2. cbn [bind]. split; [reflexivity|].
        split; [rewrite sum_app; lia|]. intros z Hz. apply in_app_or in Hz. destruct Hz; auto.
  Qed.
End Sem.
