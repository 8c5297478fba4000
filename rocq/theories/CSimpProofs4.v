(** Block decompositions ([get_blocks]) and the factorisation of permutations. *)
From Verif Require Import Prelude ListFacts PermModel PermSpec PermProofs1 PermProofs3 PermProofs4 CircModel CircSpec CircProofs1 CircProofs2 BinModel BinSpec BinProofs CSimpModel CSimpSpec CSimpProofs1 CSimpProofs2 CSimpProofs3.

Section Sem.
  Context (M : cmodel) {X : Type} (lit : lits X) (sym : nat -> nat -> dom M) (lden : X -> dom M).
  Local Notation ok := (mok M). Local Notation ser := (mser M). Local Notation cat := (mcat M).
  Local Notation inv := (minv M). Local Notation prm := (mprm M). Local Notation fb := (mfb M).
  Local Notation idn := (idn M). Local Notation cat3 := (cat3 M).
  Local Notation mports := (mports M). Local Notation loop := (loop M).
  Local Notation mean := (mean M sym lden). Local Notation smean := (smean M sym lden). Local Notation cmean := (cmean M sym lden).
  Local Notation circ := (circ X).
  Implicit Types (a b d : dom M) (n m : nat) (c : circ) (l : list circ).

  (** what each entry point must preserve *)
  Record sound (K : creators X) : Prop := {
    s_series : forall l n a r, l <> [] -> smean l n a -> k_series K l = Ok r -> mean r n a;
    s_concat : forall l n a r, cmean l n a -> k_concat K l = Ok r -> mean r n a;
    s_fb : forall c n a o i b r, mean c (S n) a -> o <= n -> i <= n -> loop n a o i b -> k_fb K c o i = Ok r -> mean r n b;
    s_inv : forall c n a r, mean c n a -> 0 < n -> k_inv K c = Ok r -> mean r n (inv n a);
    s_minv : forall c n a r, mean c n a -> 0 < n -> k_minv K c = Ok r -> mean r n (inv n a);
    s_mfb : forall c n a o i b r, mean c (S n) a -> o <= n -> i <= n -> loop n a o i b -> k_mfb K c o i = Ok r -> mean r n b
  }.
  Context (K : creators X) (HK : sound K).

  Lemma k_series2 c c' n a b r : mean c n a -> mean c' n b -> k_series K [c; c'] = Ok r -> mean r n (ser n a b).
  Proof. intros H1 H2. apply (s_series K HK); [discriminate|]. now apply smean_2. Qed.
  Lemma k_concat2 c c' n m a b r : mean c n a -> mean c' m b -> k_concat K [c; c'] = Ok r -> mean r (n + m) (cat n m a b).
  Proof. intros H1 H2. apply (s_concat K HK). now apply cmean_2. Qed.

  Definition pos_ops (l : list circ) : Prop := Forall (fun o => 0 < cdim o) l.

  (** *** grouping *)
  Lemma take_ops_ok bl : forall (blocks : list circ) cur (cbo cbo' : list circ) cur' (rest : list circ),
    take_ops bl cur cbo blocks = Ok (cbo', cur', rest) -> cur = sum (map cdim cbo) ->
    cbo' ++ rest = cbo ++ blocks /\ cur' = sum (map cdim cbo').
  Proof.
    induction blocks as [|o blocks IH]; intros cur cbo cbo' cur' rest; cbn [take_ops]; destruct (cur <? bl);
      intros H E; try discriminate.
    - injection H as <- <- <-. now split.
    - apply IH in H.
      + destruct H as [H1 H2]. split; [|exact H2]. rewrite H1, <- app_assoc. reflexivity.
      + rewrite map_app, sum_app, <- E. cbn [map]. rewrite sum_cons. cbn. lia.
    - injection H as <- <- <-. now split.
  Qed.
  Lemma pos_zero l : pos_ops l -> sum (map cdim l) = 0 -> l = [].
  Proof. destruct l as [|o l]; [reflexivity|]. intros H. apply Forall_inv in H. cbn [map]. rewrite sum_cons. lia. Qed.
  Lemma group_ops_ok bs : forall blocks n a bl, cmean blocks n a -> pos_ops blocks -> sum bs = n ->
    group_ops K bs blocks = Ok bl -> cmean bl n a /\ map cdim bl = bs.
  Proof.
    induction bs as [|b bs IH]; intros blocks n a bl Hc Hp Hs H; cbn [group_ops] in H.
    - injection H as <-. cbn in Hs. subst n. pose proof (cmean_cdim _ _ _ _ _ _ Hc) as E. apply pos_zero in E; [|exact Hp]. subst blocks.
      now split.
    - destruct (take_ops b 0 [] blocks) as [[[cbo cur] rest]|] eqn:Et; [|discriminate]. cbn [bind] in H.
      destruct (Nat.eqb_spec cur b) as [E|]; [|discriminate]. subst cur.
      destruct (k_concat K cbo) as [x|] eqn:Ex; [|discriminate]. cbn [bind] in H.
      destruct (group_ops K bs rest) as [r|] eqn:Er; [|discriminate]. cbn [bind] in H. injection H as <-.
      apply take_ops_ok in Et; [|reflexivity]. destruct Et as [E1 E2]. cbn [app] in E1. subst blocks.
      apply cmean_app_inv in Hc. destruct Hc as (n1 & n2 & y & z & -> & H1 & H2 & ->).
      pose proof (cmean_cdim _ _ _ _ _ _ H1) as D1. rewrite sum_cons in Hs.
      apply Forall_app in Hp. destruct Hp as [_ Hp]. apply (IH rest n2 z r H2 Hp) in Er; [|lia]. destruct Er as [G1 G2].
      pose proof (s_concat K HK _ _ _ _ H1 Ex) as Hx. split.
      + constructor; assumption.
      + cbn [map]. f_equal; [|exact G2]. rewrite (mean_cdim _ _ _ _ _ _ Hx). lia.
  Qed.

  (** *** permutations *)
  Lemma cmean_pcs ps : Forall is_perm ps ->
    cmean (map pc ps) (sum (map (@length nat) ps)) (prm (permutation_from_block_permutations ps)).
  Proof.
    induction ps as [|p ps IH]; intros H; [constructor|].
    pose proof (Forall_inv H) as Hp. apply Forall_inv_tail in H. specialize (IH H).
    assert (permutation_from_block_permutations (p :: ps) = concatenate_permutations p (permutation_from_block_permutations ps)) as ->.
    { unfold permutation_from_block_permutations, concatenate_permutations, permutation_from_block_permutations. cbn [from_blocks_from].
      rewrite app_nil_r. f_equal. clear. cbn [Nat.add].
      assert (forall k off, from_blocks_from (off + k) ps = map (fun x => x + k) (from_blocks_from off ps)) as E.
      { intros k. induction ps as [|q qs IH]; intros off; cbn [from_blocks_from map]; [reflexivity|].
        rewrite map_app, map_map. f_equal; [apply map_ext; intros; lia|].
        rewrite <- IH. f_equal. lia. }
      apply (E (length p) 0). }
    rewrite <- (cat_prm' M (length p) (sum (map (@length nat) ps))); try assumption; try reflexivity.
    - cbn [map]. rewrite sum_cons. constructor; [now apply mean_pc|exact IH].
    - now apply from_blocks_is_perm.
    - apply from_blocks_from_length.
  Qed.
  Lemma mapM_create ps : Forall is_perm ps -> mapM cperm_create ps = Ok (map pc ps) :> res (list circ).
  Proof. intros H. apply mapM_ok. intros x Hx. apply cperm_create_ok. rewrite Forall_forall in H. now apply H. Qed.
  Lemma map_cdim_pcs ps : map (@cdim X) (map pc ps) = map (@length nat) ps.
  Proof. rewrite map_map. apply map_ext. intros p. apply cdim_pc. Qed.

  Lemma take_perms_ok (l : nat) : forall bps cur cur' rest, take_perms l cur bps = Ok (cur', rest) ->
    exists used, bps = used ++ rest /\ cur' = cur ++ from_blocks_from (length cur) used.
  Proof.
    induction bps as [|b bps IH]; intros cur cur' rest; cbn [take_perms]; destruct (length cur <? l); intros H; try discriminate.
    - injection H as <- <-. exists []. split; [reflexivity|]. cbn [from_blocks_from]. now rewrite app_nil_r.
    - apply IH in H. destruct H as (used & -> & ->). exists (b :: used). split; [reflexivity|]. cbn [from_blocks_from].
      rewrite app_length, map_length, app_assoc. reflexivity.
    - injection H as <- <-. exists []. split; [reflexivity|]. cbn [from_blocks_from]. now rewrite app_nil_r.
  Qed.
  Lemma from_blocks_shift ps : forall k off, from_blocks_from (off + k) ps = map (fun x => x + k) (from_blocks_from off ps).
  Proof.
    intros k. induction ps as [|q qs IH]; intros off; cbn [from_blocks_from map]; [reflexivity|].
    rewrite map_app, map_map. f_equal; [apply map_ext; intros; lia|]. rewrite <- IH. f_equal. lia.
  Qed.
  Lemma group_perms_ok bs : forall bps gs, Forall is_perm bps -> positive (map (@length nat) bps) -> sum bs = sum (map (@length nat) bps) ->
    group_perms bs bps = Ok gs ->
    Forall is_perm gs /\ map (@length nat) gs = bs /\ permutation_from_block_permutations gs = permutation_from_block_permutations bps.
  Proof.
    induction bs as [|l bs IH]; intros bps gs Hp Hpos Hs H; cbn [group_perms] in H.
    - injection H as <-. destruct bps as [|b bps]; [now repeat split|].
      exfalso. cbn [map] in Hs. rewrite sum_cons in Hs. specialize (Hpos (length b) (or_introl eq_refl)). cbn in Hs. lia.
    - destruct (take_perms l [] bps) as [[cur rest]|] eqn:Et; [|discriminate]. cbn [bind] in H.
      destruct (Nat.eqb_spec (length cur) l) as [El|]; [|discriminate].
      destruct (group_perms bs rest) as [r|] eqn:Er; [|discriminate]. injection H as <-.
      apply take_perms_ok in Et. destruct Et as (used & -> & Ecur). cbn [app length] in Ecur.
      apply Forall_app in Hp. destruct Hp as [Hp1 Hp2]. rewrite map_app in Hpos, Hs. rewrite sum_app, sum_cons in Hs.
      assert (length cur = sum (map (@length nat) used)) as Ec by (rewrite Ecur; apply from_blocks_from_length).
      apply IH in Er; [|exact Hp2|intros x Hx; apply Hpos, in_or_app; now right|lia].
      destruct Er as (G1 & G2 & G3). split; [|split].
      + constructor; [|exact G1]. rewrite Ecur. now apply from_blocks_is_perm.
      + cbn [map]. now f_equal.
      + unfold permutation_from_block_permutations in *. cbn [from_blocks_from]. rewrite from_blocks_from_app.
        f_equal.
        * rewrite Ecur. rewrite <- map_id. apply map_ext. intros; lia.
        * rewrite !from_blocks_shift, G3, Ec. reflexivity.
  Qed.

  (** *** get_blocks *)
  Lemma perm_get_blocks_ok p bs bl : p <> [] -> is_perm p -> perm_get_blocks p bs = Ok bl ->
    cmean bl (length p) (prm p) /\ map cdim bl = bs.
  Proof.
    intros He Hp H. unfold perm_get_blocks in H. destruct (block_perms_ok p He Hp) as (bps & E & H1 & H2 & H3 & H4).
    rewrite E in H. cbn [bind] in H.
    destruct (eqb_list_nat bs (map (@length nat) bps)) eqn:Eb.
    - apply eqb_list_nat_spec in Eb. rewrite mapM_create in H by exact H3. injection H as <-.
      rewrite map_cdim_pcs. split; [|now symmetry]. pose proof (cmean_pcs bps H3) as G. rewrite H1, H2 in G. exact G.
    - destruct (length bps <? length bs); [discriminate|]. destruct (Nat.eqb_spec (sum bs) (length p)) as [Es|]; [|discriminate].
      cbn [negb] in H. destruct (group_perms bs bps) as [gs|] eqn:Eg; [|discriminate]. cbn [bind] in H.
      apply group_perms_ok in Eg; try assumption; [|congruence]. destruct Eg as (G1 & G2 & G3).
      rewrite mapM_create in H by exact G1. injection H as <-. rewrite map_cdim_pcs. split; [|exact G2].
      pose proof (cmean_pcs gs G1) as G. rewrite G3, H1, G2, Es in G. exact G.
  Qed.
  Lemma pos_ops_cdim l bs : map cdim l = bs -> positive bs -> pos_ops l.
  Proof. intros <- H. apply Forall_forall. intros o Ho. apply H. apply in_map_iff. now exists o. Qed.
  Lemma own_blocks_ok c : forall n a bl, mean c n a -> 0 < n -> own_blocks K c = Ok bl -> cmean bl n a /\ pos_ops bl /\
     (forall bs, block_structure c = Ok bs -> map cdim bl = bs).
  Proof.
    assert (forall c n a bl, mean c n a -> 0 < n -> block_structure c = Ok [cdim c] -> Ok [c] = Ok bl -> cmean bl n a /\ pos_ops bl /\
       (forall bs, block_structure c = Ok bs -> map cdim bl = bs)) as Hb.
    { intros c' n a bl Hm Hn Hbs E. injection E as <-. split; [now apply cmean_1|]. split.
      - constructor; [|constructor]. now rewrite (mean_cdim _ _ _ _ _ _ Hm).
      - intros bs E. rewrite Hbs in E. injection E as <-. reflexivity. }
    induction c using circ_ind'; intros k a bl Hm Hk Hbl; cbn [own_blocks] in Hbl; try (eapply Hb; eauto; fail).
    - inversion Hm; subst. destruct (block_perms_ok p) as (bps & E & G1 & G2 & G3 & G4); try assumption.
      rewrite E in Hbl. cbn [bind] in Hbl. rewrite mapM_create in Hbl by exact G3. injection Hbl as <-.
      split; [|split].
      + pose proof (cmean_pcs bps G3) as G. rewrite G1, G2 in G. exact G.
      + eapply pos_ops_cdim; [apply map_cdim_pcs|exact G4].
      + intros bs. cbn [block_structure]. rewrite E. cbn [bind]. intros Q. injection Q as <-. apply map_cdim_pcs.
    - destruct (block_structure_ok M sym lden _ _ _ Hm Hk) as (bs & Ebs & Hsum & Hpos).
      rewrite Ebs in Hbl. inversion Hm as [| | | | | |? ? ? Hne Hc Hp| |]; subst ops0 n a0.
      set (go := fix go (l : list circ) : res (list circ) :=
         match l with [] => Ok [] | o :: l' => do w <- own_blocks K o; do r <- go l'; Ok (w ++ r) end) in Hbl.
      destruct (go ops) as [blocks|] eqn:Eg; [|discriminate]. cbn [bind] in Hbl.
      assert (cmean blocks k a /\ pos_ops blocks) as [Hb1 Hb2].
      { clear - H Hc Hp Eg. revert k a blocks Hc Hp Eg. induction H as [|o l Ho Hl IH]; intros k a blocks Hc Hp Eg.
        - injection Eg as <-. split; [exact Hc|constructor].
        - inversion Hc as [|? ? n1 n2 x y Hc1 Hc2]; subst. cbn in Eg. fold go in Eg.
          destruct (own_blocks K o) as [b1|] eqn:E1; [|discriminate]. cbn [bind] in Eg.
          destruct (go l) as [b2|] eqn:E2; [|discriminate]. cbn [bind] in Eg. injection Eg as <-.
          pose proof (mean_cdim _ _ _ _ _ _ Hc1) as D.
          destruct (Ho _ _ b1 Hc1) as (A1 & A2 & _); [apply Forall_inv in Hp; lia|reflexivity|].
          destruct (IH _ _ _ Hc2 (Forall_inv_tail Hp) eq_refl) as [B1 B2].
          split; [now apply cmean_app|]. apply Forall_app. now split. }
      destruct (group_ops_ok bs blocks k a bl Hb1 Hb2 Hsum Hbl) as [R1 R2].
      split; [exact R1|]. split; [eapply pos_ops_cdim; [exact R2|exact Hpos]|].
      intros bs' E'. rewrite Ebs in E'. injection E' as <-. exact R2.
  Qed.
  Lemma get_blocks_ok c bs : forall n a bl, mean c n a -> 0 < n -> sum bs = n -> get_blocks K c bs = Ok bl ->
    cmean bl n a /\ map cdim bl = bs.
  Proof.
    intros n a bl Hm Hn Hs H.
    assert ((if eqb_list_nat bs [cdim c] then Ok [c] else Err IncompatibleBlockStructures) = Ok bl -> cmean bl n a /\ map cdim bl = bs) as Hb.
    { destruct (eqb_list_nat bs [cdim c]) eqn:E; [|discriminate]. intros Q. injection Q as <-. apply eqb_list_nat_spec in E.
      split; [now apply cmean_1|]. now rewrite E. }
    destruct c; cbn [get_blocks] in H; try (apply Hb; exact H).
    - inversion Hm; subst. now apply perm_get_blocks_ok.
    - destruct (mapM (own_blocks K) operands) as [bls|] eqn:E; [|discriminate]. cbn [bind] in H.
      inversion Hm as [| | | | | |? ? ? Hne Hc Hp| |]; subst ops n0 a0.
      assert (cmean (concat bls) n a /\ pos_ops (concat bls)) as [Hb1 Hb2].
      { clear - HK Hc Hp E. revert n a bls Hc Hp E. induction operands as [|o l IH]; intros n a bls Hc Hp E.
        - injection E as <-. split; [exact Hc|constructor].
        - inversion Hc as [|? ? n1 n2 x y Hc1 Hc2]; subst. cbn [mapM] in E.
          destruct (own_blocks K o) as [b1|] eqn:E1; [|discriminate]. cbn [bind] in E.
          destruct (mapM (own_blocks K) l) as [b2|] eqn:E2; [|discriminate]. cbn [bind] in E. injection E as <-.
          pose proof (mean_cdim _ _ _ _ _ _ Hc1) as D. cbn [concat].
          destruct (own_blocks_ok o _ _ b1 Hc1) as (A1 & A2 & _); [apply Forall_inv in Hp; lia|exact E1|].
          destruct (IH _ _ _ Hc2 (Forall_inv_tail Hp) eq_refl) as [B1 B2].
          split; [now apply cmean_app|]. apply Forall_app. now split. }
      eapply group_ops_ok; eassumption.
  Qed.

  (** *** lists of blocks as lists of systems *)
  Lemma cmean_catl l : forall n a, cmean l n a -> exists xs, length xs = length l /\ map fst xs = map cdim l /\
    Forall2 (fun o x => mean o (fst x) (snd x)) l xs /\ catl_of cat (prm []) xs = a /\ sum (map fst xs) = n.
  Proof.
    induction l as [|o l IH]; intros n a H; inversion H as [|? ? n1 n2 x y H1 H2]; subst.
    - exists []. repeat split. constructor.
    - destruct (IH _ _ H2) as (xs & E1 & E2 & E3 & E4 & E5). exists ((n1, x) :: xs). cbn [length map fst catl_of].
      split; [now f_equal|]. split; [f_equal; [symmetry; eapply mean_cdim; exact H1|exact E2]|].
      split; [constructor; assumption|]. split; [now rewrite E4, E5|]. rewrite sum_cons. now f_equal.
  Qed.
  Lemma catl_cmean l xs : Forall2 (fun o x => mean o (fst x) (snd x)) l xs -> cmean l (sum (map fst xs)) (catl_of cat (prm []) xs).
  Proof.
    induction 1 as [|o [k x] l xs H1 H2 IH]; [constructor|]. cbn [map fst catl_of]. rewrite sum_cons. constructor; assumption.
  Qed.
  Lemma catl_ok xs : Forall (fun x => ok (fst x) (snd x)) xs -> ok (sum (map fst xs)) (catl_of cat (prm []) xs).
  Proof.
    induction xs as [|[k x] xs IH]; intros H; [apply ok_nil|]. cbn [map fst catl_of]. rewrite sum_cons.
    apply ok_cat; [exact (Forall_inv H)|]. apply IH, (Forall_inv_tail H).
  Qed.
  Lemma f2_ok l xs : Forall2 (fun o x => mean o (fst x) (snd x)) l xs -> Forall (fun x => ok (fst x) (snd x)) xs.
  Proof. induction 1; constructor; [eapply mean_ok; eassumption|assumption]. Qed.

  (** blockwise series *)
  Definition serp (x y : nat * dom M) : nat * dom M := (fst x, ser (fst x) (snd x) (snd y)).
  Lemma catl_ser xs ys : map fst xs = map fst ys -> Forall (fun x => ok (fst x) (snd x)) xs -> Forall (fun x => ok (fst x) (snd x)) ys ->
    map fst (map (fun p => serp (fst p) (snd p)) (combine xs ys)) = map fst xs /\
    catl_of cat (prm []) (map (fun p => serp (fst p) (snd p)) (combine xs ys)) =
    ser (sum (map fst xs)) (catl_of cat (prm []) xs) (catl_of cat (prm []) ys).
  Proof.
    revert ys. induction xs as [|[k x] xs IH]; intros [|[k' y] ys] E Hx Hy; try discriminate.
    - split; [reflexivity|]. cbn. symmetry. apply (ser_id_l M 0). apply ok_nil.
    - cbn [map fst] in E. injection E as <- E. destruct (IH ys E (Forall_inv_tail Hx) (Forall_inv_tail Hy)) as [I1 I2].
      cbn [combine map fst snd]. cbn [catl_of serp fst snd]. split; [cbn; now f_equal|]. 
      fold serp. rewrite I1, I2, sum_cons. rewrite <- E. symmetry. apply interchange; try exact (Forall_inv Hx); try exact (Forall_inv Hy).
      + apply catl_ok, (Forall_inv_tail Hx).
      + rewrite E. apply catl_ok, (Forall_inv_tail Hy).
  Qed.
End Sem.
