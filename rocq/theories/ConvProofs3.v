(** The conversion to matrices is right: the recursion. *)
From Coq Require Import QArith Qcanon.
From Verif Require Import Prelude ListFacts CSimpProofs5 AlgSpec CAlg OpModel OpSpec OpProofs1 ConvModel ConvSpec ConvProofs1 ConvProofs2.
Local Open Scope nat_scope.

Lemma F2_len {A B} (P : A -> B -> Prop) l m : Forall2 P l m -> length l = length m.
Proof. induction 1; [reflexivity|]. cbn [length]. congruence. Qed.
Section Conv.
Context {S : scalars} (r : reading S) (dim : nat -> option nat) (desc : bool).
Add Ring Kr : (kring r).
Local Notation op := (op S).
Local Notation mat := (mat r).
Local Notation meye := (meye r). Local Notation mzero := (mzero r).
Local Notation madd := (madd r). Local Notation mscale := (mscale r). Local Notation mmul := (mmul r).
Local Notation mherm := (mherm r). Local Notation meq := (meq r).
Local Notation levels := (levels dim). Local Notation size := (size dim).
Local Notation at_site := (at_site r dim). Local Notation mat_of := (mat_of r dim desc).
Local Notation smat := (smat r). Local Notation SMat := (SMat r). Local Notation SZero := (SZero r).
Local Notation stands := (stands r).

(** *** every factor is on exactly one of the spaces *)
Lemma one_space (o : op) h : NoDup h -> sum (map (fun s => if on_space s o then 1 else 0) h) <= 1
  /\ (sum (map (fun s => if on_space s o then 1 else 0) h) = 1 -> exists s, In s h /\ space o = [s]).
Proof.
  induction 1 as [|s h Hs _ [IH1 IH2]]; [split; [cbn; lia|discriminate]|]. cbn [map sum fold_right]. fold (sum (map (fun s => if on_space s o then 1 else 0) h)).
  unfold on_space at 1 3. destruct (eqb_list_nat (space o) [s]) eqn:E.
  - apply eqb_list_nat_spec in E. assert (sum (map (fun s => if on_space s o then 1 else 0) h) = 0) as Z.
    { clear IH1 IH2. induction h as [|s' h IH]; [reflexivity|]. cbn [map sum fold_right]. unfold on_space at 1. rewrite E. destruct (eqb_list_nat [s] [s']) eqn:E'.
      - apply eqb_list_nat_spec in E'. injection E' as ->. exfalso. apply Hs. now left.
      - apply IH. intros H. apply Hs. now right. }
    rewrite Z. split; [lia|]. intros _. exists s. split; [now left|exact E].
  - cbn [plus]. split; [exact IH1|]. intros H. destruct (IH2 H) as [s' [H1 H2]]. exists s'. split; [now right|exact H2].
Qed.
Lemma counted (l : list op) h : NoDup h ->
  sum (map (fun s => length (filter (on_space s) l)) h) <= length l
  /\ (sum (map (fun s => length (filter (on_space s) l)) h) = length l -> forall o, In o l -> exists s, In s h /\ space o = [s]).
Proof.
  intros Hn. induction l as [|o l [IH1 IH2]].
  - split; [|easy]. cbn [filter length]. clear Hn. induction h as [|s h IH]; [reflexivity|]. exact IH.
  - destruct (one_space o h Hn) as [G1 G2].
    assert (sum (map (fun s => length (filter (on_space s) (o :: l))) h) = sum (map (fun s => if on_space s o then 1 else 0) h) + sum (map (fun s => length (filter (on_space s) l)) h)) as E.
    { clear. induction h as [|s h IH]; [reflexivity|]. cbn [map sum fold_right] in *. fold (sum (map (fun s => length (filter (on_space s) (o :: l))) h)).
      fold (sum (map (fun s => length (filter (on_space s) l)) h)). fold (sum (map (fun s => if on_space s o then 1 else 0) h)). rewrite IH. cbn [filter]. destruct (on_space s o); cbn [length]; lia. }
    rewrite E. cbn [length]. split; [lia|]. intros H o' [<- |Ho].
    + apply G2. lia.
    + apply IH2; [lia|exact Ho].
Qed.
Lemma dimension_size h n : dimension dim h = Ok n -> n = size h.
Proof.
  revert n. induction h as [|l h IH]; intros n H; cbn [dimension] in H; [now injection H as <-|]. step H d E. step H m E2. injection H as <-.
  rewrite size_cons, (IH m eq_refl). unfold dimension1 in E. destruct (dim l) as [d'|] eqn:E3; [|discriminate]. injection E as ->. unfold ConvSpec.levels. now rewrite E3.
Qed.
Lemma dimension1_levels l d : dimension1 dim l = Ok d -> d = levels l.
Proof. unfold dimension1, ConvSpec.levels. destruct (dim l); [|discriminate]. now injection 1 as <-. Qed.

(** *** an operator on one of the factors, the identity on the others *)
Lemma site_stands h x (F : mat) pre own post v i : NoDup h -> nth_error h i = Some x -> size [x] = levels x ->
  mapM (fun s => do d <- dimension1 dim s; Ok (SMat d meye)) (firstn i h) = Ok pre ->
  stands (levels x) own F ->
  mapM (fun s => do d <- dimension1 dim s; Ok (SMat d meye)) (skipn (Datatypes.S i) h) = Ok post ->
  s_tensor r (pre ++ own :: post) = Ok v -> stands (size h) v (at_site h x F).
Proof.
  intros Hn Ei1 E1 Ep Eo Eq' H'. assert (In x h) as Hx by (eapply nth_error_In; exact Ei1).
      assert (h = firstn i h ++ x :: skipn (Datatypes.S i) h) as Eh'.
      { clear - Ei1. revert i Ei1. induction h as [|y h IHh]; intros [|i] E; try discriminate; cbn [nth_error] in E.
        - injection E as ->. reflexivity.
        - cbn [firstn skipn app]. f_equal. now apply IHh. }
      set (f := fun s => if s =? x then F else meye).
      assert (forall hs vs, mapM (fun s => do d <- dimension1 dim s; Ok (SMat d meye)) hs = Ok vs -> ~ In x hs -> Forall2 (fun s v => stands (levels s) v (f s)) hs vs) as Hey.
      { intros hs vs Hm Hni. apply mapM_F2 in Hm. eapply F2_impl_in; [|exact Hm]. cbn beta. intros s w Hsw Ew. step Ew d Ed. injection Ew as <-. apply dimension1_levels in Ed. subst d.
        unfold f. destruct (Nat.eqb_spec s x) as [-> |_]; [contradiction|]. split; [reflexivity|apply meq_refl]. }
      assert (~ In x (firstn i h) /\ ~ In x (skipn (Datatypes.S i) h)) as [N1 N2].
      { rewrite Eh' in Hn. apply NoDup_remove_2 in Hn. rewrite in_app_iff in Hn. tauto. }
      eapply stands_eq; [eapply s_tensor_stands; [|exact H']|].
      { instantiate (1 := f). rewrite Eh'. apply Forall2_app; [now apply Hey|]. constructor; [|now apply Hey].
        unfold f. rewrite Nat.eqb_refl. exact Eo. }
      eapply meq_trans; [|eapply meq_trans; [apply (grouped r dim h Hn [(x, F)]); now repeat constructor|]].
      * apply chain_ext. intros s Hs'. unfold f, on. cbn [filter fst]. rewrite (Nat.eqb_sym x s). destruct (Nat.eqb_spec s x) as [-> |N]; cbn [map snd mprodl fold_right]; [apply meq_sym, mmul_1r|apply meq_refl].
      * unfold sites_prod. cbn [map mprodl fold_right fst snd]. apply mmul_1r.
Qed.

(** *** grouping the factors of a product *)
Definition by_space (cv : op -> list nat -> res smat) (l : list op) (h : list nat) : res (list (nat * smat)) :=
  mapM (fun ls => do ls_ops <- mapM (fun o => cv o (space o)) (filter (on_space ls) l);
                  match ls_ops with
                  | [] => do d <- dimension1 dim ls; Ok (0, SMat d meye)
                  | _ => do p <- mul_all r ls_ops; Ok (length ls_ops, p)
                  end) h.
Lemma times_stands (cv : op -> list nat -> res smat) (l : list op) h bs v : (forall o s w, In o l -> space o = [s] -> cv o [s] = Ok w -> stands (size [s]) w (mat_of [s] o)) ->
  NoDup h -> by_space cv l h = Ok bs -> sum (map fst bs) = length l -> s_tensor r (map snd bs) = Ok v -> stands (size h) v (mat_of h (OTimes l)).
Proof.
  intros IH Hn E Ec H. unfold by_space in E.
      apply mapM_F2 in E.
      set (fs := map (fun o => (hd 0 (space o), mat_of [hd 0 (space o)] o)) l).
      assert (Forall2 (fun s (p : nat * smat) => fst p = length (filter (on_space s) l) /\ stands (levels s) (snd p) (mprodl r (levels s) (on r s fs))) h bs) as HB.
      { eapply F2_impl_in; [|exact E]. cbn beta. intros s [c p] Hs Hp. step Hp ops Eo.
        assert (Forall2 (fun v F => stands (levels s) v F) ops (map (fun o => mat_of [s] o) (filter (on_space s) l))) as HF.
        { apply mapM_F2 in Eo. clear - Eo IH. assert (forall o, In o (filter (on_space s) l) -> In o l /\ space o = [s]) as Hl.
          { intros o Ho. apply filter_In in Ho. destruct Ho as [Ho1 Ho2]. split; [exact Ho1|]. now apply eqb_list_nat_spec in Ho2. }
          revert Hl. generalize (filter (on_space s) l) Eo. clear Eo. intros l0 Eo. induction Eo as [|o u l0 us Hou _ IHl]; intros Hl; cbn [map]; constructor.
          - destruct (Hl o (or_introl eq_refl)) as [G1 G2]. rewrite G2 in Hou. apply IH in Hou; [|exact G1|exact G2].
            cbn [ConvSpec.size fold_right] in Hou. now rewrite Nat.mul_1_r in Hou.
          - apply IHl. intros o' Ho'. apply Hl. now right. }
        assert (length ops = length (filter (on_space s) l)) as El by (apply F2_len in HF; now rewrite map_length in HF).
        assert (forall o, In o (filter (on_space s) l) -> hd 0 (space o) = s) as Hhd.
        { intros o Ho. apply filter_In in Ho. destruct Ho as [_ Ho]. apply eqb_list_nat_spec in Ho. now rewrite Ho. }
        assert (on r s fs = map (fun o => mat_of [s] o) (filter (on_space s) l)) as Eon.
        { assert (forall o, In o l -> hd 0 (space o) =? s = on_space s o) as Hq.
          { intros o Ho. unfold on_space. destruct (counted l h Hn) as [_ HC].
            assert (sum (map (fun s => length (filter (on_space s) l)) h) = length l) as ES.
            { rewrite <- Ec. f_equal. clear - E. induction E as [|s' [c' p'] h' bs' Hx _ IHb]; [reflexivity|]. cbn [map fst]. rewrite IHb. f_equal.
              step Hx ops Eo. apply mapM_F2, F2_len in Eo. destruct ops as [|q ops].
              - step Hx d Ed. injection Hx as <- _. now rewrite Eo.
              - step Hx d Ed. injection Hx as <- _. now rewrite Eo. }
            destruct (HC ES o Ho) as [s' [_ ->]]. cbn [hd]. symmetry. destruct (Nat.eqb_spec s' s) as [-> |Ns]; [now apply eqb_list_nat_spec|].
            apply Bool.not_true_iff_false. intros Hc. apply eqb_list_nat_spec in Hc. congruence. }
          unfold on, fs. clear - Hq Hhd. induction l as [|o l IHl]; [reflexivity|]. cbn [map filter fst]. rewrite (Hq o (or_introl eq_refl)).
          assert (map snd (filter (fun p : nat * mat => fst p =? s) (map (fun o => (hd 0 (space o), mat_of [hd 0 (space o)] o)) l)) = map (fun o => mat_of [s] o) (filter (on_space s) l)) as IHl'.
          { apply IHl; [|intros; apply Hq; now right]. intros o' Ho'. apply Hhd. cbn [filter]. destruct (on_space s o); [now right|exact Ho']. }
          destruct (on_space s o) eqn:Eo; [|exact IHl']. cbn [map snd]. rewrite IHl'. f_equal. rewrite (Hhd o); [reflexivity|]. cbn [filter]. rewrite Eo. now left. }
        rewrite Eon. destruct ops as [|q ops].
        - step Hp d Ed. injection Hp as <- <-. apply dimension1_levels in Ed. subst d. cbn [length] in El. destruct (filter (on_space s) l); [|discriminate]. cbn. split; [reflexivity|]. split; [reflexivity|apply meq_refl].
        - step Hp p' Em. injection Hp as <- <-. split; [exact El|]. cbn [snd]. eapply mul_all_stands; [exact HF|exact Em]. }
      assert (sum (map (fun s => length (filter (on_space s) l)) h) = length l) as ES.
      { rewrite <- Ec. f_equal. clear - HB. induction HB as [|s' [c' p'] h' bs' [Hx _] _ IHb]; [reflexivity|]. cbn [map fst] in *. now rewrite IHb, Hx. }
      destruct (counted l h Hn) as [_ HC]. specialize (HC ES).
      eapply stands_eq; [eapply s_tensor_stands; [|exact H]|].
      { instantiate (1 := fun s => mprodl r (levels s) (on r s fs)). clear - HB. induction HB as [|s p h' bs' [_ Hp] _ IHb]; cbn [map]; constructor; [exact Hp|exact IHb]. }
      eapply meq_trans; [apply grouped; [exact Hn|]|].
      * unfold fs. apply Forall_forall. intros p Hp. apply in_map_iff in Hp. destruct Hp as [o [<- Ho]]. cbn [fst]. destruct (HC o Ho) as [s [Hs ->]]. exact Hs.
      * unfold sites_prod, fs. cbn [ConvSpec.mat_of]. clear - HC Hn. induction l as [|o l IHl]; [apply meq_refl|]. cbn [map mprodl fold_right fst snd].
        apply mmul_eq; [|apply IHl; intros; apply HC; now right]. destruct (HC o (or_introl eq_refl)) as [s [Hs Eo]]. rewrite Eo. cbn [hd]. apply meq_sym. apply mat_of_site; [exact Hn|exact Hs|].
        rewrite Eo. apply incl_refl.
Qed.

Context (expand : op -> res op) (good : op -> Prop).
Context (g_atom : forall a, good (OAtom a) -> nospin a)
  (g_scal : forall c t, good (OScal c t) -> good t) (g_adj : forall t, good (OAdj t) -> good t)
  (g_plus : forall l, good (OPlus l) -> Forall good l) (g_times : forall l, good (OTimes l) -> existsb (fun o => 1 <? length (space o)) l = false -> Forall good l)
  (g_expand : forall l se, good (OTimes l) -> existsb (fun o => 1 <? length (space o)) l = true -> expand (OTimes l) = Ok se ->
     good se /\ forall h, NoDup h -> incl (space (OTimes l)) h -> meq (size h) (mat_of h se) (mat_of h (OTimes l))).

Theorem conv_good : forall n e h v, conv r dim expand n e h = Ok v -> NoDup h -> good e -> stands (size h) v (mat_of h e).
Proof.
  induction n as [|n IH]; intros e h v H Hn Hg; [discriminate|]. cbn [conv] in H.
  destruct (forallb (fun x => sp_mem x h) (space e)) eqn:Hin; [|discriminate]. cbn [negb] in H.
  assert (incl (space e) h) as Hinc by (intros x Hx; rewrite forallb_forall in Hin; apply sp_mem_In; now apply Hin). clear Hin.
  destruct e as [| |a|c t|l|l|a b|a|a h'|s a]; try discriminate.
  - injection H as <-. cbn. apply meq_refl.
  - step H d E. injection H as <-. apply dimension_size in E. subst d. split; [reflexivity|apply meq_refl].
  - (* local operators *)
    pose proof (g_atom a Hg) as Hs.
    assert (forall nm hh, a <> ASym nm hh) as Ha by (intros nm hh ->; discriminate).
    assert (exists x, atom_space a = [x]) as [x Ex] by (destruct a; try (eexists; reflexivity); exfalso; eapply Ha; reflexivity).
    assert ((do n0 <- dimension dim h;
      if eqb_list_nat h (space (OAtom a)) then do M <- local_matrix r a n0; Ok (SMat n0 M)
      else do i <- of_option ValueError (index_of (hd 0 (space (OAtom a))) h);
           do pre <- mapM (fun s => do d <- dimension1 dim s; Ok (SMat d meye)) (firstn i h);
           do own <- conv r dim expand n (OAtom a) (space (OAtom a));
           do post <- mapM (fun s => do d <- dimension1 dim s; Ok (SMat d meye)) (skipn (Datatypes.S i) h);
           s_tensor r (pre ++ own :: post)) = Ok v) as H' by (destruct a; first [exact H|discriminate H]).
    clear H Ha. cbn [space] in H', Hinc. rewrite Ex in H', Hinc. cbn [ConvSpec.mat_of]. rewrite Ex. cbn [hd] in *. assert (In x h) as Hx by (apply Hinc; now left).
    step H' d Ed. apply dimension_size in Ed. subst d. destruct (eqb_list_nat h [x]) eqn:Eh.
    + apply eqb_list_nat_spec in Eh. subst h. step H' M EM. injection H' as <-. apply (element_ok r desc) in EM; [|exact Hs].
      assert (size [x] = levels x) as E1 by (cbn [ConvSpec.size fold_right]; lia). rewrite E1 in *. split; [lia|]. eapply meq_trans; [exact EM|]. apply meq_sym, site_only.
    + destruct (index_of x h) as [i|] eqn:Ei; [|discriminate]. cbn [of_option bind] in H'. step H' pre Ep. step H' own Eo. step H' post Eq'.
      apply index_of_Some in Ei. destruct Ei as [Ei1 [Ei2 _]].
      apply (IH (OAtom a) [x]) in Eo; [|repeat constructor; now intros []|exact Hg].
      assert (size [x] = levels x) as E1 by (cbn [ConvSpec.size fold_right]; lia). rewrite E1 in Eo.
      eapply site_stands; try eassumption. eapply stands_eq; [exact Eo|]. cbn [ConvSpec.mat_of]. rewrite Ex. cbn [hd]. apply site_only.
  - step H w E. apply IH in E; [|exact Hn|now apply g_scal in Hg]. cbn [ConvSpec.mat_of]. destruct w as [|d M]; injection H as <-.
    + cbn [ConvProofs2.stands] in *. intros i j Hi Hj. unfold ConvModel.mscale. rewrite <- (E i j Hi Hj). unfold ConvModel.mzero. ring.
    + destruct E as [-> E]. split; [reflexivity|]. now apply mscale_eq.
  - (* sums *)
    apply g_plus in Hg. destruct l as [|x l]; [discriminate|]. step H w E. apply IH in E; [|exact Hn|exact (Forall_inv Hg)]. apply Forall_inv_tail in Hg.
    assert (forall l w F v, Forall good l -> foldM (fun s o => do v <- conv r dim expand n o h; s_plus r s v) w l = Ok v -> stands (size h) w F ->
      stands (size h) v (madd F (fold_right (fun x M => madd (mat_of h x) M) mzero l))) as G.
    { clear - IH Hn. induction l as [|y l IHl]; intros w F v Hl H HF.
      - cbn [foldM] in H. injection H as <-. cbn [fold_right]. eapply stands_eq; [exact HF|]. intros i j _ _. unfold ConvModel.madd, ConvModel.mzero. ring.
      - cbn [foldM] in H. step H w2 E. step E u Eu. apply IH in Eu; [|exact Hn|exact (Forall_inv Hl)]. pose proof (plus_stands r _ _ _ _ _ _ HF Eu E) as Hw.
        eapply stands_eq; [exact (IHl _ _ _ (Forall_inv_tail Hl) H Hw)|]. cbn [fold_right]. intros i j _ _. unfold ConvModel.madd. ring. }
    exact (G l w _ v Hg H E).
  - (* products *)
    destruct (existsb (fun o => 1 <? length (space o)) l) eqn:Ex.
    + step H se E. destruct (oeqb se (OTimes l)); [discriminate|]. destruct (g_expand l se Hg Ex E) as [G1 G2]. apply IH in H; [|exact Hn|exact G1].
      eapply stands_eq; [exact H|]. now apply G2.
    + apply g_times in Hg; [|exact Ex]. step H bs E. destruct (Nat.eqb_spec (sum (map fst bs)) (length l)) as [Ec|]; [|discriminate]. cbn [negb] in H.
      eapply (times_stands (conv r dim expand n)); [|exact Hn|exact E|exact Ec|exact H]. intros o s w Ho Es Hw. apply IH in Hw; [exact Hw| |].
      * repeat constructor. now intros [].
      * rewrite Forall_forall in Hg. now apply Hg.
  - step H w E. apply IH in E; [|exact Hn|now apply g_adj in Hg]. destruct w as [|d M]; [discriminate|]. injection H as <-. destruct E as [-> E]. split; [reflexivity|]. cbn [ConvSpec.mat_of]. now apply mherm_eq.
Qed.
End Conv.
