(** Soundness of the SeriesProduct and Concatenation rules, and of the two [create] methods. *)
From Coq Require Import Relations.
From Verif Require Import Prelude ListFacts PermModel PermSpec PermProofs1 PermProofs3 PermProofs4 CircModel CircSpec CircProofs1 CircProofs2 BinModel BinSpec BinProofs CSimpModel CSimpSpec CSimpProofs1 CSimpProofs2 CSimpProofs3 CSimpProofs4.

Lemma mapM_F2 {A B} (f : A -> res B) l r : mapM f l = Ok r -> Forall2 (fun x y => f x = Ok y) l r.
Proof.
  revert r. induction l as [|x l IH]; intros r H; cbn [mapM] in H.
  - injection H as <-. constructor.
  - destruct (f x) as [y|] eqn:E; [|discriminate]. cbn [bind] in H. destruct (mapM f l) as [ys|]; [|discriminate]. cbn [bind] in H.
    injection H as <-. constructor; [exact E|now apply IH].
Qed.
Lemma F2_map_r {A B C} (P : B -> C -> Prop) (g : A -> C) l r : Forall2 (fun q y => P y (g q)) l r -> Forall2 P r (map g l).
Proof. induction 1; cbn [map]; constructor; assumption. Qed.
Lemma F2_impl_in {A B} (P Q : A -> B -> Prop) l r : (forall x y, In x l -> P x y -> Q x y) -> Forall2 P l r -> Forall2 Q l r.
Proof.
  intros H F. induction F as [|x y l r Hxy F IH]; constructor; [apply H; [now left|exact Hxy]|].
  apply IH. intros x' y' Hx. apply H. now right.
Qed.
Lemma F2_nth {A B} (P : A -> B -> Prop) l r i dx dy : Forall2 P l r -> i < length l -> P (nth i l dx) (nth i r dy).
Proof.
  intros F. revert i. induction F as [|x y l r H F IH]; intros [|i] Hi; cbn [length nth] in *; try lia; [exact H|]. apply IH. lia.
Qed.
Lemma lift_ok {X} (r : res (circ X)) x : lift r = Replaces (Some x) -> r = Ok x.
Proof. destruct r as [y|[]]; cbn; intros H; try discriminate. injection H as <-. reflexivity. Qed.
Lemma split_last_app {A} (a b : list A) x : BinModel.split_last a = Some (b, x) -> a = b ++ [x].
Proof. apply BinProofs.split_last_inv. Qed.

(** what the operations of SLH literals must satisfy *)
Record lits_sound {X} (M : cmodel) (lit : lits X) (lden : X -> dom M) : Prop := {
  l_eq : forall s s', x_eq lit s s' = true -> s = s';
  l_ser : forall n s t r, 0 < n -> mok M n (lden s) -> mok M n (lden t) -> x_ser lit s t = Ok r ->
    x_dim lit r = n /\ lden r = mser M n (lden s) (lden t);
  l_cat : forall n m s t r, 0 < n -> 0 < m -> mok M n (lden s) -> mok M m (lden t) -> x_cat lit s t = Ok r ->
    x_dim lit r = n + m /\ lden r = mcat M n m (lden s) (lden t);
  l_inv : forall n s r, 0 < n -> mok M n (lden s) -> x_inv lit s = Ok r -> x_dim lit r = n /\ lden r = minv M n (lden s);
  l_fb : forall n s r o i b, 0 < n -> mok M (S n) (lden s) -> o <= n -> i <= n -> loop M n (lden s) o i b ->
    x_fb lit s o i = Ok r -> x_dim lit r = n /\ lden r = b
}.

Ltac step H x E := match type of H with bind ?r _ = _ => destruct r as [x|] eqn:E; [cbn [bind] in H|discriminate H] end.

Section Sem.
  Context (M : cmodel) {X : Type} (lit : lits X) (sym : nat -> nat -> dom M) (lden : X -> dom M).
  Local Notation ok := (mok M). Local Notation ser := (mser M). Local Notation cat := (mcat M).
  Local Notation inv := (minv M). Local Notation prm := (mprm M). Local Notation fb := (mfb M).
  Local Notation idn := (idn M). Local Notation cat3 := (cat3 M).
  Local Notation mports := (mports M). Local Notation loop := (loop M).
  Local Notation mean := (mean M sym lden). Local Notation smean := (smean M sym lden). Local Notation cmean := (cmean M sym lden).
  Local Notation circ := (circ X).
  Implicit Types (a b d : dom M) (n m : nat) (c : circ).
  Context (HL : lits_sound M lit lden).
  Context (K : creators X) (HK : sound M sym lden K).

  Lemma tensor_decompose_ok c1 c2 n a b r : 0 < n -> mean c1 n a -> mean c2 n b ->
    tensor_decompose_series K c1 c2 = Ok r -> mean r n (ser n a b).
  Proof.
    intros Hn H1 H2 H.
    assert ((do lhs_structure <- block_structure c1; do rhs_structure <- block_structure c2;
             do res_struct <- get_common_block_structure lhs_structure rhs_structure;
             if 1 <? length res_struct then
               do blocks <- get_blocks K c1 res_struct; do oblocks <- get_blocks K c2 res_struct;
               do parallel_series <- mapM (fun lr => k_series K [fst lr; snd lr]) (combine blocks oblocks);
               k_concat K parallel_series
             else Err CannotSimplify) = Ok r) as H' by (destruct c2; try exact H; discriminate H).
    clear H. rename H' into H.
    destruct (block_structure_ok M sym lden _ _ _ H1 Hn) as (l1 & E1 & S1 & P1).
    destruct (block_structure_ok M sym lden _ _ _ H2 Hn) as (l2 & E2 & S2 & P2).
    rewrite E1, E2 in H. cbn [bind] in H.
    destruct (common_block_main l1 l2 P1 P2 ltac:(congruence)) as (rs & E3 & P3 & R1 & _).
    rewrite E3 in H. cbn [bind] in H. assert (sum rs = n) as S3.
    { destruct R1 as (g & G1 & G2). rewrite <- G2, <- S1, <- G1. clear. induction g as [|x g IH]; [reflexivity|].
      cbn [map concat]. rewrite sum_app, sum_cons. lia. }
    destruct (1 <? length rs); [|discriminate].
    step H bl Ebl. step H obl Eobl. step H ps Eps.
    destruct (get_blocks_ok M sym lden K HK c1 rs n a bl H1 Hn S3 Ebl) as [B1 D1].
    destruct (get_blocks_ok M sym lden K HK c2 rs n b obl H2 Hn S3 Eobl) as [B2 D2].
    apply cmean_catl in B1, B2. destruct B1 as (xs & L1 & F1 & X1 & C1 & N1), B2 as (ys & L2 & F2 & X2 & C2 & N2).
    assert (map fst xs = map fst ys) as Efst by congruence.
    destruct (catl_ser M xs ys Efst) as [Q1 Q2]; [eapply f2_ok; exact X1|eapply f2_ok; exact X2|].
    rewrite C1, C2, N1 in Q2. apply mapM_F2 in Eps.
    eapply (s_concat _ _ _ K HK); [|exact H].
    rewrite <- N1 at 1. rewrite <- Q1, <- Q2. apply catl_cmean.
    clear - HK X1 X2 Efst Eps. revert ys obl ps X2 Efst Eps.
    induction X1 as [|c [k x] bl xs Hc X1 IH]; intros ys obl ps X2 Efst Eps; inversion X2 as [|c' [k' y] obl' ys' Hc' X2']; subst; try discriminate.
    - inversion Eps; subst. constructor.
    - cbn [combine] in Eps. inversion Eps as [|p0 r0 ps0 rs0 E0 Eps']; subst. cbn [combine map].
      injection Efst as Ek Efst. cbn [fst snd] in *. subst k'. constructor.
      + cbn [serp fst snd]. eapply k_series2; try eassumption.
      + eapply IH; eassumption.
  Qed.

  Lemma map_length_ws p bs : is_perm p -> sum bs = length p ->
    map (@length nat) (map (fun k => rank (block_image p bs k)) (seq 0 (length bs))) = bs.
  Proof.
    intros Hp Hs. rewrite map_map. apply list_eq_nth with (d := 0); [now rewrite map_length, seq_length|].
    rewrite map_length, seq_length. intros k Hk. rewrite (nth_map_lt _ _ _ 0 0) by (rewrite seq_length; exact Hk).
    rewrite seq_nth by exact Hk. cbn [Nat.add]. rewrite rank_length. unfold block_image. apply slice_length.
    rewrite <- Hs. apply block_start_end. exact Hk.
  Qed.

  Lemma factorize_ok p c n b x y z : is_perm p -> length p = n -> 0 < n -> mean c n b ->
    factorize_for_rhs K p c = Ok (x, y, z) ->
    exists ax ay az, mean x n ax /\ mean y n ay /\ mean z n az /\ ser n ax (ser n ay az) = ser n (prm p) b.
  Proof.
    intros Hp Hl Hn Hc H. unfold factorize_for_rhs in H.
    destruct (block_structure_ok M sym lden _ _ _ Hc Hn) as (bs & Ebs & Sbs & Pbs). rewrite Ebs in H. cbn [bind] in H.
    assert (bs <> []) as Hbs by (intros ->; cbn in Sbs; lia).
    rewrite (block_perm_within_ok p bs Hp ltac:(congruence) Hbs Pbs) in H. cbn [bind] in H.
    set (bp := rank (map (block_min p bs) (seq 0 (length bs)))) in *.
    pose proof (map_length_ws p bs Hp ltac:(congruence)) as Lws.
    set (ws := map (fun k => rank (block_image p bs k)) (seq 0 (length bs))) in *.
    assert (is_perm bp) as Pbp by apply rank_perm.
    assert (length bp = length bs) as Lbp by (unfold bp; rewrite rank_length, map_length; apply seq_length).
    assert (Forall is_perm ws) as Pws.
    { apply Forall_forall. intros w Hw. apply in_map_iff in Hw. destruct Hw as (k & <- & _). apply rank_perm. }
    rewrite full_block_perm_ok in H by assumption. cbn [bind] in H.
    pose proof (fbp_is_perm bp bs Pbp Lbp) as Pf. pose proof (fbp_length bp bs Pbp Lbp) as Lf.
    destruct (negb _); [discriminate|].
    rewrite cperm_create_ok in H by exact Pf. cbn [bind] in H. rewrite mapM_create in H by exact Pws. cbn [bind] in H.
    step H wpc Ew. step H rb Erb. rewrite invert_ok in H by exact Pbp. cbn [bind] in H.
    step H sm Esm. step H pr Epr. step H wi Ewi. step H t Et. step H ri Eri. step H nl Enl. injection H as <- <- <-.
    destruct (get_blocks_ok M sym lden K HK c bs n b rb Hc Hn Sbs Erb) as [B1 D1].
    pose proof (cmean_pcs M sym lden ws Pws) as Cws. rewrite Lws, Sbs in Cws.
    set (W := prm (permutation_from_block_permutations ws)) in *.
    pose proof (s_concat _ _ _ K HK _ _ _ _ Cws Ew) as Mw.
    pose proof (cmean_cdim _ _ _ _ _ _ Cws) as _.
    destruct (cmean_catl M sym lden _ _ _ Cws) as (wx & L1 & F1 & X1 & C1 & N1).
    destruct (cmean_catl M sym lden _ _ _ B1) as (xs & L2 & F2 & X2 & C2 & N2).
    rewrite map_cdim_pcs, Lws in F1. rewrite D1 in F2.
    destruct (catl_ser M wx xs ltac:(congruence)) as [Q1 Q2]; [eapply f2_ok; exact X1|eapply f2_ok; exact X2|].
    set (zs := map (fun q => serp M (fst q) (snd q)) (combine wx xs)) in *. rewrite C1, C2, N1 in Q2.
    assert (length wx = length bs) as Lw1 by (rewrite <- F1; now rewrite map_length).
    assert (length xs = length bs) as Lx1 by (rewrite <- F2; now rewrite map_length).
    assert (length zs = length bs) as Lz by (unfold zs; rewrite map_length, combine_length; lia).
    assert (map fst zs = bs) as Fz by congruence.
    assert (Forall (fun q => ok (fst q) (snd q)) zs) as Oz.
    { apply Forall_forall. intros q Hq. apply In_nth with (d := (0, prm [])) in Hq. destruct Hq as (k & Hk & <-).
      unfold zs. rewrite (nth_map_lt _ _ _ _ ((0, prm []), (0, prm []))) by (rewrite combine_length; lia).
      rewrite combine_nth by lia. cbn [fst snd serp].
      pose proof (F2_nth _ _ _ k CZero (0, prm []) X1) as G1. pose proof (F2_nth _ _ _ k CZero (0, prm []) X2) as G2.
      rewrite <- L1 in G1. rewrite <- L2 in G2. specialize (G1 ltac:(lia)). specialize (G2 ltac:(lia)).
      apply ok_ser; [eapply mean_ok; exact G1|]. apply mean_ok in G2.
      replace (fst (nth k wx (0, prm []))) with (fst (nth k xs (0, prm []))); [exact G2|].
      rewrite <- !(map_nth fst). now rewrite F1, F2. }
    assert (Forall2 (fun o q => mean o (fst q) (snd q)) sm (move_blocks (0, prm []) bp zs)) as Fsm.
    { assert (move_blocks (0, prm []) bp zs = map (fun q => nth q zs (0, prm [])) (inv_of bp)) as ->.
      { unfold move_blocks. rewrite Lz, <- Lbp, <- (inv_of_length bp).
        pose proof (map_nth_self (inv_of bp) (length (inv_of bp)) eq_refl) as Emn.
        transitivity (map (fun q => nth q zs (0, prm [])) (map (fun k => nth k (inv_of bp) 0) (seq 0 (length (inv_of bp)))));
          [now rewrite map_map|now rewrite Emn]. }
      apply F2_map_r. apply mapM_F2 in Esm. eapply F2_impl_in; [|exact Esm]. cbn beta. intros q o Hq Ho.
      apply (is_perm_In (inv_of bp)) in Hq; [|now apply inv_of_perm]. rewrite inv_of_length in Hq.
      rewrite (nth_error_nth_lt (map pc ws) q CZero) in Ho by (rewrite <- L1; lia). cbn [of_option bind] in Ho.
      rewrite (nth_error_nth_lt rb q CZero) in Ho by (rewrite <- L2; lia). cbn [of_option bind] in Ho.
      unfold zs. rewrite (nth_map_lt _ _ _ _ ((0, prm []), (0, prm []))) by (rewrite combine_length; lia).
      rewrite combine_nth by lia. cbn [fst snd serp].
      pose proof (F2_nth _ _ _ q CZero (0, prm []) X1) as G1. pose proof (F2_nth _ _ _ q CZero (0, prm []) X2) as G2.
      rewrite <- L1 in G1. rewrite <- L2 in G2. specialize (G1 ltac:(lia)). specialize (G2 ltac:(lia)).
      cbn beta in G1, G2.
      replace (fst (nth q xs (0, prm []))) with (fst (nth q wx (0, prm []))) in G2 by (rewrite <- !(map_nth fst); now rewrite F1, F2).
      eapply k_series2; eassumption. }
    assert (sum (map fst (move_blocks (0, prm []) bp zs)) = n) as Sm.
    { assert (map fst (move_blocks (0, prm []) bp zs) = moved bp bs) as ->.
      { unfold move_blocks, moved. rewrite map_map, Lz. apply map_ext. intros j. rewrite <- (map_nth fst). now rewrite Fz. }
      rewrite (sum_perm _ _ (moved_perm bp bs Pbp Lbp)). exact Sbs. }
    apply catl_cmean in Fsm. rewrite Sm in Fsm. pose proof (s_concat _ _ _ K HK _ _ _ _ Fsm Epr) as My.
    set (Y := catl_of cat (prm []) (move_blocks (0, prm []) bp zs)) in *.
    pose proof (nat_block M zs bp Oz Pbp ltac:(congruence)) as NB. rewrite Fz, Sbs, Q2 in NB. fold Y in NB.
    pose proof (mean_pc M sym lden (fbp bp bs) n Pf ltac:(congruence)) as Mf.
    set (F := prm (fbp bp bs)) in *.
    pose proof (s_minv _ _ _ K HK _ _ _ _ Mw Hn Ewi) as Mwi.
    pose proof (s_minv _ _ _ K HK _ _ _ _ Mf Hn Eri) as Mri.
    pose proof (mean_perm' M sym lden p n Hp Hl Hn) as Mp.
    pose proof (k_series2 M sym lden K HK _ _ _ _ _ _ Mp Mwi Et) as Mt.
    pose proof (k_series2 M sym lden K HK _ _ _ _ _ _ Mt Mri Enl) as Mnl.
    exists (ser n (ser n (prm p) (inv n W)) (inv n F)), Y, F.
    split; [exact Mnl|]. split; [exact My|]. split; [exact Mf|]. rewrite <- NB.
    assert (ok n F) as OF by (eapply mean_ok; exact Mf). assert (ok n W) as OW by (eapply mean_ok; exact Mw).
    assert (ok n b) as Ob by (eapply mean_ok; exact Hc). assert (ok n (prm p)) as Op by (eapply mean_ok; exact Mp).
    rewrite !(ser_assoc M n) by oks. f_equal. rewrite <- (ser_assoc M n (inv n F) F) by oks.
    rewrite inv_l by exact OF. rewrite ser_id_l by oks. rewrite <- (ser_assoc M n (inv n W) W) by oks.
    rewrite inv_l by exact OW. now apply ser_id_l.
  Qed.

  Lemma factor_perm_ok p c n b r : is_perm p -> length p = n -> 0 < n -> mean c n b ->
    factor_permutation_for_blocks lit K p c = Ok r -> mean r n (ser n (prm p) b).
  Proof.
    intros Hp Hl Hn Hc H. unfold factor_permutation_for_blocks in H. step H rbs E.
    destruct (is_cid lit (cdim c) c) eqn:Ec.
    - injection H as <-. apply is_cid_eq in Ec. rewrite (mean_cdim _ _ _ _ _ _ Hc) in Ec. rewrite Ec in Hc.
      apply mean_cid_inv in Hc. destruct Hc as [_ ->]. rewrite idn_r by (now apply ok_prm'). now apply mean_perm'.
    - destruct (1 <? length rbs); [|discriminate]. destruct (factorize_for_rhs K p c) as [[[x y] z]|] eqn:Ef; [|discriminate].
      cbn [bind] in H. destruct (ceqb lit x (CPerm p)); [discriminate|].
      apply (factorize_ok p c n b) in Ef; try assumption. destruct Ef as (ax & ay & az & M1 & M2 & M3 & <-).
      eapply (s_series _ _ _ K HK); [| |exact H]; [discriminate|]. constructor; [exact M1|]. now apply smean_2.
  Qed.

  (** every SeriesProduct rule *)
  Lemma series_rules_sound n a b c1 c2 r : 0 < n -> mean c1 n a -> mean c2 n b ->
    rewrites_to (series_cls lit K) c1 c2 r -> mean r n (ser n a b).
  Proof.
    intros Hn H1 H2 (before & rule & after & E & _ & H).
    assert (In rule (series_rules lit K)) as Hin by (cbn [series_cls binary_rules] in E; rewrite E; apply in_or_app; right; now left).
    clear before after E. cbn [series_rules In] in Hin.
    destruct Hin as [<-|[<-|[<-|[<-|[<-|[<-|[]]]]]]].
    - destruct c1 as [| |p| | | | | |], c2 as [| |q| | | | | |]; try discriminate. apply lift_ok in H.
      inversion H1; inversion H2; subst. rewrite series_with_perm_ok in H by (try assumption; congruence). injection H as <-.
      rewrite prm_ser by (try assumption; congruence).
      apply mean_pc; [apply comp_perm; try assumption; congruence|]. rewrite comp_length. congruence.
    - destruct c1 as [|s n1| | | | | | |], c2 as [|t n2| | | | | | |]; try discriminate. apply lift_ok in H.
      inversion H1 as [|? ? ? G1| | | | | | |]; inversion H2 as [|? ? ? G2| | | | | | |]; subst. step H x Ex. injection H as <-.
      apply (l_ser M lit lden HL n) in Ex; try assumption. destruct Ex as [D E]. unfold slh_of. rewrite D, <- E.
      apply mean_slh; [exact Hn|]. rewrite E. now apply ok_ser.
    - apply lift_ok in H. now apply (tensor_decompose_ok c1 c2).
    - destruct c1 as [| |p| | | | | |]; try discriminate. apply lift_ok in H. inversion H1; subst. now apply (factor_perm_ok p c2).
    - destruct c2 as [| | | | | | | |e]; try discriminate. destruct (ceqb lit c1 e) eqn:Eq; [|discriminate]. apply lift_ok in H.
      injection H as <-. inversion H2 as [| | | | | | | |? ? x Hm _ Hnf]; subst. apply (ceqb_eq lit (l_eq M lit lden HL)) in Eq; [|exact Hnf].
      subst e. destruct (mean_fun _ _ _ _ _ _ H1 _ _ Hm) as [_ <-]. rewrite inv_r by (eapply mean_ok; exact H1).
      rewrite (mean_cdim _ _ _ _ _ _ H1). apply mean_cid.
    - destruct c1 as [| | | | | | | |e]; try discriminate. destruct (ceqb lit e c2) eqn:Eq; [|discriminate]. apply lift_ok in H.
      injection H as <-. inversion H1 as [| | | | | | | |? ? x Hm _ Hnf]; subst.
      assert (e = c2) as ->.
      { (* the pattern compares [e] with [c2]; [e] has no feedback *)
        clear - Eq Hnf HL. revert c2 Eq. induction e using circ_ind'; intros c2 Eq; destruct c2; try discriminate; cbn [ceqb] in Eq; try reflexivity.
        - apply andb_prop in Eq as [E1 E2]. apply Nat.eqb_eq in E1, E2. now subst.
        - apply andb_prop in Eq as [E1 E2]. apply Nat.eqb_eq in E2. apply (l_eq M lit lden HL) in E1. now subst.
        - apply eqb_list_nat_spec in Eq. now subst.
        - f_equal. cbn [no_feedback] in Hnf. revert operands Eq Hnf.
          induction H as [|x l Hx Hl IH]; intros [|y m] He Hn; try discriminate; [reflexivity|].
          apply andb_prop in He as [E1 E2]. destruct Hn as [N1 N2]. f_equal; [now apply Hx|now apply IH].
        - f_equal. cbn [no_feedback] in Hnf. revert operands Eq Hnf.
          induction H as [|x l Hx Hl IH]; intros [|y m] He Hn; try discriminate; [reflexivity|].
          apply andb_prop in He as [E1 E2]. destruct Hn as [N1 N2]. f_equal; [now apply Hx|now apply IH].
        - destruct Hnf.
        - f_equal. now apply IHe. }
      destruct (mean_fun _ _ _ _ _ _ H2 _ _ Hm) as [_ <-]. rewrite inv_l by (eapply mean_ok; exact H2).
      rewrite (mean_cdim _ _ _ _ _ _ H2). apply mean_cid.
  Qed.

  (** rewriting a list of factors *)
  Lemma series_reach l l' : reachable (series_cls lit K) l l' -> forall n a, 0 < n -> smean l n a -> (l = [] -> n = 1) ->
    smean l' n a /\ (l' = [] -> n = 1).
  Proof.
    induction 1 as [l l' H|l|l l1 l2 H1 IH1 H2 IH2]; intros n a Hn Hs He; [|now split|].
    - destruct H as (pre & x & y & post & r & -> & Hr & ->).
      apply smean_app_inv in Hs. destruct Hs as (p & q & Hp & Hq & ->).
      change (x :: y :: post) with ([x; y] ++ post) in Hq. apply smean_app_inv in Hq. destruct Hq as (u & v & Hu & Hv & ->).
      apply smean_2_inv in Hu. destruct Hu as (ax & ay & Hx & Hy & ->).
      pose proof (series_rules_sound n ax ay x y r Hn Hx Hy Hr) as Hm.
      assert (smean (contributes (series_cls lit K) r) n (ser n ax ay) /\ (contributes (series_cls lit K) r = [] -> n = 1)) as [C1 C2].
      { unfold contributes. cbn [series_cls is_neutral instance_args]. destruct (ceqb lit r CId) eqn:Er.
        - assert (r = CId) as -> by (destruct r; try discriminate; reflexivity). inversion Hm as [| | |E1| | | | |]; subst.
          split; [|reflexivity]. apply smean_nil.
        - destruct r; try (split; [now apply smean_1|discriminate]).
          inversion Hm; subst. split; [assumption|]. intros E. contradiction. }
      split.
      + apply smean_app; [exact Hp|]. apply smean_app; assumption.
      + intros E. apply app_eq_nil in E. destruct E as [_ E]. apply app_eq_nil in E. now apply C2.
    - destruct (IH1 n a Hn Hs He) as [A1 A2]. now apply IH2.
  Qed.
  Lemma smean_zero l a : smean l 0 a -> Forall (fun o => o = CZero) l.
  Proof.
    intros H. remember 0 as n eqn:En in H. induction H as [|c l n x y Hc Hl IH]; constructor; [|now apply IH].
    subst n. now apply mean_zero_inv in Hc.
  Qed.
  Lemma flat_series_ok l : forall n a, smean l n a -> smean (flat_series l) n a.
  Proof.
    induction l as [|c l IH]; intros n a H; [exact H|]. inversion H as [|? ? ? x y Hc Hl]; subst. unfold flat_series in *. cbn [flat_map].
    apply smean_app; [|now apply IH]. destruct c; try (now apply smean_1). inversion Hc; subst. assumption.
  Qed.
  Lemma flat_series_ne l n a : smean l n a -> l <> [] -> flat_series l <> [].
  Proof.
    destruct l as [|c l]; [easy|]. intros H _. inversion H as [|? ? ? x y Hc Hl]; subst. unfold flat_series. cbn [flat_map].
    destruct c; try discriminate. inversion Hc; subst. destruct operands; [easy|discriminate].
  Qed.
  Lemma filter_cid_ok l : forall n a, smean l n a -> smean (filter (fun op => negb (is_cid lit (cdim op) op)) l) n a.
  Proof.
    induction l as [|c l IH]; intros n a H; [exact H|]. inversion H as [|? ? ? x y Hc Hl]; subst. cbn [filter].
    destruct (is_cid lit (cdim c) c) eqn:Ec; cbn [negb].
    - apply is_cid_eq in Ec. rewrite (mean_cdim _ _ _ _ _ _ Hc) in Ec. rewrite Ec in Hc. apply mean_cid_inv in Hc.
      destruct Hc as [_ ->]. rewrite idn_l by (eapply smean_ok; exact Hl). now apply IH.
    - constructor; [exact Hc|now apply IH].
  Qed.
  Lemma create_series_ok fuel l n a r : l <> [] -> smean l n a -> create_series lit K fuel l = Ok r -> mean r n a.
  Proof.
    intros Hne H Hr. unfold create_series in Hr. pose proof (flat_series_ne l n a H Hne) as Hf. apply flat_series_ok in H.
    pose proof (filter_cid_ok _ _ _ H) as Hfl.
    destruct (flat_series l) as [|o0 os] eqn:Ef; [easy|]. clear Hf.
    destruct (filter (fun op => negb (is_cid lit (cdim op) op)) (o0 :: os)) as [|x [|y fops]] eqn:Efl.
    - injection Hr as <-. assert (is_cid lit (cdim o0) o0 = true) as Ec.
      { cbn [filter] in Efl. destruct (is_cid lit (cdim o0) o0); [reflexivity|discriminate]. }
      inversion H as [|? ? ? x y Hc Hl]; subst. apply is_cid_eq in Ec. rewrite (mean_cdim _ _ _ _ _ _ Hc) in Ec. rewrite Ec.
      inversion Hfl. apply mean_cid.
    - injection Hr as <-. now apply smean_1_inv.
    - rewrite <- Efl in Hr, Hfl. destruct (same_cdims _); [|discriminate].
      assert (0 < n) as Hn.
      { destruct n as [|n]; [|lia]. exfalso. apply smean_zero in H.
        assert (In x (filter (fun op => negb (is_cid lit (cdim op) op)) (o0 :: os))) as Hx by (rewrite Efl; now left).
        apply filter_In in Hx. destruct Hx as [Hx1 Hx2]. rewrite Forall_forall in H. apply H in Hx1. subst x. discriminate. }
      unfold match_replace_binary in Hr. step Hr mr Emr. step Emr fo Efo. apply reduce_reach in Efo.
      destruct (series_reach _ _ Efo n a Hn Hfl) as [R1 R2]; [rewrite Efl; discriminate|].
      destruct fo as [|u [|v w]]; injection Emr as <-; injection Hr as <-.
      + specialize (R2 eq_refl). subst n. inversion R1. constructor.
      + now apply smean_1_inv.
      + constructor; [discriminate|exact Hn|exact R1].
  Qed.

  (** *** concatenation *)
  Lemma series_tail_inv c A p : series_perm_tail c = Some (A, p) -> c = CSeries (A ++ [CPerm p]) /\ A <> [].
  Proof.
    unfold series_perm_tail. destruct c; try discriminate. destruct (split_last operands) as [[[|o A'] z]|] eqn:E; try discriminate.
    destruct z; try discriminate. intros H. injection H as <- <-. apply split_last_app in E. rewrite E. now split.
  Qed.
  Lemma tail_mean A p n a : mean (CSeries (A ++ [CPerm p])) n a ->
    exists x, smean A n x /\ mean (CPerm p) n (prm p) /\ a = ser n x (prm p) /\ is_perm p /\ length p = n.
  Proof.
    intros H. inversion H; subst. match goal with Hs : smean _ _ _ |- _ => apply smean_app_inv in Hs; destruct Hs as (x & y & G1 & G2 & ->) end.
    apply smean_1_inv in G2. exists x. inversion G2; subst. now repeat split.
  Qed.
  Lemma concat_rules_sound n m a b c1 c2 r : 0 < n -> 0 < m -> mean c1 n a -> mean c2 m b ->
    rewrites_to (concat_cls lit K) c1 c2 r -> mean r (n + m) (cat n m a b).
  Proof.
    intros Hn Hm H1 H2 (before & rule & after & E & _ & H).
    assert (In rule (concat_rules lit K)) as Hin by (cbn [concat_cls binary_rules] in E; rewrite E; apply in_or_app; right; now left).
    clear before after E. cbn [concat_rules In] in Hin.
    assert (forall p q, is_perm p -> is_perm q -> length p = n -> length q = m -> a = prm p -> b = prm q ->
      cperm_create (concatenate_permutations p q) = Ok r -> mean r (n + m) (cat n m a b)) as Hpq.
    { intros p q Hp Hq Lp Lq -> -> Hc. rewrite cperm_create_ok in Hc by (now apply conc_perm). injection Hc as <-.
      rewrite (cat_prm' M n m) by assumption. apply mean_pc; [now apply conc_perm|]. rewrite conc_length. congruence. }
    pose proof (is_perm_seq 1) as P1.
    destruct Hin as [<-|[<-|[<-|[<-|[<-|[<-|[<-|[]]]]]]]].
    - destruct c1 as [|s n1| | | | | | |], c2 as [|t n2| | | | | | |]; try discriminate. apply lift_ok in H.
      inversion H1 as [|? ? ? G1| | | | | | |]; inversion H2 as [|? ? ? G2| | | | | | |]; subst. step H x Ex. injection H as <-.
      apply (l_cat M lit lden HL n m) in Ex; try assumption. destruct Ex as [D E]. unfold slh_of. rewrite D, <- E.
      apply mean_slh; [lia|]. rewrite E. now apply ok_cat.
    - destruct c1 as [| |p| | | | | |], c2 as [| |q| | | | | |]; try discriminate. apply lift_ok in H.
      inversion H1; inversion H2; subst. now apply (Hpq p q).
    - destruct c1 as [| |p| | | | | |], c2; try discriminate. apply lift_ok in H. inversion H1; inversion H2; subst. now apply (Hpq p [0]).
    - destruct c1, c2 as [| |q| | | | | |]; try discriminate. apply lift_ok in H. inversion H1; inversion H2; subst. now apply (Hpq [0] q).
    - destruct (series_perm_tail c1) as [[A p]|] eqn:E1; [|discriminate]. destruct (series_perm_tail c2) as [[C q]|] eqn:E2; [|discriminate].
      apply lift_ok in H. apply series_tail_inv in E1, E2. destruct E1 as [-> NA], E2 as [-> NC].
      apply tail_mean in H1, H2. destruct H1 as (x & X1 & X2 & -> & X4 & X5), H2 as (y & Y1 & Y2 & -> & Y4 & Y5).
      step H a' Ea. step H c' Ec. step H l El. step H q' Eqq.
      pose proof (s_series _ _ _ K HK _ _ _ _ NA X1 Ea) as Ma. pose proof (s_series _ _ _ K HK _ _ _ _ NC Y1 Ec) as Mc.
      pose proof (k_concat2 M sym lden K HK _ _ _ _ _ _ _ Ma Mc El) as Ml. pose proof (k_concat2 M sym lden K HK _ _ _ _ _ _ _ X2 Y2 Eqq) as Mq.
      rewrite <- interchange by (first [eapply mean_ok; eassumption|eapply smean_ok; eassumption]).
      eapply k_series2; eassumption.
    - destruct (series_perm_tail c1) as [[A p]|] eqn:E1; [|discriminate].
      apply lift_ok in H. apply series_tail_inv in E1. destruct E1 as [-> NA].
      apply tail_mean in H1. destruct H1 as (x & X1 & X2 & -> & X4 & X5).
      step H a' Ea. step H l El. step H q' Eqq. rewrite (mean_cdim _ _ _ _ _ _ H2) in Eqq.
      pose proof (s_series _ _ _ K HK _ _ _ _ NA X1 Ea) as Ma.
      pose proof (k_concat2 M sym lden K HK _ _ _ _ _ _ _ Ma H2 El) as Ml.
      pose proof (k_concat2 M sym lden K HK _ _ _ _ _ _ _ X2 (mean_cid M sym lden m) Eqq) as Mq.
      assert (ok m b) as Ob by (eapply mean_ok; exact H2).
      rewrite <- (idn_r M m b Ob) at 1.
      rewrite <- interchange by (first [apply ok_idn|eapply mean_ok; eassumption|eapply smean_ok; eassumption]).
      eapply k_series2; eassumption.
    - destruct (series_perm_tail c2) as [[C q]|] eqn:E2; [|discriminate].
      apply lift_ok in H. apply series_tail_inv in E2. destruct E2 as [-> NC].
      apply tail_mean in H2. destruct H2 as (y & Y1 & Y2 & -> & Y4 & Y5).
      step H c' Ec. step H l El. step H q' Eqq. rewrite (mean_cdim _ _ _ _ _ _ H1) in Eqq.
      pose proof (s_series _ _ _ K HK _ _ _ _ NC Y1 Ec) as Mc.
      pose proof (k_concat2 M sym lden K HK _ _ _ _ _ _ _ H1 Mc El) as Ml.
      pose proof (k_concat2 M sym lden K HK _ _ _ _ _ _ _ (mean_cid M sym lden n) Y2 Eqq) as Mq.
      assert (ok n a) as Oa by (eapply mean_ok; exact H1).
      rewrite <- (idn_r M n a Oa) at 1.
      rewrite <- interchange by (first [apply ok_idn|eapply mean_ok; eassumption|eapply smean_ok; eassumption]).
      eapply k_series2; eassumption.
  Qed.
  Lemma concat_reach l l' : reachable (concat_cls lit K) l l' -> forall n a, cmean l n a -> pos_ops l ->
    cmean l' n a /\ pos_ops l'.
  Proof.
    induction 1 as [l l' H|l|l l1 l2 H1 IH1 H2 IH2]; intros n a Hs Hp; [|now split|].
    - destruct H as (pre & x & y & post & r & -> & Hr & ->).
      apply cmean_app_inv in Hs. destruct Hs as (k1 & k2 & p & q & -> & Hpre & Hq & ->).
      change (x :: y :: post) with ([x; y] ++ post) in Hq. apply cmean_app_inv in Hq. destruct Hq as (k3 & k4 & u & v & -> & Hu & Hv & ->).
      apply cmean_2_inv in Hu. destruct Hu as (j1 & j2 & ax & ay & -> & Hx & Hy & ->).
      apply Forall_app in Hp. destruct Hp as [Pp Pq]. pose proof (Forall_inv Pq) as Px. pose proof (Forall_inv (Forall_inv_tail Pq)) as Py.
      apply Forall_inv_tail, Forall_inv_tail in Pq. cbn beta in Px, Py.
      rewrite (mean_cdim _ _ _ _ _ _ Hx) in Px. rewrite (mean_cdim _ _ _ _ _ _ Hy) in Py.
      pose proof (concat_rules_sound j1 j2 ax ay x y r Px Py Hx Hy Hr) as Hm.
      assert (cmean (contributes (concat_cls lit K) r) (j1 + j2) (cat j1 j2 ax ay) /\ pos_ops (contributes (concat_cls lit K) r)) as [C1 C2].
      { unfold contributes. cbn [concat_cls is_neutral instance_args]. destruct (ceqb lit r CZero) eqn:Er.
        - assert (r = CZero) as -> by (destruct r; try discriminate; reflexivity). apply mean_cdim in Hm. cbn in Hm. lia.
        - assert (forall z, r = z -> cmean [z] (j1 + j2) (cat j1 j2 ax ay) /\ pos_ops [z]) as G.
          { intros z <-. split; [now apply cmean_1|]. constructor; [|constructor]. rewrite (mean_cdim _ _ _ _ _ _ Hm). lia. }
          destruct r; try (now apply G). inversion Hm; subst. now split. }
      split.
      + apply cmean_app; [exact Hpre|]. apply cmean_app; assumption.
      + apply Forall_app. split; [exact Pp|]. apply Forall_app. now split.
    - destruct (IH1 n a Hs Hp) as [A1 A2]. now apply IH2.
  Qed.
  Lemma flat_concat_ok l : forall n a, cmean l n a -> cmean (flat_concat l) n a.
  Proof.
    induction l as [|c l IH]; intros n a H; [exact H|]. inversion H as [|? ? k1 k2 x y Hc Hl]; subst. unfold flat_concat in *. cbn [flat_map].
    apply cmean_app; [|now apply IH]. destruct c; try (now apply cmean_1). inversion Hc; subst. assumption.
  Qed.
  Lemma filter_zero_ok l : forall n a, cmean l n a ->
    cmean (filter (fun op => negb (ceqb lit CZero op)) l) n a /\ pos_ops (filter (fun op => negb (ceqb lit CZero op)) l).
  Proof.
    induction l as [|c l IH]; intros n a H; [split; [exact H|constructor]|]. inversion H as [|? ? k1 k2 x y Hc Hl]; subst. cbn [filter].
    destruct (IH _ _ Hl) as [I1 I2]. destruct (ceqb lit CZero c) eqn:Ec; cbn [negb].
    - assert (c = CZero) as -> by (destruct c; try discriminate; reflexivity). inversion Hc; subst.
      rewrite cat_0_l by (eapply cmean_ok; exact Hl). now split.
    - split; [constructor; assumption|]. constructor; [|exact I2]. rewrite (mean_cdim _ _ _ _ _ _ Hc).
      destruct k1; [|lia]. apply mean_zero_inv in Hc. destruct Hc as [-> _]. discriminate.
  Qed.
  Lemma create_concat_ok fuel l n a r : cmean l n a -> create_concat lit K fuel l = Ok r -> mean r n a.
  Proof.
    intros H Hr. unfold create_concat in Hr. apply flat_concat_ok in H. destruct (filter_zero_ok _ _ _ H) as [F1 F2].
    destruct (flat_concat l) as [|o0 os] eqn:Ef.
    - injection Hr as <-. inversion H; subst. constructor.
    - destruct (filter (fun op => negb (ceqb lit CZero op)) (o0 :: os)) as [|x [|y fops]] eqn:Efl.
      + injection Hr as <-. assert (ceqb lit CZero o0 = true) as Ec.
        { cbn [filter] in Efl. destruct (ceqb lit CZero o0); [reflexivity|discriminate]. }
        assert (o0 = CZero) as -> by (destruct o0; try discriminate; reflexivity). inversion F1; subst. constructor.
      + injection Hr as <-. now apply cmean_1_inv.
      + rewrite <- Efl in Hr, F1, F2. unfold match_replace_binary in Hr. step Hr mr Emr. step Emr fo Efo. apply reduce_reach in Efo.
        destruct (concat_reach _ _ Efo n a F1 F2) as [R1 R2].
        destruct fo as [|u [|v w]]; injection Emr as <-; injection Hr as <-.
        * inversion R1. constructor.
        * now apply cmean_1_inv.
        * constructor; [discriminate|exact R1|exact R2].
  Qed.
End Sem.
