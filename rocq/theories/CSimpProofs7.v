(** Channel counts (C14) and padding. *)
From Verif Require Import Prelude ListFacts PermModel PermSpec PermProofs1 PermProofs4 CircModel CircProofs1 CircProofs2 CSimpModel CSimpSpec CSimpProofs3 CSimpProofs4 CSimpProofs5 CSimpProofs6.
From Verif Require Import AlgSpec CAlg NcRing MatModel SlhModel MatSpec MatProofs SlhProofs1 SlhProofs2 SlhProofs3 SlhProofs4 SlhProofs5 SlhProofs6 SlhProofs7 SlhProofs8 CSimpSlh ToSlhModel ToSlhSpec ToSlhProofs.

Section Dim.
  Context {X : Type} (ldim : X -> option nat).
  Local Notation xdim := (fun s n => ldim s = Some n).
  Local Notation DM := dim_model.
  Definition dsym (l n : nat) : dom DM := Some n.
  Local Notation mean := (mean DM dsym ldim). Local Notation smean := (smean DM dsym ldim). Local Notation cmean := (cmean DM dsym ldim).
  Implicit Types c : circ X.

  Lemma mean_some c n a : mean c n a -> a = Some n.
  Proof. intros H. exact (mean_ok DM dsym ldim _ _ _ H). Qed.

  Lemma wf_mean c : forall n, wf xdim c n -> mean c n (Some n).
  Proof.
    induction c using circ_ind'; intros k Hw; inversion Hw; subst.
    - apply (mean_sym DM dsym ldim l k); [assumption|reflexivity].
    - match goal with HP : 0 < k, HD : ldim s = Some k |- _ => pose proof (mean_slh DM dsym ldim s k HP HD) as G; now rewrite HD in G end.
    - apply (mean_perm DM dsym ldim p); [assumption|now apply is_perm_bij].
    - apply (mean_id DM dsym ldim).
    - apply (mean_zero DM dsym ldim).
    - apply (mean_series DM dsym ldim); [assumption|assumption|].
      match goal with HI : forall o, In o ops -> wf _ o k |- _ => revert HI end. clear - H.
      induction H as [|o ops Ho Hl IH]; intros HI.
      + pose proof (smean_nil DM dsym ldim k) as G. cbn [mprm dim_model] in G. now rewrite seq_length in G.
      + apply (smean_cons DM dsym ldim o ops k (Some k) (Some k)); [apply Ho, HI; now left|apply IH; intros; apply HI; now right].
    - apply (mean_concat DM dsym ldim); [assumption| |].
      + match goal with HI : Forall2 _ ops ns |- _ => revert HI end. clear - H. intros HI.
        induction HI as [|o n ops ns Ho Hl IH]; [apply (cmean_nil DM dsym ldim)|].
        apply (cmean_cons DM dsym ldim o ops n (sum ns) (Some n) (Some (sum ns))); [exact (Forall_inv H _ Ho)|].
        apply IH. exact (Forall_inv_tail H).
      + match goal with HI : Forall2 _ ops ns, HP : forall n, In n ns -> 0 < n |- _ => revert HI HP end. clear - H. intros HI HP.
        induction HI as [|o n ops ns Ho Hl IH]; constructor.
        * pose proof (Forall_inv H _ Ho) as Mo. rewrite (mean_cdim DM dsym ldim _ _ _ Mo). apply HP. now left.
        * apply IH; [exact (Forall_inv_tail H)|]. intros; apply HP; now right.
    - match goal with HC : wf _ c (S k) |- _ => pose proof (IHc _ HC) as Mc end.
      apply (mean_fb DM dsym ldim c k (Some (S k)) o i (Some k) Mc); try assumption. reflexivity.
    - match goal with HC : wf _ c k |- _ => pose proof (IHc _ HC) as Mc end.
      apply (mean_sinv DM dsym ldim c k (Some k) Mc); assumption.
  Qed.
  Lemma mean_wf c : forall n a, mean c n a -> wf xdim c n.
  Proof.
    induction c using circ_ind'; intros k a Hm; inversion Hm; subst; try (constructor; assumption).
    - constructor; [assumption|]. now apply is_perm_bij.
    - constructor; [assumption|assumption|]. match goal with HS : smean ops k a |- _ => revert HS end. clear - H. intros HS.
      revert a HS. induction H as [|o ops Ho Hl IH]; intros a HS x Hx; [destruct Hx|].
      inversion HS; subst. destruct Hx as [<-|Hx]; [eapply Ho; eassumption|eapply IH; eassumption].
    - assert (k = sum (map cdim ops)) as -> by (symmetry; eapply (cmean_cdim DM dsym ldim); eassumption).
      constructor; [assumption| |].
      + match goal with HS : cmean ops _ a |- _ => revert HS end. clear - H. intros HS.
        generalize dependent (sum (map cdim ops)). intros n HS.
        revert n a HS. induction H as [|o ops Ho Hl IH]; intros n a HS; [constructor|]. inversion HS; subst. cbn [map].
        constructor; [|eapply IH; eassumption]. erewrite (mean_cdim DM dsym ldim) by eassumption. eapply Ho; eassumption.
      + intros n Hn. apply in_map_iff in Hn as (o & <- & Ho). 
        match goal with HP : Forall _ ops |- _ => exact (proj1 (Forall_forall _ _) HP o Ho) end.
    - econstructor; try eassumption. eapply IHc; eassumption.
    - econstructor; try eassumption. eapply IHc; eassumption.
  Qed.
End Dim.

Section SlhDim.
  Context (M : calgebra) (inv : A M -> res (K M)) (slh_eq : slh M -> slh M -> bool) (Heq : forall s t, slh_eq s t = true -> s = t).
  Local Notation mat := (matrix (A M)). Local Notation slh := (slh M).
  Implicit Types (s t r : slh).
  Definition sdim (s : slh) : option nat := if nrows (sS s) =? ncols (sS s) then Some (nrows (sS s)) else None.
  Lemma sdim_spec s n : sdim s = Some n <-> slh_has_cdim s n.
  Proof.
    unfold sdim, slh_has_cdim. destruct (Nat.eqb_spec (nrows (sS s)) (ncols (sS s))); split; try congruence.
    - intros [= <-]. now split.
    - intros [H _]. now rewrite H.
    - intros [H H']. congruence.
  Qed.
  Lemma mmul_dims (a b c : mat) : mmul a b = Ok c -> ncols a = nrows b /\ nrows c = nrows a /\ ncols c = ncols b.
  Proof. unfold mmul. destruct (Nat.eqb_spec (ncols a) (nrows b)); [|discriminate]. intros [= <-]. now repeat split. Qed.
  Lemma madd_dims (a b c : mat) : madd a b = Ok c -> nrows c = nrows a /\ ncols c = ncols a.
  Proof. unfold madd. destruct (_ && _); [|discriminate]. intros [= <-]. now split. Qed.
  Lemma mk_slh_S (S L : mat) H r : mk_slh S L H = Ok r -> sS r = S.
  Proof. unfold mk_slh. destruct (negb _); [discriminate|]. destruct (negb _); [discriminate|]. now intros [= <-]. Qed.
  Lemma series_dims s t r n m : slh_has_cdim s n -> slh_has_cdim t m -> series_with_slh s t = Ok r -> n = m /\ slh_has_cdim r n.
  Proof.
    intros [H1 H2] [H3 H4] H. unfold series_with_slh in H. step H x Ex. do 5 (match type of H with bind ?q _ = _ => destruct q eqn:?; [cbn [bind] in H|discriminate H] end).
    apply mk_slh_S in H. apply mmul_dims in Ex as (E1 & E2 & E3). unfold slh_has_cdim. rewrite H. split; [congruence|]. split; congruence.
  Qed.
  Lemma concat_dims s t r n m : slh_has_cdim s n -> slh_has_cdim t m -> concatenate_slh s t = Ok r -> slh_has_cdim r (n + m).
  Proof.
    intros [H1 H2] [H3 H4] H. unfold concatenate_slh in H. step H x Ex. step H y Ey. apply mk_slh_S in H.
    unfold block_matrix, hstackm, vstackm, zerosm in Ex. rewrite !nrows_tab, !ncols_tab, !Nat.eqb_refl in Ex. cbn [bind] in Ex.
    rewrite !nrows_tab, !ncols_tab, !Nat.eqb_refl in Ex. cbn [bind] in Ex. injection Ex as Ex. unfold slh_has_cdim. rewrite H, <- Ex.
    cbn [nrows ncols tab]. split; congruence.
  Qed.
  Lemma sinv_dims s r n : slh_has_cdim s n -> slh_series_inverse s = Ok r -> slh_has_cdim r n.
  Proof.
    intros [H1 H2] H. unfold slh_series_inverse in H. step H x Ex. apply mk_slh_S in H. unfold slh_has_cdim. rewrite H.
    cbn [nrows ncols madj mtranspose element_wise tab]. now split.
  Qed.
  Lemma feedback_last_dims s r n : slh_has_cdim s (S n) -> feedback_last inv s = Ok r -> slh_has_cdim r n.
  Proof.
    intros [H1 H2] H. unfold feedback_last, slh_cdim in H. rewrite H1 in H. replace (S n - 1) with n in H by lia.
    step H w Ew. step H s1 Es. step H nS EnS. 
    do 4 (match type of H with bind ?q _ = _ => destruct q eqn:?; [cbn [bind] in H|discriminate H] end).
    apply mk_slh_S in H. unfold slh_has_cdim. rewrite H. apply madd_dims in EnS as [-> ->]. cbn. lia.
  Qed.
  Lemma prm_dims p : slh_has_cdim (prm p : slh) (length p).
  Proof. now split. Qed.
  Lemma slh_feedback_dims s r n o i : slh_has_cdim s (S n) -> o <= n -> i <= n -> slh_feedback inv s o i = Ok r -> slh_has_cdim r n.
  Proof.
    intros Hs Ho Hi H. unfold slh_feedback in H. replace (slh_cdim s) with (S n) in H by (symmetry; apply Hs).
    replace (S n - 1) with n in H by lia. step H b Eb. step H c Ec.
    assert (slh_has_cdim b (S n)) as Hb.
    { destruct (Nat.eqb_spec o n) as [->|Hon]; cbn [negb] in Eb; [now injection Eb as <-|].
      pose proof (mc1_out (X:=slh) o (S n)) as E. replace (S n - 1) with n in E by lia. rewrite E in Eb by lia. cbn [bind] in Eb.
      rewrite channel_slh_pc in Eb; [|apply m_out_perm; lia|rewrite m_out_length; apply m_out_not_id; lia].
      cbn [bind] in Eb. pose proof (prm_dims (m_out o (S n))) as Hp. rewrite m_out_length in Hp.
      exact (proj2 (series_dims _ _ _ _ _ Hp Hs Eb)). }
    assert (slh_has_cdim c (S n)) as Hc.
    { destruct (Nat.eqb_spec i n) as [->|Hin]; cbn [negb] in Ec; [now injection Ec as <-|].
      pose proof (mc1_in (X:=slh) i (S n)) as E. replace (S n - 1) with n in E by lia. rewrite E in Ec by lia. cbn [bind] in Ec.
      rewrite channel_slh_pc in Ec; [|apply m_in_perm; lia|rewrite m_in_length; apply m_in_not_id; lia].
      cbn [bind] in Ec. pose proof (prm_dims (m_in i (S n))) as Hp. rewrite m_in_length in Hp.
      exact (proj2 (series_dims _ _ _ _ _ Hb Hp Ec)). }
    exact (feedback_last_dims c r n Hc H).
  Qed.

  Lemma slh_lits_dims : lits_sound dim_model (slh_lits M inv slh_eq) sdim.
  Proof.
    constructor; cbn [slh_lits x_dim x_eq x_ser x_cat x_inv x_fb dim_model mok mser mcat minv dom].
    - exact Heq.
    - intros n s t r _ Hs Ht H. apply sdim_spec in Hs, Ht. destruct (series_dims s t r n n Hs Ht H) as [_ Hr].
      split; [apply Hr|now apply sdim_spec].
    - intros n m s t r _ _ Hs Ht H. apply sdim_spec in Hs, Ht. pose proof (concat_dims s t r n m Hs Ht H) as Hr.
      split; [apply Hr|now apply sdim_spec].
    - intros n s r _ Hs H. apply sdim_spec in Hs. pose proof (sinv_dims s r n Hs H) as Hr. split; [apply Hr|now apply sdim_spec].
    - intros n s r o i b _ Hs Ho Hi Hl H. apply sdim_spec in Hs. pose proof (slh_feedback_dims s r n o i Hs Ho Hi H) as Hr.
      split; [apply Hr|]. replace b with (Some n) by (symmetry; exact Hl). now apply sdim_spec.
  Qed.
End SlhDim.

Section Corollaries.
  Context (M : cmodel) {X : Type} (lit : lits X) (sym : nat -> nat -> dom M) (lden : X -> dom M).
  Context (HL : lits_sound M lit lden).
  Local Notation mean := (mean M sym lden).
  Lemma FB_ok fuel c n a o i b r : mean c (S n) a ->
    (match o with Some x => x | None => n end) <= n -> (match i with Some x => x | None => n end) <= n ->
    loop M n a (match o with Some x => x | None => n end) (match i with Some x => x | None => n end) b ->
    FB lit fuel c o i = Ok r -> mean r n b.
  Proof.
    intros Hm Ho Hi Hl H. unfold FB in H. rewrite (mean_cdim _ _ _ _ _ _ Hm) in H. replace (S n - 1) with n in H by lia.
    exact (s_fb _ _ _ _ (simp_sound M lit sym lden HL fuel) c n a _ _ b r Hm Ho Hi Hl H).
  Qed.
  Definition pad_perm (N k n : nat) : list nat := seq 0 k ++ seq N n ++ seq k (N - k).
  Lemma pad_perm_length N k n : k <= N -> length (pad_perm N k n) = N + n.
  Proof. intros. unfold pad_perm. rewrite !app_length, !seq_length. lia. Qed.
  Lemma pad_perm_perm N k n : k <= N -> is_perm (pad_perm N k n).
  Proof.
    intros Hk. unfold is_perm. rewrite pad_perm_length by exact Hk. unfold pad_perm.
    transitivity (seq 0 k ++ seq k (N - k) ++ seq N n).
    - apply Permutation_app_head, Permutation_app_comm.
    - replace (seq 0 (N + n)) with (seq 0 (k + ((N - k) + n))) by (f_equal; lia). rewrite !seq_app. cbn [plus].
      replace (k + (N - k)) with N by lia. reflexivity.
  Qed.
  Lemma pad_perm_nth N k n j : k <= N -> j < N + n ->
    nth j (pad_perm N k n) 0 = if j <? k then j else if j <? k + n then N + (j - k) else j - n.
  Proof.
    intros Hk Hj. unfold pad_perm. destruct (Nat.ltb_spec j k).
    - rewrite app_nth1 by (rewrite seq_length; lia). rewrite seq_nth by lia. reflexivity.
    - rewrite app_nth2 by (rewrite seq_length; lia). rewrite seq_length. destruct (Nat.ltb_spec j (k + n)).
      + rewrite app_nth1 by (rewrite seq_length; lia). now rewrite seq_nth by lia.
      + rewrite app_nth2 by (rewrite seq_length; lia). rewrite seq_length, seq_nth by lia. lia.
  Qed.
  Lemma pad_ok fuel c k n N a r : mean c N a -> k <= N -> pad_with_identity lit fuel c k n = Ok r ->
    mean r (N + n) (mser M (N + n) (mser M (N + n) (mprm M (inv_of (pad_perm N k n))) (mcat M N n a (mprm M (seq 0 n)))) (mprm M (pad_perm N k n))).
  Proof.
    intros Hm Hk H. pose proof (simp_sound M lit sym lden HL fuel) as HK. unfold pad_with_identity in H.
    rewrite (mean_cdim _ _ _ _ _ _ Hm) in H. fold (pad_perm N k n) in H. pose proof (pad_perm_perm N k n Hk) as Hp.
    pose proof (pad_perm_length N k n Hk) as Hl. step H cc Ecc.
    pose proof (k_concat2 M sym lden _ HK _ _ _ _ _ _ _ Hm (mean_cid M sym lden n) Ecc) as Mcc.
    rewrite (invert_ok _ Hp) in H. cbn [bind] in H.
    rewrite (cperm_create_ok _ (inv_of_perm _ Hp)) in H. cbn [bind] in H. rewrite (cperm_create_ok _ Hp) in H. cbn [bind] in H.
    step H t Et.
    pose proof (mean_pc M sym lden (inv_of (pad_perm N k n)) (N + n) (inv_of_perm _ Hp)) as M1. rewrite inv_of_length in M1.
    specialize (M1 Hl). pose proof (mean_pc M sym lden _ (N + n) Hp Hl) as M2.
    pose proof (k_series2 M sym lden _ HK _ _ _ _ _ _ M1 Mcc Et) as M3.
    exact (k_series2 M sym lden _ HK _ _ _ _ _ _ M3 M2 H).
  Qed.
End Corollaries.
