(** C09 series product, C10 concatenation, C11 series inverse, C12 feedback and
    C38 coherent drives, for SLH triples over any complex *-algebra of operators. *)
From Coq Require Import QArith Qcanon.
From Verif Require Import Prelude ListFacts PermModel PermSpec PermProofs1 AlgSpec CAlg CInst MatModel SlhModel MatSpec CircModel CircSpec CircProofs1 CircProofs2 MatProofs SlhProofs1 SlhProofs2 SlhProofs3 SlhProofs4 SlhProofs5 SlhProofs6 SlhProofs7 SlhProofs8 SlhProofs9.

Local Open Scope nat_scope.
Section Props.
  Context {M : calgebra}.
  Implicit Types a b c d : slh M.

  (** ** C09 *)
  (** defined exactly for equal channel numbers *)
  Theorem C09_series_defined a b n m : system a n -> system b m ->
    (n = m -> exists c, series_with_slh a b = Ok c /\ system c n) /\
    (n <> m -> exists e, series_with_slh a b = Err e).
  Proof.
    intros Ha Hb. split.
    - intros G; subst m. exists (ser n a b). split; [now apply series_ok|apply ser_system].
    - intros Hn. exists ValueError. unfold series_with_slh, mmul. destruct Ha as [(_ & Hc & _) _], Hb as [(Hr & _) _].
      rewrite Hc, Hr. destruct (Nat.eqb_spec n m); [contradiction|reflexivity].
  Qed.
  (** the series product multiplies the Ito generators *)
  Theorem C09_series_generator a b c n : system a n -> system b n -> isometry (sS a) n ->
    series_with_slh a b = Ok c ->
    forall i j, inb n i -> inb n j ->
      generator n c i j = asum (fun k => amul (generator n a i k) (generator n b k j)) (ixs n).
  Proof.
    intros Ha Hb Hu E. rewrite (series_ok a b n Ha Hb) in E. injection E as <-. exact (bel_ser n a b Hu).
  Qed.
  (** and the generator determines the triple *)
  Theorem C09_generator_faithful a b n : system a n -> system b n ->
    (forall i j, inb n i -> inb n j -> generator n a i j = generator n b i j) -> a = b.
  Proof. apply bel_inj. Qed.
  Theorem C09_series_assoc a b c n : system a n -> system b n -> system c n -> isometry (sS a) n ->
    exists ab bc abc, series_with_slh a b = Ok ab /\ series_with_slh b c = Ok bc /\
      series_with_slh ab c = Ok abc /\ series_with_slh a bc = Ok abc.
  Proof.
    intros Ha Hb Hc Hu. exists (ser n a b), (ser n b c), (ser n (ser n a b) c).
    split; [now apply series_ok|]. split; [now apply series_ok|].
    split; [apply series_ok; [apply ser_system|exact Hc]|].
    rewrite ser_assoc by exact Hu. apply series_ok; [exact Ha|apply ser_system].
  Qed.
  Lemma passthrough_ident a n : passthrough a n -> a = ident n.
  Proof.
    intros (Hs & H1 & H2 & H3). rewrite (system_mkS a n Hs). apply mkS_ext; [exact H1|exact H2|exact H3].
  Qed.
  (** the model of [cid(n)] is the unit *)
  Theorem C09_series_unit a e n : system a n -> passthrough e n ->
    series_with_slh e a = Ok a /\ series_with_slh a e = Ok a.
  Proof.
    intros Ha He. pose proof (passthrough_ident e n He) as ->. split.
    - rewrite (series_ok _ a n) by (try exact Ha; apply ident_system). now rewrite ident_l.
    - rewrite (series_ok a _ n) by (try exact Ha; apply ident_system). now rewrite ident_r.
  Qed.
  (** physical systems (unitary S, self-adjoint H) are closed under series *)
  Theorem C09_series_physical a b c n : physical a n -> physical b n -> series_with_slh a b = Ok c -> physical c n.
  Proof.
    rewrite <- !phys_spec. intros Ha Hb E. rewrite (series_ok a b n (proj1 Ha) (proj1 Hb)) in E. injection E as <-. now apply phys_ser.
  Qed.
  (** channel permutations: the series product of two permutation matrices is the
      permutation matrix of the composite, in the order of [series_with_permutation] *)
  Theorem C09_permutation_series p q : bijection p -> bijection q -> length p = length q ->
    exists a b c, perm_to_slh (M:=M) p = Ok a /\ perm_to_slh q = Ok b /\ perm_to_slh (map (fun k => nth k p 0) q) = Ok c /\
      series_with_slh a b = Ok c /\ physical a (length p).
  Proof.
    intros Hp Hq Hl. apply is_perm_bij in Hp. apply is_perm_bij in Hq. exists (prm p), (prm q), (prm (comp p q)).
    split; [now apply perm_mkS|]. split; [now apply perm_mkS|].
    split; [apply (perm_mkS (comp p q)); apply comp_perm; assumption|].
    split; [|now apply phys_spec, phys_prm].
    rewrite <- (prm_ser p q Hp Hq Hl). apply series_ok; [apply prm_system|]. rewrite Hl. apply prm_system.
  Qed.
  Theorem C09_permutation_identity n :
    exists e, perm_to_slh (M:=M) (seq 0 n) = Ok e /\ passthrough e n.
  Proof.
    exists (prm (seq 0 n)). split; [apply perm_mkS; apply is_perm_seq|]. rewrite prm_ident.
    split; [apply ident_system|]. split; [intros i j Hi Hj; exact (Sf_mkS n delta (fun _ => a0) a0 i j Hi Hj)|].
    split; [|reflexivity]. intros i Hi. pose proof (Lf_mkS n (@delta M) (fun _ => a0) a0 i Hi) as E. exact E.
  Qed.

  (** ** C10 *)
  Theorem C10_concatenation a b n m : system a n -> system b m ->
    exists c, concatenate_slh a b = Ok c /\ system c (n + m) /\
      (forall i j, i < n -> j < n -> ent (sS c) i j = ent (sS a) i j) /\
      (forall i j, i < m -> j < m -> ent (sS c) (n + i) (n + j) = ent (sS b) i j) /\
      (forall i j, i < n -> j < m -> ent (sS c) i (n + j) = a0 /\ ent (sS c) (n + j) i = a0) /\
      (forall i, i < n -> ent (sL c) i 0 = ent (sL a) i 0) /\
      (forall i, i < m -> ent (sL c) (n + i) 0 = ent (sL b) i 0) /\
      sH c = aadd (sH a) (sH b).
  Proof.
    intros Ha Hb. exists (cat n m a b). split; [now apply concat_ok|]. split; [apply cat_system|].
    repeat split.
    - intros i j Hi Hj. change (Sf (cat n m a b) i j = Sf a i j). rewrite Sf_cat by lia. now apply fcat_ll.
    - intros i j Hi Hj. change (Sf (cat n m a b) (n + i) (n + j) = Sf b i j). rewrite Sf_cat by lia. apply fcat_rr.
    - change (Sf (cat n m a b) i (n + j) = a0). rewrite Sf_cat by lia. apply fcat_lr; lia.
    - change (Sf (cat n m a b) (n + j) i = a0). rewrite Sf_cat by lia. apply fcat_rl; lia.
    - intros i Hi. change (Lf (cat n m a b) i = Lf a i). rewrite Lf_cat by lia. now apply vcat_l.
    - intros i Hi. change (Lf (cat n m a b) (n + i) = Lf b i). rewrite Lf_cat by lia. apply vcat_r.
  Qed.
  Theorem C10_concat_assoc a b c n1 n2 n3 : system a n1 -> system b n2 -> system c n3 ->
    exists ab bc abc, concatenate_slh a b = Ok ab /\ concatenate_slh b c = Ok bc /\
      concatenate_slh ab c = Ok abc /\ concatenate_slh a bc = Ok abc.
  Proof.
    intros Ha Hb Hc. exists (cat n1 n2 a b), (cat n2 n3 b c), (cat n1 (n2 + n3) a (cat n2 n3 b c)).
    split; [now apply concat_ok|]. split; [now apply concat_ok|].
    split; [rewrite <- cat_assoc; apply concat_ok; [apply cat_system|exact Hc]|].
    apply concat_ok; [exact Ha|apply cat_system].
  Qed.
  (** (a + b) << (c + d) = (a << c) + (b << d) *)
  Theorem C10_interchange a b c d n m : system a n -> system c n -> system b m -> system d m ->
    exists ab cd ac bd r, concatenate_slh a b = Ok ab /\ concatenate_slh c d = Ok cd /\
      series_with_slh a c = Ok ac /\ series_with_slh b d = Ok bd /\
      series_with_slh ab cd = Ok r /\ concatenate_slh ac bd = Ok r.
  Proof.
    intros Ha Hc Hb Hd. exists (cat n m a b), (cat n m c d), (ser n a c), (ser m b d), (cat n m (ser n a c) (ser m b d)).
    split; [now apply concat_ok|]. split; [now apply concat_ok|]. split; [now apply series_ok|]. split; [now apply series_ok|].
    split; [rewrite <- interchange; apply series_ok; apply cat_system|apply concat_ok; apply ser_system].
  Qed.
  (** a system without channels and with H = 0 is the unit of concatenation *)
  Theorem C10_concat_unit a e n : system a n -> passthrough e 0 ->
    concatenate_slh e a = Ok a /\ concatenate_slh a e = Ok a.
  Proof.
    intros Ha He. pose proof (passthrough_ident e 0 He) as ->. split.
    - rewrite (concat_ok _ a 0 n) by (try exact Ha; apply ident_system). now rewrite cat_ident0_l.
    - rewrite (concat_ok a _ n 0) by (try exact Ha; apply ident_system). now rewrite cat_ident0_r.
  Qed.
  Theorem C10_concat_physical a b c n m : physical a n -> physical b m -> concatenate_slh a b = Ok c -> physical c (n + m).
  Proof.
    rewrite <- !phys_spec. intros Ha Hb E. rewrite (concat_ok a b n m (proj1 Ha) (proj1 Hb)) in E. injection E as <-. now apply phys_cat.
  Qed.

  (** ** C11 *)
  Theorem C11_two_sided_inverse a n : physical a n ->
    exists b e, slh_series_inverse a = Ok b /\ physical b n /\ passthrough e n /\
      series_with_slh a b = Ok e /\ series_with_slh b a = Ok e.
  Proof.
    intros Ha. apply phys_spec in Ha. pose proof Ha as (A1 & A2 & A3 & A4). exists (sinv n a), (ident n).
    split; [now apply sinv_ok|]. split; [apply phys_spec; now apply phys_sinv|].
    split.
    - split; [apply ident_system|]. split; [intros i j Hi Hj; exact (Sf_mkS n delta (fun _ => a0) a0 i j Hi Hj)|].
      split; [|reflexivity]. intros i Hi. pose proof (Lf_mkS n (@delta M) (fun _ => a0) a0 i Hi) as E. exact E.
    - split.
      + rewrite (series_ok _ _ n A1) by apply sinv_system. now rewrite sinv_r.
      + rewrite (series_ok _ _ n) by (try exact A1; apply sinv_system). now rewrite sinv_l.
  Qed.
  (** it is the only inverse *)
  Theorem C11_inverse_unique a b e n : physical a n -> physical b n -> passthrough e n ->
    series_with_slh a b = Ok e -> slh_series_inverse a = Ok b.
  Proof.
    intros Ha Hb He E. apply phys_spec in Ha. apply phys_spec in Hb. rewrite (sinv_ok a n) by apply Ha.
    rewrite (series_ok a b n (proj1 Ha) (proj1 Hb)) in E. injection E as E. f_equal. symmetry.
    apply inverse_unique; try assumption. rewrite E. now apply passthrough_ident.
  Qed.
  Theorem C11_double_inverse a b n : physical a n -> slh_series_inverse a = Ok b -> slh_series_inverse b = Ok a.
  Proof.
    intros Ha E. apply phys_spec in Ha. rewrite (sinv_ok a n) in E by apply Ha. injection E as <-.
    rewrite (sinv_ok _ n) by apply sinv_system. f_equal. apply sinv_sinv; apply Ha.
  Qed.
  (** inversion reverses series products *)
  Theorem C11_inverse_of_series a b ab n : physical a n -> physical b n -> series_with_slh a b = Ok ab ->
    exists a' b' r, slh_series_inverse a = Ok a' /\ slh_series_inverse b = Ok b' /\
      series_with_slh b' a' = Ok r /\ slh_series_inverse ab = Ok r.
  Proof.
    intros Ha Hb E. apply phys_spec in Ha. apply phys_spec in Hb. rewrite (series_ok a b n (proj1 Ha) (proj1 Hb)) in E. injection E as <-.
    exists (sinv n a), (sinv n b), (ser n (sinv n b) (sinv n a)).
    split; [apply sinv_ok; apply Ha|]. split; [apply sinv_ok; apply Hb|]. split; [apply series_ok; apply sinv_system|].
    rewrite <- sinv_ser by assumption. apply sinv_ok. apply ser_system.
  Qed.
  (** and distributes over concatenations *)
  Theorem C11_inverse_of_concat a b ab n m : physical a n -> physical b m -> concatenate_slh a b = Ok ab ->
    exists a' b' r, slh_series_inverse a = Ok a' /\ slh_series_inverse b = Ok b' /\
      concatenate_slh a' b' = Ok r /\ slh_series_inverse ab = Ok r.
  Proof.
    intros Ha Hb E. apply phys_spec in Ha. apply phys_spec in Hb. rewrite (concat_ok a b n m (proj1 Ha) (proj1 Hb)) in E. injection E as <-.
    exists (sinv n a), (sinv m b), (cat n m (sinv n a) (sinv m b)).
    split; [apply sinv_ok; apply Ha|]. split; [apply sinv_ok; apply Hb|]. split; [apply concat_ok; apply sinv_system|].
    rewrite <- sinv_cat by assumption. apply sinv_ok. apply cat_system.
  Qed.
  (** the inverse of a channel permutation is the inverse permutation *)
  Theorem C11_inverse_of_permutation p q : bijection p -> bijection q -> length p = length q ->
    (forall i, i < length p -> nth (nth i p 0) q 0 = i) ->
    exists a b, perm_to_slh (M:=M) p = Ok a /\ perm_to_slh q = Ok b /\ slh_series_inverse a = Ok b.
  Proof.
    intros Hp Hq Hl Hinv. apply is_perm_bij in Hp. apply is_perm_bij in Hq.
    assert (q = inv_of p) as ->.
    { apply list_eq_nth with (d := 0); [now rewrite inv_of_length|]. intros i Hi.
      destruct (inv_of_nth p i Hp ltac:(lia)) as [G1 G2]. rewrite <- (Hinv _ G1). now rewrite G2. }
    exists (prm p), (prm (inv_of p)). split; [now apply perm_mkS|]. split; [now apply perm_mkS|].
    rewrite (sinv_ok _ (length p)) by apply prm_system. now rewrite sinv_prm.
  Qed.

  (** ** C12 *)
  Context (inv : A M -> res (K M)) (Hinv : sound_inv inv).
  Lemma inv_invs x w : inv (aadd a1 (aopp x)) = Ok w -> invs x (smul w a1).
  Proof. intros E. apply invs_scal. exact (Hinv _ _ E). Qed.
  (** closing a loop on a physical system yields a physical system *)
  Theorem C12_feedback_physical a b n o i : physical a (S n) -> o <= n -> i <= n ->
    slh_feedback inv a o i = Ok b -> physical b n.
  Proof.
    intros Ha Ho Hi E. apply phys_spec in Ha. apply phys_spec. rewrite (slh_feedback_ok inv n a o i (proj1 Ha) Ho Hi) in E.
    destruct (inv _) as [w|e] eqn:Ew; [|discriminate]. cbn [bind] in E. injection E as <-.
    apply phys_fbl; [now apply phys_ports|]. now apply inv_invs.
  Qed.
  (** it is defined exactly when [1 - S[out, in]] can be inverted; a port out of
      range is a ValueError *)
  Theorem C12_feedback_defined a n o i : system a (S n) ->
    (o <= n -> i <= n ->
      match inv (aadd a1 (aopp (ent (sS a) o i))), slh_feedback inv a o i with
      | Ok _, Ok b => system b n
      | Err e, Err e' => e = e'
      | _, _ => False
      end) /\
    (n < o \/ n < i -> slh_feedback inv a o i = Err ValueError).
  Proof.
    intros Ha. split; [|now apply slh_feedback_bad].
    intros Ho Hi. rewrite (slh_feedback_ok inv n a o i Ha Ho Hi). rewrite Sf_ports_nn by assumption.
    change (Sf a o i) with (ent (sS a) o i). destruct (inv _) as [w|e]; cbn [bind]; [apply fbl_system|reflexivity].
  Qed.
  (** Closing the loop from the last output to the last input: whenever the field
      entering the port equals the field leaving it, the other outputs (and the
      drift) of the open system are those of the closed system. *)
  Theorem C12_loop_elimination a b n (x : ix -> A M) : system a (S n) -> isometry (sS a) (S n) ->
    slh_feedback inv a n n = Ok b ->
    x (iC n) = apply_gen (S n) (generator (S n) a) x (iC n) ->
    forall i, inb n i -> apply_gen n (generator n b) x i = apply_gen (S n) (generator (S n) a) x i.
  Proof.
    intros Ha Hu E Hx. rewrite (slh_feedback_ok inv n a n n Ha) in E by lia.
    assert (ports n a n n = a) as Ep.
    { unfold ports. rewrite m_out_last, m_in_last, !prm_ident, ident_r by apply ser_system. now apply ident_l. }
    rewrite Ep in E. destruct (inv _) as [w|e] eqn:Ew; [|discriminate]. cbn [bind] in E. injection E as <-.
    apply loop_elim; [exact Hu|now apply inv_invs|exact Hx].
  Qed.
  (** Feedback between other ports: first move output [o] and input [i] to the
      last position, keeping the order of the other channels. *)
  Theorem C12_feedback_ports a n o i : system a (S n) -> o <= n -> i <= n ->
    exists pm qm a', system a' (S n) /\
      perm_to_slh (M:=M) (map (fun k => if k =? o then n else if k <? o then k else k - 1) (seq 0 (S n))) = Ok pm /\
      perm_to_slh (map (fun k => if k =? n then i else if k <? i then k else k + 1) (seq 0 (S n))) = Ok qm /\
      (do u <- series_with_slh pm a; series_with_slh u qm) = Ok a' /\
      slh_feedback inv a o i = slh_feedback inv a' n n /\
      (forall k l, k < n -> l < n ->
        ent (sS a') k l = ent (sS a) (if k <? o then k else k + 1) (if l <? i then l else l + 1)) /\
      ent (sS a') n n = ent (sS a) o i /\
      (forall k, k < n -> ent (sL a') k 0 = ent (sL a) (if k <? o then k else k + 1) 0) /\
      ent (sL a') n 0 = ent (sL a) o 0.
  Proof.
    intros Ha Ho Hi.
    assert (map (fun k => if k =? o then n else if k <? o then k else k - 1) (seq 0 (S n)) = m_out o (S n)) as ->.
    { apply map_ext_in. intros k _. unfold drop. replace (S n - 1) with n by lia. reflexivity. }
    assert (map (fun k => if k =? n then i else if k <? i then k else k + 1) (seq 0 (S n)) = m_in i (S n)) as ->.
    { apply map_ext_in. intros k _. unfold keep. replace (S n - 1) with n by lia.
      destruct (k =? n); [reflexivity|]. destruct (k <? i); lia. }
    pose proof (m_out_perm o (S n) ltac:(lia)) as P1. pose proof (m_in_perm i (S n) ltac:(lia)) as P2.
    pose proof (@prm_system M (m_out o (S n))) as S1. rewrite m_out_length in S1.
    pose proof (@prm_system M (m_in i (S n))) as S2. rewrite m_in_length in S2.
    assert (system (ports n a o i) (S n)) as Hs by apply ser_system.
    exists (prm (m_out o (S n))), (prm (m_in i (S n))), (ports n a o i). split; [exact Hs|].
    split; [now apply perm_mkS|]. split; [now apply perm_mkS|].
    split; [rewrite (series_ok _ a (S n) S1 Ha); cbn [bind]; apply series_ok; [apply ser_system|exact S2]|].
    split.
    { rewrite (slh_feedback_ok inv n a o i Ha Ho Hi), (slh_feedback_ok inv n _ n n Hs) by lia.
      assert (ports n (ports n a o i) n n = ports n a o i) as ->; [|reflexivity].
      unfold ports at 1. rewrite m_out_last, m_in_last, !prm_ident, ident_r by apply ser_system. now apply ident_l. }
    assert (forall k, k < n -> nth (if k <? o then k else k + 1) (m_out o (S n)) 0 = k) as Eo.
    { intros k Hk. rewrite m_out_nth by (destruct (k <? o); lia). unfold drop.
      destruct (Nat.ltb_spec k o) as [G|G].
      - destruct (Nat.eqb_spec k o); [lia|]. destruct (Nat.ltb_spec k o); lia.
      - destruct (Nat.eqb_spec (k + 1) o); [lia|]. destruct (Nat.ltb_spec (k + 1) o); lia. }
    assert (nth o (m_out o (S n)) 0 = n) as En by (rewrite m_out_nth by lia; rewrite Nat.eqb_refl; lia).
    split; [|split; [|split]].
    - intros k l Hk Hl. pose proof (Sf_ports n a o i (if k <? o then k else k + 1) l Ho Hi) as E.
      rewrite Eo in E by exact Hk. change (Sf (ports n a o i) k l = Sf a (if k <? o then k else k + 1) (if l <? i then l else l + 1)).
      rewrite E by (destruct (k <? o); lia). f_equal. rewrite m_in_nth by lia. unfold keep.
      destruct (Nat.eqb_spec l (S n - 1)); [lia|]. destruct (l <? i); lia.
    - exact (Sf_ports_nn n a o i Ho Hi).
    - intros k Hk. pose proof (Lf_ports n a o i (if k <? o then k else k + 1) Ho Hi) as E. rewrite Eo in E by exact Hk.
      apply E. destruct (k <? o); lia.
    - pose proof (Lf_ports n a o i o Ho Hi Ho) as E. rewrite En in E. exact E.
  Qed.
  (** the loop can be closed on the last component of a concatenation alone *)
  Theorem C12_feedback_of_concat a b ab c n m : system a n -> system b (S m) -> concatenate_slh a b = Ok ab ->
    slh_feedback inv b m m = Ok c ->
    exists r, slh_feedback inv ab (n + m) (n + m) = Ok r /\ concatenate_slh a c = Ok r.
  Proof.
    intros Ha Hb E1 E2. rewrite (concat_ok a b n (S m) Ha Hb) in E1. injection E1 as <-.
    assert (forall k d, system d (S k) -> ports k d k k = d) as Ep.
    { intros k d Hd. unfold ports. rewrite m_out_last, m_in_last, !prm_ident, ident_r by apply ser_system. now apply ident_l. }
    rewrite (slh_feedback_ok inv m b m m Hb) in E2 by lia. rewrite Ep in E2 by exact Hb.
    destruct (inv _) as [w|e] eqn:Ew; [|discriminate]. cbn [bind] in E2. injection E2 as <-.
    assert (system (cat n (S m) a b) (S (n + m))) as Hs by (rewrite <- Nat.add_succ_r; apply cat_system).
    exists (cat n m a (fbl m b (smul w a1))). split; [|apply concat_ok; [exact Ha|apply fbl_system]].
    rewrite (slh_feedback_ok inv _ _ _ _ Hs) by lia. rewrite Ep by exact Hs.
    assert (Sf (cat n (S m) a b) (n + m) (n + m) = Sf b m m) as -> by (rewrite Sf_cat by lia; apply fcat_rr).
    rewrite Ew. cbn [bind]. now rewrite fb_cat.
  Qed.
  (** a component that does not touch the loop can be taken out of it, on the
      output side ... *)
  Theorem C12_feedback_pull_out_left a a1c b ab c id1 n : physical a n -> physical b (S n) -> passthrough id1 1 ->
    concatenate_slh a id1 = Ok a1c -> series_with_slh a1c b = Ok ab -> slh_feedback inv b n n = Ok c ->
    exists r, slh_feedback inv ab n n = Ok r /\ series_with_slh a c = Ok r.
  Proof.
    intros Ha Hb Hi E1 E2 E3. apply phys_spec in Ha. apply phys_spec in Hb. rewrite (passthrough_ident id1 1 Hi) in E1.
    rewrite (concat_ok a _ n 1 (proj1 Ha)) in E1 by apply ident_system. injection E1 as <-.
    assert (system (cat n 1 a (ident 1)) (S n)) as Hs by (pose proof (cat_system n 1 a (ident 1)) as Hs; now rewrite Nat.add_1_r in Hs).
    rewrite (series_ok _ b (S n) Hs (proj1 Hb)) in E2. injection E2 as <-.
    assert (forall k d, system d (S k) -> ports k d k k = d) as Ep.
    { intros k d Hd. unfold ports. rewrite m_out_last, m_in_last, !prm_ident, ident_r by apply ser_system. now apply ident_l. }
    rewrite (slh_feedback_ok inv n b n n (proj1 Hb)) in E3 by lia. rewrite Ep in E3 by apply Hb.
    destruct (inv _) as [w|e] eqn:Ew; [|discriminate]. cbn [bind] in E3. injection E3 as <-.
    exists (ser n a (fbl n b (smul w a1))). split; [|apply series_ok; [apply Ha|apply fbl_system]].
    rewrite (slh_feedback_ok inv n _ n n) by (try lia; apply ser_system). rewrite Ep by apply ser_system.
    assert (Sf (ser (S n) (cat n 1 a (ident 1)) b) n n = Sf b n n) as ->.
    { rewrite Sf_ser by lia. rewrite mv_col. exact (mv_cat1_n n a (fun k => Sf b k n)). }
    rewrite Ew. cbn [bind]. rewrite fb_ser_l by apply Ha. reflexivity.
  Qed.
  (** ... and on the input side *)
  Theorem C12_feedback_pull_out_right a a1c b ba c id1 n : physical a n -> physical b (S n) -> passthrough id1 1 ->
    concatenate_slh a id1 = Ok a1c -> series_with_slh b a1c = Ok ba -> slh_feedback inv b n n = Ok c ->
    exists r, slh_feedback inv ba n n = Ok r /\ series_with_slh c a = Ok r.
  Proof.
    intros Ha Hb Hi E1 E2 E3. apply phys_spec in Ha. apply phys_spec in Hb. rewrite (passthrough_ident id1 1 Hi) in E1.
    rewrite (concat_ok a _ n 1 (proj1 Ha)) in E1 by apply ident_system. injection E1 as <-.
    assert (system (cat n 1 a (ident 1)) (S n)) as Hs by (pose proof (cat_system n 1 a (ident 1)) as Hs; now rewrite Nat.add_1_r in Hs).
    rewrite (series_ok b _ (S n) (proj1 Hb) Hs) in E2. injection E2 as <-.
    assert (forall k d, system d (S k) -> ports k d k k = d) as Ep.
    { intros k d Hd. unfold ports. rewrite m_out_last, m_in_last, !prm_ident, ident_r by apply ser_system. now apply ident_l. }
    rewrite (slh_feedback_ok inv n b n n (proj1 Hb)) in E3 by lia. rewrite Ep in E3 by apply Hb.
    destruct (inv _) as [w|e] eqn:Ew; [|discriminate]. cbn [bind] in E3. injection E3 as <-.
    exists (ser n (fbl n b (smul w a1)) a). split; [|apply series_ok; [apply fbl_system|apply Ha]].
    rewrite (slh_feedback_ok inv n _ n n) by (try lia; apply ser_system). rewrite Ep by apply ser_system.
    assert (Sf (ser (S n) b (cat n 1 a (ident 1))) n n = Sf b n n) as ->.
    { rewrite Sf_ser by lia. unfold mm. rewrite sm_S, Sf_cat1_nn, amul_1r. rewrite sm_zero; [apply aadd_0|].
      intros k Hk. rewrite Sf_cat1_col by assumption. apply amul_0r. }
    rewrite Ew. cbn [bind]. rewrite fb_ser_r; [reflexivity|apply Hb|now apply inv_invs].
  Qed.
  (** the loop through a channel permutation, as [CPermutation._feedback] computes it *)
  Theorem C12_feedback_of_permutation p a b o i : bijection p -> o < length p -> i < length p ->
    perm_to_slh p = Ok a -> slh_feedback inv a o i = Ok b ->
    exists q, cperm_feedback (X:=slh M) p o i = Ok q /\
      match q with CPerm q' => perm_to_slh q' = Ok b | _ => q = circuit_identity (length p - 1) /\ passthrough b (length p - 1) end.
  Proof.
    intros Hp Ho Hi E1 E2. apply is_perm_bij in Hp. exists (pc (fb_perm p o i)). split; [now apply cperm_feedback_ok|].
    rewrite (perm_mkS p Hp) in E1. injection E1 as E1. subst a. fold (@prm M p) in E2.
    destruct (length p) as [|n] eqn:El; [lia|].
    pose proof (@prm_system M p) as Hs. rewrite El in Hs. pose proof (phys_prm (M:=M) p Hp) as Hph. rewrite El in Hph.
    change (mkS (S n) (pdelta p) (fun _ => a0) a0) with (mkS (S n) (pdelta (M:=M) p) (fun _ => a0) a0) in E2.
    replace (mkS (S n) (pdelta p) (fun _ => a0) a0) with (prm (M:=M) p) in E2 by (unfold prm; now rewrite El).
    rewrite (slh_feedback_ok inv n _ o i Hs) in E2 by lia.
    destruct (inv _) as [w|e] eqn:Ew; [|discriminate]. cbn [bind] in E2. injection E2 as <-. apply inv_invs in Ew.
    assert (ports n (prm p) o i = prm (mid p o i) :> slh M) as Ep.
    { unfold ports, mid. rewrite El. rewrite <- (m_out_length o (S n)) at 2. rewrite prm_ser;
        [|apply m_out_perm; lia|exact Hp|now rewrite m_out_length].
      pose proof (comp_length (m_out o (S n)) p) as Hcl. rewrite <- El at 1. rewrite <- Hcl. apply prm_ser.
      - apply comp_perm; [rewrite m_out_length; lia|apply m_out_perm; lia|exact Hp].
      - apply m_in_perm. lia.
      - rewrite Hcl, m_in_length. exact El. }
    rewrite Ep in *. assert (length (mid p o i) = S n) as Eml by (rewrite mid_length; exact El).
    assert (is_perm (mid p o i)) as Hm by (apply mid_perm; try assumption; lia).
    rewrite (fb_prm n (mid p o i) _ Hm Eml Ew).
    assert (fb_perm (mid p o i) n n = fb_perm p o i) as Ef.
    { unfold fb_perm. rewrite Eml, El. apply map_ext_in. intros k Hk. apply in_seq in Hk. unfold fb_route. cbn zeta.
      rewrite !mid_nth by (try assumption; try lia; unfold keep; destruct (k <? n) eqn:?; try lia;
                           apply Nat.ltb_ge in Heqb; lia).
      rewrite El. replace (S n - 1) with n by lia. rewrite Nat.eqb_refl.
      assert (keep n k = k) as -> by (unfold keep; destruct (Nat.ltb_spec k n); lia).
      destruct (Nat.eqb_spec k n); [lia|].
      pose proof (is_perm_nth_lt p (keep i k) Hp) as G1. pose proof (is_perm_nth_lt p i Hp ltac:(lia)) as G2.
      assert (keep i k < length p) as G3 by (unfold keep; destruct (Nat.ltb_spec k i); lia). specialize (G1 G3).
      assert (nth (keep i k) p 0 = nth i p 0 -> False) as G4.
      { intros E. apply (is_perm_inj p) in E; try assumption; [|lia]. unfold keep in E. destruct (Nat.ltb_spec k i); lia. }
      unfold drop. rewrite El in *.
      destruct (Nat.eqb_spec (nth (keep i k) p 0) o), (Nat.eqb_spec (nth i p 0) o);
        repeat (match goal with
          | |- context[?x =? ?y] => destruct (Nat.eqb_spec x y)
          | |- context[?x <? ?y] => destruct (Nat.ltb_spec x y)
          end); try lia. }
    rewrite Ef. pose proof (fb_perm_perm p o i Hp ltac:(lia) ltac:(lia)) as Hf.
    assert (length (fb_perm p o i) = S n - 1) as Hfl by (unfold fb_perm; rewrite map_length, seq_length; lia).
    destruct (@pc_cases (slh M) (fb_perm p o i)) as [[E ->]|[_ ->]].
    - rewrite E, Hfl, seq_length. replace (S n - 1) with n by lia. rewrite prm_ident.
      assert (passthrough (@ident M n) n) as Hpt.
      { split; [apply ident_system|]. split; [intros k l Hk Hl; exact (Sf_mkS n delta (fun _ => a0) a0 k l Hk Hl)|].
        split; [|reflexivity]. intros k Hk. pose proof (Lf_mkS n (@delta M) (fun _ => a0) a0 k Hk) as G. exact G. }
      destruct n as [|[|n]]; cbn [circuit_identity]; split; try reflexivity; exact Hpt.
    - now apply perm_mkS.
  Qed.
  (** the inverse of a closed loop is the loop closed on the inverse with the ports
      exchanged, when both can be formed *)
  Theorem C12_feedback_inverse a a' b c n o i : physical a (S n) -> o <= n -> i <= n ->
    slh_series_inverse a = Ok a' -> slh_feedback inv a o i = Ok b -> slh_feedback inv a' i o = Ok c ->
    slh_series_inverse b = Ok c.
  Proof.
    intros Ha Ho Hi E1 E2 E3. apply phys_spec in Ha. rewrite (sinv_ok a (S n) (proj1 Ha)) in E1. injection E1 as <-.
    rewrite (slh_feedback_ok inv n _ o i (proj1 Ha) Ho Hi) in E2.
    destruct (inv _) as [w|e] eqn:Ew; [|discriminate]. cbn [bind] in E2. injection E2 as <-. apply inv_invs in Ew.
    rewrite (slh_feedback_ok inv n _ i o (sinv_system _ _) Hi Ho) in E3.
    destruct (inv _) as [w'|e] eqn:Ew'; [|discriminate]. cbn [bind] in E3. injection E3 as <-. apply inv_invs in Ew'.
    rewrite (sinv_ok _ n) by apply fbl_system. f_equal. symmetry.
    pose proof (phys_ports n a o i Ha Ho Hi) as Hp.
    assert (phys (S n) (prm (M:=M) (m_out o (S n)))) as P1 by (rewrite <- (m_out_length o (S n)) at 1; apply phys_prm, m_out_perm; lia).
    assert (phys (S n) (prm (M:=M) (m_in i (S n)))) as P2 by (rewrite <- (m_in_length i (S n)) at 1; apply phys_prm, m_in_perm; lia).
    assert (forall k, k < S n -> sinv (S n) (prm (m_in k (S n))) = prm (M:=M) (m_out k (S n))
              /\ sinv (S n) (prm (m_out k (S n))) = prm (M:=M) (m_in k (S n))) as Em.
    { intros k Hk. destruct (m_out_in_inverse k (S n) Hk) as [I1 I2].
      assert (phys (S n) (prm (M:=M) (m_out k (S n)))) as Q1 by (rewrite <- (m_out_length k (S n)) at 1; apply phys_prm, m_out_perm; lia).
      assert (phys (S n) (prm (M:=M) (m_in k (S n)))) as Q2 by (rewrite <- (m_in_length k (S n)) at 1; apply phys_prm, m_in_perm; lia).
      pose proof (m_out_perm k (S n) Hk) as B1. pose proof (m_in_perm k (S n) Hk) as B2.
      split; symmetry; apply inverse_unique; try assumption.
      - rewrite <- (m_in_length k (S n)) at 1. rewrite prm_ser by (try assumption; now rewrite m_in_length, m_out_length).
        rewrite I1. apply prm_ident.
      - rewrite <- (m_out_length k (S n)) at 1. rewrite prm_ser by (try assumption; now rewrite m_in_length, m_out_length).
        rewrite I2. apply prm_ident. }
    assert (ports n (sinv (S n) a) i o = sinv (S n) (ports n a o i)) as Ep.
    { unfold ports. rewrite sinv_ser by (try assumption; now apply phys_ser). rewrite sinv_ser by assumption.
      destruct (Em o ltac:(lia)) as [_ ->]. destruct (Em i ltac:(lia)) as [-> _].
      rewrite <- ser_assoc; [reflexivity|]. pose proof (phys_prm (M:=M) (m_out i (S n)) (m_out_perm i (S n) ltac:(lia))) as Q. rewrite m_out_length in Q. apply Q. }
    rewrite Ep in *.
    assert (smul w' a1 = star (smul w a1)) as ->.
    { apply (invs_unique (Sf (sinv (S n) (ports n a o i)) n n)); [exact Ew'|].
      replace (Sf (sinv (S n) (ports n a o i)) n n) with (star (Sf (ports n a o i) n n)); [now apply invs_star|].
      unfold sinv. rewrite Sf_mkS by lia. reflexivity. }
    apply fb_sinv; try apply Hp. exact Ew.
  Qed.
End Props.

(** ** C38 *)
Section Drive.
  Context {M : calgebra}.
  Add Ring Krd : (kring M).
  Implicit Types a b : slh M.
  (** [idcoeff x] is the coefficient of the identity operator in [x]; [kzero] the
      test for 0; [which = nil] means all channels *)
  Context (idcoeff : A M -> K M) (kzero : K M -> bool) (Hz : forall c, kzero c = true -> c = k0).
  (** channel [j] is selected *)
  Definition chosen (which : list nat) (j : nat) : Prop := which = [] \/ In j which.
  Lemma selected_chosen which j : selected which j = true <-> chosen which j.
  Proof.
    unfold selected, chosen. destruct which as [|w which]; [split; auto|]. rewrite existsb_exists. split.
    - intros (k & Hk & E). apply Nat.eqb_eq in E. subst k. now right.
    - intros [H|H]; [discriminate|]. exists j. split; [exact H|apply Nat.eqb_refl].
  Qed.
  Theorem C38_result a n which : system a n ->
    exists b (al : nat -> K M), move_drive_to_H idcoeff kzero which a = Ok b /\ system b n /\
      (forall j, j < n -> chosen which j -> al j = idcoeff (ent (sL a) j 0)) /\
      (forall j, j < n -> ~ chosen which j -> al j = k0) /\
      (forall i j, i < n -> j < n -> ent (sS b) i j = ent (sS a) i j) /\
      (forall j, j < n -> ent (sL b) j 0 = aadd (ent (sL a) j 0) (aopp (smul (al j) a1))) /\
      sH b = aadd (sH a) (smul (kmul (kopp iu) khalf)
               (bigsum n (fun j => aadd (smul (al j) (star (ent (sL a) j 0)))
                                        (aopp (smul (kconj (al j)) (ent (sL a) j 0)))))).
  Proof.
    intros Ha. exists (driven n (amp idcoeff which a) a), (fun j => kopp (amp idcoeff which a j)).
    assert (forall c : K M, kopp (kopp c) = c) as Hoo.
    { intros c. ring. }
    assert (kopp (@k0 M) = k0) as Ho0.
    { ring. }
    split; [apply move_drive_ok; assumption|]. split; [apply ser_system|]. repeat split.
    - intros j Hj Hc. unfold amp. apply selected_chosen in Hc. rewrite Hc. apply Hoo.
    - intros j Hj Hc. unfold amp. destruct (selected which j) eqn:E; [|exact Ho0]. apply selected_chosen in E. contradiction.
    - intros i j Hi Hj. now apply driven_S.
    - intros j Hj. rewrite <- smul_opp, Hoo. now apply driven_L.
    - rewrite driven_H. f_equal. pose proof (imp_sum n (fun j => kopp (amp idcoeff which a j)) a) as G. cbn beta in G.
      transitivity (imp (bigsum n (fun k => smul (kconj (kopp (kopp (amp idcoeff which a k)))) (Lf a k)))); [|exact G].
      f_equal. apply asum_ext. intros k _. now rewrite Hoo.
  Qed.
  (** the master equation and the Heisenberg equation do not change *)
  Theorem C38_master_equation a b n which rho : system a n -> move_drive_to_H idcoeff kzero which a = Ok b ->
    master_equation b rho = master_equation a rho.
  Proof. intros Ha E. rewrite (move_drive_ok _ _ Hz _ _ n Ha) in E. injection E as <-. now apply driven_master. Qed.
  Theorem C38_heisenberg_equation a b n which x : system a n -> move_drive_to_H idcoeff kzero which a = Ok b ->
    heisenberg_eom b x = heisenberg_eom a x.
  Proof. intros Ha E. rewrite (move_drive_ok _ _ Hz _ _ n Ha) in E. injection E as <-. now apply driven_heis. Qed.
  (** if [idcoeff] is additive and reads off multiples of the identity, the moved
      channels have no drive left, and moving again changes nothing *)
  Theorem C38_drive_removed a b n which :
    (forall x y, idcoeff (aadd x y) = kadd (idcoeff x) (idcoeff y)) -> (forall c, idcoeff (smul c a1) = c) ->
    system a n -> move_drive_to_H idcoeff kzero which a = Ok b ->
    (forall j, j < n -> chosen which j -> idcoeff (ent (sL b) j 0) = k0) /\
    move_drive_to_H idcoeff kzero which b = Ok b.
  Proof.
    intros Hadd Hsc Ha E. rewrite (move_drive_ok _ _ Hz _ _ n Ha) in E. injection E as <-.
    assert (forall j, j < n -> chosen which j -> idcoeff (ent (sL (driven n (amp idcoeff which a) a)) j 0) = k0) as G.
    { intros j Hj Hc. change (idcoeff (Lf (driven n (amp idcoeff which a) a) j) = k0). rewrite driven_L by exact Hj.
      rewrite Hadd, Hsc. unfold amp. apply selected_chosen in Hc. rewrite Hc. ring. }
    split; [exact G|]. assert (system (driven n (amp idcoeff which a) a) n) as Hd by apply ser_system.
    rewrite (move_drive_ok _ _ Hz _ _ n Hd). f_equal. apply driven_zero; [|apply ser_system].
    intros j Hj. unfold amp. destruct (selected which j) eqn:Es; [|reflexivity]. apply selected_chosen in Es.
    change (kopp (idcoeff (ent (sL (driven n (amp idcoeff which a) a)) j 0)) = k0). rewrite (G j Hj Es). ring.
  Qed.
End Drive.

(** ** The hypotheses can be met: operators on a two-level system *)
Ltac byc := apply q2_eqb_eq; vm_compute; reflexivity.
Definition sc (p q : Z) : q2 := smul (a:=CM) (Gq (Q2Qc (p # 5)) (Q2Qc (q # 5))) one2.
Definition ex_a : slh CM :=
  SLH (M:=CM) (Mat 2 2 [[sc 3 0; sc 0 4]; [sc 0 4; sc 3 0]]) (Mat 2 1 [[lower]; [aadd (a:=CM) raise one2]]) pauliz.
Definition ex_b : slh CM := SLH (M:=CM) (Mat 1 1 [[sc 0 5]]) (Mat 1 1 [[aadd (a:=CM) lower pauliz]]) paulix.
Lemma ex_a_physical : physical ex_a 2.
Proof.
  split; [split; repeat split; repeat constructor|]. split; [|split].
  - intros [|[|i]] [|[|j]] Hi Hj; try lia; byc.
  - intros [|[|i]] [|[|j]] Hi Hj; try lia; byc.
  - byc.
Qed.
Lemma ex_b_physical : physical ex_b 1.
Proof.
  split; [split; repeat split; repeat constructor|]. split; [|split].
  - intros [|i] [|j] Hi Hj; try lia; byc.
  - intros [|i] [|j] Hi Hj; try lia; byc.
  - byc.
Qed.
(** the inverse of a multiple of the identity, AlgebraError otherwise *)
Definition qinv (x : gq) : gq :=
  let d := (/ (gre x * gre x + gim x * gim x))%Qc in Gq (gre x * d) (- gim x * d).
Definition ex_inv (x : q2) : res gq :=
  if q2_eqb (amul (a:=CM) (smul (a:=CM) (qinv (q00 x)) a1) x) one2 then Ok (qinv (q00 x)) else Err AlgebraError.
Lemma ex_inv_sound : sound_inv (M:=CM) ex_inv.
Proof.
  intros x w. unfold ex_inv. destruct (q2_eqb _ _) eqn:E; [|discriminate]. intros H. injection H as <-. apply q2_eqb_eq. exact E.
Qed.
Definition res_is {T} (r : res T) : bool := match r with Ok _ => true | Err _ => false end.
(** feedback on the beam splitter with driven emitters is defined for every port
    combination except where S[o, i] is not invertible away from 1 *)
Example C12_nonvacuous : physical ex_a 2 /\ physical ex_b 1 /\ sound_inv (M:=CM) ex_inv /\
  forallb (fun o => forallb (fun i => res_is (slh_feedback (M:=CM) ex_inv ex_a o i)) [0; 1]) [0; 1] = true /\
  res_is (do ab <- concatenate_slh ex_a ex_b; do s <- series_with_slh ab ab; slh_feedback (M:=CM) ex_inv s 0 1) = true /\
  res_is (do s <- perm_to_slh (M:=CM) [0; 1]; slh_feedback (M:=CM) ex_inv s 0 0) = false /\
  res_is (do s <- perm_to_slh (M:=CM) [2; 0; 1]; slh_feedback (M:=CM) ex_inv s 0 0) = true.
Proof.
  split; [exact ex_a_physical|]. split; [exact ex_b_physical|]. split; [exact ex_inv_sound|].
  split; [vm_compute; reflexivity|]. split; [vm_compute; reflexivity|]. split; vm_compute; reflexivity.
Qed.
(** C38: the second Lindblad operator of [ex_a] carries the drive 1 (the diagonal
    mean is an additive reading of the identity coefficient) *)
Definition ex_idc (x : q2) : gq := qmul (Gq half 0%Qc) (qadd (q00 x) (q11 x)).
Example C38_nonvacuous :
  q2_eqb (match move_drive_to_H (M:=CM) ex_idc (fun c => gq_eqb c g0) [] ex_a with Ok b => ent (sL b) 1 0 | Err _ => zero2 end) raise = true /\
  q2_eqb (match move_drive_to_H (M:=CM) ex_idc (fun c => gq_eqb c g0) [0] ex_a with Ok b => ent (sL b) 1 0 | Err _ => zero2 end)
         (aadd (a:=CM) raise one2) = true /\
  (forall c, gq_eqb c g0 = true -> c = (k0 : K CM)) /\
  (forall x y, ex_idc (aadd (a:=CM) x y) = kadd (a:=CM) (ex_idc x) (ex_idc y)) /\ (forall c, ex_idc (smul (a:=CM) c a1) = c).
Proof.
  split; [vm_compute; reflexivity|]. split; [vm_compute; reflexivity|]. split; [intros c; apply gq_eqb_eq|].
  assert (half + half = 1)%Qc as Hh by (apply Qc_is_canon; reflexivity).
  split; [intros x y|intros c]; apply gq_eq; cbn [ex_idc aadd smul a1 alg sal CM CMat2s CMat2 kadd q2add q2smul q00 q11 g0 g1 gre gim qadd qmul].
  - ring.
  - ring.
  - transitivity ((half + half) * gre c)%Qc; [unfold ex_idc; cbn [q00 q11 q2smul g0 g1 gre gim qadd qmul]; ring|rewrite Hh; ring].
  - transitivity ((half + half) * gim c)%Qc; [unfold ex_idc; cbn [q00 q11 q2smul g0 g1 gre gim qadd qmul]; ring|rewrite Hh; ring].
Qed.
(** C09: without an isometric S on the left the series product is not associative *)
Example C09_isometry_needed :
  let a := SLH (M:=CM) (Mat 1 1 [[zero2]]) (Mat 1 1 [[zero2]]) zero2 in
  let b := SLH (M:=CM) (Mat 1 1 [[one2]]) (Mat 1 1 [[lower]]) zero2 in
  let c := SLH (M:=CM) (Mat 1 1 [[one2]]) (Mat 1 1 [[one2]]) zero2 in
  (do ab <- series_with_slh a b; series_with_slh ab c) <> (do bc <- series_with_slh b c; series_with_slh a bc).
Proof.
  intros a b c H.
  apply (f_equal (fun r : res (slh CM) => match r with Ok s => q2_eqb (sH s) zero2 | Err _ => false end)) in H.
  vm_compute in H. discriminate.
Qed.

Print Assumptions C09_series_assoc.
Print Assumptions C09_series_generator.
Print Assumptions C09_generator_faithful.
Print Assumptions C09_permutation_series.
Print Assumptions C10_interchange.
Print Assumptions C11_two_sided_inverse.
Print Assumptions C11_inverse_unique.
Print Assumptions C12_feedback_physical.
Print Assumptions C12_loop_elimination.
Print Assumptions C12_feedback_ports.
Print Assumptions C12_feedback_pull_out_left.
Print Assumptions C12_feedback_pull_out_right.
Print Assumptions C12_feedback_of_permutation.
Print Assumptions C12_feedback_inverse.
Print Assumptions C38_result.
Print Assumptions C38_master_equation.
Print Assumptions C38_heisenberg_equation.
Print Assumptions C38_drive_removed.
