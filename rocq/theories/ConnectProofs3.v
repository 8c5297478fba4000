(** Wiring SLH systems: the fields. *)
From Coq Require Import Permutation.
From Verif Require Import Prelude ListFacts PermModel PermSpec PermProofs1 PermProofs3 PermProofs4 AlgSpec CAlg NcRing MatModel SlhModel MatProofs MatSpec CircModel CircSpec CircProofs1 CircProofs2 SlhProofs1 SlhProofs2 SlhProofs3 SlhProofs4 SlhProofs5 SlhProofs6 SlhProofs7 SlhProofs8 ConnectModel ConnectSpec ConnectProofs1 ConnectProofs2.

Section W.
  Context {M : calgebra}.
  Add Ring KrW : (kring M).
  Notation A := (A M). Notation K := (K M). Notation slh := (slh M).
  Notation "x + y" := (aadd x y). Notation "x * y" := (amul x y).
  Notation sm := (@bigsum M).
  Local Notation pdelta := (@pdelta M).
  Implicit Types (a b : slh) (n : nat) (x y : ix -> A).

  Lemma apply_ext n G G' x x' i : (forall j, inb n j -> G i j = G' i j) -> (forall j, inb n j -> x j = x' j) -> apply_gen n G x i = apply_gen n G' x' i.
  Proof. intros H1 H2. apply asum_ext. intros k Hk. apply in_ixs in Hk. now rewrite H1, H2. Qed.
  Lemma apply_ser n a b x i : iso n (Sf a) -> inb n i -> apply_gen n (bel n (ser n a b)) x i = apply_gen n (bel n a) (apply_gen n (bel n b) x) i.
  Proof.
    intros Ha Hi. rewrite (apply_ext n _ (xm n (bel n a) (bel n b)) x x i) by (intros; try reflexivity; now apply bel_ser).
    unfold apply_gen. exact (xm_assoc n (bel n a) (bel n b) (fun j _ => x j) i iB Hi Logic.I).
  Qed.
  Lemma apply_prm p x : is_perm p ->
    apply_gen (length p) (bel (length p) (prm p)) x iT = x iT /\ apply_gen (length p) (bel (length p) (prm p)) x iB = x iB /\
    forall k, k < length p -> apply_gen (length p) (bel (length p) (prm p)) x (iC (nth k p 0)) = x (iC k).
  Proof.
    intros Hp. set (n := length p).
    assert (forall f, dot n (Lf (prm p)) f = @a0 M) as Hd.
    { intros f. unfold dot. apply sm_zero. intros k Hk. rewrite Lf_prm by exact Hk. rewrite star_0. apply amul_0l. }
    split; [|split].
    - rewrite apply_ixs. cbn [bel]. rewrite sm_zero.
      + rewrite Hd, sH_prm, smul_zero, smul_zero, amul_1l. rewrite (aadd_0 M), aopp_0 || idtac. ncr.
      + intros k Hk. rewrite Hd. ncr.
    - rewrite apply_ixs. cbn [bel]. rewrite sm_zero; [ncr|]. intros k Hk. ncr.
    - intros k Hk. rewrite apply_ixs. cbn [bel]. rewrite Lf_prm by (apply is_perm_nth_lt; assumption).
      assert (sm n (fun l => Sf (prm p) (nth k p 0) l * x (iC l)) = x (iC k)) as ->.
      { rewrite <- (mv_pdelta n p (fun l => x (iC l)) k Hp eq_refl Hk). apply sm_ext. intros l Hl. f_equal. apply Sf_prm; [apply is_perm_nth_lt; assumption|exact Hl]. }
      ncr.
  Qed.

  (** the new number of the old port *)
  Definition kept (o : nat) (j : ix) : ix := match j with iC k => iC (keep o k) | _ => j end.
  Lemma inb_kept n o j : o <= n -> inb n j -> inb (S n) (kept o j).
  Proof. intros Ho. destruct j as [| |k]; cbn; [tauto|tauto|]. unfold keep. destruct (Nat.ltb_spec k o); lia. Qed.
  Lemma apply_ports n a o i x : phys (S n) a -> o <= n -> i <= n ->
    let y := fun j => x (match j with iC l => iC (nth l (m_in i (S n)) 0) | _ => j end) in
    (forall j, inb n j -> apply_gen (S n) (bel (S n) (ports n a o i)) y j = apply_gen (S n) (bel (S n) a) x (kept o j)) /\
    apply_gen (S n) (bel (S n) (ports n a o i)) y (iC n) = apply_gen (S n) (bel (S n) a) x (iC o).
  Proof.
    intros Ha Ho Hi y. pose proof (m_out_perm o (S n) ltac:(lia)) as P1. pose proof (m_in_perm i (S n) ltac:(lia)) as P2.
    pose proof (m_out_length o (S n)) as L1. pose proof (m_in_length i (S n)) as L2.
    pose proof (phys_prm _ P1 : phys _ (prm (M:=M) (m_out o (S n)))) as F1. rewrite L1 in F1.
    assert (phys (S n) (ser (S n) (prm (m_out o (S n))) a)) as F2 by (now apply phys_ser).
    assert (forall j, inb (S n) j -> apply_gen (S n) (bel (S n) (prm (m_in i (S n)))) y j = x j) as Hy.
    { pose proof (apply_prm (m_in i (S n)) y P2) as (T1 & T2 & T3). rewrite L2 in *. intros [| |k] Hk; [exact T1|exact T2|].
      destruct (perm_surj _ (S n) k P2 L2 Hk) as (l & Hl & <-). rewrite T3 by exact Hl. reflexivity. }
    assert (forall j, inb (S n) j -> apply_gen (S n) (bel (S n) (ports n a o i)) y j
      = apply_gen (S n) (bel (S n) (prm (m_out o (S n)))) (apply_gen (S n) (bel (S n) a) x) j) as E.
    { intros j Hj. unfold ports. rewrite apply_ser by (try exact Hj; apply F2). rewrite (apply_ext (S n) _ _ _ x j) by (first [exact Hy|reflexivity]).
      apply apply_ser; [apply F1|exact Hj]. }
    pose proof (apply_prm (m_out o (S n)) (apply_gen (S n) (bel (S n) a) x) P1) as (T1 & T2 & T3). rewrite L1 in *.
    split.
    - intros j Hj. rewrite E by (destruct j; cbn in *; lia). destruct j as [| |k]; [exact T1|exact T2|]. cbn [kept inb] in *.
      pose proof (inb_kept n o (iC k) Ho Hj) as Hk. cbn [kept inb] in Hk. rewrite <- (T3 (keep o k) Hk). do 2 f_equal.
      rewrite m_out_nth by exact Hk. unfold keep, drop. destruct (Nat.ltb_spec k o); [destruct (Nat.eqb_spec k o); [lia|]; destruct (Nat.ltb_spec k o); lia|].
      destruct (Nat.eqb_spec (S k) o); [lia|]. destruct (Nat.ltb_spec (S k) o); lia.
    - rewrite E by (cbn; lia). rewrite <- (T3 o) by lia. do 2 f_equal. rewrite m_out_nth by lia. rewrite Nat.eqb_refl. lia.
  Qed.

  Context (inv : A -> res K) (Hinv : sound_inv inv).
  Lemma feedback_fields n a o i b x : phys (S n) a -> o <= n -> i <= n -> slh_feedback inv a o i = Ok b ->
    x (iC i) = apply_gen (S n) (bel (S n) a) x (iC o) ->
    forall j, inb n j -> apply_gen n (bel n b) (fun j => x (kept i j)) j = apply_gen (S n) (bel (S n) a) x (kept o j).
  Proof.
    intros Ha Ho Hi E Hx j Hj. destruct (apply_ports n a o i x Ha Ho Hi) as [H1 H2]. cbn zeta in H1, H2.
    set (y := fun j => x (match j with iC l => iC (nth l (m_in i (S n)) 0) | _ => j end)) in *.
    rewrite (slh_feedback_ok inv n a o i (proj1 Ha) Ho Hi) in E. destruct (inv _) as [w|e] eqn:Ew; [|discriminate]. cbn [bind] in E. injection E as <-.
    assert (invs (Sf (ports n a o i) n n) (smul w a1)) as Hy by (apply invs_scal; exact (Hinv _ _ Ew)).
    rewrite <- H1 by exact Hj. rewrite <- (loop_elim n (ports n a o i) (smul w a1) y (proj1 (proj2 (phys_ports n a o i Ha Ho Hi))) Hy); [|
      |exact Hj].
    - apply apply_ext; [reflexivity|]. intros [| |k] Hk; cbn [kept]; [reflexivity|reflexivity|]. unfold y. cbn [inb] in Hk. rewrite m_in_nth by lia.
      destruct (Nat.eqb_spec k (S n - 1)); [lia|reflexivity].
    - rewrite H2, <- Hx. unfold y. rewrite m_in_nth by lia. destruct (Nat.eqb_spec n (S n - 1)); [reflexivity|lia].
  Qed.
  (** the field inside the loop, from the fields at the other inputs *)
  Lemma feedback_solve n a o i b x : phys (S n) a -> o <= n -> i <= n -> slh_feedback inv a o i = Ok b ->
    exists v, let x' := fun j => match j with iC k => if k =? i then v else x j | _ => x j end in
      x' (iC i) = apply_gen (S n) (bel (S n) a) x' (iC o).
  Proof.
    intros Ha Ho Hi E. rewrite (slh_feedback_ok inv n a o i (proj1 Ha) Ho Hi) in E. destruct (inv _) as [w|e] eqn:Ew; [|discriminate].
    assert (invs (Sf a o i) (smul w a1)) as Hy.
    { rewrite <- (Sf_ports_nn n a o i Ho Hi). apply invs_scal. exact (Hinv _ _ Ew). }
    set (y := smul w a1) in *. clear E Ew.
    set (x0 := fun j => match j with iC k => if k =? i then a0 else x j | _ => x j end).
    exists (y * apply_gen (S n) (bel (S n) a) x0 (iC o)). set (v := y * _). intros x'.
    assert (apply_gen (S n) (bel (S n) a) x' (iC o) = apply_gen (S n) (bel (S n) a) x0 (iC o) + Sf a o i * v) as ->.
    { rewrite !apply_ixs. unfold x', x0. cbn [bel].
      rewrite <- (sm_delta_r (S n) i (fun k => Sf a o k) ltac:(lia)) at 1. rewrite <- sm_mul_r.
      match goal with |- _ + (_ + sm _ ?f) = _ + (_ + sm _ ?g) + sm _ ?h => assert (sm (S n) f = sm (S n) g + sm (S n) h) as -> end; [|ncr].
      rewrite <- sm_add. apply sm_ext. intros k Hk. unfold delta. destruct (k =? i); ncr. }
    unfold x'. rewrite Nat.eqb_refl. set (r := apply_gen (S n) (bel (S n) a) x0 (iC o)) in *.
    assert ((a1 + aopp (Sf a o i)) * v = r) as E by (unfold v; rewrite amul_assoc, (proj1 Hy); apply amul_1l).
    rewrite <- E. ncr.
  Qed.

  (** ** wiring named ports *)
  Local Notation wire := (wire inv).
  Lemma port_cut l1 (z : nat) l2 n j : length (l1 ++ l2) = n -> inb n j -> port (l1 ++ l2) j = port (l1 ++ z :: l2) (kept (length l1) j).
  Proof.
    intros Hn. destruct j as [| |k]; cbn [port kept inb]; [reflexivity|reflexivity|]. intros Hk. f_equal. unfold keep.
    destruct (Nat.ltb_spec k (length l1)); [now rewrite !app_nth1 by lia|]. rewrite app_nth2 by lia. rewrite app_nth2 by lia.
    replace (S k - length l1) with (S (k - length l1)) by lia. reflexivity.
  Qed.
  Lemma port_at l1 (z : nat) l2 : port (l1 ++ z :: l2) (iC (length l1)) = iC z.
  Proof. cbn [port]. now rewrite nth_middle. Qed.
  Lemma wire_cons a outs ins o i ws t : NoDup outs -> NoDup ins -> wire a outs ins ((o, i) :: ws) = Ok t ->
    exists o1 o2 i1 i2 b, outs = o1 ++ o :: o2 /\ ins = i1 ++ i :: i2 /\ ~ In o (o1 ++ o2) /\ ~ In i (i1 ++ i2) /\
      slh_feedback inv a (length o1) (length i1) = Ok b /\ wire b (o1 ++ o2) (i1 ++ i2) ws = Ok t.
  Proof.
    intros No Ni H. cbn [ConnectSpec.wire] in H.
    destruct (index_of o outs) as [p|] eqn:E1; [|discriminate]. cbn [of_option bind] in H.
    destruct (index_of i ins) as [q|] eqn:E2; [|discriminate]. cbn [of_option bind] in H.
    destruct (remove_first o outs) as [outs'|] eqn:E3; [|discriminate]. cbn [of_option bind] in H.
    destruct (remove_first i ins) as [ins'|] eqn:E4; [|discriminate]. cbn [of_option bind] in H.
    destruct (remove_first_split _ _ _ No E3) as (o1 & o2 & -> & -> & F1 & G1). destruct (remove_first_split _ _ _ Ni E4) as (i1 & i2 & -> & -> & F2 & G2).
    rewrite F1 in E1. rewrite F2 in E2. injection E1 as <-. injection E2 as <-.
    destruct (slh_feedback inv a (length o1) (length i1)) as [b|e] eqn:E; [|discriminate]. cbn [bind] in H. now exists o1, o2, i1, i2, b.
  Qed.
  Lemma wire_lengths l1 (z : nat) l2 n : length (l1 ++ z :: l2) = n -> exists k, n = S k /\ length (l1 ++ l2) = k /\ length l1 <= k.
  Proof. intros <-. exists (length (l1 ++ l2)). rewrite !app_length. cbn [length]. lia. Qed.
  Lemma wire_phys ws : forall n a outs ins t, phys n a -> NoDup outs -> NoDup ins -> length outs = n -> length ins = n -> wire a outs ins ws = Ok t ->
    length ws <= n /\ phys (n - length ws) t /\ length (rest_of outs (map fst ws)) = Nat.sub n (length ws) /\ length (rest_of ins (map snd ws)) = Nat.sub n (length ws) /\
    NoDup (map fst ws) /\ NoDup (map snd ws) /\ incl (map fst ws) outs /\ incl (map snd ws) ins.
  Proof.
    induction ws as [|[o i] ws IH]; intros n a outs ins t Ha No Ni Lo Li H.
    - cbn in H. injection H as <-. cbn [length map]. rewrite !rest_nil, Nat.sub_0_r. do 4 (split; [first [lia|assumption]|]). split; [constructor|]. split; [constructor|]. split; intros ? [].
    - destruct (wire_cons _ _ _ _ _ _ _ No Ni H) as (o1 & o2 & i1 & i2 & b & -> & -> & Go & Gi & E & Hw).
      destruct (wire_lengths _ _ _ _ Lo) as (k & -> & Lo' & Ho). destruct (wire_lengths _ _ _ _ Li) as (k' & Ek & Li' & Hi). injection Ek as <-.
      assert (phys k b) as Hb.
      { rewrite (slh_feedback_ok inv k a _ _ (proj1 Ha) Ho Hi) in E. destruct (inv _) as [w|e] eqn:Ew; [|discriminate]. cbn [bind] in E. injection E as <-.
        apply phys_fbl; [now apply phys_ports|]. apply invs_scal. exact (Hinv _ _ Ew). }
      destruct (IH k b _ _ t Hb (NoDup_remove_1 _ _ _ No) (NoDup_remove_1 _ _ _ Ni) Lo' Li' Hw) as (R1 & R2 & R3 & R4 & R5 & R6 & R7 & R8).
      cbn [length map fst snd]. rewrite !rest_cut by assumption. change (Nat.sub (S k) (S (length ws))) with (Nat.sub k (length ws)).
      split; [lia|]. split; [exact R2|]. split; [exact R3|]. split; [exact R4|]. split; [|split; [|split]].
      + constructor; [intros C; apply Go, R7, C|exact R5].
      + constructor; [intros C; apply Gi, R8, C|exact R6].
      + intros z [<-|Hz]; [apply in_elt|]. apply R7 in Hz. apply in_app_or in Hz. apply in_or_app. cbn [In]. tauto.
      + intros z [<-|Hz]; [apply in_elt|]. apply R8 in Hz. apply in_app_or in Hz. apply in_or_app. cbn [In]. tauto.
  Qed.
  (** fields [x] at the named inputs and [y] at the named outputs *)
  Lemma wire_fields ws : forall n a outs ins t x y, phys n a -> NoDup outs -> NoDup ins -> length outs = n -> length ins = n -> wire a outs ins ws = Ok t ->
    (forall j, inb n j -> apply_gen n (bel n a) (fun j => x (port ins j)) j = y (port outs j)) ->
    (forall o i, In (o, i) ws -> x (iC i) = y (iC o)) ->
    forall m, m = Nat.sub n (length ws) -> forall j, inb m j ->
      apply_gen m (bel m t) (fun j => x (port (rest_of ins (map snd ws)) j)) j = y (port (rest_of outs (map fst ws)) j).
  Proof.
    induction ws as [|[o i] ws IH]; intros n a outs ins t x y Ha No Ni Lo Li H Hxy Hw m Hm j Hj.
    - cbn in H. injection H as <-. cbn [length map] in *. rewrite Nat.sub_0_r in Hm. subst m. rewrite !rest_nil. now apply Hxy.
    - destruct (wire_cons _ _ _ _ _ _ _ No Ni H) as (o1 & o2 & i1 & i2 & b & -> & -> & Go & Gi & E & Ht).
      destruct (wire_lengths _ _ _ _ Lo) as (k & -> & Lo' & Ho). destruct (wire_lengths _ _ _ _ Li) as (k' & Ek & Li' & Hi). injection Ek as <-.
      assert (phys k b) as Hb.
      { rewrite (slh_feedback_ok inv k a _ _ (proj1 Ha) Ho Hi) in E. destruct (inv _) as [w|e] eqn:Ew; [|discriminate]. cbn [bind] in E. injection E as <-.
        apply phys_fbl; [now apply phys_ports|]. apply invs_scal. exact (Hinv _ _ Ew). }
      cbn [map fst snd]. rewrite !rest_cut by assumption.
      apply (IH k b _ _ t x y Hb (NoDup_remove_1 _ _ _ No) (NoDup_remove_1 _ _ _ Ni) Lo' Li' Ht); [|intros o' i' Hin; apply Hw; now right|exact Hm|exact Hj].
      intros j' Hj'. rewrite (port_cut o1 o o2 k j' Lo' Hj'). rewrite <- Hxy by (now apply inb_kept).
      rewrite <- (feedback_fields k a (length o1) (length i1) b (fun j => x (port (i1 ++ i :: i2) j)) Ha Ho Hi E); [| |exact Hj'].
      + apply apply_ext; [reflexivity|]. intros l Hl. f_equal. now apply (port_cut i1 i i2 k).
      + rewrite Hxy by (cbn; lia). rewrite !port_at. apply Hw. now left.
  Qed.
  (** all external inputs can be chosen freely *)
  Lemma wire_solve ws : forall n a outs ins t z, phys n a -> NoDup outs -> NoDup ins -> length outs = n -> length ins = n -> wire a outs ins ws = Ok t ->
    exists x y, (forall j, inb n j -> apply_gen n (bel n a) (fun j => x (port ins j)) j = y (port outs j)) /\
      (forall o i, In (o, i) ws -> x (iC i) = y (iC o)) /\
      x iT = z iT /\ x iB = z iB /\ forall k, ~ In k (map snd ws) -> x (iC k) = z (iC k).
  Proof.
    induction ws as [|[o i] ws IH]; intros n a outs ins t z Ha No Ni Lo Li H.
    - cbn in H. injection H as <-. set (Y := apply_gen n (bel n a) (fun j => z (port ins j))).
      exists z, (fun j => match j with iC k => Y (iC (idx k outs)) | _ => Y j end).
      split; [|repeat split; intros; contradiction]. intros j Hj. fold (Y j). destruct j as [| |k]; cbn [port]; try reflexivity. rewrite idx_at; [reflexivity|exact No|]. cbn in Hj. lia.
    - destruct (wire_cons _ _ _ _ _ _ _ No Ni H) as (o1 & o2 & i1 & i2 & b & -> & -> & Go & Gi & E & Ht).
      destruct (wire_lengths _ _ _ _ Lo) as (k & -> & Lo' & Ho). destruct (wire_lengths _ _ _ _ Li) as (k' & Ek & Li' & Hi). injection Ek as <-.
      assert (phys k b) as Hb.
      { rewrite (slh_feedback_ok inv k a _ _ (proj1 Ha) Ho Hi) in E. destruct (inv _) as [w|e] eqn:Ew; [|discriminate]. cbn [bind] in E. injection E as <-.
        apply phys_fbl; [now apply phys_ports|]. apply invs_scal. exact (Hinv _ _ Ew). }
      destruct (IH k b _ _ t z Hb (NoDup_remove_1 _ _ _ No) (NoDup_remove_1 _ _ _ Ni) Lo' Li' Ht) as (x & y & X1 & X2 & X3 & X4 & X5).
      pose proof (wire_phys ws k b _ _ t Hb (NoDup_remove_1 _ _ _ No) (NoDup_remove_1 _ _ _ Ni) Lo' Li' Ht) as (_ & _ & _ & _ & _ & _ & If & Is).
      destruct (feedback_solve k a (length o1) (length i1) b (fun j => x (port (i1 ++ i :: i2) j)) Ha Ho Hi E) as [v Hv]. cbn zeta beta iota in Hv. rewrite Nat.eqb_refl in Hv.
      set (x' := fun j => match j with iC l => if l =? i then v else x j | _ => x j end).
      assert (forall j, inb (S k) j -> match j with iC k0 => if k0 =? length i1 then v else x (port (i1 ++ i :: i2) j) | _ => x (port (i1 ++ i :: i2) j) end = x' (port (i1 ++ i :: i2) j)) as Hx'.
      { intros [| |l] Hl; try reflexivity. cbn [port]. unfold x'. destruct (Nat.eqb_spec l (length i1)) as [->|Hne]; [now rewrite nth_middle, Nat.eqb_refl|].
        destruct (Nat.eqb_spec (nth l (i1 ++ i :: i2) 0) i) as [Heq|]; [|reflexivity]. destruct Hne.
        apply (proj1 (NoDup_nth (i1 ++ i :: i2) 0) Ni); [rewrite Li; exact Hl|lia|]. now rewrite nth_middle. }
      set (Y := apply_gen (S k) (bel (S k) a) (fun j => x' (port (i1 ++ i :: i2) j))).
      assert (v = Y (iC (length o1))) as Hv'.
      { rewrite Hv at 1. apply apply_ext; [reflexivity|]. exact Hx'. }
      assert (forall j, inb k j -> y (port (o1 ++ o2) j) = Y (kept (length o1) j)) as HY.
      { intros j Hj. rewrite <- X1 by exact Hj. unfold Y.
        rewrite <- (feedback_fields k a (length o1) (length i1) b (fun j => x' (port (i1 ++ i :: i2) j)) Ha Ho Hi E); [| |exact Hj].
        - apply apply_ext; [reflexivity|]. intros l Hl. rewrite (port_cut i1 i i2 k l Li' Hl). destruct l as [| |l]; try reflexivity. cbn [kept port]. unfold x'.
          pose proof (port_cut i1 i i2 k (iC l) Li' Hl) as Epc. cbn [port kept] in Epc. injection Epc as Epc. rewrite <- Epc.
          destruct (Nat.eqb_spec (nth l (i1 ++ i2) 0) i) as [Heq|]; [|reflexivity]. destruct Gi. rewrite <- Heq. apply nth_In. cbn [inb] in Hl. lia.
        - fold Y. rewrite port_at. unfold x'. rewrite Nat.eqb_refl. exact Hv'. }
      exists x', (fun j => match j with iC l => Y (iC (idx l (o1 ++ o :: o2))) | _ => Y j end).
      split; [|split; [|split; [exact X3|split; [exact X4|]]]].
      + intros j Hj. fold (Y j). destruct j as [| |l]; try reflexivity. cbn [port]. rewrite idx_at; [reflexivity|exact No|]. cbn [inb] in Hj. lia.
      + intros o' i' [Heq|Hin].
        * injection Heq as <- <-. unfold x'. rewrite Nat.eqb_refl. rewrite Hv'. do 2 f_equal. rewrite <- (nth_middle o1 o2 o 0) at 1. symmetry. apply idx_at; [exact No|]. rewrite app_length. cbn [length]. lia.
        * assert (In o' (o1 ++ o2)) as Io by (apply If; apply (in_map fst) in Hin; exact Hin). assert (In i' (i1 ++ i2)) as Ii by (apply Is; apply (in_map snd) in Hin; exact Hin).
          unfold x'. destruct (Nat.eqb_spec i' i) as [->|]; [contradiction|]. rewrite (X2 o' i' Hin).
          pose proof (idx_lt o' _ Io) as Lt. rewrite Lo' in Lt. pose proof (HY (iC (idx o' (o1 ++ o2))) Lt) as G. cbn [port kept] in G. rewrite idx_nth in G by exact Io. rewrite G. do 2 f_equal.
          symmetry. apply idx_cut; [intros ->; contradiction|exact Io|exact No].
      + intros l Hl. cbn [map snd In] in Hl. unfold x'. destruct (Nat.eqb_spec l i) as [->|]; [tauto|]. apply X5. tauto.
  Qed.

  (** ** from the system with all its ports *)
  Lemma others_rest n used : others n used = rest_of (seq 0 n) used.
  Proof. reflexivity. Qed.
  Lemma port_seq n j : inb n j -> port (seq 0 n) j = j.
  Proof. destruct j as [| |k]; cbn [port inb]; [reflexivity|reflexivity|]. intros Hk. now rewrite seq_nth. Qed.
  Lemma wire_networks n a ws t : phys n a -> wire a (seq 0 n) (seq 0 n) ws = Ok t -> networks n a ws t.
  Proof.
    intros Ha H. pose proof (wire_phys ws n a _ _ t Ha (seq_NoDup n 0) (seq_NoDup n 0) (seq_length n 0) (seq_length n 0) H) as (_ & Ht & _).
    split; [exact (proj1 Ht)|]. intros x Hx j Hj. rewrite !others_rest.
    rewrite <- bel_generator. rewrite (wire_fields ws n a (seq 0 n) (seq 0 n) t x (apply_gen n (bel n a) x) Ha (seq_NoDup n 0) (seq_NoDup n 0) (seq_length n 0) (seq_length n 0) H); [reflexivity| | |reflexivity|exact Hj].
    - intros j' Hj'. rewrite (port_seq n j' Hj'). apply apply_ext; [reflexivity|]. intros l Hl. now rewrite (port_seq n l Hl).
    - exact Hx.
  Qed.
  Lemma networks_unique n a ws t t' : phys n a -> wire a (seq 0 n) (seq 0 n) ws = Ok t -> networks n a ws t' -> t' = t.
  Proof.
    intros Ha H [Hs' Hn']. destruct (wire_networks n a ws t Ha H) as [Hs Hn].
    pose proof (wire_phys ws n a _ _ t Ha (seq_NoDup n 0) (seq_NoDup n 0) (seq_length n 0) (seq_length n 0) H) as (_ & _ & _ & Lr & _ & Ns & _ & Is).
    rewrite others_rest in Hn, Hn'. set (R := rest_of (seq 0 n) (map snd ws)) in *. set (m := Nat.sub n (length ws)) in *.
    apply (bel_inj m _ _ Hs' Hs). intros i j Hi Hj.
    (* the unit vector at j *)
    set (u := fun l : ix => match l, j with iT, iT => a1 | iB, iB => a1 | iC k, iC k' => @delta M k k' | _, _ => a0 end).
    assert (forall G : ix -> ix -> A, apply_gen m G u i = G i j) as Hu.
    { intros G. rewrite apply_ixs. unfold u. destruct j as [| |k']; cbn [inb] in Hj.
      - rewrite sm_zero by (intros; apply amul_0r). ncr.
      - rewrite sm_zero by (intros; apply amul_0r). ncr.
      - rewrite (sm_delta_r m k' (fun k => G i (iC k)) Hj). ncr. }
    set (z := fun l : ix => match l with iC k => u (iC (idx k R)) | _ => u l end).
    destruct (wire_solve ws n a (seq 0 n) (seq 0 n) t z Ha (seq_NoDup n 0) (seq_NoDup n 0) (seq_length n 0) (seq_length n 0) H) as (x & y & X1 & X2 & X3 & X4 & X5).
    assert (forall l, inb n l -> apply_gen n (bel n a) x l = y l) as X1'.
    { intros l Hl. rewrite <- (port_seq n l Hl) at 2. rewrite <- X1 by exact Hl. apply apply_ext; [reflexivity|]. intros l' Hl'. now rewrite (port_seq n l' Hl'). }
    pose proof (wire_phys ws n a _ _ t Ha (seq_NoDup n 0) (seq_NoDup n 0) (seq_length n 0) (seq_length n 0) H) as (_ & _ & _ & _ & _ & _ & If & _).
    assert (forall o i, In (o, i) ws -> x (iC i) = apply_gen n (generator n a) x (iC o)) as Hc.
    { intros o i' Hin. rewrite <- bel_generator, X1'; [now apply X2|]. apply (in_map fst) in Hin. apply If in Hin. apply in_seq in Hin. cbn in *. lia. }
    assert (forall G, apply_gen m G (fun j => x (port R j)) i = G i j) as Hx.
    { intros G. rewrite <- Hu. apply apply_ext; [reflexivity|]. intros [| |k] Hk; cbn [port]; [exact X3|exact X4|]. cbn [inb] in Hk.
      rewrite X5. - unfold z. rewrite idx_at; [reflexivity|apply NoDup_filter, seq_NoDup|lia].
      - assert (In (nth k R 0) R) as G' by (apply nth_In; lia). apply in_rest in G'. tauto. }
    rewrite <- (Hx (bel m t')), <- (Hx (bel m t)). rewrite (bel_generator m t'), (bel_generator m t). rewrite (Hn' x Hc i Hi), (Hn x Hc i Hi). reflexivity.
  Qed.
  Lemma others_perm n u u' : Permutation u u' -> others n u = others n u'.
  Proof.
    intros H. apply filter_ext. intros x. f_equal. apply eq_iff_eq_true. rewrite !existsb_exists.
    split; intros (y & Hy & E); exists y; (split; [|exact E]); [now apply (Permutation_in y H)|now apply (Permutation_in y (Permutation_sym H))].
  Qed.
  Lemma networks_perm n a ws ws' t : Permutation ws ws' -> networks n a ws t -> networks n a ws' t.
  Proof.
    intros H [Hs Hn]. pose proof (Permutation_length H) as L. unfold networks. rewrite <- L.
    rewrite <- (others_perm n _ _ (Permutation_map fst H)), <- (others_perm n _ _ (Permutation_map snd H)). split; [exact Hs|].
    intros x Hx. apply Hn. intros o i Hin. apply Hx. now apply (Permutation_in _ H).
  Qed.
End W.
