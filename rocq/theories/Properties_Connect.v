(** C15: [connect] builds the network that the list of connections describes. *)
From Coq Require Import QArith Qcanon Permutation.
From Verif Require Import Prelude ListFacts PermModel PermSpec PermProofs1 PermProofs4 CircModel CircSpec CircProofs1 CircProofs2 CSimpModel CSimpSpec CSimpProofs3 CSimpProofs4 CSimpProofs5 CSimpProofs6.
From Verif Require Import AlgSpec CAlg CInst NcRing MatModel SlhModel MatSpec MatProofs SlhProofs1 SlhProofs2 SlhProofs3 SlhProofs4 SlhProofs5 SlhProofs6 SlhProofs7 SlhProofs8 CSimpSlh ToSlhModel ToSlhSpec ToSlhProofs CSimpProofs7 CSimpFuel Properties_Slh Properties_Circuit.
From Verif Require Import ConnectModel ConnectSpec ConnectProofs1 ConnectProofs2 ConnectProofs3 BasisProofs.
Local Open Scope nat_scope.

Section C15.
  Context {M : calgebra} (comp : nat -> nat -> res (slh M)) (inv : A M -> res (K M)) (slh_eq : slh M -> slh M -> bool).
  Context (Hinv : sound_inv inv) (Heq : forall s t, slh_eq s t = true -> s = t).
  Context (portsin portsout : circ (slh M) -> option (list nat)).
  Local Notation circ := (circ (slh M)).
  Local Notation lit := (slh_lits M inv slh_eq).
  Local Notation toSLH := (to_slh comp inv).
  Local Notation valid := (valid comp).
  Local Notation mean := (mean (slh_model M) (symd comp) ldend).
  Local Notation cmean := (cmean (slh_model M) (symd comp) ldend).
  Local Notation connect := (connect lit portsin portsout toSLH).
  Local Notation refers := (refers lit portsin portsout).
  Local Notation labels_fit := (labels_fit portsin portsout).
  Implicit Types (c d r : circ) (s t : slh M).

  Lemma HLs n (a b b' : slh M) : phys n a -> phys (S n) b -> closes M n b b' -> closes M n (ser (S n) (cat n 1 a (prm [0])) b) (ser n a b').
  Proof.
    intros (_ & Ha & _) _ (y & Hy & ->). rewrite id1. exists y. split; [now rewrite Sf_cat1_ser|]. symmetry. now apply fb_ser_l.
  Qed.
  Lemma HRs n (a b b' : slh M) : phys n a -> phys (S n) b -> closes M n b b' -> closes M n (ser (S n) b (cat n 1 a (prm [0]))) (ser n b' a).
  Proof.
    intros _ (_ & Hb & _) (y & Hy & ->). rewrite id1. exists y. split; [now rewrite Sf_ser_cat1|]. symmetry. now apply fb_ser_r.
  Qed.

  (** the code's steps, from the right *)
  Lemma sbs_cmean ops ss : Forall valid ops -> Forall2 (fun c s => toSLH c = Ok s) ops ss -> forall n a s, phys n a -> side_by_side a ss = Ok s ->
    exists m b, cmean ops m b /\ m = sum (map cdim ops) /\ s = cat n m a b.
  Proof.
    intros Hv HF. induction HF as [|c s0 ops ss Hc HF IH]; intros n a s Ha Hs.
    - cbn in Hs. injection Hs as <-. exists 0, (prm []). split; [constructor|]. split; [reflexivity|]. symmetry. exact (cat_0_r (slh_model M) n a Ha).
    - pose proof (Forall_inv Hv) as Vc. apply Forall_inv_tail in Hv. cbn [side_by_side] in Hs.
      pose proof (ev_mean comp inv Hinv _ Vc _ Hc) as Mc. pose proof (mean_ok _ _ _ _ _ _ Mc) as Pc.
      rewrite (concat_ok a s0 n (cdim c)) in Hs; [|apply Ha|apply Pc]. cbn [bind] in Hs.
      destruct (IH Hv (n + cdim c) (cat n (cdim c) a s0) s) as (m & b & Cb & Em & ->); [now apply phys_cat|exact Hs|].
      exists (cdim c + m), (cat (cdim c) m s0 b). split; [now apply (cmean_cons (slh_model M))|]. split; [cbn [map]; rewrite sum_cons; congruence|].
      refine (CSimpSpec.cat_assoc (slh_model M) n (cdim c) m a s0 b Ha Pc _). exact (cmean_ok _ _ _ _ _ _ Cb).
  Qed.
  Lemma all_cmean ops ss s : Forall valid ops -> Forall2 (fun c s => toSLH c = Ok s) ops ss -> all_side_by_side ss = Ok s -> cmean ops (sum (map cdim ops)) s.
  Proof.
    intros Hv HF Hs. destruct HF as [|c s0 ops ss Hc HF]; [discriminate|]. cbn [all_side_by_side] in Hs.
    pose proof (Forall_inv Hv) as Vc. apply Forall_inv_tail in Hv. pose proof (ev_mean comp inv Hinv _ Vc _ Hc) as Mc.
    destruct (sbs_cmean ops ss Hv HF (cdim c) s0 s (mean_ok _ _ _ _ _ _ Mc) Hs) as (m & b & Cb & -> & ->).
    cbn [map]. rewrite sum_cons. now apply (cmean_cons (slh_model M)).
  Qed.
  Lemma refers_lt components cn o i : Forall labels_fit components -> refers components cn (o, i) ->
    o < sum (map cdim components) /\ i < sum (map cdim components).
  Proof.
    intros HL H. destruct cn as [[c1 op] [c2 ip]]. destruct H as (k1 & k2 & d1 & d2 & p & q & _ & N1 & P1 & _ & N2 & P2 & E). injection E as -> ->.
    assert (forall k d p, nth_error components k = Some d -> p < cdim d -> channel components k p < sum (map cdim components)) as G.
    { clear. intros k d p Hk Hp. unfold channel. destruct (nth_error_split _ _ Hk) as (l1 & l2 & -> & <-). rewrite firstn_app, Nat.sub_diag, firstn_all. cbn [firstn].
      rewrite app_nil_r, map_app, sum_app. cbn [map]. rewrite sum_cons. lia. }
    assert (forall labels n x k, names_port labels n x k -> (forall l, labels = Some l -> length l = n) -> k < n) as G2.
    { clear. intros labels n x k H HL. destruct H as [k Hk|l s k -> Hk _]; [exact Hk|]. rewrite <- (HL l eq_refl). apply nth_error_Some. congruence. }
    rewrite Forall_forall in HL. pose proof (HL d1 (nth_error_In _ _ N1)) as L1. pose proof (HL d2 (nth_error_In _ _ N2)) as L2.
    split; [apply (G k1 d1); [exact N1|]|apply (G k2 d2); [exact N2|]]; eapply G2; try eassumption; [apply L1|apply L2].
  Qed.
  Lemma resolve_refers components cns pairs : mapM (resolve lit portsin portsout components (cumsum (0 :: removelast (map cdim components)))) cns = Ok pairs ->
    Forall2 (refers components) cns pairs.
  Proof.
    revert pairs. induction cns as [|cn cns IH]; intros pairs H; cbn [mapM] in H; [injection H as <-; constructor|].
    pose proof (resolve_spec lit portsin portsout components cn) as S1. step H oi E1. step H l E2. injection H as <-. constructor; [exact S1|now apply IH].
  Qed.
  Lemma wire_wires ws : forall n s outs ins t, phys n s -> NoDup outs -> NoDup ins -> length outs = n -> length ins = n -> wire inv s outs ins ws = Ok t ->
    wires (slh_model M) s outs ins ws t.
  Proof.
    induction ws as [|[o i] ws IH]; intros n a outs ins t Ha No Ni Lo Li H.
    - cbn in H. injection H as <-. constructor.
    - destruct (wire_cons inv _ _ _ _ _ _ _ No Ni H) as (o1 & o2 & i1 & i2 & b & -> & -> & Go & Gi & E & Hw).
      destruct (wire_lengths _ _ _ _ Lo) as (k & -> & Lo' & Ho). destruct (wire_lengths _ _ _ _ Li) as (k' & Ek & Li' & Hi). injection Ek as <-.
      pose proof (slh_feedback_loop M inv Hinv k a _ _ b Ha Ho Hi E) as Hl.
      assert (phys k b) as Hb by exact (ok_fb (slh_model M) k _ b (CSimpProofs2.ok_ports (slh_model M) k a _ _ Ha Ho Hi) Hl).
      apply (wires_cons (slh_model M) a o1 o o2 i1 i i2 ws b t k Lo' Li' Hl).
      exact (IH k b _ _ t Hb (NoDup_remove_1 _ _ _ No) (NoDup_remove_1 _ _ _ Ni) Lo' Li' Hw).
  Qed.

  Lemma names_component_fun components x k k' : names_component lit components x k -> names_component lit components x k' -> k = k'.
  Proof.
    intros H H'. destruct H as [k Hk|c d k H1 H2 H3]; inversion H' as [k'' Hk' E|c' d' k'' H1' H2' H3']; subst; [lia|]. symmetry. now apply (H3 k' d').
  Qed.
  Lemma names_port_fun labels n x k k' : names_port labels n x k -> names_port labels n x k' -> k = k'.
  Proof.
    intros H H'. destruct H as [k Hk|l s k -> H2 H3]; inversion H' as [k'' Hk' E|l' s' k'' H1' H2' H3']; subst; [lia|]. injection H1' as <-.
    destruct (Nat.lt_total k k') as [L|[L|L]]; [|exact L|]; exfalso; [exact (H3' _ L H2)|exact (H3 _ L H2')].
  Qed.
  Lemma refers_fun components cn p p' : refers components cn p -> refers components cn p' -> p = p'.
  Proof.
    intros H H'. destruct cn as [[c1 op] [c2 ip]]. destruct H as (k1 & k2 & d1 & d2 & o & i & A1 & A2 & A3 & A4 & A5 & A6 & ->).
    destruct H' as (k1' & k2' & d1' & d2' & o' & i' & B1 & B2 & B3 & B4 & B5 & B6 & ->).
    pose proof (names_component_fun _ _ _ _ A1 B1) as <-. pose proof (names_component_fun _ _ _ _ A4 B4) as <-.
    assert (d1' = d1) as -> by congruence. assert (d2' = d2) as -> by congruence.
    now rewrite (names_port_fun _ _ _ _ _ A3 B3), (names_port_fun _ _ _ _ _ A6 B6).
  Qed.
  Lemma refers_all_fun components cns ps ps' : Forall2 (refers components) cns ps -> Forall2 (refers components) cns ps' -> ps = ps'.
  Proof.
    intros H. revert ps'. induction H as [|cn p cns ps H1 H2 IH]; intros ps' H'; inversion H'; subst; [reflexivity|]. f_equal; [eapply refers_fun; eassumption|now apply IH].
  Qed.

  (** ** The network *)
  (** Whatever [connect] returns (as an expression, or an SLH object if [force_SLH]) evaluates to the
      components side by side with the loops of all connections closed, in the order of the list from the end *)
  Theorem C15_connect components ss connections pairs force_SLH fuel s t r s' :
    Forall valid components -> Forall2 (fun c s => toSLH c = Ok s) components ss -> Forall labels_fit components ->
    Forall2 (refers components) connections pairs -> NoDup (map fst pairs) ->
    let N := sum (map cdim components) in
    all_side_by_side ss = Ok s -> wire inv s (seq 0 N) (seq 0 N) (rev pairs) = Ok t ->
    connect fuel components connections force_SLH = Ok r -> toSLH r = Ok s' -> s' = t /\ networks N s pairs s'.
  Proof.
    intros Hv Hss HL Hcn Nf N Hs Hw Hr Hs'. pose proof (all_cmean _ _ _ Hv Hss Hs) as Cm. fold N in Cm.
    pose proof (cmean_ok _ _ _ _ _ _ Cm) as Ps. change (phys N s) in Ps.
    unfold ConnectModel.connect in Hr. step Hr comb Ec. pose proof (s_concat _ _ _ _ (HK comp inv slh_eq Hinv Heq fuel) _ _ _ _ Cm Ec) as Mc.
    step Hr pairs' Ep. pose proof (refers_all_fun _ _ _ _ (resolve_refers _ _ _ Ep) Hcn) as ->.
    rewrite (mean_cdim _ _ _ _ _ _ Mc) in Hr. rewrite (Forall2_length' _ _ _ Hcn) in Hr.
    assert (forall o i, In (o, i) pairs -> o < N /\ i < N) as Hlt.
    { intros o i Hin. clear - Hin Hcn HL. induction Hcn as [|cn p cns ps H1 H2 IH]; [destruct Hin|]. destruct Hin as [->|Hin]; [exact (refers_lt _ _ _ _ HL H1)|now apply IH]. }
    step Hr im Ei. step Hr om Eo. step Hr x Ex. step Hr y Ey. step Hr v Ev.
    pose proof (wire_phys inv Hinv (rev pairs) N s _ _ t Ps (seq_NoDup N 0) (seq_NoDup N 0) (seq_length N 0) (seq_length N 0) Hw) as (_ & _ & _ & _ & W1 & W2 & W3 & W4).
    rewrite !map_rev in W1, W2. pose proof (NoDup_rev W2) as Ns. rewrite rev_involutive in Ns.
    assert (length pairs = length (map fst pairs)) as Lf by (now rewrite map_length). assert (length pairs = length (map snd pairs)) as Ls by (now rewrite map_length).
    rewrite <- (map_map fst Z.of_nat) in Eo. rewrite Lf in Eo. rewrite <- (map_map snd Z.of_nat) in Ei. rewrite Ls in Ei.
    apply omapping_ok in Eo; [|exact Nf|intros z Hz; apply in_map_iff in Hz; destruct Hz as ([o i] & <- & Hz); apply (Hlt o i Hz)].
    apply imapping_ok in Ei; [|exact Ns|intros z Hz; apply in_map_iff in Hz; destruct Hz as ([o i] & <- & Hz); apply (Hlt o i Hz)].
    rewrite <- !map_rev in *. 
    pose proof (target_names (seq 0 N) _ (seq_NoDup N 0) W1 W3) as So. pose proof (target_names (seq 0 N) _ (seq_NoDup N 0) W2 W4) as Si.
    assert (mean om N (prm (perm_to (seq 0 N) (target (seq 0 N) (map fst (rev pairs)))))) as Mo.
    { subst om. apply (mean_pc (slh_model M)); [now apply perm_to_perm|]. now rewrite perm_to_length, seq_length. }
    assert (mean im N (prm (perm_to (target (seq 0 N) (map snd (rev pairs))) (seq 0 N)))) as Mi.
    { subst im. apply (mean_pc (slh_model M)); [apply perm_to_perm; now apply same_sym|]. rewrite perm_to_length, <- (same_length _ _ Si). apply seq_length. }
    pose proof (k_series2 _ _ _ _ (HK comp inv slh_eq Hinv Heq fuel) _ _ _ _ _ _ Mo Mc Ex) as Mx.
    pose proof (k_series2 _ _ _ _ (HK comp inv slh_eq Hinv Heq fuel) _ _ _ _ _ _ Mx Mi Ey) as My.
    match type of My with CSimpSpec.mean _ _ _ _ _ ?p => assert (mean v N p) as Mv end.
    { destruct force_SLH; [|injection Ev as <-; exact My]. step Ev z Ez. injection Ev as <-.
      pose proof (mean_ev comp inv Hinv _ _ _ _ My Ez) as Eq. pose proof (mean_ok _ _ _ _ _ _ My) as Pz. rewrite <- Eq in *. change (phys N z) in Pz.
      unfold slh_of. cbn [slh_lits x_dim]. rewrite (system_cdim z N (proj1 Pz)). apply (mean_slh (slh_model M) (symd comp) ldend z N); [|exact Pz].
      destruct N; [|lia]. apply mean_zero_inv in My. destruct My as [-> _]. discriminate Ez. }
    pose proof (close_all (slh_model M) (symd comp) ldend HLs HRs _ (HK comp inv slh_eq Hinv Heq fuel) s (seq 0 N) (seq 0 N) (rev pairs) t
      (wire_wires _ N _ _ _ _ Ps (seq_NoDup N 0) (seq_NoDup N 0) (seq_length N 0) (seq_length N 0) Hw) N v r
      (seq_NoDup N 0) (seq_NoDup N 0) (seq_length N 0) (seq_length N 0) Ps W1 W2 W3 W4 Mv) as G.
    rewrite rev_length in G. pose proof (mean_ev comp inv Hinv _ _ _ _ (G Hr) Hs') as ->. split; [reflexivity|].
    apply (networks_perm N s (rev pairs) pairs t); [symmetry; apply Permutation_rev|]. exact (wire_networks inv Hinv N s _ t Ps Hw).
  Qed.
  (** closing loops one by one yields the network of the fields ... *)
  Theorem C15_wire_networks n s wires t : physical s n -> wire inv s (seq 0 n) (seq 0 n) wires = Ok t ->
    networks n s wires t /\ physical t (n - length wires) /\ good_wires n wires.
  Proof.
    intros Hs H. apply phys_spec in Hs. split; [exact (wire_networks inv Hinv n s wires t Hs H)|].
    pose proof (wire_phys inv Hinv wires n s _ _ t Hs (seq_NoDup n 0) (seq_NoDup n 0) (seq_length n 0) (seq_length n 0) H) as (_ & W0 & _ & _ & W1 & W2 & W3 & W4).
    split; [now apply phys_spec|]. split; [exact W1|]. split; [exact W2|]. intros o i Hin.
    pose proof (W3 o (in_map fst _ _ Hin)) as G1. pose proof (W4 i (in_map snd _ _ Hin)) as G2. apply in_seq in G1, G2. lia.
  Qed.
  (** ... which is unique ... *)
  Theorem C15_network_unique n s wires t t' : physical s n -> wire inv s (seq 0 n) (seq 0 n) wires = Ok t -> networks n s wires t' -> t' = t.
  Proof. intros Hs. apply phys_spec in Hs. now apply networks_unique. Qed.
  (** ... so the order of the connections does not matter *)
  Theorem C15_order n s wires wires' t t' : physical s n -> Permutation wires wires' ->
    wire inv s (seq 0 n) (seq 0 n) wires = Ok t -> wire inv s (seq 0 n) (seq 0 n) wires' = Ok t' -> t' = t.
  Proof.
    intros Hs HP H H'. apply phys_spec in Hs. apply (networks_unique inv Hinv n s wires t t' Hs H). apply (networks_perm n s wires' wires t'); [now symmetry|].
    exact (wire_networks inv Hinv n s wires' t' Hs H').
  Qed.
  Theorem C15_connect_order components ss connections connections' pairs pairs' force force' fuel fuel' s t t' r r' u u' :
    Forall valid components -> Forall2 (fun c s => toSLH c = Ok s) components ss -> Forall labels_fit components ->
    Forall2 (refers components) connections pairs -> Forall2 (refers components) connections' pairs' -> NoDup (map fst pairs) -> Permutation pairs pairs' ->
    let N := sum (map cdim components) in
    all_side_by_side ss = Ok s -> wire inv s (seq 0 N) (seq 0 N) (rev pairs) = Ok t -> wire inv s (seq 0 N) (seq 0 N) (rev pairs') = Ok t' ->
    connect fuel components connections force = Ok r -> connect fuel' components connections' force' = Ok r' ->
    toSLH r = Ok u -> toSLH r' = Ok u' -> u' = u.
  Proof.
    intros Hv Hss HL H1 H2 Nd HP N Hs Hw Hw' Hr Hr' Hu Hu'.
    assert (NoDup (map fst pairs')) as Nd' by (apply (Permutation_NoDup (Permutation_map fst HP)); exact Nd).
    destruct (C15_connect _ _ _ _ force fuel _ _ _ _ Hv Hss HL H1 Nd Hs Hw Hr Hu) as [-> _].
    destruct (C15_connect _ _ _ _ force' fuel' _ _ _ _ Hv Hss HL H2 Nd' Hs Hw' Hr' Hu') as [-> _].
    pose proof (cmean_ok _ _ _ _ _ _ (all_cmean _ _ _ Hv Hss Hs)) as Ps. fold N in Ps.
    apply (C15_order N s (rev pairs) (rev pairs') t t'); [now apply phys_spec|now rewrite <- !Permutation_rev|exact Hw|exact Hw'].
  Qed.

  (** ** The number of channels, for any components *)
  Theorem C15_cdim components ns connections fuel r : Forall2 (wf (slh_has_cdim (M:=M))) components ns ->
    connect fuel components connections false = Ok r -> length connections <= sum ns /\ cdim r = sum ns - length connections.
  Proof.
    intros Hwf Hr. unfold ConnectModel.connect in Hr. step Hr comb Ec.
    destruct (cmean_all _ _ Hwf) as [a Ha]. pose proof (s_concat _ _ _ _ (HKd inv slh_eq Heq fuel) _ _ _ _ Ha Ec) as Mc. clear Ha.
    step Hr pairs Ep. rewrite (mean_cdim _ _ _ _ _ _ Mc) in Hr. set (N := sum ns) in *. set (nfb := length connections) in *.
    assert (length pairs = nfb) as Lp by (symmetry; exact (Forall2_length' _ _ _ (resolve_refers _ _ _ Ep))).
    step Hr im Ei. step Hr om Eo. step Hr x Ex. step Hr y Ey. cbn [bind] in Hr.
    match type of Ei with map_channels ?m _ = _ => pose proof (@map_channels_spec (slh M) m N (dict_NoDup _)) as Si end. rewrite Ei in Si. destruct Si as [Vi (p & -> & Rp)].
    match type of Eo with map_channels ?m _ = _ => pose proof (@map_channels_spec (slh M) m N (dict_NoDup _)) as So end. rewrite Eo in So. destruct So as [_ (q & -> & Rq)].
    assert (nfb <= N) as Hle.
    { destruct (Nat.le_gt_cases nfb N) as [G|G]; [exact G|exfalso]. set (ks := zrange (Z.of_nat N - Z.of_nat nfb) nfb) in *.
      rewrite dict_of_NoDup in Vi by (rewrite map_fst_combine; [apply zrange_NoDup|unfold ks; rewrite zrange_length, map_length; now symmetry]).
      destruct nfb as [|m]; [lia|]. destruct pairs as [|pr pairs]; [discriminate|].
      destruct (proj1 Vi (Z.of_nat N - Z.of_nat (S m) + Z.of_nat 0)%Z (Z.of_nat (snd pr))) as [[G1 _] _]; [now left|]. lia. }
    split; [exact Hle|].
    pose proof (mean_pc dim_model dsym (sdim M) q N ltac:(apply is_perm_bij, Rq) (proj1 (proj2 Rq))) as Mq.
    pose proof (mean_pc dim_model dsym (sdim M) p N ltac:(apply is_perm_bij, Rp) (proj1 (proj2 Rp))) as Mp.
    pose proof (k_series2 _ _ _ _ (HKd inv slh_eq Heq fuel) _ _ _ _ _ _ Mq Mc Ex) as Mx.
    pose proof (k_series2 _ _ _ _ (HKd inv slh_eq Heq fuel) _ _ _ _ _ _ Mx Mp Ey) as My.
    clear - My Hr Hle Heq. set (K := simp _ _) in *. assert (sound dim_model dsym (sdim M) K) as HK by exact (HKd inv slh_eq Heq fuel). clearbody K N nfb.
    match type of My with CSimpSpec.mean _ _ _ _ _ ?z => generalize dependent z end. revert y N Hle Hr. induction nfb as [|m IH]; intros y N Hle Hr a' My.
    - cbn [close_loops] in Hr. injection Hr as <-. rewrite (mean_cdim _ _ _ _ _ _ My). lia.
    - destruct N as [|N]; [lia|]. cbn [close_loops] in Hr. step Hr c' Ec. rewrite (mean_cdim _ _ _ _ _ _ My) in Ec. replace (S N - 1) with N in Ec by lia.
      pose proof (s_mfb _ _ _ _ HK _ N a' N N (Some N) _ My (le_n N) (le_n N) eq_refl Ec) as Mc'. change (S N - S m) with (N - m). apply (IH c' N ltac:(lia) Hr _ Mc').
  Qed.

  (** ** What is rejected *)
  (** a connection that does not name existing, unambiguous components and ports *)
  Theorem C15_invalid components connections cn fuel force comb : k_concat (simp lit fuel) components = Ok comb ->
    In cn connections -> (forall oi, ~ refers components cn oi) -> connect fuel components connections force = Err ValueError.
  Proof.
    intros Hc Hin Hno. unfold ConnectModel.connect. rewrite Hc. cbn [bind].
    assert (mapM (resolve lit portsin portsout components (cumsum (0 :: removelast (map cdim components)))) connections = Err ValueError) as ->; [|reflexivity].
    clear Hc. induction connections as [|cn' cns IH]; [destruct Hin|]. cbn [mapM]. pose proof (resolve_spec lit portsin portsout components cn') as Sp.
    destruct (resolve lit portsin portsout components _ cn') as [oi|e].
    - destruct Hin as [<-|Hin]; [destruct (Hno _ Sp)|]. cbn [bind]. now rewrite (IH Hin).
    - destruct Sp as [-> _]. reflexivity.
  Qed.
  (** two connections into the same input port *)
  Theorem C15_duplicate_input components connections pairs fuel force comb : k_concat (simp lit fuel) components = Ok comb ->
    Forall2 (refers components) connections pairs -> ~ NoDup (map snd pairs) -> connect fuel components connections force = Err ValueError.
  Proof.
    intros Hc Hcn Hd. unfold ConnectModel.connect. rewrite Hc. cbn [bind].
    destruct (mapM _ connections) as [pairs'|e] eqn:Ep.
    - cbn [bind]. pose proof (refers_all_fun _ _ _ _ (resolve_refers _ _ _ Ep) Hcn) as ->. rewrite <- (map_map snd Z.of_nat), (Forall2_length' _ _ _ Hcn).
      rewrite (imapping_dup (X:=slh M)); [reflexivity|now rewrite zrange_length, map_length|apply zrange_NoDup|exact Hd].
    - exfalso. clear Hd Hc. revert e Ep. induction Hcn as [|cn p cns ps H1 H2 IH]; intros e Ep; cbn [mapM] in Ep; [discriminate|].
      pose proof (resolve_spec lit portsin portsout components cn) as Sp. destruct (resolve lit portsin portsout components _ cn) as [oi|e'].
      + cbn [bind] in Ep. destruct (mapM _ cns) as [l|e''] eqn:E; [discriminate|]. exact (IH _ eq_refl).
      + exact (proj2 Sp _ H1).
  Qed.
  (** two connections from the same output port are accepted: of the first one, only the input is kept,
      and it is connected to the last output that is free *)
  Theorem C15_duplicate_output_refuted : exists components connections other r,
    Forall2 (refers components) connections [(0, 2); (0, 3)] /\ Forall2 (refers components) other [(3, 2); (0, 3)] /\
    connect 10 components connections false = Ok r /\ connect 10 components other false = Ok r.
  Proof.
    exists [CSym 0 2; CSym 1 2], [((CompIndex 0, PortIndex 0), (CompIndex 1, PortIndex 0)); ((CompIndex 0, PortIndex 0), (CompIndex 1, PortIndex 1))],
      [((CompIndex 1, PortIndex 1), (CompIndex 1, PortIndex 0)); ((CompIndex 0, PortIndex 0), (CompIndex 1, PortIndex 1))].
    exists (CSeries [CConcat [CId; CFeedback (CSym 1 2) 1 0]; CPerm [1; 0]; CSym 0 2]). split; [|split; [|split; [vm_compute; reflexivity|vm_compute; reflexivity]]].
    - apply resolve_refers. vm_compute. reflexivity.
    - apply resolve_refers. vm_compute. reflexivity.
  Qed.
End C15.


(** ** The hypotheses can be met *)
Section Ex.
  (** component 0 has labelled ports: inputs 0 and 1, outputs 2 and 3 *)
  Definition ex_pin (c : circ (slh CM)) : option (list nat) := match c with CSym 0 2 => Some [0; 1] | _ => None end.
  Definition ex_pout (c : circ (slh CM)) : option (list nat) := match c with CSym 0 2 => Some [2; 3] | _ => None end.
  (** a beam splitter with driven emitters, an emitter, and an SLH literal *)
  Definition ex_components : list (circ (slh CM)) := [CSym 0 2; CSym 1 1; CSlh ex_b 1].
  (** from output "3" of the beam splitter, addressed as an object, to the emitter, and from the
      emitter to the literal *)
  Definition ex_connections : list (connection (X:=slh CM)) :=
    [((CompObj (CSym 0 2), PortName 3), (CompIndex 1, PortIndex 0)); ((CompIndex 1, PortIndex 0), (CompIndex 2, PortIndex 0))].
  Definition ex_connect (force : bool) := connect ex_lit ex_pin ex_pout (to_slh ex_comp ex_inv) 30 ex_components ex_connections force.
  Definition ex_wired : res (slh CM) :=
    do s <- all_side_by_side [ex_a; ex_b; ex_b]; wire (M:=CM) ex_inv s (seq 0 4) (seq 0 4) [(2, 3); (1, 2)].
  Example C15_nonvacuous :
    Forall (valid ex_comp) ex_components /\ Forall2 (fun c s => to_slh ex_comp ex_inv c = Ok s) ex_components [ex_a; ex_b; ex_b] /\
    Forall (labels_fit ex_pin ex_pout) ex_components /\ Forall2 (refers ex_lit ex_pin ex_pout ex_components) ex_connections [(1, 2); (2, 3)] /\
    both ex_wired (ev_res (ex_connect false)) = true /\ both ex_wired (ev_res (ex_connect true)) = true.
  Proof.
    pose proof ex_a_physical as Pa. pose proof ex_b_physical as Pb. split; [|split; [|split; [|split; [|split]]]].
    - constructor; [split; [lia|]; intros s [= <-]; exact Pa|]. constructor; [split; [lia|]; intros s [= <-]; exact Pb|].
      constructor; [split; [lia|exact Pb]|]. constructor.
    - constructor; [reflexivity|]. constructor; [reflexivity|]. constructor; [reflexivity|]. constructor.
    - constructor; [split; intros l [= <-]; reflexivity|]. constructor; [split; discriminate|]. constructor; [split; discriminate|]. constructor.
    - apply resolve_refers. vm_compute. reflexivity.
    - vm_compute; reflexivity.
    - vm_compute; reflexivity.
  Qed.
End Ex.

Print Assumptions C15_connect.
Print Assumptions C15_wire_networks.
Print Assumptions C15_network_unique.
Print Assumptions C15_order.
Print Assumptions C15_connect_order.
Print Assumptions C15_cdim.
Print Assumptions C15_invalid.
Print Assumptions C15_duplicate_input.
Print Assumptions C15_duplicate_output_refuted.
