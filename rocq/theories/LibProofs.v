From Verif Require Import Prelude ListFacts PermModel PermSpec CircModel CSimpModel CSimpSpec.
From Verif Require Import AlgSpec CAlg NcRing MatModel SlhModel MatSpec MatProofs SlhProofs1 SlhProofs2 SlhProofs3 SlhProofs4 SlhProofs5 SlhProofs6 SlhProofs7 SlhProofs8 CSimpSlh ToSlhModel ToSlhSpec ToSlhProofs LibModel LibSpec.
Local Open Scope nat_scope.

Section P.
  Context {M : calgebra}.
  Notation A := (A M). Notation K := (K M). Notation slh := (slh M).
  Add Ring Kr : (kring M).
  Implicit Types (a b s : slh).
  (** n coherent drives side by side *)
  Definition wsys n (al : nat -> K) : slh := mkS n delta (fun i => smul (al i) a1) a0.
  Lemma wsys_ext n al be : (forall i, i < n -> al i = be i) -> wsys n al = wsys n be.
  Proof. intros H. apply mkS_ext; [reflexivity| |reflexivity]. intros i Hi. now rewrite H. Qed.
  Lemma wsys_system n al : system (wsys n al) n.
  Proof. apply mkS_system. Qed.
  Lemma wsys_cat n al x : cat n 1 (wsys n al) (wsys 1 (fun _ => x)) = wsys (n + 1) (fun i => if i <? n then al i else x).
  Proof.
    unfold cat, wsys. rewrite !sH_mkS, aadd_0. apply mkS_ext; [| |reflexivity].
    - intros i j Hi Hj. destruct (split_lt n 1 i Hi) as [Hi'|[i' [-> Hi']]]; destruct (split_lt n 1 j Hj) as [Hj'|[j' [-> Hj']]].
      + rewrite fcat_ll by assumption. now apply Sf_mkS.
      + rewrite fcat_lr by lia. symmetry. apply delta_neq. lia.
      + rewrite fcat_rl by lia. symmetry. apply delta_neq. lia.
      + rewrite fcat_rr, Sf_mkS by assumption. unfold delta.
        destruct (Nat.eqb_spec i' j'), (Nat.eqb_spec (n + i') (n + j')); try reflexivity; lia.
    - intros i Hi. destruct (split_lt n 1 i Hi) as [Hi'|[i' [-> Hi']]].
      + rewrite vcat_l, Lf_mkS by assumption. destruct (Nat.ltb_spec i n); [reflexivity|lia].
      + rewrite vcat_r, Lf_mkS by assumption. destruct (Nat.ltb_spec (n + i') n); [lia|reflexivity].
  Qed.
  Lemma wsys_phys n al : physical (wsys n al) n.
  Proof.
    split; [apply wsys_system|]. assert (forall i j, i < n -> j < n -> ent (sS (wsys n al)) i j = delta i j) as HS.
    { intros i j Hi Hj. exact (Sf_mkS n _ _ _ i j Hi Hj). }
    split; [|split].
    - intros i j Hi Hj. transitivity (bigsum n (fun k => amul (delta i k : A) (delta k j))).
      + apply sm_ext. intros k Hk. rewrite !HS by assumption. now rewrite star_delta, (delta_sym k i).
      + exact (sm_delta_l n i (fun k => delta k j) Hi).
    - intros i j Hi Hj. transitivity (bigsum n (fun k => amul (delta i k : A) (delta k j))).
      + apply sm_ext. intros k Hk. rewrite !HS by assumption. now rewrite star_delta, (delta_sym j k).
      + exact (sm_delta_l n i (fun k => delta k j) Hi).
    - cbn. exact (star_0 _).
  Qed.

  Lemma smul_1' (x : A) : smul k1 x = x.
  Proof. apply smul_1. Qed.
  Lemma drive_ok (kexp kcos ksin : K -> K) x : comp_slh kexp kcos ksin (CoherentDriveCC x) = Ok (wsys 1 (fun _ => x)).
  Proof.
    unfold comp_slh, mk_slh. cbn [nrows ncols Nat.eqb negb]. unfold wsys, mkS, num_op. rewrite smul_1', smul_0. reflexivity.
  Qed.
  Lemma cid_drive : prm [0] = wsys 1 (fun _ => k0) :> slh.
  Proof.
    rewrite id1. apply mkS_ext; try reflexivity. intros i Hi. now rewrite smul_0.
  Qed.

  Context (kexp kcos ksin : K -> K) (table : nat -> option (component (M:=M))) (other : nat -> nat -> res slh).
  Context (inv : A -> res K) (kzero : K -> bool) (Hz : forall x, kzero x = true -> x = k0).
  Local Notation comp := (lib_comp kexp kcos ksin table other).
  Local Notation ev := (to_slh comp inv).
  Definition named (la : nat * K) : Prop := table (fst la) = Some (CoherentDriveCC (snd la)).
  Lemma disp_ok la : named la -> ev (displacement la) = Ok (wsys 1 (fun _ => snd la)).
  Proof. intros H. cbn. unfold lib_comp. rewrite H. cbn [comp_cdim Nat.eqb]. apply drive_ok. Qed.
  Definition pick (la : nat * K) : circ slh := if negb (kzero (snd la)) then displacement la else CId.
  Lemma pick_ok la : named la -> ev (pick la) = Ok (wsys 1 (fun _ => snd la)).
  Proof.
    intros H. unfold pick. destruct (kzero (snd la)) eqn:E; cbn [negb]; [|now apply disp_ok].
    rewrite (Hz _ E). transitivity (cid_slh (M:=M)); [reflexivity|]. rewrite cid_slh_ok. f_equal. apply cid_drive.
  Qed.
  Definition ampl (amps : list (nat * K)) (i : nat) : K := snd (nth i amps (0, k0)).
  Lemma go_drives amps : forall n al, (forall la, In la amps -> named la) ->
    go comp inv (concatenate_slh (M:=M)) (wsys n al) (map pick amps) =
    Ok (wsys (n + length amps) (fun i => if i <? n then al i else ampl amps (i - n))).
  Proof.
    induction amps as [|la amps IH]; intros n al Hn; cbn [map go length].
    - f_equal. rewrite Nat.add_0_r. apply wsys_ext. intros i Hi. destruct (Nat.ltb_spec i n); [reflexivity|lia].
    - rewrite pick_ok by (apply Hn; now left). cbn [bind].
      rewrite (concat_ok _ _ n 1 (wsys_system _ _) (wsys_system _ _)). cbn [bind]. rewrite wsys_cat, IH by (intros; apply Hn; now right).
      f_equal. replace (n + 1 + length amps) with (n + S (length amps)) by lia. apply wsys_ext. intros i Hi.
      destruct (Nat.ltb_spec i (n + 1)), (Nat.ltb_spec i n); try lia; [reflexivity| |].
      + now replace (i - n) with 0 by lia.
      + unfold ampl. now replace (i - n) with (S (i - (n + 1))) by lia.
  Qed.
  Definition drives (amps : list (nat * K)) : circ slh :=
    match amps with [a] => displacement a | _ => CConcat (map pick amps) end.
  Lemma drives_ok amps : amps <> [] -> (forall la, In la amps -> named la) ->
    ev (drives amps) = Ok (wsys (length amps) (ampl amps)).
  Proof.
    intros Hne Hn. destruct amps as [|la [|lb amps]]; [easy| |].
    - cbn [drives length]. rewrite disp_ok by (apply Hn; now left). reflexivity.
    - cbn [drives]. rewrite ev_concat. cbn [map reduce]. change (pick lb :: map pick amps) with (map pick (lb :: amps)).
      rewrite pick_ok by (apply Hn; now left). cbn [bind]. rewrite go_drives by (intros; apply Hn; now right).
      f_equal. apply wsys_ext. intros [|i] Hi; [reflexivity|]. cbn [Nat.ltb Nat.leb]. unfold ampl. cbn [nth]. now rewrite Nat.sub_succ, Nat.sub_0_r.
  Qed.
  Lemma drive_physical l n x : table l = Some (CoherentDriveCC x) -> forall s, comp l n = Ok s -> physical s n.
  Proof.
    intros H s. unfold lib_comp. rewrite H. cbn [comp_cdim]. destruct (Nat.eqb_spec n 1) as [-> |]; [|discriminate].
    rewrite drive_ok. intros E. injection E as <-. apply wsys_phys.
  Qed.
  Lemma pick_valid la : named la -> valid comp (pick la) /\ cdim (pick la) = 1.
  Proof.
    intros H. unfold pick. destruct (kzero (snd la)); cbn; [easy|]. split; [|reflexivity]. split; [lia|].
    exact (drive_physical _ 1 _ H).
  Qed.
  Lemma drives_valid amps : amps <> [] -> (forall la, In la amps -> named la) ->
    valid comp (drives amps) /\ cdim (drives amps) = length amps.
  Proof.
    intros Hne Hn.
    assert (forall l, (forall la, In la l -> named la) -> fold_right (fun o P => valid comp o /\ P) True (map pick l) /\
      cdim (CConcat (map pick l)) = length l) as G.
    { induction l as [|x l IH]; intros Hl; [easy|]. destruct (IH (fun la Hla => Hl la (or_intror Hla))) as [I1 I2].
      destruct (pick_valid x (Hl x (or_introl eq_refl))) as [P1 P2]. split; [split; [exact P1|exact I1]|].
      cbn [map length]. change (cdim (pick x) + cdim (CConcat (map pick l)) = S (length l)). now rewrite P2, I2. }
    destruct amps as [|la [|lb amps]]; [easy| |].
    - cbn. split; [|reflexivity]. split; [lia|]. exact (drive_physical _ 1 _ (Hn la (or_introl eq_refl))).
    - destruct (G _ Hn) as [G1 G2]. split; [|exact G2]. split; [easy|exact G1].
  Qed.

  Lemma ser_w n s al : system s n -> let r := ser n s (wsys n al) in
    (forall i j, i < n -> j < n -> Sf r i j = Sf s i j) /\
    (forall i, i < n -> Lf r i = aadd (Lf s i) (bigsum n (fun j => smul (al j) (Sf s i j)))) /\
    sH r = aadd (sH s) (imp (coupling n s al)).
  Proof.
    intros Hs r. split; [|split].
    - intros i j Hi Hj. unfold r. rewrite Sf_ser by assumption.
      rewrite (mm_ext n (Sf s) _ (Sf s) delta) by (intros; try reflexivity; now apply Sf_mkS). now apply mm_delta_r.
    - intros i Hi. unfold r. rewrite Lf_ser by assumption. rewrite aadd_comm. f_equal. apply sm_ext. intros k Hk.
      unfold wsys. rewrite Lf_mkS by assumption. rewrite smul_amul_r. f_equal. apply amul_1r.
    - unfold r, ser, fseries. rewrite sH_mkS. unfold wsys at 1. rewrite sH_mkS, aadd_0r. do 2 f_equal.
      unfold coupling. transitivity (bigsum n (fun i => bigsum n (fun j => smul (al j) (amul (star (Lf s i)) (Sf s i j))))); [|reflexivity].
      unfold dot. apply sm_ext. intros i Hi. unfold mv. rewrite <- sm_mul_l. apply sm_ext. intros j Hj.
      unfold wsys. rewrite Lf_mkS by assumption. rewrite !smul_amul_r. f_equal. f_equal. apply amul_1r.
  Qed.

  (** coherent input into a circuit whose scattering matrix consists of numbers *)
  Definition hdrive n s al : slh :=
    SLH (sS s) (sL s) (aadd (sH s) (smul iu (aadd (star (coupling n s al)) (aopp (coupling n s al))))).
  Lemma hdrive_system n s al : system s n -> system (hdrive n s al) n.
  Proof. exact (fun H => H). Qed.
  Lemma two_imp (x : A) : smul iu (aadd (star x) (aopp x)) = aadd (imp x) (imp x).
  Proof.
    unfold imp. rewrite <- smul_addl. unfold aopp. f_equal. transitivity (kmul (@iu M) (kadd khalf khalf)); [|ring]. rewrite khalf_2. ring.
  Qed.
  Lemma ser_w_driven n s al (sc : nat -> nat -> K) : system s n ->
    (forall i j, i < n -> j < n -> Sf s i j = smul (sc i j) a1) ->
    exists be, ser n s (wsys n al) = driven n be (hdrive n s al).
  Proof.
    intros Hs Hsc.
    set (be := fun i => fold_right kadd k0 (map (fun j => kmul (al j) (sc i j)) (seq 0 n))).
    assert (forall i, i < n -> bigsum n (fun j => smul (al j) (Sf s i j)) = smul (be i) a1) as Hb.
    { intros i Hi. transitivity (bigsum n (fun j => smul (kmul (al j) (sc i j)) (a1 : A))).
      - apply sm_ext. intros j Hj. rewrite Hsc by assumption. now rewrite smul_mul.
      - unfold be, bigsum. clear Hs Hsc be. induction (seq 0 n) as [|k l IH]; cbn [map fold_right].
        + change (@a0 M = smul k0 a1). now rewrite smul_0.
        + rewrite asum_cons, IH. now rewrite smul_addl. }
    exists be. destruct (ser_w n s al Hs) as [HS [HL HH]]. apply (mkS_slh_eq _ _ n); [apply ser_system|apply ser_system| | |].
    - intros i j Hi Hj. rewrite HS, driven_S by assumption. reflexivity.
    - intros i Hi. rewrite HL, driven_L by assumption. rewrite Hb by assumption. reflexivity.
    - rewrite HH, driven_H. unfold hdrive at 1. cbn [sH].
      assert (bigsum n (fun k => smul (kconj (be k)) (Lf (hdrive n s al) k)) = star (coupling n s al)) as Hc.
      { unfold coupling. change (fun i => bigsum n (fun j => smul (al j) (amul (star (ent (sL s) i 0)) (ent (sS s) i j))))
          with (fun i => bigsum n (fun j => smul (al j) (amul (star (Lf s i)) (Sf s i j)))).
        rewrite (star_sm n). apply sm_ext. intros i Hi. change (Lf (hdrive n s al) i) with (Lf s i).
        transitivity (star (amul (star (Lf s i)) (bigsum n (fun j => smul (al j) (Sf s i j))))).
        - rewrite Hb by assumption. rewrite star_mul, star_star, star_smul, star_1, smul_amul_l. f_equal. symmetry. apply amul_1l.
        - f_equal. rewrite <- (sm_mul_l n). apply sm_ext. intros j Hj. now rewrite smul_amul_r. }
      rewrite Hc, imp_star, two_imp. generalize (imp (coupling n s al)) as x. intros x.
      rewrite <- !aadd_assoc. f_equal. transitivity (aadd x a0); [now rewrite aadd_0r|]. f_equal. symmetry. apply aadd_opp.
  Qed.
End P.
