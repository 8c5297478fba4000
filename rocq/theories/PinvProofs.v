(** C65: pseudo-inverses. *)
From Coq Require Import QArith Qcanon Ring.
From Verif Require Import Prelude ListFacts BinModel AlgSpec CAlg OpModel OpSpec OpForm OpProofs1 OpProofs2 OpProofs3 OpFuel PinvModel PinvSpec.
Local Open Scope nat_scope.

(** ** Moore-Penrose inverses in a *-algebra *)
Section MP.
  Context (M : calgebra).
  Implicit Types x y z : A M.
  Local Infix "·" := amul (at level 40, left associativity).
  Local Notation mp := (pseudo_inverse (M:=M)).
  Lemma as4 x y z : x · (y · z) = x · y · z.
  Proof. apply amul_assoc. Qed.

  Theorem mp_sym x y : mp x y -> mp y x.
  Proof. intros []. now constructor. Qed.
  Theorem mp_star x y : mp x y -> mp (star x) (star y).
  Proof.
    intros [H1 H2 H3 H4]. constructor.
    - rewrite <- !star_mul. f_equal. now rewrite as4.
    - rewrite <- !star_mul. f_equal. now rewrite as4.
    - rewrite <- star_mul. now rewrite H4.
    - rewrite <- star_mul. now rewrite H3.
  Qed.
  Theorem mp_unique x y z : mp x y -> mp x z -> y = z.
  Proof.
    intros [A1 A2 A3 A4] [B1 B2 B3 B4].
    assert (y · x = z · x) as Q.
    { assert (y · x · (z · x) = y · x) as G by (rewrite !as4, <- (as4 y x z), <- (as4 y (x · z) x), B1; reflexivity).
      assert (z · x · (y · x) = z · x) as G' by (rewrite !as4, <- (as4 z x y), <- (as4 z (x · y) x), A1; reflexivity).
      rewrite <- G, <- A3, <- B3, <- star_mul, G'. now rewrite B3. }
    assert (x · y = x · z) as P.
    { assert (x · y · (x · z) = x · z) as G by (rewrite !as4, A1; reflexivity).
      assert (x · z · (x · y) = x · y) as G' by (rewrite !as4, B1; reflexivity).
      rewrite <- G', <- A4, <- B4, <- star_mul, G. now rewrite B4. }
    rewrite <- A2, Q, <- as4, P, as4. exact B2.
  Qed.
  Theorem mp_0 : mp a0 a0.
  Proof. constructor; rewrite ?amul_0l, ?amul_0r; auto; rewrite star_0; reflexivity. Qed.
  Theorem mp_inverse x y : x · y = a1 -> y · x = a1 -> mp x y.
  Proof.
    intros H G. constructor.
    - now rewrite H, amul_1l.
    - now rewrite G, amul_1l.
    - rewrite G. apply star_1.
    - rewrite H. apply star_1.
  Qed.
  Theorem mp_unitary x : unitary x -> mp x (star x).
  Proof. intros [H G]. now apply mp_inverse. Qed.
  Theorem mp_1 : mp a1 a1.
  Proof. apply mp_inverse; apply amul_1l. Qed.
  Add Ring Kr : (kring M).
  Theorem mp_smul (c d : K M) x y : kmul d c = k1 -> mp x y -> mp (smul c x) (smul d y).
  Proof.
    intros E [H1 H2 H3 H4].
    assert (forall a b, smul c a · smul d b = a · b) as F.
    { intros a b. rewrite smul_amul_l, smul_amul_r, <- smul_mul. replace (kmul c d) with (@k1 M) by (rewrite <- E; ring). apply smul_1. }
    assert (forall a b, smul d a · smul c b = a · b) as G.
    { intros a b. rewrite smul_amul_l, smul_amul_r, <- smul_mul, E. apply smul_1. }
    constructor; rewrite ?F, ?G; auto.
    - now rewrite smul_amul_r, H1.
    - now rewrite smul_amul_r, H2.
  Qed.

  (** what commutes with x and its adjoint commutes with its pseudo-inverse *)
  Theorem mp_commute x y z : mp x y -> z · x = x · z -> z · star x = star x · z -> z · y = y · z.
  Proof.
    intros [H1 H2 H3 H4] C C'.
    assert (star z · x = x · star z) as C2 by (rewrite <- (star_star M x) at 1 2; rewrite <- !star_mul; f_equal; now symmetry).
    assert (forall t, t · x = x · t -> x · y · (t · (x · y)) = t · (x · y)) as P.
    { intros t Ct. rewrite !as4. rewrite <- (as4 (x · y) t x), Ct, as4, H1. reflexivity. }
    assert (forall t, t · x = x · t -> y · x · t · (y · x) = y · x · t) as Q.
    { intros t Ct. rewrite <- (as4 (y · x)), <- (as4 y x t), <- Ct. rewrite (as4 t y x). rewrite <- (as4 (y) x). rewrite !as4.
      rewrite <- (as4 y x t), <- Ct, !as4. rewrite <- (as4 (y · t) x y), <- (as4 (y · t) (x · y) x), H1. reflexivity. }
    assert (z · (x · y) = x · y · z) as Pz.
    { pose proof (P z C) as E1. pose proof (P (star z) C2) as E2. apply (f_equal (@star M)) in E2. rewrite star_mul, (star_mul M (star z) (x · y)), H4, star_star in E2.
      rewrite <- E1. rewrite as4. exact E2. }
    assert (z · (y · x) = y · x · z) as Qz.
    { pose proof (Q z C) as E1. pose proof (Q (star z) C2) as E2. apply (f_equal (@star M)) in E2. rewrite star_mul, (star_mul M (y · x) (star z)), H3, star_star in E2.
      rewrite <- E1, <- (as4 (y · x) z), E2. reflexivity. }
    transitivity (z · (y · x) · y); [now rewrite <- as4, H2|]. rewrite Qz, <- (as4 y x z), <- C, as4, <- (as4 (y · z) x y), <- (as4 y z), Pz, !as4, H2.
    reflexivity.
  Qed.
  Theorem mp_apart x y x' y' : mp x y -> mp x' y' -> x · x' = x' · x -> x · star x' = star x' · x -> mp (x · x') (y' · y).
  Proof.
    intros H H' C C'.
    assert (x' · y = y · x') as D1.
    { apply (mp_commute x y x' H); [now symmetry|]. rewrite <- (star_star M x') at 1 2. rewrite <- !star_mul. f_equal. now symmetry. }
    assert (x · y' = y' · x) as D2 by (apply (mp_commute x' y' x H'); [exact C|exact C']).
    assert (star x · x' = x' · star x) as C3 by (rewrite <- (star_star M x') at 1 2; rewrite <- !star_mul; f_equal; now symmetry).
    assert (star x · star x' = star x' · star x) as C4 by (rewrite <- !star_mul; f_equal; now symmetry).
    assert (star x · y' = y' · star x) as D3 by (apply (mp_commute x' y' (star x) H'); [exact C3|exact C4]).
    assert (y · y' = y' · y) as D4.
    { symmetry. apply (mp_commute x y y' H); [now symmetry|now symmetry]. }
    assert (y' · y · (x · x') = y' · x' · (y · x)) as Q.
    { rewrite <- (as4 y' x'), (as4 x' y x), D1, <- (as4 y x' x), <- C, !as4. reflexivity. }
    assert (x · x' · (y' · y) = x · y · (x' · y')) as P.
    { rewrite <- (as4 x y), (as4 y x' y'), <- D1, <- (as4 x' y y'), D4, !as4. reflexivity. }
    destruct H as [H1 H2 H3 H4], H' as [G1 G2 G3 G4].
    assert (x · y · (x' · y') = x' · y' · (x · y)) as PP.
    { rewrite <- (as4 x y), (as4 y x' y'), <- D1, <- (as4 x' y y'), D4. rewrite !as4, C. rewrite <- (as4 x' x y'), D2, !as4. reflexivity. }
    assert (y · x · (y' · x') = y' · x' · (y · x)) as QQ.
    { rewrite <- (as4 y x), (as4 x y' x'), D2, <- (as4 y' x x'), C, !as4, D4. rewrite <- (as4 y' y x'), <- D1, !as4. reflexivity. }
    constructor.
    - rewrite P, PP. rewrite <- (as4 (x' · y')), (as4 (x · y) x x'), H1, C, as4, G1. reflexivity.
    - rewrite Q. rewrite <- QQ, <- (as4 (y · x)), (as4 (y' · x')), G2. rewrite <- D4, as4, H2. reflexivity.
    - rewrite Q, star_mul, H3, G3. exact QQ.
    - rewrite P, star_mul, H4, G4. symmetry. exact PP.
  Qed.
  Theorem mp_left u v x y : mp u v -> unitary u -> mp x y -> mp (u · x) (y · v).
  Proof.
    intros Hu [U1 U2] [H1 H2 H3 H4]. assert (v = star u) as -> by (apply (mp_unique u); [exact Hu|now apply mp_unitary]).
    assert (y · star u · (u · x) = y · x) as Q by (rewrite !as4, <- (as4 y), U2, amul_1r; reflexivity).
    assert (u · x · (y · star u) = u · (x · y) · star u) as P by (rewrite !as4; reflexivity).
    constructor.
    - rewrite <- as4, Q, <- as4. f_equal. now rewrite as4.
    - rewrite Q, as4, H2. reflexivity.
    - now rewrite Q.
    - rewrite P, !star_mul, star_star. rewrite <- star_mul, H4, as4. reflexivity.
  Qed.
  Theorem mp_right u v x y : mp u v -> unitary u -> mp x y -> mp (x · u) (v · y).
  Proof.
    intros Hu [U1 U2] [H1 H2 H3 H4]. assert (v = star u) as -> by (apply (mp_unique u); [exact Hu|now apply mp_unitary]).
    assert (x · u · (star u · y) = x · y) as P by (rewrite !as4, <- (as4 x), U1, amul_1r; reflexivity).
    assert (star u · y · (x · u) = star u · (y · x) · u) as Q by (rewrite !as4; reflexivity).
    constructor.
    - rewrite P, as4, H1. reflexivity.
    - rewrite <- as4, P, <- as4. f_equal. now rewrite as4.
    - rewrite Q, !star_mul, star_star. rewrite <- star_mul, H3, as4. reflexivity.
    - now rewrite P.
  Qed.
  Theorem unitary_mul x y : unitary x -> unitary y -> unitary (x · y).
  Proof.
    intros [H1 H2] [G1 G2]. split; rewrite star_mul, !as4.
    - rewrite <- (as4 x), G1, amul_1r. exact H1.
    - rewrite <- (as4 (star y)), H2, amul_1r. exact G2.
  Qed.
End MP.

(** ** The result is the Moore-Penrose inverse *)
Section Value.
  Context {S : scalars} {dim : nat -> option nat} (I : interp S dim).
  Context (sinv : S -> S) (pi_name : op S -> nat) (pi_of : nat -> option (op S)).
  Context (names_ok : forall n x, pi_of n = Some x -> pi_name x = n).
  Context (squeeze_ok : forall u l, boson (i:=I) l -> unitary (M:=I) (isqueeze (i:=I) u l)).
  Context (K : ocreators S) (HK : soundK I K).
  Local Notation value := (value I).
  Local Notation legal := (legal I).
  Local Notation mp := (pseudo_inverse (M:=I)).
  Local Notation pinv := (pinv sinv pi_name pi_of K).
  Local Notation objects_ok := (objects_ok I pi_name pi_of K).
  Add Ring KrI : (kring I).

  Lemma phase_value u l : boson (i:=I) l -> means I (phase_create u l) (iphase (i:=I) (ev u) l).
  Proof.
    intros Hb. unfold phase_create. destruct (seqb u s0) eqn:E; [|now split].
    split; [exact Logic.I|]. apply (ev_eq _ I) in E. rewrite E. rewrite (ev_s0 I). symmetry. now apply phase_0.
  Qed.
  Lemma disp_value u l : displ (i:=I) l -> means I (disp_create u l) (idisp (i:=I) (ev u) l).
  Proof.
    intros Hb. unfold disp_create. destruct (seqb u s0) eqn:E; [|now split].
    split; [exact Logic.I|]. apply (ev_eq _ I) in E. rewrite E. rewrite (ev_s0 I). symmetry. now apply disp_0.
  Qed.
  Lemma disp_disp_inverse u v l : displ (i:=I) l -> kadd u v = k0 -> amul (idisp (i:=I) u l) (idisp (i:=I) v l) = a1.
  Proof.
    intros Hd E. rewrite (disp_disp _ _ I) by exact Hd. rewrite E, (disp_0 _ _ I) by exact Hd.
    pose proof (disp_disp _ _ I k0 k0 l Hd) as H0. rewrite !(disp_0 _ _ I) in H0 by exact Hd. replace (kadd k0 k0) with (@k0 I) in H0 by ring. rewrite (disp_0 _ _ I), amul_1l in H0 by exact Hd.
    etransitivity; [|symmetry; exact H0]. f_equal. f_equal. f_equal. assert (v = kopp u) as -> by (transitivity (kadd (kadd u v) (kopp u)); [ring|rewrite E; ring]).
    rewrite kconj_opp, (kconj_0 I). ring.
  Qed.
  Lemma unitary_phase u l : boson (i:=I) l -> kconj u = u -> unitary (M:=I) (iphase (i:=I) u l).
  Proof.
    intros Hb E. split; rewrite (phase_star _ _ I) by exact Hb; rewrite (phase_phase _ _ I) by exact Hb; rewrite E.
    - replace (kadd u (kopp u)) with (@k0 I) by ring. now apply phase_0.
    - replace (kadd (kopp u) u) with (@k0 I) by ring. now apply phase_0.
  Qed.
  Lemma unitary_disp u l : displ (i:=I) l -> unitary (M:=I) (idisp (i:=I) u l).
  Proof. intros Hb. split; rewrite (disp_star _ _ I) by exact Hb; apply disp_disp_inverse; [exact Hb|ring|exact Hb|ring]. Qed.

  (** the product of the values and the reversed product of the pseudo-inverses *)
  Lemma apart_commute l1 l2 : Forall legal l1 -> Forall legal l2 -> (forall x y, In x l1 -> In y l2 -> apart (space x) (space y)) ->
    amul (mprod I (map value l1)) (mprod I (map value l2)) = amul (mprod I (map value l2)) (mprod I (map value l1))
    /\ amul (mprod I (map value l1)) (star (mprod I (map value l2))) = amul (star (mprod I (map value l2))) (mprod I (map value l1)).
  Proof.
    intros L1 L2 Ha. set (h1 := flat_map space l1). set (h2 := flat_map space l2).
    assert (forall l, Forall legal l -> lives (i:=I) (flat_map space l) (mprod I (map value l))) as HL.
    { induction 1 as [|x l Hx Hl IH]; [apply lives_1|]. cbn [map flat_map]. rewrite mprod_cons. apply lives_mul.
      - eapply lives_incl; [|now apply value_lives]. apply incl_appl, incl_refl.
      - eapply lives_incl; [|exact IH]. apply incl_appr, incl_refl. }
    assert (apart (flat_map space l1) (flat_map space l2)) as HA.
    { intros p H1 H2. apply in_flat_map in H1, H2. destruct H1 as [x [Hx Hp]], H2 as [y [Hy Hq]]. exact (Ha x y Hx Hy p Hp Hq). }
    split; (eapply lives_commute; [apply HL, L1| |exact HA]); [|apply lives_star]; apply HL, L2.
  Qed.
  Lemma mprod_rev_app (l1 l2 : list (A I)) : mprod I (rev (l1 ++ l2)) = amul (mprod I (rev l2)) (mprod I (rev l1)).
  Proof. rewrite rev_app_distr. apply mprod_app. Qed.
  Lemma reversible_mp l : reversible I l -> forall ws, Forall legal l -> Forall2 (fun x w => mp (value x) w) l ws ->
    mp (mprod I (map value l)) (mprod I (rev ws)).
  Proof.
    intros H. induction H as [|e|l1 l2 H1 IH1 H2 IH2 Ha|l1 l2 H1 IH1 H2 IH2 Hu|l1 l2 H1 IH1 H2 IH2 Hu]; intros ws HL F.
    - inversion F; subst. apply mp_1.
    - inversion F as [|? w ? ? Hw F']; subst. inversion F'; subst. cbn. rewrite !amul_1r. exact Hw.
    - apply Forall2_app_inv_l in F. destruct F as (w1 & w2 & F1 & F2 & ->). apply Forall_app in HL. destruct HL as [L1 L2].
      rewrite map_app, mprod_app, mprod_rev_app. destruct (apart_commute l1 l2 L1 L2 Ha) as [C C']. apply mp_apart; auto.
    - apply Forall2_app_inv_l in F. destruct F as (w1 & w2 & F1 & F2 & ->). apply Forall_app in HL. destruct HL as [L1 L2].
      rewrite map_app, mprod_app, mprod_rev_app. apply mp_left; auto.
    - apply Forall2_app_inv_l in F. destruct F as (w1 & w2 & F1 & F2 & ->). apply Forall_app in HL. destruct HL as [L1 L2].
      rewrite map_app, mprod_app, mprod_rev_app. apply mp_right; auto.
  Qed.

  Lemma pi_obj_mp x (a : A I) : value x = a -> pseudo_inverse (M:=I) (value x) (isym (i:=I) (pi_name x) (space x)) ->
    legal (pi_obj pi_name x) /\ mp a (value (pi_obj pi_name x)).
  Proof. intros <- H. split; [exact Logic.I|exact H]. Qed.

  Lemma atom_pinv_sound a : legal (OAtom a) -> objects_ok (OAtom a) ->
    legal (atom_pinv pi_name pi_of a) /\ mp (value (OAtom a)) (value (atom_pinv pi_name pi_of a)).
  Proof.
    intros HL HO. unfold PinvSpec.objects_ok in HO. destruct a; cbn [atom_pinv left_open] in *;
      try (apply pi_obj_mp; [reflexivity|]; apply (HO _ (or_introl eq_refl))).
    - destruct (pi_of name) as [x|] eqn:E; [|apply pi_obj_mp; [reflexivity|]; apply (HO _ (or_introl eq_refl))].
      destruct (list_eq_dec Nat.eq_dec (space x) h) as [<-|N]; [|apply pi_obj_mp; [reflexivity|]; apply (HO _ (or_introl eq_refl))].
      destruct (HO x (or_introl eq_refl)) as [Lx Mx]. rewrite (names_ok _ _ E) in Mx. split; [exact Lx|]. now apply mp_sym.
    - destruct HL as [Hj Hk]. split; [split; assumption|]. cbn [OpSpec.value atom_val].
      assert (forall a b c : nat, level (dim:=dim) ls a -> level (dim:=dim) ls b -> level (dim:=dim) ls c -> amul (isigma (i:=I) a b ls) (isigma b c ls) = isigma a c ls) as G.
      { intros a b c Ha Hb Hc. rewrite (sigma_sigma _ _ I); [now rewrite Nat.eqb_refl|]. intros n En. unfold level in *. rewrite En in *. auto. }
      constructor; rewrite ?G by assumption; auto; apply sigma_star.
    - destruct (phase_value (sneg u) ls HL) as [L V]. split; [exact L|]. rewrite V. cbn [OpSpec.value atom_val]. rewrite ev_neg.
      apply mp_inverse; rewrite (phase_phase _ _ I) by exact HL; [replace (kadd (ev u) (kopp (ev u))) with (@k0 I) by ring|replace (kadd (kopp (ev u)) (ev u)) with (@k0 I) by ring]; now apply phase_0.
    - destruct (disp_value (sneg u) ls HL) as [L V]. split; [exact L|]. rewrite V. cbn [OpSpec.value atom_val]. rewrite ev_neg.
      apply mp_inverse; apply disp_disp_inverse; try exact HL; ring.
    - split; [exact HL|]. cbn [OpSpec.value atom_val]. rewrite ev_neg, <- (squeeze_star _ _ I) by exact HL. apply mp_unitary. now apply squeeze_ok.
  Qed.
  Lemma pm_doit_sound s a d : legal a -> pm_doit K s a = Ok d -> legal d /\ value d = value (OPM s a).
  Proof.
    intros HL H. unfold pm_doit in H. destruct (oadj K a) as [a'|] eqn:Ea; [|discriminate H]. cbn [bind] in H. destruct (oadj_sound I K HK a a' HL Ea) as [La Va].
    destruct s.
    - destruct (m_plus2 I K HK a a' d HL La H) as [Ld Vd]. split; [exact Ld|]. rewrite Vd, Va. reflexivity.
    - destruct (m_sub I K HK a a' d HL La H) as [Ld Vd]. split; [exact Ld|]. rewrite Vd, Va. reflexivity.
  Qed.

  Theorem pinv_sound : forall e e', legal e -> objects_ok e -> products_ok I sinv e -> pinv e = Ok e' ->
    legal e' /\ mp (value e) (value e').
  Proof.
    induction e as [| |a|c t IH|l IH|l IH|a b IHa IHb|a IH|a h IH|s a IH] using op_ind'; intros e' HL HO HP H; cbn [PinvModel.pinv] in H.
    - injection H as <-. split; [exact Logic.I|]. apply mp_0.
    - injection H as <-. split; [exact Logic.I|]. apply mp_1.
    - injection H as <-. now apply atom_pinv_sound.
    - destruct (pinv t) as [t'|] eqn:Et; [|discriminate H]. cbn [bind] in H. destruct HP as [Hc HP]. destruct (IH t' HL HO HP eq_refl) as [Lt Mt].
      destruct (s_scal I K HK _ _ _ Lt H) as [Le Ve]. split; [exact Le|]. rewrite Ve. cbn [OpSpec.value]. apply mp_smul; [exact Hc|exact Mt].
    - injection H as <-. apply pi_obj_mp; [reflexivity|]. apply (HO _ (or_introl eq_refl)).
    - destruct HP as [HR HP]. apply legal_times in HL.
      match type of H with bind (?f l) _ = _ => destruct (f l) as [l'|] eqn:El; [|discriminate H] end. cbn [bind] in H.
      assert (Forall legal l' /\ Forall2 (fun x w => mp (value x) w) l (map value l')) as [L' F].
      { clear HR H. revert l' El. induction l as [|x l IHl]; intros l' El.
        - injection El as <-. split; constructor.
        - destruct (pinv x) as [x'|] eqn:Ex; [|discriminate El]. cbn [bind] in El.
          match type of El with bind (?f l) _ = _ => destruct (f l) as [r|] eqn:Er; [|discriminate El] end. cbn [bind] in El. injection El as <-.
          destruct HP as [Px Pl]. inversion IH as [|? ? IHx IHl']; subst. inversion HL as [|? ? Lx Ll]; subst.
          destruct (IHx x' Lx) as [Lx' Mx]; [intros y Hy; apply HO; cbn [left_open flat_map]; apply in_or_app; now left|exact Px|exact Ex|].
          destruct (IHl IHl' Ll) with (l' := r) as [Lr Fr]; [intros y Hy; apply HO; cbn [left_open flat_map]; apply in_or_app; now right|exact Pl|reflexivity|].
          split; constructor; assumption. }
      destruct (s_times I K HK (rev l') e' (Forall_rev L') H) as [Le Ve]. split; [exact Le|]. rewrite Ve, map_rev. cbn [OpSpec.value]. now apply reversible_mp.
    - injection H as <-. apply pi_obj_mp; [reflexivity|]. apply (HO _ (or_introl eq_refl)).
    - destruct (pinv a) as [a'|] eqn:Ea; [|discriminate H]. cbn [bind] in H. destruct (IH a' HL HO HP eq_refl) as [La Ma].
      destruct (oadj_sound I K HK a' e' La H) as [Le Ve]. split; [exact Le|]. rewrite Ve. cbn [OpSpec.value]. now apply mp_star.
    - injection H as <-. apply pi_obj_mp; [reflexivity|]. apply (HO _ (or_introl eq_refl)).
    - destruct (pm_doit K s a) as [d|] eqn:Ed; [|discriminate H]. cbn [bind] in H. injection H as <-.
      destruct (pm_doit_sound s a d HL Ed) as [Ld Vd]. apply pi_obj_mp; [exact Vd|]. apply HO. cbn [left_open]. rewrite Ed. now left.
  Qed.
End Value.

(** ** More depth of recursion changes nothing *)
Section Mono.
  Context {S : scalars} (sinv : S -> S) (pi_name : op S -> nat) (pi_of : nat -> option (op S)) (K K' : ocreators S) (HK : leK K K').
  Theorem pm_doit_mono s a : le (pm_doit K s a) (pm_doit K' s a).
  Proof.
    unfold pm_doit. apply le_bind; [apply oadj_mono, HK|]. intros a'. destruct s; [apply (m_plus K K' HK)|]. unfold osub. apply le_bind; [apply (m_scal K K' HK)|].
    intros; apply (m_plus K K' HK).
  Qed.
  Theorem pinv_mono : forall e, le (pinv sinv pi_name pi_of K e) (pinv sinv pi_name pi_of K' e).
  Proof.
    fix IH 1. intros [| |a|c t|l|l|a b|a|a h|s a]; cbn [pinv]; try apply le_refl.
    - apply le_bind; [apply IH|]. intros; apply (m_scal K K' HK).
    - apply le_bind; [|intros; apply (m_times K K' HK)]. induction l as [|x l IHl]; [apply le_refl|]. apply le_bind; [apply IH|]. intros. apply le_bind; [exact IHl|]. intros; apply le_refl.
    - apply le_bind; [apply IH|]. intros; apply oadj_mono, HK.
    - apply le_bind; [apply pm_doit_mono|]. intros; apply le_refl.
  Qed.
  Theorem pinv_create_mono x : le (pinv_create sinv pi_name pi_of K x) (pinv_create sinv pi_name pi_of K' x).
  Proof. destruct x; [apply pinv_mono|]. apply le_bind; [apply (m_scal K K' HK)|]. intros; apply pinv_mono. Qed.
End Mono.
