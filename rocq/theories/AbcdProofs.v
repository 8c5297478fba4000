(** Proofs for C57. *)
From Coq Require Import QArith Qcanon Ring.
From Verif Require Import Prelude ListFacts BinModel AlgSpec CAlg NcRing MatModel SlhModel MatProofs MatSpec MatProofs2 SlhProofs1 OpModel OpSpec OpForms OpProofs1 OpProofs2 OpProofs3 OpFuel DiffModel DiffSpec DiffProofs NoiseSpec AbcdModel AbcdSpec.
Local Open Scope nat_scope.

Lemma mapM_nth {X Y} (f : X -> res Y) l r dx dy : mapM f l = Ok r -> length r = length l /\ forall i, i < length l -> f (nth i l dx) = Ok (nth i r dy).
Proof.
  revert r. induction l as [|x l IH]; cbn [mapM]; intros r H; [injection H as <-; split; [reflexivity|cbn; lia]|].
  destruct (f x) as [y|] eqn:Ex; cbn [bind] in H; [|discriminate]. destruct (mapM f l) as [r'|] eqn:El; cbn [bind] in H; [|discriminate].
  injection H as <-. destruct (IH r' eq_refl) as [E1 E2]. split; [cbn; now rewrite E1|]. intros [|i] Hi; cbn in *; [exact Ex|]. apply E2. lia.
Qed.
Lemma Forall_nth' {X} (P : X -> Prop) l d i : Forall P l -> i < length l -> P (nth i l d).
Proof. intros H Hi. rewrite Forall_forall in H. apply H. now apply nth_In. Qed.

Section Sound.
  Context {S : scalars} {dim : nat -> option nat} {I : interp S dim}.
  Context (simp : S -> S) (same : op S -> op S -> bool) (m : nat) (ext bname : nat -> nat).
  Context (Hsimp : forall c, ev (r:=I) (simp c) = ev c).
  Context (K : ocreators S) (HK : soundK I K).
  Add Ring Kr2 : (kring I).
  Local Notation op := (op S).
  Local Notation legal := (legal I).
  Local Notation value := (value I).
  Local Notation means := (means I).
  Local Notation "x + y" := (aadd x y). Local Notation "x * y" := (amul x y). Local Notation "- x" := (aopp x).
  Local Notation sm := (@bigsum I).

  (** the zero derivation, to reuse the soundness of [simplify] *)
  Definition no_derivation : derivation I.
  Proof.
    refine {| dK := fun _ d => d = k0; dA := fun _ d => d = a0 |}; try reflexivity; intros.
    - subst. apply aadd_0.
    - subst. rewrite amul_0l, amul_0r. apply aadd_0.
    - subst. rewrite smul_0, smul_zero. apply aadd_0.
    - subst. apply star_0.
    - congruence.
  Defined.
  Lemma no_sympy : sympy_diff no_derivation (fun _ => false) (fun _ => s0) simp.
  Proof. constructor; [discriminate|reflexivity|exact Hsimp]. Qed.
  Lemma simplify_value e e' : legal e -> simplify simp same K e = Ok e' -> means e' (value e).
  Proof. exact (simplify_sound no_derivation (fun _ => false) (fun _ => s0) simp same no_sympy K HK e e'). Qed.

  (** the pieces of the equation of motion *)
  Lemma ocomm_sound a b e : legal a -> legal b -> ocomm K a b = Ok e -> means e (comm (value a) (value b)).
  Proof.
    intros La Lb H. unfold ocomm in H. step H p Ep. step H q Eq0. destruct (m_times2 I K HK _ _ _ La Lb Ep) as [Lp Vp].
    destruct (m_times2 I K HK _ _ _ Lb La Eq0) as [Lq Vq]. destruct (m_sub I K HK _ _ _ Lp Lq H) as [L V]. split; [exact L|].
    now rewrite V, Vp, Vq.
  Qed.
  Lemma combine_nth' {X Y} (xs : list X) (ys : list Y) dx dy : length xs = length ys ->
    combine xs ys = map (fun i => (nth i xs dx, nth i ys dy)) (seq 0 (length xs)).
  Proof.
    revert ys. induction xs as [|x xs IH]; intros [|y ys] H; try discriminate; [reflexivity|]. cbn [combine length seq map nth].
    f_equal. rewrite <- seq_shift, map_map. apply IH. now injection H.
  Qed.
  Lemma dot_sound xs ys e n (f g : nat -> A I) : length xs = n -> length ys = n -> Forall legal xs -> Forall legal ys ->
    (forall i, i < n -> value (nth i xs OZero) = f i) -> (forall i, i < n -> value (nth i ys OZero) = g i) ->
    dot K xs ys = Ok e -> means e (sm n (fun i => f i * g i)).
  Proof.
    intros Hx Hy Lx Ly Hf Hg H. unfold dot in H. step H ps Eps.
    assert (Forall legal ps /\ map value ps = map (fun xy => value (fst xy) * value (snd xy)) (combine xs ys)) as [Lp Vp].
    { apply (mapM_sound I (fun xy => k_times K [fst xy; snd xy]) (fun xy => legal (fst xy) /\ legal (snd xy)) _ (combine xs ys)); [|apply Forall_forall; intros [x y] Hin|exact Eps].
      - intros [x y] e' [L1 L2] E. exact (m_times2 I K HK _ _ _ L1 L2 E).
      - rewrite Forall_forall in Lx, Ly. split; cbn; [apply Lx; exact (in_combine_l _ _ _ _ Hin)|apply Ly; exact (in_combine_r _ _ _ _ Hin)]. }
    destruct ps as [|p ps']; [discriminate|]. destruct (add_all_sound I K HK _ _ Lp H) as [L V]. split; [exact L|]. rewrite V, Vp.
    rewrite (combine_nth' xs ys OZero OZero) by congruence. rewrite map_map, Hx. clear - Hf Hg. unfold bigsum.
    transitivity (asum (M:=I) (fun i => value (nth i xs OZero) * value (nth i ys OZero)) (seq 0 n)).
    - generalize (seq 0 n). intros l. induction l as [|i l IH]; [reflexivity|]. cbn [map]. rewrite msum_cons, asum_cons, IH. reflexivity.
    - apply asum_ext. intros i Hi. apply in_seq in Hi. rewrite Hf, Hg by lia. reflexivity.
  Qed.
  Lemma ev_half : ev (r:=I) (sQ (/ qn 2)%Qc) = khalf.
  Proof.
    rewrite (ev_Q S I). apply khalf_unique. rewrite <- kQ_add, <- (kQ_1 S I). f_equal. change (qn 2) with (1 + 1)%Qc. field. discriminate.
  Qed.
  Lemma lindblad_sound x l ts : legal x -> legal l -> lindblad K x l = Ok ts ->
    Forall legal ts /\ msum I (map value ts) =
      star (value l) * value x * value l + - smul khalf (star (value l) * value l * value x + value x * star (value l) * value l).
  Proof.
    intros Lx Ll H. unfold lindblad in H. step H ld E1. destruct (oadj_sound I K HK _ _ Ll E1) as [L1 V1].
    step H p E2. destruct (m_times2 I K HK _ _ _ L1 Lx E2) as [L2 V2]. step H t1 E3. destruct (m_times2 I K HK _ _ _ L2 Ll E3) as [L3 V3].
    step H q E4. destruct (m_times2 I K HK _ _ _ L1 Ll E4) as [L4 V4]. step H q' E5. destruct (m_times2 I K HK _ _ _ L4 Lx E5) as [L5 V5].
    step H r E6. destruct (m_times2 I K HK _ _ _ Lx L1 E6) as [L6 V6]. step H r' E7. destruct (m_times2 I K HK _ _ _ L6 Ll E7) as [L7 V7].
    step H s E8. destruct (m_plus2 I K HK _ _ _ L5 L7 E8) as [L8 V8]. step H n E9. destruct (s_scal I K HK _ _ _ L8 E9) as [L9 V9].
    step H t2 E10. destruct (s_scal I K HK _ _ _ L9 E10) as [L10 V10]. injection H as <-. split; [now repeat constructor|].
    cbn [map]. rewrite !msum_cons. change (msum I []) with (@a0 I). rewrite aadd_0r, V3, V10, V9, V8, V5, V7, V6, V4, V2, V1.
    rewrite ev_half, (ev_sm1 I). f_equal. unfold aopp. rewrite <- !smul_mul. f_equal. ring.
  Qed.
  Lemma flat_sound x ls tss : legal x -> Forall legal ls -> mapM (lindblad K x) ls = Ok tss ->
    Forall legal (concat tss) /\ msum I (map value (concat tss)) =
      asum (fun l => star (value l) * value x * value l + - smul khalf (star (value l) * value l * value x + value x * star (value l) * value l)) ls.
  Proof.
    intros Lx. revert tss. induction ls as [|l ls IH]; cbn [mapM]; intros tss Ll H; [injection H as <-; split; [constructor|reflexivity]|].
    step H ts Et. step H r Er. injection H as <-. destruct (lindblad_sound _ _ _ Lx (Forall_inv Ll) Et) as [L1 V1].
    destruct (IH r (Forall_inv_tail Ll) eq_refl) as [L2 V2]. cbn [concat]. split; [now apply Forall_app|].
    rewrite map_app. assert (forall u v, msum I (u ++ v) = msum I u + msum I v) as Ha by (intros u v; induction u as [|z u IHu]; cbn [app]; [symmetry; apply aadd_0|]; rewrite !msum_cons, IHu; apply aadd_assoc).
    rewrite Ha, V1, V2, asum_cons. reflexivity.
  Qed.
  Lemma mapM_at {X} (f : X -> res op) (P : X -> Prop) (v : X -> A I) l l' dx :
    (forall x e, P x -> f x = Ok e -> means e (v x)) -> Forall P l -> mapM f l = Ok l' ->
    length l' = length l /\ Forall legal l' /\ forall i, i < length l -> value (nth i l' OZero) = v (nth i l dx).
  Proof.
    intros Hf HP E. destruct (mapM_nth f l l' dx OZero E) as [El Hn]. split; [exact El|]. split; [exact (proj1 (mapM_sound I f P v l l' Hf HP E))|].
    intros i Hi. apply (proj2 (Hf _ _ (Forall_nth' P l dx i HP Hi) (Hn i Hi))).
  Qed.

  (** the equation of motion *)
  Theorem eom_sound n sys x noises e :
    sys_ok I n sys -> legal x -> Forall legal noises -> eom simp same m K sys x noises = Ok e ->
    let a := slh_of I sys in let b i := value (nth i noises OZero) in
    length noises = n /\
    means e (theta n a (value x) Time Time + sm n (fun i => star (b i) * theta n a (value x) (Chan i) Time)
             + sm n (fun j => theta n a (value x) Time (Chan j) * b j)).
  Proof.
    intros (HS1 & HS2 & HL & LS & LL & LH) Lx Lb H a b. unfold eom in H.
    step H hx E1. destruct (ocomm_sound _ _ _ LH Lx E1) as [L1 V1]. step H h E2. destruct (s_scal I K HK _ _ _ L1 E2) as [L2 V2].
    step H ls E3. destruct (flat_sound _ _ _ Lx LL E3) as [L3 V3].
    destruct (length noises =? length (oL sys)) eqn:En; cbn [negb] in H; [|discriminate]. apply Nat.eqb_eq in En. rewrite HL in En. split; [exact En|].
    step H bd E4. destruct (mapM_at (oadj K) legal (fun y => star (value y)) noises bd OZero (fun y e' => oadj_sound I K HK y e') Lb E4) as (N4 & L4 & V4). rewrite En in N4, V4.
    step H bS E5.
    assert (length bS = n /\ Forall legal bS /\ forall k, k < n -> value (nth k bS OZero) = sm n (fun i => star (b i) * star (ent (sS a) k i))) as (N5 & L5 & V5).
    { destruct (mapM_at (fun row => do srow <- mapM (oadj K) row; dot K bd srow) (fun row => length row = n /\ Forall legal row)
        (fun row => sm n (fun i => star (b i) * star (value (nth i row OZero)))) (oS sys) bS []) as (N & L & V).
      - intros row e' [Hr Lr] E. step E srow Er. destruct (mapM_at (oadj K) legal (fun y => star (value y)) row srow OZero (fun y e' => oadj_sound I K HK y e') Lr Er) as (Ns & Ls & Vs). rewrite Hr in Ns, Vs.
        exact (dot_sound bd srow e' n _ _ N4 Ns L4 Ls V4 Vs E).
      - apply Forall_forall. intros r Hr. rewrite Forall_forall in HS2, LS. auto.
      - exact E5.
      - rewrite HS1 in N, V. split; [exact N|]. split; [exact L|]. intros k Hk. rewrite V by exact Hk. apply sm_ext. intros i Hi. f_equal. f_equal.
        unfold a, slh_of. cbn [sS]. rewrite HS1. now rewrite ent_tab by lia. }
    assert (forall k, k < n -> ent (sL a) k 0 = value (nth k (oL sys) OZero)) as EL by (intros k Hk; unfold a, slh_of; cbn [sL]; rewrite HS1; now rewrite ent_tab by lia).
    step H c1 E6. destruct (mapM_at (ocomm K x) legal (fun l => comm (value x) (value l)) (oL sys) c1 OZero (fun l e' Hl => ocomm_sound x l e' Lx Hl) LL E6) as (N6 & L6 & V6). rewrite HL in N6, V6.
    step H t E7. destruct (dot_sound bS c1 t n _ _ N5 N6 L5 L6 V5 V6 E7) as [L7 V7]. step H cr E8. destruct (expand_sound I K HK m _ _ L7 E8) as [L8 V8].
    step H c2 E9. destruct (mapM_at (fun l => do ld <- oadj K l; ocomm K ld x) legal (fun l => comm (star (value l)) (value x)) (oL sys) c2 OZero) as (N9 & L9 & V9).
    { intros l e' Ll E. step E ld Ed. destruct (oadj_sound I K HK _ _ Ll Ed) as [Ld Vd]. rewrite <- Vd. now apply ocomm_sound. }
    { exact LL. } { exact E9. }
    rewrite HL in N9, V9.
    step H c2S E10. rewrite HS1 in E10.
    destruct (mapM_at (fun j => dot K c2 (column (oS sys) j)) (fun j => j < n) (fun j => sm n (fun k => comm (star (ent (sL a) k 0)) (value x) * ent (sS a) k j)) (seq 0 n) c2S 0) as (N10 & L10 & V10).
    { intros j e' Hj E. apply (dot_sound c2 (column (oS sys) j) e' n (fun k => comm (star (ent (sL a) k 0)) (value x)) (fun k => ent (sS a) k j)); try assumption.
      - unfold column. now rewrite map_length.
      - unfold column. apply Forall_forall. intros y Hy. apply in_map_iff in Hy. destruct Hy as (row & <- & Hr). rewrite Forall_forall in LS, HS2. apply Forall_nth'; [now apply LS|]. now rewrite (HS2 _ Hr).
      - intros i Hi. rewrite V9 by exact Hi. now rewrite EL by exact Hi.
      - intros i Hi. unfold column. rewrite (nth_indep _ OZero ((fun row => nth j row OZero) [])) by (rewrite map_length; lia). rewrite (map_nth (fun row => nth j row OZero)).
        unfold a, slh_of. cbn [sS]. rewrite HS1. now rewrite ent_tab by lia. }
    { apply Forall_forall. intros j Hj. apply in_seq in Hj. lia. }
    { exact E10. }
    rewrite seq_length in N10, V10.
    step H u E11. destruct (dot_sound c2S noises u n _ b N10 En L10 Lb V10 (fun i _ => eq_refl) E11) as [L11 V11].
    step H an E12. destruct (expand_sound I K HK m _ _ L11 E12) as [L12 V12].
    destruct (overlaps (oS sys) x); [discriminate|].
    step H ret E13. destruct (s_plus I K HK ([h] ++ concat ls ++ [cr; an]) ret) as [L13 V13]; [|exact E13|].
    { apply Forall_app. split; [now constructor|]. apply Forall_app. split; [exact L3|]. now repeat constructor. }
    step H ret' E14. destruct (expand_sound I K HK m _ _ L13 E14) as [L14 V14]. destruct (simplify_value _ _ L14 H) as [L15 V15]. split; [exact L15|].
    rewrite V15, V14, V13, !map_app. cbn [map].
    assert (forall u v, msum I (u ++ v) = msum I u + msum I v) as Ha by (intros u' v; induction u' as [|z u' IHu]; cbn [app]; [symmetry; apply aadd_0|]; rewrite !msum_cons, IHu; apply aadd_assoc).
    rewrite !Ha, !msum_cons. change (msum I []) with (@a0 I). rewrite V3, V2, V8, V7, V12, V11, V1, (ev_I S I).
    assert (theta n a (value x) Time Time = smul iu (comm (value (oH sys)) (value x)) + asum (fun l => star (value l) * value x * value l + - smul khalf (star (value l) * value l * value x + value x * star (value l) * value l)) (oL sys)) as T1.
    { cbn [theta]. f_equal. unfold bigsum. transitivity (asum (fun l => star (value l) * value x * value l + - smul khalf (star (value l) * value l * value x + value x * star (value l) * value l)) (map (fun k => nth k (oL sys) OZero) (seq 0 n))).
      - rewrite asum_map. apply asum_ext. intros k Hk. apply in_seq in Hk. rewrite EL by lia. reflexivity.
      - f_equal. rewrite <- HL. clear. induction (oL sys) as [|y l IH]; [reflexivity|]. cbn [length seq map nth]. f_equal. rewrite <- seq_shift, map_map. exact IH. }
    assert (sm n (fun k => sm n (fun i => star (b i) * star (ent (sS a) k i)) * comm (value x) (value (nth k (oL sys) OZero))) = sm n (fun i => star (b i) * theta n a (value x) (Chan i) Time)) as T2.
    { transitivity (sm n (fun k => sm n (fun i => star (b i) * (star (ent (sS a) k i) * comm (value x) (ent (sL a) k 0))))).
      - apply sm_ext. intros k Hk. rewrite EL, <- sm_mul_r by exact Hk. apply sm_ext. intros. ncr.
      - rewrite sm_swap. apply sm_ext. intros i _. cbn [theta]. now rewrite <- sm_mul_l. }
    rewrite T1, <- T2.
    assert (sm n (fun i => sm n (fun k => comm (star (ent (sL a) k 0)) (value x) * ent (sS a) k (nth i (seq 0 n) 0)) * b i) = sm n (fun j => theta n a (value x) Time (Chan j) * b j)) as ->.
    { apply sm_ext. intros j Hj. rewrite seq_nth by exact Hj. reflexivity. }
    ncr.
  Qed.
End Sound.
