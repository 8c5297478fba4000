(** C55 adiabatic elimination: the model returned by prepare_adiabatic_limit and
    eval_adiabatic_limit is the limit of the quantum stochastic differential equation. *)
From Coq Require Import QArith Qcanon FunctionalExtensionality.
From Verif Require Import Prelude ListFacts AlgSpec CAlg CInst NcRing OpPi MatModel SlhModel MatProofs MatSpec MatProofs2 SlhProofs1 AdModel AdSpec AdProofs AdProofs2 AdProofs3 AdInst.
Local Open Scope nat_scope.

Section Props.
  Context {M : calgebra}.
  Notation A := (A M). Notation K := (K M).
  Implicit Types a r : slh M.
  (** the adjoint of the scattering matrix *)
  Definition dagS a (i j : nat) : A := star (ent (sS a) j i).
  (** -L^dagger L/2 + iH *)
  Definition drift a (n : nat) : A :=
    aadd (smul khalf (aopp (bigsum n (fun j => amul (star (ent (sL a) j 0)) (ent (sL a) j 0))))) (smul iu (sH a)).

  Lemma shape_madj (x : matrix A) n m : has_shape x n m -> has_shape (madj x) m n /\ forall i j, i < m -> j < n -> ent (madj x) i j = star (ent x j i).
  Proof.
    intros (H1 & H2 & _). unfold madj, element_wise, mtranspose. cbn [nrows ncols tab]. rewrite H1, H2. split; [apply has_shape_tab|].
    intros i j Hi Hj. rewrite ent_tab by lia. now rewrite ent_tab by lia.
  Qed.

  (** ** prepare_adiabatic_limit *)
  (** for every value of k the returned operators are the coefficients of the drift and
      of the coupling operators *)
  Theorem C55_prepare (C : scaling M) ser a n h0 h1 h2 f g p :
    series_ok C ser -> system a n -> scales C a n h0 h1 h2 f g -> prepare ser a = Ok p ->
    const C (pY p) /\ const C (pA p) /\ const C (pB p) /\
    drift a n = aadd (aadd (pB p) (smul (kk C) (pA p))) (smul (kmul (kk C) (kk C)) (pY p)) /\
    has_shape (pF p) 1 n /\ has_shape (pG p) 1 n /\ has_shape (pN p) n n /\
    (forall j, j < n -> ent (pF p) 0 j = f j /\ ent (pG p) 0 j = g j) /\
    (forall i j, i < n -> j < n -> ent (pN p) i j = dagS a i j).
  Proof.
    intros Hser Hsys Hsc E. destruct (prepare_parts C ser a n h0 h1 h2 f g Hsys Hsc Hser p E) as (-> & -> & -> & SF & SG & EF & EG & EN).
    split; [eapply const_yy; exact Hsc|]. split; [eapply const_aa; exact Hsc|]. split; [eapply const_bb; exact Hsc|].
    split; [exact (K_eq C a n h0 h1 h2 f g Hsc)|]. split; [exact SF|]. split; [exact SG|].
    destruct (shape_madj (sS a) n n (proj1 Hsys)) as [S1 S2]. rewrite EN. split; [exact S1|]. split; [auto|exact S2].
  Qed.
  (** and it fails only if series_expand does, or when there is no channel *)
  Theorem C55_prepare_total (C : scaling M) ser a n h0 h1 h2 f g :
    series_ok C ser -> system a n -> scales C a n h0 h1 h2 f g ->
    (forall b' a' y' : A, const C b' -> const C a' -> const C y' -> exists cs, ser 2 (aadd (aadd b' (smul (kk C) a')) (smul (kmul (kk C) (kk C)) y')) = Ok cs) ->
    (forall g' f' : A, const C g' -> const C f' -> exists cs, ser 1 (aadd g' (smul (kk C) f')) = Ok cs) ->
    (0 < n -> exists p, prepare ser a = Ok p) /\ (n = 0 -> prepare ser a = Err ValueError).
  Proof.
    intros Hser Hsys Hsc H2 H1. split.
    - intros Hn. eapply prepare_ok; eauto.
      + apply H2; [eapply const_bb; exact Hsc|eapply const_aa; exact Hsc|eapply const_yy; exact Hsc].
      + intros j Hj. destruct Hsc as (_ & _ & _ & Hc & _). apply H1; now apply Hc.
    - intros ->. unfold prepare. pose proof (shape_Ld a 0 Hsys) as S1. rewrite (mmul_shape _ _ 1 0 1 S1 (proj2 Hsys)). cbn [bind]. rewrite ent_tab by lia.
      replace (bigsum 0 (fun l => amul (ent (madj (sL a)) 0 l) (ent (sL a) l 0))) with (bigsum 0 (fun j => amul (star (ent (sL a) j 0)) (ent (sL a) j 0))) by reflexivity.
      change (smul khalf (smul (kopp k1) ?x)) with (nhalf x). rewrite (K_eq C a 0 h0 h1 h2 f g Hsc).
      destruct (H2 (bb 0 h0 g) (aa 0 h1 f g) (yy 0 h2 f)) as [cs E]; [eapply const_bb; exact Hsc|eapply const_aa; exact Hsc|eapply const_yy; exact Hsc|].
      rewrite E. cbn [bind]. apply (proj1 Hser) in E; [|eapply const_bb; exact Hsc|eapply const_aa; exact Hsc|eapply const_yy; exact Hsc]. subst cs.
      rewrite (row_Ld C a 0 h0 h1 h2 f g Hsys Hsc). reflexivity.
  Qed.

  (** ** eval_adiabatic_limit *)
  (** it always succeeds, and the result has a self-adjoint Hamiltonian, even when the
      slow space is not invariant *)
  Theorem C55_eval_defined (p : parts M) n yt p0 : has_shape (pF p) 1 n -> has_shape (pG p) 1 n -> has_shape (pN p) n n ->
    exists r, eval_limit p yt p0 = Ok r /\ system r n /\ star (sH r) = sH r.
  Proof.
    intros SF SG SN. destruct (eval_parts p n (fun j => ent (pF p) 0 j) (fun j => ent (pG p) 0 j) (ent (pN p)) yt p0 SF SG SN) as (r & E & Hr & _ & _ & H); [reflexivity|reflexivity|reflexivity|].
    exists r. split; [exact E|]. split; [exact Hr|]. rewrite H. rewrite !star_imag. reflexivity.
  Qed.

  (** the limit of a physical model: all four coefficients of the limiting equation are
      those of the returned SLH triple, and its Hamiltonian is self-adjoint *)
  Theorem C55_limit (C : scaling M) ser a n h0 h1 h2 f g p yt p0 :
    series_ok C ser -> physical a n -> scales C a n h0 h1 h2 f g -> definite (M := M) ->
    prepare ser a = Ok p -> slow_space (pY p) yt p0 -> closed n (pA p) yt p0 f g (dagS a) ->
    exists r, eval_limit p yt p0 = Ok r /\ system r n /\ star (sH r) = sH r /\
      drift r n = lim_K (pA p) (pB p) yt p0 /\
      (forall j, j < n -> star (ent (sL r) j 0) = lim_L (pA p) yt p0 f g j) /\
      (forall i j, i < n -> j < n -> dagS r i j = lim_N n yt p0 f (dagS a) i j) /\
      (forall i, i < n -> aopp (bigsum n (fun j => amul (dagS r i j) (ent (sL r) j 0))) = lim_M n (pA p) yt p0 f g (dagS a) i).
  Proof.
    intros Hser (Hsys & Hiso & Hco & HH) Hsc HD E HP (HC & HN).
    destruct (prepare_parts C ser a n h0 h1 h2 f g Hsys Hsc Hser p E) as (EY & EA & EB & SF & SG & EF & EG & EN).
    destruct (shape_madj (sS a) n n (proj1 Hsys)) as [SN EN']. rewrite <- EN in SN, EN'.
    destruct (eval_parts p n f g (dagS a) yt p0 SF SG SN EF EG EN') as (r & Er & Hr & HS & HL & Hh).
    exists r. split; [exact Er|]. split; [exact Hr|]. split; [rewrite Hh, !star_imag; reflexivity|].
    pose proof (HY C a n h0 h1 h2 f g Hsc HH) as Y. rewrite <- EY in Y.
    pose proof (AdProofs2.HA C a n h0 h1 h2 f g Hsc HH) as A'. rewrite <- EA in A'.
    pose proof (AdProofs2.HB C a n h0 h1 h2 f g Hsc HH) as B. rewrite <- EB in B.
    assert (forall j, j < n -> amul (star (f j)) p0 = a0) as D. { rewrite EY in HP. exact (dark C a n h0 h1 h2 f g Hsc yt p0 HD HH HP). }
    split; [|split; [exact HL|split; [exact HS|]]].
    - unfold drift. rewrite Hh, star_imag.
      replace (aopp (bigsum n (fun j => amul (star (ent (sL r) j 0)) (ent (sL r) j 0)))) with (aadd (lim_K (pA p) (pB p) yt p0) (star (lim_K (pA p) (pB p) yt p0))); [apply imag|].
      rewrite (limit_dissipation n (pY p) (pA p) (pB p) yt p0 f g HP Y A' B D HC). f_equal. apply sm_ext. intros j Hj.
      rewrite <- (HL j Hj), star_star. reflexivity.
    - intros i Hi. rewrite (limit_scattering n (pY p) (pA p) yt p0 f g (dagS a) HP Y A' D HC HN i Hi). f_equal. apply sm_ext. intros j Hj.
      change (star (ent (sS r) j i)) with (dagS r i j) in HS. rewrite <- (HS i j Hi Hj), <- (HL j Hj), star_star. reflexivity.
  Qed.
  (** the scattering matrix of the limit is unitary on the slow space *)
  Theorem C55_limit_unitary (C : scaling M) ser a n h0 h1 h2 f g p yt p0 r :
    series_ok C ser -> physical a n -> scales C a n h0 h1 h2 f g ->
    prepare ser a = Ok p -> slow_space (pY p) yt p0 -> closed n (pA p) yt p0 f g (dagS a) -> closed_back n yt p0 f (dagS a) ->
    eval_limit p yt p0 = Ok r -> forall i k, i < n -> k < n ->
      bigsum n (fun j => amul (star (ent (sS r) j i)) (ent (sS r) j k)) = amul (delta i k) p0 /\
      bigsum n (fun j => amul (ent (sS r) i j) (star (ent (sS r) k j))) = amul (delta i k) p0.
  Proof.
    intros Hser (Hsys & Hiso & Hco & HH) Hsc E HP (HC & HN) HB Er i k Hi Hk.
    destruct (prepare_parts C ser a n h0 h1 h2 f g Hsys Hsc Hser p E) as (EY & EA & EB & SF & SG & EF & EG & EN).
    destruct (shape_madj (sS a) n n (proj1 Hsys)) as [SN EN']. rewrite <- EN in SN, EN'.
    destruct (eval_parts p n f g (dagS a) yt p0 SF SG SN EF EG EN') as (r' & Er' & Hr & HS & HL & Hh).
    rewrite Er in Er'. injection Er' as <-.
    pose proof (HY C a n h0 h1 h2 f g Hsc HH) as Y. rewrite <- EY in Y. split.
    - rewrite <- (limit_coiso n (pY p) yt p0 f (dagS a) HP Y HN); [| |exact Hi|exact Hk].
      + apply sm_ext. intros j Hj. rewrite <- (HS i j Hi Hj), <- (HS k j Hk Hj), star_star. reflexivity.
      + intros i' k' Hi' Hk'. rewrite <- (Hiso i' k' Hi' Hk'). apply sm_ext. intros j _. unfold dagS. now rewrite star_star.
    - rewrite <- (limit_iso n (pY p) yt p0 f (dagS a) HP Y HB); [| |exact Hi|exact Hk].
      + apply sm_ext. intros j Hj. rewrite <- (HS j i Hj Hi), <- (HS j k Hj Hk), star_star. reflexivity.
      + intros i' k' Hi' Hk'. rewrite <- (Hco i' k' Hi' Hk'). apply sm_ext. intros j _. unfold dagS. now rewrite star_star.
  Qed.
  (** The docstring asks for [Y * Ytilde = P0]: with P0 the projector onto the null space
      this is possible only for P0 = 0. *)
  Theorem C55_docstring_refuted (y yt p0 : A) : amul p0 p0 = p0 -> amul p0 y = a0 -> amul y yt = p0 -> p0 = a0.
  Proof. intros H1 H2 H3. rewrite <- H1. rewrite <- H3 at 2. rewrite amul_assoc, H2. apply amul_0l. Qed.

  (** ** try_adiabatic_elimination: the null space *)
  Section Ch.
    Context (kinv : K -> K) (proj : nat -> A) (zero : A -> bool) (b : nat).
    Definition levels (ts : list (nat * K)) : list (term * K) := map (fun t => (TProj (fst t), snd t)) ts.
    Lemma find_none (terms : list (term * K)) : find (fun t => negb (in_basis b (fst t))) terms = None ->
      exists ts, terms = levels ts /\ forall t, In t ts -> fst t < b.
    Proof.
      induction terms as [|[t c] terms IH]; intros H; [now exists []|]. cbn [find fst] in H.
      destruct (in_basis b t) eqn:E; cbn [negb] in H; [|discriminate]. destruct (IH H) as (ts & -> & Hts).
      destruct t as [l|j k|]; try discriminate. exists ((l, c) :: ts). split; [reflexivity|]. intros t [<-|Ht]; [now apply Nat.ltb_lt in E|now apply Hts].
    Qed.
    Lemma levels_fast ts l : existsb (is_level l) (levels ts) = existsb (Nat.eqb l) (map fst ts).
    Proof. induction ts as [|[m c] ts IH]; [reflexivity|]. cbn [levels map existsb fst snd is_level]. f_equal; [apply Nat.eqb_sym|exact IH]. Qed.
    (** whatever it returns is a null space projector and a pseudo-inverse, if the basis is
        complete and Y is the sum of the terms *)
    Theorem C55_choose terms yt p0 :
      (forall l m, l < b -> m < b -> amul (proj l) (proj m) = if l =? m then proj l else a0) ->
      (forall l, l < b -> star (proj l) = proj l) -> asum proj (seq 0 b) = a1 ->
      NoDup (map fst terms) -> (forall t, In t terms -> kmul (snd t) (kinv (snd t)) = k1) ->
      choose kinv proj zero b terms = Ok (yt, p0) ->
      slow_space (asum (fun t => match fst t with TProj l => smul (snd t) (proj l) | _ => a0 end) terms) yt p0 /\ zero p0 = false.
    Proof.
      intros Hp Hs H1 Hnd Hk. unfold choose. destruct (find _ terms) as [[t c]|] eqn:Ef.
      - clear - Ef. destruct t; discriminate.
      - destruct (find_none terms Ef) as (ts & -> & Hts). destruct (zero _) eqn:Ez; [discriminate|]. intros E. injection E as <- <-. split; [|exact Ez].
        unfold levels. rewrite !asum_map. cbn [fst snd].
        replace (filter _ (seq 0 b)) with (filter (fun l => negb (existsb (Nat.eqb l) (map fst ts))) (seq 0 b)).
        2:{ apply filter_ext. intros l. f_equal. symmetry. apply levels_fast. }
        apply (choose_sound kinv proj b Hp Hs H1 ts Hts).
        + unfold levels in Hnd. rewrite map_map in Hnd. cbn [fst] in Hnd. clear - Hnd. induction ts as [|t ts IH]; [constructor|]. cbn [map] in *. inversion Hnd as [|? ? Hn Hnd']; subst.
          constructor; [|now apply IH]. intros Hin. apply Hn. apply in_map_iff in Hin as (t' & E & Ht'). apply in_map_iff. exists t'. now rewrite E.
        + intros t Ht. apply (Hk (TProj (fst t), snd t)). apply in_map_iff. now exists t.
    Qed.
    (** a Y without null space is rejected with CannotEliminateAutomatically *)
    Theorem C55_no_null_space terms : (forall t, In t terms -> in_basis b (fst t) = true) -> zero a0 = true ->
      (forall l, l < b -> exists c, In (TProj l, c) terms) -> choose kinv proj zero b terms = Err PlainException.
    Proof.
      intros Hb Hz Hl. unfold choose. destruct (find _ terms) as [[t c]|] eqn:Ef.
      - apply find_some in Ef as [H G]. rewrite (Hb _ H) in G. discriminate.
      - replace (filter _ (seq 0 b)) with (@nil nat); [change (asum proj []) with (@a0 M); now rewrite Hz|]. symmetry.
        assert (forall ls, (forall l, In l ls -> l < b) -> filter (fun l => negb (existsb (is_level l) terms)) ls = []) as G.
        { induction ls as [|l ls IH]; intros H; [reflexivity|]. cbn [filter]. destruct (existsb (is_level l) terms) eqn:E; cbn [negb]; [apply IH; intros; apply H; now right|].
          exfalso. destruct (Hl l) as [c Hc]; [apply H; now left|]. apply Bool.not_true_iff_false in E. apply E. apply existsb_exists. exists (TProj l, c). split; [exact Hc|apply Nat.eqb_refl]. }
        apply G. intros l Hin. apply in_seq in Hin. lia.
    Qed.
    (** An off-diagonal Y should be rejected with CannotEliminateAutomatically. The check
        itself crashes: LocalSigma has no attribute operands. *)
    Theorem C55_off_diagonal_refuted j k c : choose kinv proj zero b [(TSigma j k, c)] = Err AttributeError.
    Proof. reflexivity. Qed.
    (** so a Y with a single off-diagonal term, and other terms inside the basis, never gives that error *)
    Theorem C55_off_diagonal_error ts j k c terms : terms = levels ts ++ [(TSigma j k, c)] -> (forall t, In t ts -> fst t < b) ->
      choose kinv proj zero b terms = Err AttributeError.
    Proof.
      intros -> H. unfold choose. replace (find _ _) with (Some (TSigma j k, c)); [reflexivity|]. symmetry.
      induction ts as [|t ts IH]; [reflexivity|]. cbn [levels map app find fst]. cbn [in_basis]. rewrite (proj2 (Nat.ltb_lt _ _) (H t (or_introl eq_refl))). cbn [negb].
      apply IH. intros; apply H; now right.
    Qed.
  End Ch.
End Props.

(** A driven, detuned two-level atom that decays at a rate k^2:
    L = k |0><1|, H = k^2/2 |1><1| + k sigma_x + sigma_z. *)
Definition e0 : q2 := Q2 g1 g0 g0 g0.
Definition e1 : q2 := Q2 g0 g0 g0 g1.
Definition atom (s : q2) : slh PM :=
  SLH (M:=PM) (Mat 1 1 [[cst s]]) (Mat 1 1 [[smul (a:=PM) pk (cst lower)]])
      (aadd (a:=PM) (aadd (a:=PM) (cst pauliz) (smul (a:=PM) pk (cst paulix))) (smul (a:=PM) (kmul (a:=PM) pk pk) (cst (q2smul (Gq half 0) e1)))).
Definition atom_Yt : A PM := cst (q2smul (Gq (-(1)) (-(1))) e1).
Lemma pm_ext (x y : A PM) : (forall q, x q = y q) -> x = y.
Proof. intros H. fx. apply H. Qed.
Ltac byp := apply pm_ext; intros ?q; apply q2_eq; apply gq_eq; cbn; ring.
Lemma atom_scales s : scales Ck (atom s) 1 (cst pauliz) (cst paulix) (cst (q2smul (Gq half 0) e1)) (fun _ => cst raise) (fun _ => cst zero2).
Proof.
  split; [now eexists|]. split; [now eexists|]. split; [now eexists|]. split; [intros; split; now eexists|]. split; [reflexivity|].
  intros [|j] Hj; [|lia]. byp.
Qed.
Lemma atom_physical : physical (atom one2) 1.
Proof.
  split; [repeat split; repeat constructor|]. split; [|split].
  - intros [|i] [|j] Hi Hj; try lia. byp.
  - intros [|i] [|j] Hi Hj; try lia. byp.
  - byp.
Qed.
Definition atom_parts (s : q2) : parts PM :=
  match prepare ser_k (atom s) with Ok p => p | Err _ => Parts a0 a0 a0 (zerosm 1 1) (zerosm 1 1) (zerosm 1 1) end.
Lemma atom_prepare s : prepare ser_k (atom s) = Ok (atom_parts s).
Proof. reflexivity. Qed.
Ltac byq := apply pm_ext; intros ?q; apply q2_eqb_eq; vm_compute; reflexivity.
Lemma atom_slow s : slow_space (pY (atom_parts s)) atom_Yt (cst e0).
Proof. repeat split; byq. Qed.
Example C55_limit_inhabited :
  series_ok Ck ser_k /\ physical (atom one2) 1 /\ definite (M := PM) /\ prepare ser_k (atom one2) = Ok (atom_parts one2) /\
  slow_space (pY (atom_parts one2)) atom_Yt (cst e0) /\
  closed 1 (pA (atom_parts one2)) atom_Yt (cst e0) (fun _ => cst raise) (fun _ => cst zero2) (dagS (atom one2)) /\
  closed_back 1 atom_Yt (cst e0) (fun _ => cst raise) (dagS (atom one2)) /\
  exists r, eval_limit (atom_parts one2) atom_Yt (cst e0) = Ok r /\
    ent (sS r) 0 0 = cst (q2smul (Gq 0 1) e0) /\ ent (sL r) 0 0 = cst (q2smul (Gq (-(1)) (-(1))) e0) /\ sH r = cst zero2.
Proof.
  split; [exact ser_k_ok|]. split; [exact atom_physical|]. split; [exact definite_PM|]. split; [reflexivity|]. split; [apply atom_slow|].
  split; [split|split].
  - intros [|j] Hj; [|lia]. byq.
  - intros [|i] [|j] Hi Hj; try lia. byq.
  - intros [|i] [|j] Hi Hj; try lia. byq.
  - eexists. split; [reflexivity|]. split; [byq|]. split; byq.
Qed.
(** With S = sigma_x the slow space is not invariant: the "limit" has S = 0, without an error. *)
Theorem C55_not_closed_refuted : let a := atom paulix in
  physical a 1 /\ prepare ser_k a = Ok (atom_parts paulix) /\ slow_space (pY (atom_parts paulix)) atom_Yt (cst e0) /\
  exists r, eval_limit (atom_parts paulix) atom_Yt (cst e0) = Ok r /\ ent (sS r) 0 0 = a0.
Proof.
  split; [split; [repeat split; repeat constructor|split; [|split]]|].
  - intros [|i] [|j] Hi Hj; try lia. byp.
  - intros [|i] [|j] Hi Hj; try lia. byp.
  - byp.
  - split; [reflexivity|]. split; [apply atom_slow|]. eexists. split; [reflexivity|]. byq.
Qed.
Definition gq_inv (x : gq) : gq := let d := (gre x * gre x + gim x * gim x)%Qc in Gq (gre x / d) (- gim x / d).
Example C55_choose_inhabited :
  choose (M:=CM) gq_inv (fun l => match l with 0 => e0 | _ => e1 end) (fun x => q2_eqb x zero2) 2 [(TProj 1, Gq (- half) half)] =
  Ok (q2add (q2smul (gq_inv (Gq (- half) half)) e1) zero2, q2add e0 zero2) /\ kmul (a:=CM) (Gq (- half) half) (gq_inv (Gq (- half) half)) = k1.
Proof. split; [reflexivity|]. apply gq_eqb_eq. vm_compute. reflexivity. Qed.

Print Assumptions C55_prepare.
Print Assumptions C55_prepare_total.
Print Assumptions C55_eval_defined.
Print Assumptions C55_limit.
Print Assumptions C55_limit_unitary.
Print Assumptions C55_docstring_refuted.
Print Assumptions C55_choose.
Print Assumptions C55_no_null_space.
Print Assumptions C55_off_diagonal_refuted.
Print Assumptions C55_off_diagonal_error.
Print Assumptions C55_limit_inhabited.
Print Assumptions C55_not_closed_refuted.
