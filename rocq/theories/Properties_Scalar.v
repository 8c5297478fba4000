(** C42: Zero and One behave as 0 and 1. C48: the scalar algebra keeps values. *)
From Coq Require Import QArith Qcanon Ring_theory Ring Permutation.
From Verif Require Import Prelude SortProofs CInst ScalarModel ScalarSpec ScalarProofs ScalarInst.
Local Open Scope nat_scope.

(** ** Lemmas for C42 *)
Section Numbers.
  Context {V : pyvals} (N : number_laws V).
  Lemma create_cong (u w : V) : veqb u w = true -> agree (create u) (create w).
  Proof.
    intros H. pose proof (n_sym V N _ _ H) as H'. unfold create. rewrite (n_bad V N _ _ H). destruct (vbad w); [now left|].
    assert (forall z, veqb u (vZ z) = veqb w (vZ z)) as E.
    { intros z. destruct (veqb u (vZ z)) eqn:E1; destruct (veqb w (vZ z)) eqn:E2; try reflexivity.
      - now rewrite (n_trans V N _ _ _ H' E1) in E2.
      - now rewrite (n_trans V N _ _ _ H E2) in E1. }
    rewrite !E. destruct (veqb w (vZ 0)); [reflexivity|]. destruct (veqb w (vZ 1)); [reflexivity|exact H].
  Qed.
  Lemma create_val (u w : V) : vbad w = false -> veqb u w = true -> agree (Ok (SVal w)) (create u).
  Proof.
    intros B H. pose proof (n_sym V N _ _ H) as H'. unfold create. rewrite (n_bad V N _ _ H), B.
    destruct (veqb u (vZ 0)) eqn:E0; [exact (n_trans V N _ _ _ H' E0)|]. destruct (veqb u (vZ 1)) eqn:E1; [exact (n_trans V N _ _ _ H' E1)|exact H'].
  Qed.
  Lemma create_zero (u : V) : veqb u (vZ 0) = true -> create u = Ok SZero.
  Proof. intros H. unfold create. now rewrite (n_bad V N _ _ H), (n_finite V N), H. Qed.
  Lemma create_one (u : V) : veqb u (vZ 1) = true -> create u = Ok SOne.
  Proof.
    intros H. unfold create. rewrite (n_bad V N _ _ H), (n_finite V N), H. destruct (veqb u (vZ 0)) eqn:E; [|reflexivity].
    pose proof (n_trans V N _ _ _ (n_sym V N _ _ E) H) as F. rewrite (n_ints V N) in F. discriminate F.
  Qed.
  Lemma agree_refl (r : res (scal V)) : (forall x, r = Ok x -> s_eqb x x = true) -> agree r r.
  Proof. destruct r as [x|e]; intros H; [now apply H|now left]. Qed.
  Lemma create_refl (v : V) : agree (create v) (create v).
  Proof. apply create_cong, (n_refl V N). Qed.
  Lemma bind_refl (r : res V) : agree (do c <- r; create c) (do c <- r; create c).
  Proof. destruct r as [c|e]; cbn [bind]; [apply create_refl|now left]. Qed.
  Lemma gives_create r (w : V) : gives r w -> agree (create w) (do c <- r; create c).
  Proof. intros [c [-> H]]. cbn [bind]. apply create_cong. now apply (n_sym V N). Qed.
  Lemma gives_val r (w : V) : vbad w = false -> gives r w -> agree (Ok (SVal w)) (do c <- r; create c).
  Proof. intros B [c [-> H]]. cbn [bind]. now apply create_val. Qed.
  Lemma gives_zero r : gives r (vZ 0 : V) -> agree (Ok SZero) (do c <- r; create c).
  Proof. intros [c [-> H]]. cbn [bind]. now rewrite (create_zero _ H). Qed.
  Lemma gives_one r : gives r (vZ 1 : V) -> agree (Ok SOne) (do c <- r; create c).
  Proof. intros [c [-> H]]. cbn [bind]. now rewrite (create_one _ H). Qed.
  Lemma undefined_err (r : res V) : undefined r -> agree (Err ZeroDivisionError) (do c <- r; create c).
  Proof. intros [-> | [c [-> H]]]; cbn [bind]; [now left|]. unfold create. rewrite H. right. now split. Qed.
  Lemma zero_finite : vbad (vZ 0 : V) = false. Proof. apply (n_finite V N). Qed.
  Lemma minus_one K : minus_o K (Obj SOne) = Ok (SVal (vZ (-1) : V)).
  Proof. cbn [minus_o r_mul]. unfold create. now rewrite (n_finite V N), !(n_ints V N). Qed.
  Lemma zero_plus_one slt n : k_plus (sk slt (S n)) [Obj SZero; Obj (SOne : scal V)] = Ok SOne.
  Proof.
    cbn [sk k_plus]. unfold plus_step, flat_plus. cbn [flat_map map app wrap].
    pose proof (pysorted_perm slt [SZero; SOne : scal V]) as P. destruct (Permutation_length_2_inv P) as [E|E]; rewrite E; reflexivity.
  Qed.
End Numbers.

(** ** C42 *)
(** For all operands that are numbers (bare numbers or SymPy expressions, ScalarValues,
    Zero and One) every operator gives what it gives for the numbers themselves. The two
    exceptions are shown below: a bare number // One, and a fraction % One. *)
Theorem C42_numbers V (N : number_laws V) slt n o (a b : operand V) v w : has_scalar a b = true -> number a = Some v -> number b = Some w -> vbad v = false -> vbad w = false ->
  (o = FloorDiv -> b = Obj SOne -> exists s, a = Obj s) ->
  (o = Mod -> b = Obj SOne -> (exists n, a = Raw n) \/ gives (vmod v (vZ 1)) (vZ 0)) ->
  agree (apply (sk slt (S n)) o a b) (do r <- py o v w; create r).
Proof.
  intros Hs Hv Hw Bv Bw Hf Hm.
  destruct a as [x|[| |x|k|l|l|p q]]; try discriminate Hv; injection Hv as <-; (destruct b as [y|[| |y|k|l|l|p q]]; try discriminate Hw; try discriminate Hs; injection Hw as <-);
    destruct o; cbn [apply x_add x_sub x_mul x_div x_pow x_fdiv x_mod r_add r_sub r_mul r_div r_pow r_fdiv r_mod val_of py bind];
    unfold plus_base, sub_base, mul_base, div_base; cbn [o_is s_is val_of create_o Z.eqb Pos.eqb];
    try exact (create_refl N _); try exact (bind_refl N _);
    try exact (create_cong N _ _ (n_sym V N _ _ (n_add_0r V N _)));
    try exact (create_cong N _ _ (n_sym V N _ _ (n_sub_0r V N _)));
    try exact (create_cong N _ _ (n_sym V N _ _ (n_sub_0l V N _)));
    try exact (create_cong N _ _ (n_sym V N _ _ (n_add_0l V N _)));
    try exact (create_cong N _ _ (n_sym V N _ _ (n_mul_1l V N _)));
    try exact (create_cong N _ _ (n_sym V N _ _ (n_mul_1r V N _)));
    try exact (gives_create N _ _ (n_div_1 V N _));
    try exact (gives_create N _ _ (n_pow_1 V N _));
    try exact (gives_zero N _ (n_div_1 V N _));
    try exact (gives_zero N _ (n_pow_1 V N _));
    try exact (gives_one N _ (n_pow_1 V N _));
    try exact (gives_one N _ (n_pow_0 V N _ Bv));
    try exact (gives_val N _ _ Bv (n_div_1 V N _));
    try exact (gives_val N _ _ Bv (n_pow_1 V N _));
    try exact (create_val N _ _ Bw (n_add_0l V N _));
    try exact (create_val N _ _ Bv (n_add_0r V N _));
    try exact (create_val N _ _ Bv (n_sub_0r V N _));
    try exact (create_val N _ _ Bw (n_mul_1l V N _));
    try exact (create_val N _ _ Bv (n_mul_1r V N _));
    try exact (undefined_err _ (n_div_0 V N _)); try exact (undefined_err _ (n_fdiv_0 V N _)); try exact (undefined_err _ (n_mod_0 V N _));
    try (rewrite (create_zero N _ (n_mul_0l V N _ Bw)); reflexivity);
    try (rewrite (create_zero N _ (n_mul_0r V N _ Bv)); reflexivity);
    try (rewrite (create_zero N _ (n_add_0l V N _)); reflexivity);
    try (rewrite (create_one N _ (n_add_0l V N _)); reflexivity);
    try (rewrite (create_one N _ (n_add_0r V N _)); reflexivity);
    try (rewrite (create_one N _ (n_sub_0r V N _)); reflexivity);
    try (rewrite (create_one N _ (n_mul_1l V N _)); reflexivity);
    try (rewrite (create_zero N _ (n_sub_0r V N _)); reflexivity);
    try (rewrite (create_zero N _ (n_sub_11 V N)); reflexivity).
  - destruct (Hf eq_refl eq_refl) as [s E]. discriminate E.
  - cbn [bind]. rewrite (zero_plus_one slt n), (create_one N _ (n_add_0l V N _)). reflexivity.
  - rewrite (minus_one N). cbn [bind x_add]. exact (create_val N _ _ (n_finite V N _) (n_sub_01 V N)).
  - destruct (Hm eq_refl eq_refl) as [[m E]|G]; [discriminate E|exact (gives_zero N _ G)].
  - exact (create_val N _ _ (n_finite V N _) (n_add_11 V N)).
  - destruct (n_fdiv_11 V N) as [c [-> Hc]]. cbn [bind]. rewrite (create_one N _ Hc). exact (gives_one N _ (n_div_1 V N _)).
  - destruct (Hm eq_refl eq_refl) as [[m E]|G]; [discriminate E|exact (gives_zero N _ G)].
  - destruct (vdiv x y) as [c|e]; cbn [bind]; [|now left]. pose proof (create_refl N c) as Hc. unfold create in *. destruct (vbad c); [right; now split|].
    destruct (veqb c (vZ 0)); [reflexivity|]. destruct (veqb c (vZ 1)); [reflexivity|exact Hc].
  - destruct (Hm eq_refl eq_refl) as [[m E]|G]; [discriminate E|exact (gives_zero N _ G)].
Qed.
Print Assumptions C42_numbers.

(** With an expression on the left (a BraKet, a sum, ...), Zero and One on the right do
    what 0 and 1 do, whatever that is. *)
Theorem C42_right V (N : number_laws V) slt n o (e : scal V) : number (Obj e) = None -> (o = Pow -> is_pow e = false) ->
  apply (sk slt n) o (Obj e) (Obj SZero) = apply (sk slt n) o (Obj e) (Raw (vZ 0)) /\
  apply (sk slt n) o (Obj e) (Obj SOne) = apply (sk slt n) o (Obj e) (Raw (vZ 1)).
Proof.
  intros He Hp. assert (veqb (vZ 0 : V) (vZ 0) = true /\ veqb (vZ 1 : V) (vZ 0) = false /\ veqb (vZ 0 : V) (vZ 1) = false /\ veqb (vZ 1 : V) (vZ 1) = true) as [E1 [E2 [E3 E4]]] by (rewrite !(n_ints V N); now split).
  destruct o; destruct e as [| |v|k|l|l|x y]; try discriminate He; try (specialize (Hp eq_refl); discriminate Hp);
    cbn [apply x_add x_sub x_mul x_div x_fdiv x_mod x_pow]; unfold plus_base, sub_base, mul_base, div_base; cbn [o_is s_is val_of Z.eqb Pos.eqb create_o minus_o r_mul];
    rewrite ?(n_mul_m1 V N); unfold create; rewrite ?(n_finite V N), ?E1, ?E2, ?E3, ?E4; try (split; reflexivity);
    (destruct n as [|n]; [split; reflexivity|]); cbn [sk k_pow]; unfold pow_step; cbn [wrap s_is Z.eqb Pos.eqb]; rewrite ?E1, ?E2, ?E3, ?E4; split; reflexivity.
Qed.
Print Assumptions C42_right.
(** What that is. *)
Theorem C42_neutral (V : pyvals) slt n (e : scal V) : number (Obj e) = None ->
  let K := sk slt (S n) in
  x_add K e (Obj SZero) = Ok e /\ x_sub K e (Obj SZero) = Ok e /\ x_mul K e (Obj SZero) = Ok SZero /\ x_mul K SZero (Obj e) = Ok SZero /\
  x_mul K e (Obj SOne) = Ok e /\ x_mul K SOne (Obj e) = Ok e /\ x_div K e (Obj SOne) = Ok e /\ x_div K e (Obj SZero) = Err ZeroDivisionError /\
  (is_pow e = false -> x_pow K e (Obj SZero) = Ok SOne /\ x_pow K e (Obj SOne) = Ok e).
Proof.
  intros He K. destruct e as [| |v|k|l|l|x y]; try discriminate He; do 8 (split; [reflexivity|]); intros Hp; try discriminate Hp; split; reflexivity.
Qed.
Print Assumptions C42_neutral.
(** int, float and complex of Zero; int and float of One *)
Theorem C42_conversions : convert_zero ToInt = PInt 0 /\ convert_zero ToFloat = PFloat 0 /\ convert_zero ToComplex = PComplex 0 0 /\
  convert_one ToInt = PInt 1 /\ convert_one ToFloat = PFloat 1.
Proof. repeat split. Qed.
(** complex(One) is the imaginary unit, and bool(Zero) is True. *)
Theorem C42_complex_refuted : ~ (convert_one ToComplex = PComplex 1 0).
Proof. discriminate. Qed.
Theorem C42_bool_refuted : ~ (convert_zero ToBool = PBool false).
Proof. discriminate. Qed.

(** ** C48 *)
(** Every operator on legal scalars, whenever it returns, returns a legal scalar with
    the right value; the one exception is One minus an expression (below). *)
Theorem C48_operators V (M : smeaning V) slt n o (a b : operand V) r : olegal M a -> olegal M b -> applies M o a b ->
  ~ (o = Sub /\ a = Obj SOne /\ number b = None) -> apply (sk slt n) o a b = Ok r -> has_value M r (val_op M o (oden M a) (oden M b)).
Proof.
  intros La Lb Ho Hn H. pose proof (sk_sound M slt n) as HK. set (K := sk slt n) in *. destruct a as [w|s].
  - destruct b as [w'|s]; [discriminate H|]. cbn [apply] in H. destruct o; cbn [applies] in Ho; try contradiction; cbn [val_op oden].
    + exact (r_add_sound M K HK w s r Lb H).
    + exact (r_sub_sound M K HK w s r Lb H).
    + exact (r_mul_sound M K HK w s r Lb H).
    + exact (r_div_sound M K HK w s r Lb Ho H).
    + destruct Ho as [Hd [_ Hz]]. cbn [oden o_is] in *.
      assert ((if veqb w (vZ 0) then Ok SZero else if veqb w (vZ 1) then Ok SOne else Err TypeError) = Ok r -> number (Obj s) = None -> has_value M r (qpow (vden M w) (sden M s))) as G.
      { intros E Hs. destruct (veqb w (vZ 0)); [exfalso; now apply Hz|]. destruct (veqb w (vZ 1)) eqn:E1; [|discriminate]. injection E as <-. split; [exact Logic.I|].
        rewrite (vden_eq V M _ _ E1), vden_1 in *. symmetry. now apply pow_1l. }
      destruct s as [| |v|k|l|l|x e]; try exact (G H eq_refl); cbn [r_pow] in H.
      * injection H as <-. split; [exact Logic.I|]. cbn [sden]. now rewrite pow_0.
      * destruct (create_sound M _ _ H) as [L D]. split; [exact L|]. rewrite D. cbn [sden]. now rewrite pow_1.
      * destruct (vpow w v) as [c|] eqn:Ec; [|discriminate]. cbn [bind] in H. destruct (create_sound M _ _ H) as [L D]. split; [exact L|]. rewrite D. exact (vden_pow V M _ _ _ Ec Hd).
  - cbn [apply] in H. destruct o; cbn [applies] in Ho; try contradiction; cbn [val_op oden].
    + exact (x_add_sound M K HK s b r La Lb H).
    + apply (x_sub_sound M K HK s b r La Lb); [|exact H]. intros -> E. apply Hn. now split.
    + exact (x_mul_sound M K HK s b r La Lb H).
    + exact (x_div_sound M K HK s b r La Lb Ho H).
    + destruct Ho as [Hd [Hi Hz]]. exact (x_pow_sound M K HK s b r La Lb Hd Hi Hz H).
Qed.
Print Assumptions C48_operators.
(** sums, products and powers *)
Theorem C48_plus V (M : smeaning V) slt n l r : Forall (olegal M) l -> k_plus (sk slt n) l = Ok r -> has_value M r (ssum M (map (oden M) l)).
Proof. exact (so_plus M _ (sk_sound M slt n) l r). Qed.
Theorem C48_times V (M : smeaning V) slt n l r : Forall (olegal M) l -> k_times (sk slt n) l = Ok r -> has_value M r (sprod M (map (oden M) l)).
Proof. exact (so_times M _ (sk_sound M slt n) l r). Qed.
Theorem C48_power V (M : smeaning V) slt n b e r : olegal M b -> olegal M e -> pow_ok M (wrap b) (wrap e) -> k_pow (sk slt n) b e = Ok r -> has_value M r (qpow (oden M b) (oden M e)).
Proof. exact (so_pow M _ (sk_sound M slt n) b e r). Qed.
Theorem C48_neg V (M : smeaning V) slt n a r : slegal M a -> x_neg (sk slt n) a = Ok r -> has_value M r (qopp (sden M a)).
Proof. exact (x_neg_sound M _ (sk_sound M slt n) a r). Qed.
Print Assumptions C48_plus.
Print Assumptions C48_times.
Print Assumptions C48_power.
(** Conjugation, and the real and imaginary parts built from it; [h] is one half. *)
Theorem C48_conjugate V (M : smeaning V) slt n aconj a r : (forall k, aden M (aconj k) = qconj (aden M k)) -> slegal M a -> int_powers M a ->
  conjugate (sk slt n) aconj a = Ok r -> has_value M r (qconj (sden M a)).
Proof. intros Ha. exact (conjugate_sound M _ (sk_sound M slt n) aconj Ha a r). Qed.
Print Assumptions C48_conjugate.
Theorem C48_real V (M : smeaning V) slt n aconj a r : (forall k, aden M (aconj k) = qconj (aden M k)) -> slegal M a -> int_powers M a -> dom (vden M (vZ 2)) (qopp q1) ->
  real_part (sk slt n) aconj a = Ok r -> exists h, qmul (vden M (vZ 2)) h = q1 /\ has_value M r (qmul (qadd (qconj (sden M a)) (sden M a)) h).
Proof.
  intros Ha La Ia Hd H. unfold real_part in H. destruct (conjugate _ aconj a) as [c|] eqn:Ec; [|discriminate]. cbn [bind] in H.
  destruct (C48_conjugate _ M _ _ _ _ _ Ha La Ia Ec) as [Lc Dc]. destruct (x_add _ c (Obj a)) as [s|] eqn:Es; [|discriminate]. cbn [bind] in H.
  destruct (x_add_sound M _ (sk_sound M slt n) c (Obj a) s Lc La Es) as [Ls Ds]. destruct (x_div_sound M _ (sk_sound M slt n) s (Raw (vZ 2)) r Ls Logic.I Hd H) as [Lr Dr].
  exists (qpow (vden M (vZ 2)) (qopp q1)). split; [now apply pow_inv|]. split; [exact Lr|]. rewrite Dr, Ds. cbn [oden]. now rewrite Dc.
Qed.
Print Assumptions C48_real.
Theorem C48_imag V (M : smeaning V) slt n aconj a r : (forall k, aden M (aconj k) = qconj (aden M k)) -> slegal M a -> int_powers M a ->
  conjugate (sk slt n) aconj a <> Ok SOne -> imag_part (sk slt n) aconj a = Ok r -> has_value M r (qmul (qadd (qconj (sden M a)) (qopp (sden M a))) qhalfi).
Proof.
  intros Ha La Ia Hc H. unfold imag_part in H. destruct (conjugate _ aconj a) as [c|] eqn:Ec; [|discriminate]. cbn [bind] in H.
  destruct (C48_conjugate _ M _ _ _ _ _ Ha La Ia Ec) as [Lc Dc]. destruct (x_sub _ c (Obj a)) as [s|] eqn:Es; [|discriminate]. cbn [bind] in H.
  assert (c = SOne -> number (Obj a) <> None) as H1 by (intros ->; now contradict Hc).
  destruct (x_sub_sound M _ (sk_sound M slt n) c (Obj a) s Lc La H1 Es) as [Ls Ds]. destruct (x_mul_sound M _ (sk_sound M slt n) s (Raw vhalfI) r Ls Logic.I H) as [Lr Dr].
  split; [exact Lr|]. rewrite Dr, Ds. cbn [oden]. now rewrite Dc, vden_halfI.
Qed.
Print Assumptions C48_imag.

(** ** The counterexamples *)
Definition xslt (a b : scal Gv) : bool :=
  let r x := match x with SZero | SOne | SVal _ => 0 | SAtom n => 1 | SPow _ _ => 2 | STimes _ => 3 | SPlus _ => 4 end in r a <? r b.
Definition xK := sk xslt 5.
Definition i_ : scal Gv := SAtom 0.
(** One - e is One + e: One.__sub__ falls back on __add__. *)
Theorem C42_one_minus_refuted : ~ (forall (a b : operand Gv) r, olegal Gm a -> olegal Gm b -> apply xK Sub a b = Ok r -> sden Gm r = val_op Gm Sub (oden Gm a) (oden Gm b)).
Proof.
  intros H. specialize (H (Obj SOne) (Obj i_) (SPlus [SOne; i_]) Logic.I Logic.I eq_refl). apply (f_equal (fun x : gq => gq_eqb x (Gq 1 1))) in H. vm_compute in H. discriminate H.
Qed.
Print Assumptions C42_one_minus_refuted.
(** 5 // One raises TypeError. *)
Theorem C42_floordiv_refuted : apply xK FloorDiv (Raw (gZ 5)) (Obj SOne) = Err TypeError /\ gives (py FloorDiv (gZ 5 : Gv) (gZ 1)) (gZ 5).
Proof. split; [reflexivity|]. exists (gZ 5). split; vm_compute; reflexivity. Qed.
(** 7/2 % One is Zero, although 7/2 % 1 is 1/2. *)
Theorem C42_mod_refuted : exists v h : Gv, apply xK Mod (Obj (SVal v)) (Obj SOne) = Ok SZero /\ gives (py Mod v (gZ 1)) h /\ gq_eqb h (gZ 0) = false.
Proof. exists (Gq (Q2Qc (7 # 2)) 0), (Gq (Q2Qc (1 # 2)) 0). split; [reflexivity|]. split; [|reflexivity]. eexists. split; vm_compute; reflexivity. Qed.
Print Assumptions C42_mod_refuted.
(** (i ** 4) ** (1/2) becomes i ** 2, that is -1, although i ** 4 is 1 and 1 ** (1/2) is 1. *)
Theorem C48_power_of_power_refuted : exists p r : scal Gv, x_pow xK i_ (Raw (gZ 4)) = Ok p /\ x_pow xK p (Raw (Gq (Q2Qc (1 # 2)) 0)) = Ok r /\
  gq_eqb (sden Gm p) (gZ 1) = true /\ gq_eqb (qpow (s:=Gm) (sden Gm p) (Gq (Q2Qc (1 # 2)) 0)) (gZ 1) = true /\ gq_eqb (sden Gm r) (gZ (-1)) = true.
Proof. eexists. eexists. repeat split; vm_compute; reflexivity. Qed.
Print Assumptions C48_power_of_power_refuted.
(** (e + 1) - 1 is not e but a sum of three terms: One is no ScalarValue, so it is not
    combined with the -1. Its value is right. *)
Theorem C48_constants_combine_refuted : exists s r : scal Gv, x_add xK i_ (Raw (gZ 1)) = Ok s /\ x_sub xK s (Raw (gZ 1)) = Ok r /\ s_eqb r i_ = false /\
  gq_eqb (sden Gm r) (sden Gm i_) = true.
Proof. eexists. eexists. repeat split; vm_compute; reflexivity. Qed.
Print Assumptions C48_constants_combine_refuted.

(** ** The hypotheses can be met *)
Example C42_nonvacuous : number_laws Gv /\ agree (apply xK Pow (Raw (gZ 3)) (Obj SZero)) (do r <- py Pow (gZ 3 : Gv) (gZ 0); create r) /\
  apply xK Add (Obj SOne) (Raw (gZ 2)) = Ok (SVal (CInst.qadd (gZ 1) (gZ 2))).
Proof. split; [exact Gv_laws|]. split; vm_compute; reflexivity. Qed.
(** (2 i + 3) (i + 1) i^(-1), then conjugated *)
Definition xe : res (scal Gv) :=
  do t <- x_mul xK i_ (Raw (gZ 2)); do s <- x_add xK t (Raw (gZ 3)); do u <- x_add xK i_ (Obj SOne); do p <- x_mul xK s (Obj u); x_div xK p (Obj i_).
Example C48_nonvacuous : exists e c, xe = Ok e /\ slegal Gm e /\ int_powers Gm e /\ (forall k, aden Gm (gaconj k) = qconj (aden Gm k)) /\
  conjugate xK gaconj e = Ok c /\ gq_eqb (sden Gm c) (Gq (Q2Qc 5) (Q2Qc 1)) = true.
Proof.
  eexists. eexists. split; [vm_compute; reflexivity|]. assert (gq_eqb (sden Gm i_) (Gq 0 0) = false) as Hi by reflexivity.
  assert (forall z : Gv, gq_eqb z (gZ (-1)) = true -> dom (s:=Gm) (sden Gm i_) (sden Gm (SVal z)) /\ isint (s:=Gm) (sden Gm (SVal z))) as G.
  { intros z E. apply gq_eqb_eq in E. subst z. split; [|now exists (-1)%Z]. exists (-1)%Z. split; [reflexivity|]. right. intros F. apply gq_eqb_eq in F. rewrite Hi in F. discriminate F. }
  split; [|split; [|split; [exact gaconj_ok|split; [vm_compute; reflexivity|vm_compute; reflexivity]]]].
  - cbn [slegal fold_right]. repeat split; try discriminate. now apply G.
  - cbn [int_powers fold_right]. repeat split; try (apply G; reflexivity). intros F. apply gq_eqb_eq in F. discriminate F.
Qed.
