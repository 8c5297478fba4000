(** Soundness of the scalar algebra. *)
From Coq Require Import Ring_theory Ring Permutation Relations.
From Verif Require Import Prelude ListFacts SortModel SortProofs BinModel BinSpec BinProofs ScalarModel ScalarSpec CSimpProofs5.

Section Ind.
  Context {V : Type} (P : scal V -> Prop).
  Context (H0 : P SZero) (H1 : P SOne) (Hv : forall v, P (SVal v)) (Ha : forall n, P (SAtom n))
    (Hp : forall l, Forall P l -> P (SPlus l)) (Ht : forall l, Forall P l -> P (STimes l)) (Hw : forall b e, P b -> P e -> P (SPow b e)).
  Fixpoint scal_ind' (a : scal V) : P a :=
    let go := fix go (l : list (scal V)) : Forall P l := match l with [] => Forall_nil P | x :: r => Forall_cons x (scal_ind' x) (go r) end in
    match a with
    | SZero => H0 | SOne => H1 | SVal v => Hv v | SAtom n => Ha n
    | SPlus l => Hp l (go l) | STimes l => Ht l (go l) | SPow b e => Hw b e (scal_ind' b) (scal_ind' e)
    end.
End Ind.

Section Sound.
  Context {V : pyvals} (M : smeaning V).
  Add Ring QR : (qring V M).
  Local Notation scal := (scal V). Local Notation operand := (operand V).
  Local Notation sden := (sden M). Local Notation oden := (oden M). Local Notation slegal := (slegal M). Local Notation olegal := (olegal M).
  Local Notation ssum := (ssum M). Local Notation sprod := (sprod M).
  Local Notation "x + y" := (qadd x y). Local Notation "x * y" := (qmul x y). Local Notation "- x" := (qopp x).
  Definition smeans (r : scal) (k : sK M) : Prop := slegal r /\ sden r = k.

  Lemma legal_list l : fold_right (fun x P => slegal x /\ P) True l <-> Forall slegal l.
  Proof.
    induction l as [|x l IH]; cbn [fold_right]; [split; [constructor|trivial]|]. split.
    - intros [H1 H2]. constructor; [exact H1|now apply IH].
    - intros H. split; [exact (Forall_inv H)|apply IH; exact (Forall_inv_tail H)].
  Qed.
  Lemma create_sound v r : create v = Ok r -> smeans r (vden M v).
  Proof.
    unfold create. destruct (vbad v); [discriminate|]. destruct (veqb v (vZ 0)) eqn:E0.
    { intros [= <-]. split; [exact Logic.I|]. cbn [ScalarSpec.sden]. rewrite (vden_eq V M _ _ E0). symmetry. apply vden_0. }
    destruct (veqb v (vZ 1)) eqn:E1.
    { intros [= <-]. split; [exact Logic.I|]. cbn [ScalarSpec.sden]. rewrite (vden_eq V M _ _ E1). symmetry. apply vden_1. }
    intros [= <-]. now split.
  Qed.
  Lemma create_o_sound b r : olegal b -> create_o b = Ok r -> smeans r (oden b).
  Proof. destruct b as [v|s]; cbn [create_o]; intros Hl H; [now apply create_sound|]. injection H as <-. now split. Qed.
  Lemma wrap_den b : sden (wrap b) = oden b.
  Proof. now destruct b. Qed.
  Lemma wrap_legal b : olegal b -> slegal (wrap b).
  Proof. now destruct b. Qed.
  Lemma o_is_0 b : o_is 0 b = true -> oden b = q0.
  Proof. destruct b as [v|[]]; cbn; intros H; try discriminate; try reflexivity; rewrite (vden_eq V M _ _ H); apply vden_0. Qed.
  Lemma o_is_1 b : o_is 1 b = true -> oden b = q1.
  Proof. destruct b as [v|[]]; cbn; intros H; try discriminate; try reflexivity; rewrite (vden_eq V M _ _ H); apply vden_1. Qed.
  Lemma s_is_0 b : s_is 0 b = true -> sden b = q0.
  Proof. exact (o_is_0 (Obj b)). Qed.
  Lemma s_is_1 b : s_is 1 b = true -> sden b = q1.
  Proof. exact (o_is_1 (Obj b)). Qed.
  Lemma s_is_m1 b : s_is (-1) b = true -> sden b = - q1.
  Proof. destruct b; cbn; intros H; try discriminate. rewrite (vden_eq V M _ _ H). apply vden_m1. Qed.
  Lemma s_eqb_sound a : forall b, s_eqb a b = true -> sden a = sden b /\ is_pow a = is_pow b.
  Proof.
    induction a as [| |v|n|l IH|l IH|x e IHx IHe] using scal_ind'; intros [| |w|m|l'|l'|x' e']; cbn [s_eqb]; intros H; try discriminate; try (split; reflexivity).
    - split; [|reflexivity]. cbn [ScalarSpec.sden]. rewrite (vden_eq V M _ _ H). symmetry. apply vden_0.
    - split; [|reflexivity]. cbn [ScalarSpec.sden]. rewrite (vden_eq V M _ _ H). symmetry. apply vden_1.
    - split; [|reflexivity]. cbn [ScalarSpec.sden]. rewrite (vden_eq V M _ _ H). apply vden_0.
    - split; [|reflexivity]. cbn [ScalarSpec.sden]. rewrite (vden_eq V M _ _ H). apply vden_1.
    - split; [|reflexivity]. cbn [ScalarSpec.sden]. exact (vden_eq V M _ _ H).
    - apply Nat.eqb_eq in H. subst m. now split.
    - split; [|reflexivity]. cbn [ScalarSpec.sden]. f_equal. revert l' H. induction IH as [|y l Hy _ IHl]; intros [|y' l'] H; try discriminate; [reflexivity|].
      apply andb_prop in H. destruct H as [E1 E2]. cbn [map]. f_equal; [exact (proj1 (Hy _ E1))|exact (IHl _ E2)].
    - split; [|reflexivity]. cbn [ScalarSpec.sden]. f_equal. revert l' H. induction IH as [|y l Hy _ IHl]; intros [|y' l'] H; try discriminate; [reflexivity|].
      apply andb_prop in H. destruct H as [E1 E2]. cbn [map]. f_equal; [exact (proj1 (Hy _ E1))|exact (IHl _ E2)].
    - apply andb_prop in H. destruct H as [E1 E2]. split; [|reflexivity]. cbn [ScalarSpec.sden]. now rewrite (proj1 (IHx _ E1)), (proj1 (IHe _ E2)).
  Qed.
  Lemma o_eqb_sound b a : o_eqb b a = true -> oden b = sden a.
  Proof. destruct b as [v|s]; cbn [o_eqb]; intros H; exact (proj1 (s_eqb_sound _ _ H)). Qed.
  Lemma val_of_den b w : val_of b = Some w -> oden b = vden M w.
  Proof. destruct b as [v|[]]; cbn; intros [= <-]; reflexivity. Qed.
  Lemma sum_1 x : ssum [x] = x.
  Proof. unfold ScalarSpec.ssum. cbn [fold_right]. ring. Qed.
  Lemma sum_2 x y : ssum [x; y] = x + y.
  Proof. unfold ScalarSpec.ssum. cbn [fold_right]. ring. Qed.
  Lemma prod_2 x y : sprod [x; y] = x * y.
  Proof. unfold ScalarSpec.sprod. cbn [fold_right]. ring. Qed.

  Context (K : screators V).
  Record soundS : Prop := {
    so_plus : forall l r, Forall olegal l -> k_plus K l = Ok r -> smeans r (ssum (map oden l));
    so_times : forall l r, Forall olegal l -> k_times K l = Ok r -> smeans r (sprod (map oden l));
    so_pow : forall b e r, olegal b -> olegal e -> pow_ok M (wrap b) (wrap e) -> k_pow K b e = Ok r -> smeans r (qpow (oden b) (oden e))
  }.
  Context (HK : soundS).
  Lemma F2 (a b : operand) : olegal a -> olegal b -> Forall olegal [a; b].
  Proof. repeat constructor; assumption. Qed.

  Lemma plus_base_sound a b r : slegal a -> olegal b -> plus_base K a b = Ok r -> smeans r (sden a + oden b).
  Proof.
    intros La Lb. unfold plus_base. destruct (o_is 0 b) eqn:E.
    - intros [= <-]. split; [exact La|]. rewrite (o_is_0 _ E). ring.
    - intros H. destruct (create_o b) as [b'|] eqn:Eb; [|discriminate]. cbn [bind] in H. destruct (create_o_sound _ _ Lb Eb) as [L1 D1].
      destruct (so_plus HK _ _ (F2 (Obj a) (Obj b') La L1) H) as [Lr Dr]. split; [exact Lr|]. rewrite Dr. cbn [map]. rewrite sum_2. cbn [ScalarSpec.oden]. now rewrite D1.
  Qed.
  Lemma x_add_sound a b r : slegal a -> olegal b -> x_add K a b = Ok r -> smeans r (sden a + oden b).
  Proof.
    intros La Lb H. destruct a as [| |v|n|l|l|x e]; cbn [x_add] in H; try (now apply plus_base_sound).
    - destruct b as [w|[| |w|n|l|l|x e]]; try (now apply plus_base_sound).
      + destruct (create_sound _ _ H) as [L D]. split; [exact L|]. rewrite D. cbn [ScalarSpec.sden ScalarSpec.oden]. ring.
      + injection H as <-. split; [exact Logic.I|]. cbn [ScalarSpec.sden ScalarSpec.oden]. ring.
    - destruct (val_of b) as [w|] eqn:Ew.
      + destruct (create_sound _ _ H) as [L D]. split; [exact L|]. rewrite D, (val_of_den _ _ Ew), vden_add, vden_1. reflexivity.
      + destruct (o_is 1 b) eqn:E1; [|now apply plus_base_sound]. injection H as <-. split; [exact Logic.I|]. rewrite (o_is_1 _ E1). cbn [ScalarSpec.sden]. apply vden_2.
    - destruct (val_of b) as [w|] eqn:Ew.
      + destruct (create_sound _ _ H) as [L D]. split; [exact L|]. rewrite D, (val_of_den _ _ Ew). apply vden_add.
      + destruct (o_is 1 b) eqn:E1; [|now apply plus_base_sound]. destruct (create_sound _ _ H) as [L D]. split; [exact L|]. rewrite D, vden_add, vden_1, (o_is_1 _ E1). reflexivity.
  Qed.
  Lemma mul_base_sound a b r : slegal a -> olegal b -> mul_base K a b = Ok r -> smeans r (sden a * oden b).
  Proof.
    intros La Lb. unfold mul_base. destruct (o_is 1 b) eqn:E1.
    { intros [= <-]. split; [exact La|]. rewrite (o_is_1 _ E1). ring. }
    destruct (o_is 0 b) eqn:E0.
    { intros [= <-]. split; [exact Logic.I|]. rewrite (o_is_0 _ E0). cbn [ScalarSpec.sden]. ring. }
    destruct b as [w|s]; intros H.
    - destruct (create w) as [b'|] eqn:Eb; [|discriminate]. cbn [bind] in H. destruct (create_sound _ _ Eb) as [L1 D1].
      destruct (so_times HK _ _ (F2 (Obj b') (Obj a) L1 La) H) as [Lr Dr]. split; [exact Lr|]. rewrite Dr. cbn [map]. rewrite prod_2. cbn [ScalarSpec.oden]. rewrite D1. ring.
    - destruct (so_times HK _ _ (F2 (Obj a) (Obj s) La Lb) H) as [Lr Dr]. split; [exact Lr|]. rewrite Dr. cbn [map]. now rewrite prod_2.
  Qed.
  Lemma x_mul_sound a b r : slegal a -> olegal b -> x_mul K a b = Ok r -> smeans r (sden a * oden b).
  Proof.
    intros La Lb H. destruct a as [| |v|n|l|l|x e]; cbn [x_mul] in H; try (now apply mul_base_sound).
    - injection H as <-. split; [exact Logic.I|]. cbn [ScalarSpec.sden]. ring.
    - destruct (create_o_sound _ _ Lb H) as [L D]. split; [exact L|]. rewrite D. cbn [ScalarSpec.sden]. ring.
    - destruct (val_of b) as [w|] eqn:Ew; [|now apply mul_base_sound]. destruct (create_sound _ _ H) as [L D]. split; [exact L|]. rewrite D, (val_of_den _ _ Ew). apply vden_mul.
  Qed.
  Lemma r_mul_sound w a r : slegal a -> r_mul K w a = Ok r -> smeans r (vden M w * sden a).
  Proof.
    intros La H. assert (forall a', r_mul K w a' = (if veqb w (vZ 1) then Ok a' else if veqb w (vZ 0) then Ok SZero else x_mul K a' (Raw w)) -> slegal a' -> r_mul K w a' = Ok r -> smeans r (vden M w * sden a')) as G.
    { intros a' E L' H'. rewrite E in H'. destruct (veqb w (vZ 1)) eqn:E1.
      { injection H' as <-. split; [exact L'|]. rewrite (vden_eq V M _ _ E1), vden_1. ring. }
      destruct (veqb w (vZ 0)) eqn:E0.
      { injection H' as <-. split; [exact Logic.I|]. rewrite (vden_eq V M _ _ E0), vden_0. cbn [ScalarSpec.sden]. ring. }
      destruct (x_mul_sound _ _ _ L' (Logic.I : olegal (Raw w)) H') as [L D]. split; [exact L|]. rewrite D. cbn [ScalarSpec.oden]. ring. }
    destruct a as [| |v|n|l|l|x e]; try (apply G; [reflexivity|exact La|exact H]); cbn [r_mul] in H.
    - injection H as <-. split; [exact Logic.I|]. cbn [ScalarSpec.sden]. ring.
    - destruct (create_sound _ _ H) as [L D]. split; [exact L|]. rewrite D. cbn [ScalarSpec.sden]. ring.
    - destruct (create_sound _ _ H) as [L D]. split; [exact L|]. rewrite D. apply vden_mul.
  Qed.
  Lemma r_add_sound w a r : slegal a -> r_add K w a = Ok r -> smeans r (vden M w + sden a).
  Proof.
    intros La H. assert (forall a', r_add K w a' = (if veqb w (vZ 0) then Ok a' else x_add K a' (Raw w)) -> slegal a' -> r_add K w a' = Ok r -> smeans r (vden M w + sden a')) as G.
    { intros a' E L' H'. rewrite E in H'. destruct (veqb w (vZ 0)) eqn:E0.
      { injection H' as <-. split; [exact L'|]. rewrite (vden_eq V M _ _ E0), vden_0. ring. }
      destruct (x_add_sound _ _ _ L' (Logic.I : olegal (Raw w)) H') as [L D]. split; [exact L|]. rewrite D. cbn [ScalarSpec.oden]. ring. }
    destruct a as [| |v|n|l|l|x e]; try (apply G; [reflexivity|exact La|exact H]); cbn [r_add] in H.
    - destruct (create_sound _ _ H) as [L D]. split; [exact L|]. rewrite D. cbn [ScalarSpec.sden]. ring.
    - destruct (create_sound _ _ H) as [L D]. split; [exact L|]. rewrite D, vden_add, vden_1. reflexivity.
    - destruct (create_sound _ _ H) as [L D]. split; [exact L|]. rewrite D. apply vden_add.
  Qed.
  Lemma minus_o_sound b r : olegal b -> minus_o K b = Ok r -> smeans r (- oden b).
  Proof.
    destruct b as [w|s]; cbn [minus_o]; intros Lb H.
    - destruct (create_sound _ _ H) as [L D]. split; [exact L|]. rewrite D, vden_mul, vden_m1. cbn [ScalarSpec.oden]. ring.
    - destruct (r_mul_sound _ _ _ Lb H) as [L D]. split; [exact L|]. rewrite D, vden_m1. cbn [ScalarSpec.oden]. ring.
  Qed.
  Lemma sub_base_sound a b r : slegal a -> olegal b -> sub_base K a b = Ok r -> smeans r (sden a + - oden b).
  Proof.
    intros La Lb. unfold sub_base. destruct (o_is 0 b) eqn:E.
    - intros [= <-]. split; [exact La|]. rewrite (o_is_0 _ E). ring.
    - intros H. destruct (minus_o K b) as [m|] eqn:Em; [|discriminate]. cbn [bind] in H. destruct (minus_o_sound _ _ Lb Em) as [Lm Dm].
      destruct (x_add_sound a (Obj m) r La Lm H) as [L D]. split; [exact L|]. rewrite D. cbn [ScalarSpec.oden]. now rewrite Dm.
  Qed.
  (** all differences except One minus an expression *)
  Lemma x_sub_sound a (b : operand) r : slegal a -> olegal b -> (a = SOne -> number (V:=V) b <> None) -> x_sub K a b = Ok r -> smeans r (sden a + - oden b).
  Proof.
    intros La Lb Ho H. destruct a as [| |v|n|l|l|x e]; cbn [x_sub] in H; try (now apply sub_base_sound).
    - destruct (val_of b) as [w|] eqn:Ew; [|now apply sub_base_sound]. destruct (create_sound _ _ H) as [L D]. split; [exact L|]. rewrite D, vden_neg, (val_of_den _ _ Ew). cbn [ScalarSpec.sden]. ring.
    - destruct (val_of b) as [w|] eqn:Ew.
      + destruct (create_sound _ _ H) as [L D]. split; [exact L|]. rewrite D, vden_sub, vden_1, (val_of_den _ _ Ew). reflexivity.
      + destruct (o_is 1 b) eqn:E1; [injection H as <-; split; [exact Logic.I|]; rewrite (o_is_1 _ E1); cbn [ScalarSpec.sden]; ring|].
        destruct b as [w|[| |w|n|l|l|x e]]; try discriminate; try (exfalso; now apply Ho).
        unfold plus_base in H. cbn [o_is s_is] in H. injection H as <-. split; [exact Logic.I|]. cbn [ScalarSpec.sden ScalarSpec.oden]. ring.
    - destruct (val_of b) as [w|] eqn:Ew.
      + destruct (create_sound _ _ H) as [L D]. split; [exact L|]. rewrite D, vden_sub, (val_of_den _ _ Ew). reflexivity.
      + destruct (o_is 1 b) eqn:E1; [|now apply sub_base_sound]. destruct (create_sound _ _ H) as [L D]. split; [exact L|]. rewrite D, vden_sub, vden_1, (o_is_1 _ E1). reflexivity.
  Qed.
  Lemma r_sub_sound w a r : slegal a -> r_sub K w a = Ok r -> smeans r (vden M w + - sden a).
  Proof.
    intros La H. assert (forall a', r_sub K w a' = (do m <- r_mul K (vZ (-1)) a'; if veqb w (vZ 0) then Ok m else x_add K m (Raw w)) -> slegal a' -> r_sub K w a' = Ok r -> smeans r (vden M w + - sden a')) as G.
    { intros a' E L' H'. rewrite E in H'. destruct (r_mul K (vZ (-1)) a') as [m|] eqn:Em; [|discriminate]. cbn [bind] in H'.
      destruct (r_mul_sound _ _ _ L' Em) as [Lm Dm]. rewrite vden_m1 in Dm. destruct (veqb w (vZ 0)) eqn:E0.
      { injection H' as <-. split; [exact Lm|]. rewrite (vden_eq V M _ _ E0), vden_0, Dm. ring. }
      destruct (x_add_sound _ _ _ Lm (Logic.I : olegal (Raw w)) H') as [L D]. split; [exact L|]. rewrite D, Dm. cbn [ScalarSpec.oden]. ring. }
    destruct a as [| |v|n|l|l|x e]; try (apply G; [reflexivity|exact La|exact H]); cbn [r_sub] in H.
    - destruct (create_sound _ _ H) as [L D]. split; [exact L|]. rewrite D. cbn [ScalarSpec.sden]. ring.
    - destruct (create_sound _ _ H) as [L D]. split; [exact L|]. rewrite D, vden_sub, vden_1. reflexivity.
    - destruct (create_sound _ _ H) as [L D]. split; [exact L|]. rewrite D. apply vden_sub.
  Qed.
  Lemma x_neg_sound a r : slegal a -> x_neg K a = Ok r -> smeans r (- sden a).
  Proof.
    intros La H. assert (r_mul K (vZ (-1)) a = Ok r -> smeans r (- sden a)) as G.
    { intros H'. destruct (r_mul_sound _ _ _ La H') as [L D]. split; [exact L|]. rewrite D, vden_m1. ring. }
    destruct a as [| |v|n|l|l|x e]; cbn [x_neg] in H; try exact (G H).
    - injection H as <-. split; [exact Logic.I|]. cbn [ScalarSpec.sden]. apply vden_m1.
    - destruct (create_sound _ _ H) as [L D]. split; [exact L|]. rewrite D. apply vden_neg.
  Qed.
  Lemma o_is_number z (b : operand) : o_is z b = true -> number (V:=V) b <> None.
  Proof. destruct b as [v|[]]; cbn; discriminate. Qed.
  Lemma not_number (b : operand) : number (V:=V) b = None -> val_of b = None /\ o_is 0 b = false /\ o_is 1 b = false.
  Proof. destruct b as [v|[]]; cbn; intros H; try discriminate; repeat split. Qed.
  Lemma x_pow_sound a (b : operand) r : slegal a -> olegal b -> dom (sden a) (oden b) -> (is_pow a = true -> isint (oden b)) ->
    (s_is 0 a = true -> number (V:=V) b <> None) -> x_pow K a b = Ok r -> smeans r (qpow (sden a) (oden b)).
  Proof.
    intros La Lb Hd Hi Hz H.
    assert (forall v, sden a = vden M v -> (s_is 1 a = true -> sden a = q1) -> (match val_of b with
      | Some w => do r <- vpow v w; create r
      | None => if o_is 0 b then Ok SOne else if o_is 1 b then Ok a else if s_is 0 a then Ok SZero else if s_is 1 a then Ok SOne else Err TypeError end) = Ok r -> smeans r (qpow (sden a) (oden b))) as G.
    { intros v Ev H1 H'. destruct (val_of b) as [w|] eqn:Ew.
      - destruct (vpow v w) as [c|] eqn:Ep; [|discriminate]. cbn [bind] in H'. destruct (create_sound _ _ H') as [L D]. split; [exact L|].
        rewrite D, (val_of_den _ _ Ew), Ev. apply (vden_pow V M _ _ _ Ep). rewrite <- Ev, <- (val_of_den _ _ Ew). exact Hd.
      - destruct (o_is 0 b) eqn:E0; [injection H' as <-; split; [exact Logic.I|]; rewrite (o_is_0 _ E0), pow_0; reflexivity|].
        destruct (o_is 1 b) eqn:E1; [injection H' as <-; split; [exact La|]; rewrite (o_is_1 _ E1), pow_1; reflexivity|].
        destruct (s_is 0 a) eqn:Ea.
        { exfalso. apply (Hz eq_refl). destruct b as [w|[]]; cbn in *; try discriminate; reflexivity. }
        destruct (s_is 1 a) eqn:Ea1; [|discriminate]. injection H' as <-. split; [exact Logic.I|]. rewrite (H1 eq_refl) in *. cbn [ScalarSpec.sden]. symmetry. now apply pow_1l. }
    destruct a as [| |v|n|l|l|x e]; cbn [x_pow] in H.
    - apply (G (vZ 0)); [symmetry; apply vden_0|discriminate|exact H].
    - apply (G (vZ 1)); [symmetry; apply vden_1|reflexivity|exact H].
    - apply (G v); [reflexivity|apply s_is_1|exact H].
    - apply (so_pow HK (Obj (SAtom n)) b r La Lb); [|exact H]. unfold pow_ok. rewrite (wrap_den b). split; [exact Hd|]. split; [discriminate|reflexivity].
    - apply (so_pow HK (Obj (SPlus l)) b r La Lb); [|exact H]. unfold pow_ok. rewrite (wrap_den b). split; [exact Hd|]. split; [discriminate|reflexivity].
    - apply (so_pow HK (Obj (STimes l)) b r La Lb); [|exact H]. unfold pow_ok. rewrite (wrap_den b). split; [exact Hd|]. split; [discriminate|reflexivity].
    - destruct (x_mul K e b) as [e'|] eqn:Ee; [|discriminate]. cbn [bind] in H. destruct La as [Lx [Le [Hd1 [Hi1 Hz1]]]].
      destruct (x_mul_sound _ _ _ Le Lb Ee) as [Le' De']. cbn [ScalarSpec.sden] in Hd |- *.
      destruct (so_pow HK (Obj x) (Obj e') r Lx Le') as [L D]; [|exact H|].
      + unfold pow_ok. cbn [wrap]. rewrite De'. split; [|split].
        * apply dom_mul; [exact Hd1|exact Hd|now apply Hi].
        * intros Ep. apply isint_mul; [now apply Hi1|now apply Hi].
        * exact Hz1.
      + split; [exact L|]. rewrite D. cbn [ScalarSpec.oden]. rewrite De'. symmetry. apply pow_mul; [exact Hd1|exact Hd|now apply Hi].
  Qed.
  Lemma isint_m1 : isint (- (q1 (s:=M))).
  Proof. apply isint_opp, isint_1. Qed.
  Lemma k_inv_sound (b : operand) r : olegal b -> number (V:=V) b = None -> dom (oden b) (- q1) -> k_pow K b (Raw (vZ (-1))) = Ok r -> smeans r (qpow (oden b) (- q1)).
  Proof.
    intros Lb Hn Hd H. destruct (so_pow HK b (Raw (vZ (-1))) r Lb Logic.I) as [L D]; [|exact H|].
    - unfold pow_ok. cbn [wrap]. rewrite wrap_den. cbn [ScalarSpec.sden]. rewrite vden_m1. split; [exact Hd|]. split; [intros _; apply isint_m1|].
      destruct b as [v|[]]; cbn in *; try discriminate; reflexivity.
    - split; [exact L|]. rewrite D. cbn [ScalarSpec.oden]. now rewrite vden_m1.
  Qed.
  Lemma div_base_sound a b r : slegal a -> olegal b -> dom (oden b) (- q1) -> div_base K a b = Ok r -> smeans r (sden a * qpow (oden b) (- q1)).
  Proof.
    intros La Lb Hd. unfold div_base. destruct (o_is 1 b) eqn:E1.
    { intros [= <-]. split; [exact La|]. rewrite (o_is_1 _ E1) in *. rewrite pow_1l by exact Hd. ring. }
    destruct (o_is 0 b) eqn:E0; [discriminate|]. destruct (o_eqb b a) eqn:Eq.
    { intros [= <-]. split; [exact Logic.I|]. rewrite <- (o_eqb_sound _ _ Eq). cbn [ScalarSpec.sden]. symmetry. now apply pow_inv. }
    destruct (val_of b) as [w|] eqn:Ew; intros H.
    - destruct (vdiv (vZ 1) w) as [i|] eqn:Ei; [|discriminate]. cbn [bind] in H. destruct (x_mul_sound (SVal i) (Obj a) r Logic.I La H) as [L D]. split; [exact L|].
      rewrite D. cbn [ScalarSpec.sden ScalarSpec.oden]. rewrite (val_of_den _ _ Ew) in *. rewrite (vden_div V M _ _ _ Ei Hd), vden_1. ring.
    - destruct (k_pow K b (Raw (vZ (-1)))) as [i|] eqn:Ei; [|discriminate]. cbn [bind] in H.
      assert (number (V:=V) b = None) as Hn by (destruct b as [v|[]]; cbn in *; try discriminate; reflexivity).
      destruct (k_inv_sound _ _ Lb Hn Hd Ei) as [Li Di]. destruct (x_mul_sound a (Obj i) r La Li H) as [L D]. split; [exact L|]. rewrite D. cbn [ScalarSpec.oden]. now rewrite Di.
  Qed.
  Lemma x_div_sound a b r : slegal a -> olegal b -> dom (oden b) (- q1) -> x_div K a b = Ok r -> smeans r (sden a * qpow (oden b) (- q1)).
  Proof.
    intros La Lb Hd H.
    assert (forall v w, vden M v = sden a -> oden b = vden M w -> (do r <- vdiv v w; create r) = Ok r -> smeans r (sden a * qpow (oden b) (- q1))) as G.
    { intros v w Ev Ew H'. destruct (vdiv v w) as [c|] eqn:Ec; [|discriminate]. cbn [bind] in H'. destruct (create_sound _ _ H') as [L D]. split; [exact L|].
      rewrite D, Ew, <- Ev. apply (vden_div V M _ _ _ Ec). rewrite <- Ew. exact Hd. }
    destruct a as [| |v|n|l|l|x e]; cbn [x_div] in H; try (now apply div_base_sound).
    - destruct (val_of b) as [w|] eqn:Ew; [|now apply div_base_sound]. apply (G (vZ 0) w); [apply vden_0|now apply val_of_den|exact H].
    - destruct (val_of b) as [w|] eqn:Ew; [apply (G (vZ 1) w); [apply vden_1|now apply val_of_den|exact H]|].
      destruct (o_is 1 b) eqn:E1.
      { destruct (vfdiv (vZ 1) (vZ 1)) as [c|] eqn:Ec; [|discriminate]. cbn [bind] in H. destruct (create_sound _ _ H) as [L D]. split; [exact L|]. rewrite D, (vfdiv_11 V M _ Ec).
        rewrite (o_is_1 _ E1) in *. rewrite pow_1l by exact Hd. cbn [ScalarSpec.sden]. ring. }
      destruct (o_is 0 b) eqn:E0; [discriminate|].
      assert (number (V:=V) b = None) as Hn by (destruct b as [v|[]]; cbn in *; try discriminate; reflexivity).
      destruct (k_inv_sound _ _ Lb Hn Hd H) as [L D]. split; [exact L|]. rewrite D. cbn [ScalarSpec.sden]. ring.
    - destruct b as [w|[| |w|n|l|l|x e]]; try (now apply div_base_sound).
      + apply (G v w); [reflexivity|reflexivity|]. destruct (vdiv v w) as [c|]; [|discriminate]. cbn [bind] in *. destruct (create c) as [|[]]; try discriminate; exact H.
      + apply (G v w); [reflexivity|reflexivity|exact H].
  Qed.
  Lemma r_div_sound w a r : slegal a -> dom (sden a) (- q1) -> r_div K w a = Ok r -> smeans r (vden M w * qpow (sden a) (- q1)).
  Proof.
    intros La Hd H. assert (forall a', number (Obj a') = None -> r_div K w a' = (if veqb w (vZ 0) then Ok SZero else do i <- k_pow K (Obj a') (Raw (vZ (-1))); if veqb w (vZ 1) then Ok i else r_mul K w i) ->
      slegal a' -> dom (sden a') (- q1) -> r_div K w a' = Ok r -> smeans r (vden M w * qpow (sden a') (- q1))) as G.
    { intros a' Hn E L' Hd' H'. rewrite E in H'. destruct (veqb w (vZ 0)) eqn:E0.
      { injection H' as <-. split; [exact Logic.I|]. rewrite (vden_eq V M _ _ E0), vden_0. cbn [ScalarSpec.sden]. ring. }
      destruct (k_pow K (Obj a') (Raw (vZ (-1)))) as [i|] eqn:Ei; [|discriminate]. cbn [bind] in H'.
      destruct (k_inv_sound (Obj a') i L' Hn Hd' Ei) as [Li Di]. cbn [ScalarSpec.oden] in Di. destruct (veqb w (vZ 1)) eqn:E1.
      { injection H' as <-. split; [exact Li|]. rewrite (vden_eq V M _ _ E1), vden_1, Di. ring. }
      destruct (r_mul_sound _ _ _ Li H') as [L D]. split; [exact L|]. now rewrite D, Di. }
    destruct a as [| |v|n|l|l|x e]; try (apply G; [reflexivity|reflexivity|exact La|exact Hd|exact H]); cbn [r_div] in H.
    - discriminate.
    - destruct (create_sound _ _ H) as [L D]. split; [exact L|]. rewrite D. cbn [ScalarSpec.sden] in *. rewrite pow_1l by exact Hd. ring.
    - destruct (vdiv w v) as [c|] eqn:Ec; [|discriminate]. cbn [bind] in H. destruct (create_sound _ _ H) as [L D]. split; [exact L|]. rewrite D. exact (vden_div V M _ _ _ Ec Hd).
  Qed.

  (** ** Sums *)
  Lemma sum_app a b : ssum (a ++ b) = ssum a + ssum b.
  Proof. unfold ScalarSpec.ssum. induction a as [|x a IH]; cbn [app fold_right]; [ring|]. rewrite IH. ring. Qed.
  Lemma prod_app a b : sprod (a ++ b) = sprod a * sprod b.
  Proof. unfold ScalarSpec.sprod. induction a as [|x a IH]; cbn [app fold_right]; [ring|]. rewrite IH. ring. Qed.
  Lemma sum_perm a b : Permutation a b -> ssum a = ssum b.
  Proof. unfold ScalarSpec.ssum. induction 1; cbn [fold_right]; [reflexivity|congruence|ring|congruence]. Qed.
  Lemma prod_perm a b : Permutation a b -> sprod a = sprod b.
  Proof. unfold ScalarSpec.sprod. induction 1; cbn [fold_right]; [reflexivity|congruence|ring|congruence]. Qed.
  Lemma legal_perm a b : Permutation a b -> Forall slegal a -> Forall slegal b.
  Proof. intros H. apply Permutation_Forall. exact H. Qed.
  Lemma mul_all_sound l : forall t r, slegal t -> Forall slegal l -> mul_all K t l = Ok r -> smeans r (sden t * sprod (map sden l)).
  Proof.
    induction l as [|x l IH]; intros t r Lt Ll H; cbn [mul_all] in H.
    - injection H as <-. split; [exact Lt|]. unfold ScalarSpec.sprod. cbn [map fold_right]. ring.
    - destruct (x_mul K t (Obj x)) as [t'|] eqn:Et; [|discriminate]. cbn [bind] in H. destruct (x_mul_sound _ (Obj x) _ Lt (Forall_inv Ll) Et) as [L1 D1].
      destruct (IH _ _ L1 (Forall_inv_tail Ll) H) as [L D]. split; [exact L|]. rewrite D, D1. cbn [map ScalarSpec.oden]. unfold ScalarSpec.sprod. cbn [fold_right]. ring.
  Qed.
  Lemma coeff_term_sound op c t : slegal op -> coeff_term K op = Ok (c, t) -> slegal c /\ slegal t /\ sden op = sden c * sden t.
  Proof.
    intros L H. assert (forall x, Ok (SOne, x) = Ok (c, t) -> slegal x -> slegal c /\ slegal t /\ sden x = sden c * sden t) as G.
    { intros x E Lx. injection E as <- <-. split; [exact Logic.I|]. split; [exact Lx|]. cbn [ScalarSpec.sden]. ring. }
    destruct op as [| |v|n|l|l|x e]; cbn [coeff_term] in H; try (now apply G).
    destruct l as [|y l]; [discriminate|]. destruct y; try (now apply G). destruct l as [|t0 rest]; [discriminate|].
    destruct (mul_all K t0 rest) as [t'|] eqn:Et; [|discriminate]. cbn [bind] in H. injection H as <- <-. cbn [ScalarSpec.slegal] in L. apply legal_list in L.
    pose proof (Forall_inv_tail L) as L2. destruct (mul_all_sound _ _ _ (Forall_inv L2) (Forall_inv_tail L2) Et) as [Lt Dt].
    split; [exact Logic.I|]. split; [exact Lt|]. rewrite Dt. cbn [ScalarSpec.sden map]. unfold ScalarSpec.sprod. cbn [fold_right]. reflexivity.
  Qed.
  Definition mlegal (m : list (scal * scal)) : Prop := Forall (fun tc => slegal (fst tc) /\ slegal (snd tc)) m.
  Definition mden (m : list (scal * scal)) : sK M := ssum (map (fun tc => sden (snd tc) * sden (fst tc)) m).
  Lemma mden_cons t c m : mden ((t, c) :: m) = sden c * sden t + mden m.
  Proof. reflexivity. Qed.
  Lemma add_coeff_sound t c m : forall m', slegal t -> slegal c -> mlegal m -> add_coeff K t c m = Ok m' -> mlegal m' /\ mden m' = mden m + sden c * sden t.
  Proof.
    induction m as [|[u d] m IH]; intros m' Lt Lc Lm H; cbn [add_coeff] in H.
    - injection H as <-. split; [repeat constructor; assumption|]. rewrite mden_cons. unfold mden. cbn [map]. unfold ScalarSpec.ssum. cbn [fold_right]. ring.
    - destruct (Forall_inv Lm) as [Lu Ld]. cbn [fst snd] in Lu, Ld. destruct (s_eqb u t) eqn:E.
      + destruct (x_add K d (Obj c)) as [d'|] eqn:Ed; [|discriminate]. cbn [bind] in H. injection H as <-. destruct (x_add_sound _ (Obj c) _ Ld Lc Ed) as [L D].
        split; [constructor; [split; assumption|exact (Forall_inv_tail Lm)]|]. rewrite !mden_cons, D. cbn [ScalarSpec.oden]. rewrite (proj1 (s_eqb_sound _ _ E)). ring.
      + destruct (add_coeff K t c m) as [r|] eqn:Er; [|discriminate]. cbn [bind] in H. injection H as <-. destruct (IH _ Lt Lc (Forall_inv_tail Lm) eq_refl) as [L D].
        split; [constructor; [split; assumption|exact L]|]. rewrite !mden_cons, D. ring.
  Qed.
  Lemma collect_sound ops : forall a m a' m', Forall slegal ops -> slegal a -> mlegal m -> collect_loop K ops a m = Ok (a', m') ->
    slegal a' /\ mlegal m' /\ sden a' + mden m' = sden a + mden m + ssum (map sden ops).
  Proof.
    induction ops as [|o ops IH]; intros a m a' m' Lo La Lm H; cbn [collect_loop] in H.
    - injection H as <- <-. split; [exact La|]. split; [exact Lm|]. unfold ScalarSpec.ssum. cbn [map fold_right]. ring.
    - assert ((do ct <- coeff_term K o; do m' <- add_coeff K (snd ct) (fst ct) m; collect_loop K ops a m') = Ok (a', m') ->
        slegal a' /\ mlegal m' /\ sden a' + mden m' = sden a + mden m + ssum (map sden (o :: ops))) as G.
      { clear H. intros H. destruct (coeff_term K o) as [[c t]|] eqn:Ec; [|discriminate]. cbn [bind fst snd] in H. destruct (coeff_term_sound _ _ _ (Forall_inv Lo) Ec) as [Lc [Lt Dt]].
        destruct (add_coeff K t c m) as [m1|] eqn:Em; [|discriminate]. cbn [bind] in H. destruct (add_coeff_sound _ _ _ _ Lt Lc Lm Em) as [L1 D1].
        destruct (IH _ _ _ _ (Forall_inv_tail Lo) La L1 H) as [L2 [L3 D2]]. split; [exact L2|]. split; [exact L3|]. rewrite D2, D1. cbn [map]. unfold ScalarSpec.ssum. cbn [fold_right]. rewrite Dt. ring. }
      destruct o as [| |v|n|l|l|x e]; try exact (G H). destruct (x_add K a (Obj (SVal v))) as [a1|] eqn:Ea; [|discriminate]. cbn [bind] in H.
      destruct (x_add_sound a (Obj (SVal v)) _ La Logic.I Ea) as [L1 D1]. destruct (IH _ _ _ _ (Forall_inv_tail Lo) L1 Lm H) as [L2 [L3 D2]]. split; [exact L2|]. split; [exact L3|].
      rewrite D2, D1. cbn [map ScalarSpec.oden ScalarSpec.sden]. unfold ScalarSpec.ssum. cbn [fold_right]. ring.
  Qed.
  Lemma rebuild_sound m : forall l, mlegal m -> rebuild K m = Ok l -> Forall slegal l /\ ssum (map sden l) = mden m.
  Proof.
    induction m as [|[t c] m IH]; intros l Lm H; cbn [rebuild] in H.
    - injection H as <-. split; [constructor|reflexivity].
    - destruct (Forall_inv Lm) as [Lt Lc]. cbn [fst snd] in Lt, Lc. destruct (x_mul K c (Obj t)) as [o|] eqn:Eo; [|discriminate]. cbn [bind] in H.
      destruct (rebuild K m) as [r|] eqn:Er; [|discriminate]. cbn [bind] in H. destruct (IH _ (Forall_inv_tail Lm) eq_refl) as [Lr Dr].
      destruct (x_mul_sound c (Obj t) _ Lc Lt Eo) as [L1 D1]. cbn [ScalarSpec.oden] in D1. rewrite mden_cons, <- D1, <- Dr. destruct (s_is 0 o) eqn:E0; injection H as <-.
      + split; [exact Lr|]. rewrite (s_is_0 _ E0). ring.
      + split; [constructor; assumption|reflexivity].
  Qed.
  Lemma wrap_objs (l : list scal) : map wrap (map Obj l) = l.
  Proof. induction l as [|x l IH]; cbn [map wrap]; [reflexivity|now rewrite IH]. Qed.
  Lemma flat_plus_sound l : Forall olegal l -> Forall slegal (map wrap (flat_plus l)) /\ ssum (map sden (map wrap (flat_plus l))) = ssum (map oden l).
  Proof.
    induction 1 as [|o l Ho _ [IH1 IH2]]; [split; [constructor|reflexivity]|]. unfold flat_plus. cbn [flat_map]. fold (flat_plus l). rewrite !map_app, sum_app, IH2. split.
    - apply Forall_app. split; [|exact IH1]. destruct o as [v|[| |v|n|k|k|x e]]; try (constructor; [exact Ho|constructor]).
      rewrite wrap_objs. cbn [ScalarSpec.olegal ScalarSpec.slegal] in Ho. now apply legal_list.
    - cbn [map]. change (ssum (oden o :: map oden l)) with (oden o + ssum (map oden l)). f_equal. destruct o as [v|[| |v|n|k|k|x e]]; try (cbn [map wrap]; apply sum_1).
      now rewrite wrap_objs.
  Qed.
  Lemma plus_step_sound slt l r : Forall olegal l -> plus_step K slt l = Ok r -> smeans r (ssum (map oden l)).
  Proof.
    intros Ll H. unfold plus_step in H. destruct (flat_plus_sound _ Ll) as [L1 D1]. set (ops := map wrap (flat_plus l)) in *.
    pose proof (pysorted_perm slt ops) as Hp. destruct (collect_loop K (pysorted slt ops) SZero []) as [[a m]|] eqn:Ec; [|discriminate]. cbn [bind fst snd] in H.
    destruct (collect_sound _ _ _ _ _ (legal_perm _ _ Hp L1) (Logic.I : slegal SZero) (Forall_nil _) Ec) as [La [Lm Dm]].
    rewrite <- (sum_perm _ _ (Permutation_map sden Hp)) in Dm. destruct (rebuild K m) as [ts|] eqn:Er; [|discriminate]. cbn [bind] in H.
    destruct (rebuild_sound _ _ Lm Er) as [Lt Dt]. cbn [ScalarSpec.sden] in Dm. change (mden []) with (q0 (s:=M)) in Dm.
    set (fops := if s_is 0 a then ts else a :: ts) in H.
    assert (Forall slegal fops /\ ssum (map sden fops) = ssum (map oden l)) as [Lf Df].
    { rewrite <- D1. replace (ssum (map sden ops)) with (sden a + mden m) by (rewrite Dm; ring). clear Dm D1. rewrite <- Dt. subst fops. destruct (s_is 0 a) eqn:E0.
      - split; [exact Lt|]. rewrite (s_is_0 _ E0). ring.
      - split; [constructor; assumption|reflexivity]. }
    rewrite <- Df. destruct fops as [|x [|y f]]; injection H as <-.
    - split; [exact Logic.I|reflexivity].
    - split; [exact (Forall_inv Lf)|]. cbn [map]. now rewrite sum_1.
    - split; [|reflexivity]. apply legal_list. exact Lf.
  Qed.

  (** ** Products *)
  Lemma lift_ok (r : res scal) x : lift r = Replaces (Some x) -> r = Ok x.
  Proof. destruct r as [y|e]; cbn [lift]; [now intros [= <-]|]. destruct e; discriminate. Qed.
  Lemma rule_sound rule x y r : In rule (times_rules K) -> slegal x -> slegal y -> rule x y = Replaces (Some r) -> smeans r (sden x * sden y).
  Proof.
    intros Hin Lx Ly H. cbn [times_rules In] in Hin. destruct Hin as [<-|[<-|[<-|[<-|[<-|[<-|[]]]]]]].
    - destruct x as [| |a| | | |]; try discriminate. destruct y as [| |b| | | |]; try discriminate. apply lift_ok in H. destruct (create_sound _ _ H) as [L D]. split; [exact L|]. rewrite D. apply vden_mul.
    - destruct (s_eqb x y) eqn:E; [|discriminate]. apply lift_ok in H. destruct (s_eqb_sound _ _ E) as [Dxy _]. destruct (x_pow_sound x (Raw (vZ 2)) r Lx Logic.I) as [L D]; try exact H.
      + cbn [ScalarSpec.oden]. rewrite vden_2. apply dom_2.
      + intros _. cbn [ScalarSpec.oden]. rewrite vden_2. apply isint_add; apply isint_1.
      + discriminate.
      + split; [exact L|]. rewrite D. cbn [ScalarSpec.oden]. rewrite vden_2, pow_2, Dxy. reflexivity.
    - destruct (s_is 0 x) eqn:E; [|discriminate]. injection H as <-. split; [exact Logic.I|]. rewrite (s_is_0 _ E). cbn [ScalarSpec.sden]. ring.
    - destruct (s_is 0 y) eqn:E; [|discriminate]. injection H as <-. split; [exact Logic.I|]. rewrite (s_is_0 _ E). cbn [ScalarSpec.sden]. ring.
    - destruct x as [| | | | | |b e]; try discriminate. destruct y as [| | | | | |b' e']; try discriminate. destruct (s_eqb b b') eqn:E; [|discriminate]. apply lift_ok in H.
      destruct (s_eqb_sound _ _ E) as [Db Dp]. destruct (x_add K e (Obj e')) as [s|] eqn:Es; [|discriminate]. cbn [bind] in H.
      destruct Lx as [Lb [Le [Hd [Hi Hz]]]]. destruct Ly as [Lb' [Le' [Hd' [Hi' Hz']]]]. destruct (x_add_sound e (Obj e') _ Le Le' Es) as [Ls Ds]. cbn [ScalarSpec.oden] in Ds.
      rewrite <- Db in Hd'. destruct (x_pow_sound b (Obj s) r Lb Ls) as [L D]; try exact H.
      + cbn [ScalarSpec.oden]. rewrite Ds. now apply dom_add.
      + intros Ep. cbn [ScalarSpec.oden]. rewrite Ds. apply isint_add; [now apply Hi|]. apply Hi'. congruence.
      + rewrite Hz. discriminate.
      + split; [exact L|]. rewrite D. cbn [ScalarSpec.oden ScalarSpec.sden]. rewrite Ds, <- Db. now apply pow_add.
    - destruct y as [| | | | | |b e]; try discriminate. destruct (s_eqb x b && s_is (-1) e) eqn:E; [|discriminate]. apply andb_prop in E. destruct E as [E1 E2]. injection H as <-.
      split; [exact Logic.I|]. cbn [ScalarSpec.sden]. destruct Ly as [_ [_ [Hd _]]]. rewrite (s_is_m1 _ E2) in *. rewrite (proj1 (s_eqb_sound _ _ E1)). symmetry. now apply pow_inv.
  Qed.
  Lemma reach_sound a b : reachable (times_cls K) a b -> Forall slegal a -> Forall slegal b /\ sprod (map sden b) = sprod (map sden a).
  Proof.
    induction 1 as [a b [pre [x [y [post [r [-> [Hr ->]]]]]]]|a|a b c _ IH1 _ IH2]; intros L.
    - apply Forall_app in L. destruct L as [L1 L2]. pose proof (Forall_inv L2) as Lx. pose proof (Forall_inv (Forall_inv_tail L2)) as Ly. pose proof (Forall_inv_tail (Forall_inv_tail L2)) as L3.
      destruct Hr as [before [rule [after [E [_ Hr]]]]]. assert (In rule (times_rules K)) as Hin by (change (times_rules K) with (binary_rules (times_cls K)); rewrite E; apply in_or_app; right; now left).
      destruct (rule_sound _ _ _ _ Hin Lx Ly Hr) as [Lr Dr].
      assert (Forall slegal (contributes (times_cls K) r) /\ sprod (map sden (contributes (times_cls K) r)) = sden r) as [Lc Dc].
      { unfold contributes. cbn [is_neutral instance_args times_cls]. destruct (s_is 1 r) eqn:E1.
        - split; [constructor|]. rewrite (s_is_1 _ E1). reflexivity.
        - destruct r as [| |v|n|l|l|u w]; try (split; [constructor; [exact Lr|constructor]|unfold ScalarSpec.sprod; cbn [map fold_right]; ring]).
          split; [now apply legal_list|reflexivity]. }
      split.
      + apply Forall_app. split; [exact L1|]. apply Forall_app. now split.
      + rewrite !map_app, !prod_app, Dc, Dr. cbn [map]. change (sprod (sden x :: sden y :: map sden post)) with (sden x * (sden y * sprod (map sden post))). ring.
    - now split.
    - destruct (IH1 L) as [Lb Db]. destruct (IH2 Lb) as [Lc Dc]. split; [exact Lc|congruence].
  Qed.
  Lemma filter_one_den ops : sprod (map sden (filter (fun s => negb (s_is 1 s)) ops)) = sprod (map sden ops).
  Proof.
    induction ops as [|o ops IH]; [reflexivity|]. cbn [filter]. destruct (s_is 1 o) eqn:E; cbn [negb map]; unfold ScalarSpec.sprod in *; cbn [fold_right]; rewrite IH; [|reflexivity].
    rewrite (s_is_1 _ E). ring.
  Qed.
  Lemma create_all_sound l l' : Forall olegal l -> mapM create_o l = Ok l' -> Forall slegal l' /\ map sden l' = map oden l.
  Proof.
    revert l'. induction l as [|o l IH]; intros l' L H; cbn [mapM] in H.
    - injection H as <-. split; [constructor|reflexivity].
    - destruct (create_o o) as [s|] eqn:Es; [|discriminate]. cbn [bind] in H. destruct (mapM create_o l) as [ss|] eqn:Ess; [|discriminate]. cbn [bind] in H. injection H as <-.
      destruct (create_o_sound _ _ (Forall_inv L) Es) as [L1 D1]. destruct (IH _ (Forall_inv_tail L) eq_refl) as [L2 D2]. split; [constructor; assumption|]. cbn [map]. now rewrite D1, D2.
  Qed.
  Lemma flat_times_sound l : Forall slegal l -> let f := flat_map (fun s => match s with STimes l => l | _ => [s] end) l in
    Forall slegal f /\ sprod (map sden f) = sprod (map sden l).
  Proof.
    induction 1 as [|o l Ho _ [IH1 IH2]]; [split; [constructor|reflexivity]|]. cbn [flat_map]. split.
    - apply Forall_app. split; [|exact IH1]. destruct o as [| |v|n|k|k|x e]; try (constructor; [exact Ho|constructor]). now apply legal_list.
    - rewrite map_app, prod_app, IH2. cbn [map]. change (sprod (sden o :: map sden l)) with (sden o * sprod (map sden l)). f_equal.
      destruct o as [| |v|n|k|k|x e]; try reflexivity; unfold ScalarSpec.sprod; cbn [map fold_right]; ring.
  Qed.
  Lemma times_step_sound slt f l r : Forall olegal l -> times_step K slt f l = Ok r -> smeans r (sprod (map oden l)).
  Proof.
    intros Ll H. unfold times_step in H. destruct (mapM create_o l) as [l'|] eqn:El; [|discriminate]. cbn [bind] in H. destruct (create_all_sound _ _ Ll El) as [L1 D1].
    destruct (flat_times_sound _ L1) as [L2 D2]. set (fl := flat_map _ l') in *. pose proof (pysorted_perm slt fl) as Hp. pose proof (legal_perm _ _ Hp L2) as L3. pose proof (prod_perm _ _ (Permutation_map sden Hp)) as D3.
    set (ops := pysorted slt fl) in *. assert (sprod (map sden ops) = sprod (map oden l)) as D by (rewrite <- D3, D2, D1; reflexivity). rewrite <- D. clear D D3 D2.
    pose proof (filter_one_den ops) as Df. assert (Forall slegal (filter (fun s => negb (s_is 1 s)) ops)) as Lf.
    { rewrite Forall_forall in *. intros x Hx. apply filter_In in Hx. now apply L3. }
    destruct ops as [|o ops]; [injection H as <-; split; [exact Logic.I|reflexivity]|]. rewrite <- Df.
    assert (sden o = q1 \/ filter (fun s => negb (s_is 1 s)) (o :: ops) <> []) as Ho.
    { cbn [filter]. destruct (s_is 1 o) eqn:E; [left; now apply s_is_1|right; discriminate]. }
    destruct (filter (fun s => negb (s_is 1 s)) (o :: ops)) as [|x [|y fs]] eqn:Ef.
    - injection H as <-. split; [exact (Forall_inv L3)|]. destruct Ho as [-> |Ho]; [reflexivity|contradiction].
    - injection H as <-. split; [exact (Forall_inv Lf)|]. unfold ScalarSpec.sprod. cbn [map fold_right]. ring.
    - set (fops := x :: y :: fs) in *. unfold match_replace_binary in H. destruct (mrb_reduce (times_cls K) (Datatypes.S (length fops)) f fops) as [out|] eqn:Er; [|discriminate]. cbn [bind] in H.
      apply reduce_reach in Er. destruct (reach_sound _ _ Er Lf) as [Lo Do]. rewrite <- Do. destruct out as [|u [|w out]]; cbn [bind] in H; injection H as <-.
      + split; [exact Logic.I|reflexivity].
      + split; [exact (Forall_inv Lo)|]. unfold ScalarSpec.sprod. cbn [map fold_right]. ring.
      + split; [|reflexivity]. now apply legal_list.
  Qed.

  (** ** Powers *)
  Lemma pow_step_sound b e r : olegal b -> olegal e -> pow_ok M (wrap b) (wrap e) -> pow_step K b e = Ok r -> smeans r (qpow (oden b) (oden e)).
  Proof.
    intros Lb Le Hp H. unfold pow_step in H. apply wrap_legal in Lb, Le. rewrite <- (wrap_den b), <- (wrap_den e). set (x := wrap b) in *. set (y := wrap e) in *. clearbody x y. clear b e.
    destruct Hp as [Hd [Hi Hz]].
    assert ((if s_is 0 y then Ok SOne else if s_is 1 y then Ok x else match x with SPow x' y' => do p <- x_mul K y' (Obj y); x_pow K x' (Obj p) | _ => Ok (SPow x y) end) = Ok r -> smeans r (qpow (sden x) (sden y))) as G.
    { clear H. destruct (s_is 0 y) eqn:E0; [intros [= <-]; split; [exact Logic.I|]; rewrite (s_is_0 _ E0), pow_0; reflexivity|].
      destruct (s_is 1 y) eqn:E1; [intros [= <-]; split; [exact Lb|]; rewrite (s_is_1 _ E1), pow_1; reflexivity|].
      assert (Ok (SPow x y) = Ok r -> smeans r (qpow (sden x) (sden y))) as G by (intros [= <-]; split; [repeat split; assumption|reflexivity]).
      destruct x as [| |v|n|k|k|x' y']; try exact G. clear G. intros H. destruct (x_mul K y' (Obj y)) as [p|] eqn:Ep; [|discriminate]. cbn [bind] in H.
      destruct Lb as [Lx [Ly [Hd1 [Hi1 Hz1]]]]. destruct (x_mul_sound y' (Obj y) p Ly Le Ep) as [Lp Dp]. cbn [ScalarSpec.oden] in Dp. specialize (Hi eq_refl). cbn [ScalarSpec.sden] in Hd |- *.
      destruct (x_pow_sound x' (Obj p) r Lx Lp) as [L D]; try exact H.
      - cbn [ScalarSpec.oden]. rewrite Dp. now apply dom_mul.
      - intros E. cbn [ScalarSpec.oden]. rewrite Dp. apply isint_mul; [now apply Hi1|exact Hi].
      - rewrite Hz1. discriminate.
      - split; [exact L|]. rewrite D. cbn [ScalarSpec.oden]. rewrite Dp. symmetry. now apply pow_mul. }
    destruct x as [| |v|n|k|k|x' y']; try exact (G H). destruct y as [| |w|n|k|k|x' y']; try exact (G H).
    destruct (vpow v w) as [c|] eqn:Ec; [|discriminate]. cbn [bind] in H. destruct (create_sound _ _ H) as [L D]. split; [exact L|]. rewrite D. now apply vden_pow.
  Qed.

  (** ** Conjugates *)
  Context (aconj : nat -> nat) (Haconj : forall n, aden M (aconj n) = qconj (aden M n)).
  Lemma conj_sum l : ssum (map qconj l) = qconj (ssum l).
  Proof. unfold ScalarSpec.ssum. induction l as [|x l IH]; cbn [map fold_right]; [symmetry; apply qconj_0|]. now rewrite IH, qconj_add. Qed.
  Lemma conj_prod l : sprod (map qconj l) = qconj (sprod l).
  Proof. unfold ScalarSpec.sprod. induction l as [|x l IH]; cbn [map fold_right]; [symmetry; apply qconj_1|]. now rewrite IH, qconj_mul. Qed.
  Definition conj_list (l : list scal) : res (list operand) :=
    (fix go (l : list scal) : res (list operand) := match l with [] => Ok [] | x :: r => do x' <- conjugate K aconj x; do r' <- go r; Ok (Obj x' :: r') end) l.
  Local Notation conj_ok := (int_powers M).
  Lemma conj_ok_list l : fold_right (fun x P => conj_ok x /\ P) True l <-> Forall conj_ok l.
  Proof.
    induction l as [|x l IH]; cbn [fold_right]; [split; [constructor|trivial]|]. split.
    - intros [H1 H2]. constructor; [exact H1|now apply IH].
    - intros H. split; [exact (Forall_inv H)|apply IH; exact (Forall_inv_tail H)].
  Qed.
  Lemma conj_list_sound l : Forall (fun a => forall r, slegal a -> conj_ok a -> conjugate K aconj a = Ok r -> smeans r (qconj (sden a))) l ->
    forall l', Forall slegal l -> Forall conj_ok l -> conj_list l = Ok l' -> Forall olegal l' /\ map oden l' = map qconj (map sden l).
  Proof.
    induction 1 as [|x l Hx _ IH]; intros l' L C H; cbn [conj_list] in H.
    - injection H as <-. split; [constructor|reflexivity].
    - destruct (conjugate K aconj x) as [x'|] eqn:Ex; [|discriminate]. cbn [bind] in H. fold (conj_list l) in H. destruct (conj_list l) as [r|] eqn:Er; [|discriminate]. cbn [bind] in H. injection H as <-.
      destruct (Hx _ (Forall_inv L) (Forall_inv C) eq_refl) as [L1 D1]. destruct (IH _ (Forall_inv_tail L) (Forall_inv_tail C) eq_refl) as [L2 D2].
      split; [constructor; assumption|]. cbn [map ScalarSpec.oden]. now rewrite D1, D2.
  Qed.
  Lemma conjugate_sound a : forall r, slegal a -> conj_ok a -> conjugate K aconj a = Ok r -> smeans r (qconj (sden a)).
  Proof.
    induction a as [| |v|n|l IH|l IH|x e IHx IHe] using scal_ind'; intros r L C H; cbn [conjugate] in H.
    - injection H as <-. split; [exact Logic.I|]. symmetry. apply qconj_0.
    - injection H as <-. split; [exact Logic.I|]. symmetry. apply qconj_1.
    - injection H as <-. split; [exact Logic.I|]. apply vden_conj.
    - injection H as <-. split; [exact Logic.I|]. apply Haconj.
    - fold (conj_list l) in H. destruct (conj_list l) as [l'|] eqn:El; [|discriminate]. cbn [bind] in H. cbn [ScalarSpec.slegal int_powers] in L, C. apply legal_list in L. apply conj_ok_list in C.
      destruct (conj_list_sound l IH l' L C El) as [L1 D1]. destruct (so_plus HK _ _ L1 H) as [Lr Dr]. split; [exact Lr|]. rewrite Dr, D1. apply conj_sum.
    - fold (conj_list l) in H. destruct (conj_list l) as [l'|] eqn:El; [|discriminate]. cbn [bind] in H. cbn [ScalarSpec.slegal int_powers] in L, C. apply legal_list in L. apply conj_ok_list in C.
      destruct (conj_list_sound l IH l' L C El) as [L1 D1]. destruct (so_times HK (rev l') r) as [Lr Dr]; [apply Forall_rev; exact L1|exact H|]. split; [exact Lr|].
      rewrite Dr, map_rev, <- (prod_perm _ _ (Permutation_rev (map oden l'))), D1. apply conj_prod.
    - destruct (conjugate K aconj x) as [b'|] eqn:Eb; [|discriminate]. cbn [bind] in H. destruct (conjugate K aconj e) as [e'|] eqn:Ee; [|discriminate]. cbn [bind] in H.
      destruct L as [Lx [Le [Hd [Hi Hz]]]]. destruct C as [Cx [Ce [Cc Cn]]]. destruct (IHx _ Lx Cx eq_refl) as [L1 D1]. destruct (IHe _ Le Ce eq_refl) as [L2 D2].
      destruct (so_pow HK (Obj b') (Obj e') r L1 L2) as [Lr Dr]; [|exact H|].
      + unfold pow_ok. cbn [wrap]. rewrite D1, D2. split; [now apply dom_conj|]. split; [intros E; now apply isint_conj|].
        destruct (s_is 0 b') eqn:E0; [|reflexivity]. exfalso. apply Cn. apply s_is_0 in E0. rewrite D1 in E0. rewrite <- (qconj_inv V M (sden x)), E0. apply qconj_0.
      + split; [exact Lr|]. rewrite Dr. cbn [ScalarSpec.oden ScalarSpec.sden]. rewrite D1, D2. now apply pow_conj.
  Qed.
End Sound.

Lemma sk_sound {V : pyvals} (M : smeaning V) slt n : soundS M (sk slt n).
Proof.
  induction n as [|n IH]; [split; discriminate|]. split; cbn [sk k_plus k_times k_pow].
  - intros l r. apply plus_step_sound. exact IH.
  - intros l r. apply times_step_sound. exact IH.
  - intros b e r. apply pow_step_sound. exact IH.
Qed.
