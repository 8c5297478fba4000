(** Proofs for C58: how texts are read. *)
From Coq Require Import QArith Qcanon Ring.
From Verif Require Import Prelude ListFacts BinModel AlgSpec CAlg NcRing OpModel OpSpec OpProofs1 OpProofs2 KetModel KetSpec KetProofs1 AsciiModel AsciiSpec.
Local Open Scope nat_scope.

Definition Ev (P : nat -> Prop) : Prop := exists n0, forall n, n0 <= n -> P n.
Lemma Ev_S (P Q : nat -> Prop) : Ev P -> (forall n, P n -> Q (Datatypes.S n)) -> Ev Q.
Proof. intros [n0 H] G. exists (Datatypes.S n0). intros [|n] Hn; [lia|]. apply G, H. lia. Qed.
Lemma Ev_and (P Q : nat -> Prop) : Ev P -> Ev Q -> Ev (fun n => P n /\ Q n).
Proof. intros [n H] [m G]. exists (Nat.max n m). intros k Hk. split; [apply H|apply G]; lia. Qed.
Lemma Ev_all (P : nat -> Prop) : (forall n, P (Datatypes.S n)) -> Ev P.
Proof. intros H. exists 1. intros [|n] Hn; [lia|apply H]. Qed.

Section Read.
  Context {S : scalars} {dim : nat -> option nat} {I : interp S dim} (W : kets I).
  Context (sym_of : nat -> list S -> option nat).
  Local Notation text := (list (token S)).
  Local Notation val := (val W).
  Local Notation read_sum := (read_sum W sym_of). Local Notation read_more := (read_more W sym_of). Local Notation read_prod := (read_prod W sym_of).
  Local Notation read_facs := (read_facs W sym_of). Local Notation read_fac := (read_fac W sym_of). Local Notation read_prim := (read_prim W sym_of).
  Lemma e_sum n t : read_sum (Datatypes.S n) t =
      match t with
      | TMinus :: r => obind (read_prod n r) (fun vr => obind (product W (fst vr)) (fun v => read_more n (vneg W v) (snd vr)))
      | _ => obind (read_prod n t) (fun vr => obind (product W (fst vr)) (fun v => read_more n v (snd vr)))
      end.
  Proof. reflexivity. Qed.
  Lemma e_more n acc t : read_more (Datatypes.S n) acc t =
      match t with
      | TPlus :: TCC :: r => obind (vadd W acc (vdag W acc)) (fun v => read_more n v r)
      | TMinus :: TCC :: r => obind (vadd W acc (vneg W (vdag W acc))) (fun v => read_more n v r)
      | TPlus :: r => obind (read_prod n r) (fun vr => obind (product W (fst vr)) (fun v => obind (vadd W acc v) (fun w => read_more n w (snd vr))))
      | TMinus :: r => obind (read_prod n r) (fun vr => obind (product W (fst vr)) (fun v => obind (vadd W acc (vneg W v)) (fun w => read_more n w (snd vr))))
      | _ => Some (acc, t)
      end.
  Proof. reflexivity. Qed.
  Lemma e_prod n t : read_prod (Datatypes.S n) t = obind (read_fac n t) (fun vr => obind (read_facs n (snd vr)) (fun fr => Some (fst vr :: fst fr, snd fr))).
  Proof. reflexivity. Qed.
  Lemma e_facs n t : read_facs (Datatypes.S n) t =
      match t with
      | TStar :: r => read_prod n r
      | x :: _ => if opens x then read_prod n t else Some ([], t)
      | [] => Some ([], t)
      end.
  Proof. reflexivity. Qed.
  Lemma e_fac n t : read_fac (Datatypes.S n) t = obind (read_prim n t) (fun vr => Some (dags W (fst vr) (snd vr))).
  Proof. reflexivity. Qed.
  Lemma e_prim n t : read_prim (Datatypes.S n) t =
      match t with
      | TNum c :: r => Some (VO (smul (ev c) a1), r)
      | T0 :: r => Some (VO a0, r)
      | T1 :: r => Some (VO a1, r)
      | TOp l h args :: r => obind (read_op sym_of l h args) (fun x => Some (VO x, r))
      | TSig j k l :: r => Some (VO (isigma j k l), r)
      | TKet m :: r => obind (read_ket W sym_of m) (fun v => Some (VK v, r))
      | TBra m :: r => obind (read_ket W sym_of m) (fun v => Some (VB v, r))
      | TLp :: r => obind (read_sum n r) (fun vr => match snd vr with TRp :: r' => Some (fst vr, r') | _ => None end)
      | TLb :: r => obind (read_sum n r) (fun vr => match snd vr with
          | TComma :: r' => obind (read_sum n r') (fun wr => match fst vr, fst wr, snd wr with
              | VO x, VO y, TRb :: r2 => Some (VO (mcomm I x y), r2) | _, _, _ => None end)
          | _ => None end)
      | TTr h :: TLb :: r => obind (read_sum n r) (fun vr => match fst vr, snd vr with VO x, TRb :: r' => Some (VO (itrace h x), r') | _, _ => None end)
      | _ => None
      end.
  Proof. reflexivity. Qed.
  Definition Sums (t : text) (v : val) r := Ev (fun n => read_sum n t = Some (v, r)).
  Definition More a (t : text) (v : val) r := Ev (fun n => read_more n a t = Some (v, r)).
  Definition Prods (t : text) (fs : list val) r := Ev (fun n => read_prod n t = Some (fs, r)).
  Definition Facs (t : text) (fs : list val) r := Ev (fun n => read_facs n t = Some (fs, r)).
  Definition Fac (t : text) (v : val) r := Ev (fun n => read_fac n t = Some (v, r)).
  Definition Prim (t : text) (v : val) r := Ev (fun n => read_prim n t = Some (v, r)).
  Definition head_is (P : token S -> bool) (t : text) : bool := match t with [] => false | x :: _ => P x end.
  Definition is_dag (t : token S) := match t with TDag => true | _ => false end.
  Definition is_minus (t : token S) := match t with TMinus => true | _ => false end.
  Definition is_cc (t : token S) := match t with TCC => true | _ => false end.
  Definition is_sign (t : token S) := match t with TMinus | TPlus => true | _ => false end.
  Definition goes (t : token S) := match t with TStar | TDag => true | _ => opens t end.

  Lemma fac_prim t v r : Prim t v r -> head_is is_dag r = false -> Fac t v r.
  Proof. intros H Hr. eapply Ev_S; [exact H|]. intros n E. rewrite e_fac. rewrite E. cbn [obind fst snd]. f_equal. destruct r as [|[] r]; try reflexivity. discriminate Hr. Qed.
  Lemma fac_dag t v r : Prim t v (TDag :: r) -> head_is is_dag r = false -> Fac t (vdag W v) r.
  Proof. intros H Hr. eapply Ev_S; [exact H|]. intros n E. rewrite e_fac. rewrite E. cbn [obind fst snd dags]. f_equal. destruct r as [|[] r]; try reflexivity. discriminate Hr. Qed.
  Lemma prods_ t v r fs r' : Fac t v r -> Facs r fs r' -> Prods t (v :: fs) r'.
  Proof. intros H G. eapply Ev_S; [exact (Ev_and _ _ H G)|]. intros n [E F]. rewrite e_prod. rewrite E. cbn [obind fst snd]. rewrite F. reflexivity. Qed.
  Lemma facs_star r fs r' : Prods r fs r' -> Facs (TStar :: r) fs r'.
  Proof. intros H. eapply Ev_S; [exact H|]. intros n E. exact E. Qed.
  Lemma facs_open t fs r' : head_is (@opens S) t = true -> Prods t fs r' -> Facs t fs r'.
  Proof. intros Ho H. eapply Ev_S; [exact H|]. intros n E. rewrite e_facs. destruct t as [|x t]; [discriminate|]. cbn [head_is] in Ho. destruct x; try discriminate Ho; exact E. Qed.
  Lemma facs_stop r : head_is goes r = false -> Facs r [] r.
  Proof. intros H. apply Ev_all. intros n. rewrite e_facs. destruct r as [|x r]; [reflexivity|]. cbn [head_is] in H. destruct x; try discriminate H; reflexivity. Qed.
  Lemma sums_pos t fs r v w r' : head_is is_minus t = false -> Prods t fs r -> product W fs = Some v -> More v r w r' -> Sums t w r'.
  Proof.
    intros Hh H E G. eapply Ev_S; [exact (Ev_and _ _ H G)|]. intros n [E1 E2]. rewrite e_sum.
    transitivity (obind (read_prod n t) (fun vr => obind (product W (fst vr)) (fun v => read_more n v (snd vr)))); [destruct t as [|[] t]; try reflexivity; discriminate Hh|].
    rewrite E1. cbn [obind fst snd]. rewrite E. exact E2.
  Qed.
  Lemma sums_neg t fs r v w r' : Prods t fs r -> product W fs = Some v -> More (vneg W v) r w r' -> Sums (TMinus :: t) w r'.
  Proof. intros H E G. eapply Ev_S; [exact (Ev_and _ _ H G)|]. intros n [E1 E2]. rewrite e_sum. rewrite E1. cbn [obind fst snd]. rewrite E. exact E2. Qed.
  Lemma more_stop a r : head_is is_sign r = false -> More a r a r.
  Proof. intros H. apply Ev_all. intros n. rewrite e_more. destruct r as [|[] r]; try reflexivity; discriminate H. Qed.
  Lemma more_plus a t fs r v b w r' : head_is is_cc t = false -> Prods t fs r -> product W fs = Some v -> vadd W a v = Some b -> More b r w r' -> More a (TPlus :: t) w r'.
  Proof.
    intros Hh H E Ea G. eapply Ev_S; [exact (Ev_and _ _ H G)|]. intros n [E1 E2]. rewrite e_more.
    transitivity (obind (read_prod n t) (fun vr => obind (product W (fst vr)) (fun v => obind (vadd W a v) (fun w => read_more n w (snd vr))))); [destruct t as [|[] t]; try reflexivity; discriminate Hh|].
    rewrite E1. cbn [obind fst snd]. rewrite E. cbn [obind]. rewrite Ea. exact E2.
  Qed.
  Lemma more_minus a t fs r v b w r' : head_is is_cc t = false -> Prods t fs r -> product W fs = Some v -> vadd W a (vneg W v) = Some b -> More b r w r' -> More a (TMinus :: t) w r'.
  Proof.
    intros Hh H E Ea G. eapply Ev_S; [exact (Ev_and _ _ H G)|]. intros n [E1 E2]. rewrite e_more.
    transitivity (obind (read_prod n t) (fun vr => obind (product W (fst vr)) (fun v => obind (vadd W a (vneg W v)) (fun w => read_more n w (snd vr))))); [destruct t as [|[] t]; try reflexivity; discriminate Hh|].
    rewrite E1. cbn [obind fst snd]. rewrite E. cbn [obind]. rewrite Ea. exact E2.
  Qed.
  Lemma more_cc (s : bool) a b r w r' : vadd W a (if s then vneg W (vdag W a) else vdag W a) = Some b -> More b r w r' -> More a (signed s :: TCC :: r) w r'.
  Proof. intros Ea G. eapply Ev_S; [exact G|]. intros n E. rewrite e_more. destruct s; cbn [signed]; rewrite Ea; exact E. Qed.

  (** ** Texts *)
  (** [t] is a primary, a product, a complete sum *)
  Definition P (t : text) (v : val) : Prop := head_is (@opens S) t = true /\ forall rest, Prim (t ++ rest) v rest.
  Definition Pr (t : text) (fs : list val) : Prop := head_is (@opens S) t = true /\ forall rest gs r', head_is is_dag rest = false -> Facs rest gs r' -> Prods (t ++ rest) (fs ++ gs) r'.
  Definition closing (r : text) : bool := negb (head_is goes r) && negb (head_is is_sign r).
  Definition T (t : text) (v : val) : Prop := forall rest, closing rest = true -> Sums (t ++ rest) v rest.

  Lemma head_app p (t r : text) : head_is p t = true -> head_is p (t ++ r) = true.
  Proof. destruct t; [discriminate|exact id]. Qed.
  Lemma opens_no t : head_is (@opens S) t = true -> head_is is_dag t = false /\ head_is is_minus t = false /\ head_is is_cc t = false /\ strip_minus t = (false, t).
  Proof. destruct t as [|[] t]; cbn; intros H; try discriminate H; repeat split. Qed.
  Lemma P_Pr t v : P t v -> Pr t [v].
  Proof. intros [H1 H2]. split; [exact H1|]. intros rest gs r' Hd G. eapply prods_; [apply fac_prim; [apply H2|exact Hd]|exact G]. Qed.
  Lemma P_dag t v : P t v -> Pr (t ++ [TDag]) [vdag W v].
  Proof. intros [H1 H2]. split; [now apply head_app|]. intros rest gs r' Hd G. rewrite <- app_assoc. cbn [app]. eapply prods_; [apply fac_dag; [apply H2|exact Hd]|exact G]. Qed.
  Lemma Pr_star t fs u gs : Pr t fs -> Pr u gs -> Pr (t ++ TStar :: u) (fs ++ gs).
  Proof.
    intros [H1 H2] [G1 G2]. split; [now apply head_app|]. intros rest ks r' Hd G. rewrite <- !app_assoc. cbn [app]. apply H2; [reflexivity|]. apply facs_star. now apply G2.
  Qed.
  Lemma Pr_juxt t fs u gs : Pr t fs -> Pr u gs -> Pr (t ++ u) (fs ++ gs).
  Proof.
    intros [H1 H2] [G1 G2]. split; [now apply head_app|]. intros rest ks r' Hd G. rewrite <- !app_assoc. apply H2; [apply opens_no; now apply head_app|].
    apply facs_open; [now apply head_app|]. now apply G2.
  Qed.
  Lemma T_parens t v : T t v -> P (parens t) v.
  Proof.
    intros H. split; [reflexivity|]. intros rest. unfold parens. cbn [app]. rewrite <- app_assoc. cbn [app].
    eapply Ev_S; [exact (H (TRp :: rest) eq_refl)|]. intros n E. rewrite e_prim. rewrite E. reflexivity.
  Qed.

  (** ** Sums of products of one kind *)
  Section Kind.
    Context (X : Type) (mk : X -> val) (add : X -> X -> X) (zero : X) (neg : X -> X).
    Context (Hadd : forall x y, vadd W (mk x) (mk y) = Some (mk (add x y))) (Hneg : forall x, vneg W (mk x) = mk (neg x)).
    Context (add_a : forall x y z, add x (add y z) = add (add x y) z) (add_z : forall x, add zero x = x) (add_zr : forall x, add x zero = x).
    Definition chunk := (bool * text * X)%type.
    Definition sval (c : chunk) : X := if fst (fst c) then neg (snd c) else snd c.
    Definition total (l : list chunk) : X := fold_right (fun c a => add (sval c) a) zero l.
    Definition tail_text (l : list chunk) : text := concat (map (fun c => signed (fst (fst c)) :: snd (fst c)) l).
    Definition ch_ok (c : chunk) : Prop := exists fs, Pr (snd (fst c)) fs /\ product W fs = Some (mk (snd c)).
    Definition C (t : text) (x : X) : Prop := exists l, l <> [] /\ t = drop_plus (tail_text l) /\ Forall ch_ok l /\ total l = x.

    Lemma total_app l m : total (l ++ m) = add (total l) (total m).
    Proof. induction l as [|c l IH]; cbn [app total fold_right]; [now rewrite add_z|]. fold (total (l ++ m)) (total l). now rewrite IH, add_a. Qed.
    Lemma tail_app l m : tail_text (l ++ m) = tail_text l ++ tail_text m.
    Proof. unfold tail_text. now rewrite map_app, concat_app. Qed.
    Lemma more_chunks l : Forall ch_ok l -> forall acc rest w r', head_is goes rest = false -> More (mk (add acc (total l))) rest w r' -> More (mk acc) (tail_text l ++ rest) w r'.
    Proof.
      induction 1 as [|[[s t] x] l (fs & [Ho Hp] & E) Hl IH]; intros acc rest w r' Hr H.
      - cbn [total fold_right] in H. now rewrite add_zr in H.
      - cbn [tail_text map concat fst snd] in *. fold (tail_text l). cbn [total fold_right] in H. fold (total l) in H. rewrite add_a in H.
        assert (Prods (t ++ tail_text l ++ rest) fs (tail_text l ++ rest)) as G.
        { rewrite <- (app_nil_r fs). apply Hp; [|apply facs_stop]; (destruct l as [|[[s' t'] x'] l]; [cbn [tail_text map concat app]|destruct s'; reflexivity]).
          - destruct rest as [|[] rest]; try reflexivity; discriminate Hr.
          - exact Hr. }
        cbn [app]. rewrite <- app_assoc. destruct s; cbn [signed sval fst snd] in *.
        + eapply more_minus; [apply opens_no; now apply head_app|exact G|exact E|rewrite Hneg; apply Hadd|]. now apply IH.
        + eapply more_plus; [apply opens_no; now apply head_app|exact G|exact E|apply Hadd|]. now apply IH.
    Qed.
    Lemma sum_chunks t x rest w r' : C t x -> head_is goes rest = false -> More (mk x) rest w r' -> Sums (t ++ rest) w r'.
    Proof.
      intros (l & Hn & -> & Hl & <-) Hr H. destruct l as [|[[s t] x] l]; [contradiction|]. clear Hn. apply Forall_cons_iff in Hl. destruct Hl as [(fs & [Ho Hp] & E) Hl].
      cbn [fst snd] in *. cbn [total fold_right] in H. fold (total l) in H.
      assert (Prods (t ++ tail_text l ++ rest) fs (tail_text l ++ rest)) as G.
      { rewrite <- (app_nil_r fs). apply Hp; [|apply facs_stop]; (destruct l as [|[[s' t'] x'] l]; [cbn [tail_text map concat app]|destruct s'; reflexivity]).
        - destruct rest as [|[] rest]; try reflexivity; discriminate Hr.
        - exact Hr. }
      destruct s; cbn [tail_text map concat fst snd signed drop_plus app] in *; fold (tail_text l); rewrite <- app_assoc.
      - eapply sums_neg; [exact G|exact E|rewrite Hneg]. now apply more_chunks.
      - eapply sums_pos; [apply opens_no; now apply head_app|exact G|exact E|]. now apply more_chunks.
    Qed.
    Lemma C_T t x : C t x -> T t (mk x).
    Proof.
      intros H rest Hr. unfold closing in Hr. apply andb_prop in Hr. destruct Hr as [H1 H2]. apply Bool.negb_true_iff in H1, H2. apply (sum_chunks t x rest); [exact H|exact H1|]. now apply more_stop.
    Qed.
    Lemma Pr_C t fs x : Pr t fs -> product W fs = Some (mk x) -> C t x.
    Proof.
      intros H E. exists [(false, t, x)]. repeat split; [discriminate|cbn; now rewrite app_nil_r| |cbn; apply add_zr]. constructor; [|constructor]. now exists fs.
    Qed.
    Lemma C_neg t fs x : Pr t fs -> product W fs = Some (mk x) -> C (TMinus :: t) (neg x).
    Proof.
      intros H E. exists [(true, t, x)]. repeat split; [discriminate|cbn; now rewrite app_nil_r| |cbn; apply add_zr]. constructor; [|constructor]. now exists fs.
    Qed.
    Lemma T_cc t x b (s : bool) : C t x -> vadd W (mk x) (if s then vneg W (vdag W (mk x)) else vdag W (mk x)) = Some b -> T (t ++ [signed s; TCC]) b.
    Proof.
      intros H E rest Hr. rewrite <- app_assoc. cbn [app]. unfold closing in Hr. apply andb_prop in Hr. destruct Hr as [H1 H2]. apply Bool.negb_true_iff in H1, H2.
      apply (sum_chunks t x); [exact H|destruct s; reflexivity|]. apply (more_cc s _ b); [exact E|]. now apply more_stop.
    Qed.
    (** the text of a sum *)
    Lemma strip_tail l : l <> [] -> Forall ch_ok l -> (let '(s, t) := strip_minus (drop_plus (tail_text l)) in signed s :: t) = tail_text l.
    Proof.
      destruct l as [|[[s t] x] l]; [contradiction|]. intros _ H. apply Forall_inv in H. destruct H as (fs & [Ho _] & _). cbn [fst snd] in Ho. unfold tail_text. cbn [map concat fst snd].
      fold (tail_text l). destruct s; [reflexivity|]. change (drop_plus ((signed false :: t) ++ tail_text l)) with (t ++ tail_text l).
      rewrite (proj2 (proj2 (proj2 (opens_no (t ++ tail_text l) (head_app _ _ _ Ho))))). reflexivity.
    Qed.
    Lemma plus_C (ts : list (nat * text)) (xs : list X) : ts <> [] ->
      Forall2 (fun pt x => (40 <= fst pt /\ C (snd pt) x) \/ (fst pt < 40 /\ starts_minus (snd pt) = false /\ T (snd pt) (mk x))) ts xs ->
      C (plus_text ts) (fold_right add zero xs).
    Proof.
      intros Hn H. assert (exists l, (ts <> [] -> l <> []) /\ concat (map (fun pt : nat * text => let '(s, t) := strip_minus (snd pt) in signed s :: parenthesize (fst pt) 40 t) ts) = tail_text l
        /\ Forall ch_ok l /\ total l = fold_right add zero xs) as (l & H1 & H2 & H3 & H4).
      { clear Hn. induction H as [|[p t] x ts xs Hx H (l & H1 & H2 & H3 & H4)]; [exists []; repeat split; [easy|constructor]|]. cbn [fst snd] in Hx. destruct Hx as [[Hp (l1 & Hn & -> & Hl & Et)]|(Hp & Hs & Ht)].
        - exists (l1 ++ l). split; [intros _ E; apply app_eq_nil in E; now destruct E|]. split; [|split; [now apply Forall_app|cbn [fold_right]; now rewrite total_app, Et, H4]].
          cbn [map concat fst snd]. rewrite H2, tail_app. f_equal. rewrite <- (strip_tail l1 Hn Hl) at 2. destruct (strip_minus _) as [s t]. f_equal. unfold parenthesize.
          destruct (Nat.ltb_spec p 40); [lia|reflexivity].
        - exists ((false, parens t, x) :: l). split; [easy|]. split; [|split; [constructor; [|exact H3]|cbn [fold_right total]; fold (total l); now rewrite H4]].
          + cbn [map concat fst snd]. rewrite H2. unfold tail_text. cbn [map concat fst snd]. f_equal. replace (strip_minus t) with (false, t) by (destruct t as [|[] t]; try reflexivity; discriminate Hs).
            unfold parenthesize. destruct (Nat.ltb_spec p 40); [reflexivity|lia].
          + exists [mk x]. cbn [fst snd]. split; [now apply P_Pr, T_parens|]. unfold product. cbn [existsb]. destruct (mk x); reflexivity. }
      exists l. split; [now apply H1|]. split; [unfold plus_text; now rewrite H2|]. now split.
    Qed.
  End Kind.
End Read.
