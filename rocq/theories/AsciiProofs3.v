(** Proofs for C58: the text of an operator. *)
From Coq Require Import QArith Qcanon Ring.
From Verif Require Import Prelude ListFacts BinModel AlgSpec CAlg NcRing OpModel OpSpec OpProofs1 OpProofs2 OpProofs3 KetModel KetSpec KetProofs1 AsciiModel AsciiSpec AsciiProofs1 AsciiProofs2.
Local Open Scope nat_scope.

Section Ops.
  Context {S : scalars} {dim : nat -> option nat} {I : interp S dim} (W : kets I).
  Context (lab : nat -> nat) (sargs : nat -> list S) (sym_of : nat -> list S -> option nat) (Hsym : forall n, 7 <= lab n /\ sym_of (lab n) (sargs n) = Some n).
  Context (cterms : S -> list (bool * S)) (wrap : S -> bool) (Hc : terms_ok I cterms).
  Local Notation text := (list (token S)).
  Local Notation val := (val W).
  Local Notation Pr := (Pr W sym_of). Local Notation P := (P W sym_of). Local Notation T := (T W sym_of).
  Local Notation COp := (C W sym_of (A I) VO aadd a0 (smul (kopp k1))).
  Local Notation otext := (otext lab sargs cterms wrap). Local Notation oprec := (oprec cterms).
  Local Notation oshown := (oshown lab sargs cterms wrap).
  Local Notation value := (value I).
  Add Ring Kro : (kring I).

  Definition GoodO (fs : list val) (x : A I) : Prop := exists xs, xs <> [] /\ fs = map VO xs /\ mprod I xs = x.
  Lemma rfold_ops xs : xs <> [] -> rfold W (map VO xs) = Some (VO (mprod I xs)).
  Proof.
    induction xs as [|x xs IH]; [contradiction|]. intros _. destruct xs as [|y xs]; [cbn; now rewrite amul_1r|]. change (rfold W (map VO (x :: y :: xs))) with (obind (rfold W (map VO (y :: xs))) (vmul W (VO x))).
    rewrite IH by discriminate. reflexivity.
  Qed.
  Lemma no_bra xs : existsb (is_bra W) (map VO xs) = false. Proof. induction xs; [reflexivity|exact IHxs]. Qed.
  Lemma good_product fs x : GoodO fs x -> product W fs = Some (VO x).
  Proof. intros (xs & Hn & -> & <-). unfold product. rewrite no_bra. now apply rfold_ops. Qed.
  Lemma good_one x : GoodO [VO x] x. Proof. exists [x]. split; [discriminate|]. split; [reflexivity|]. cbn. apply amul_1r. Qed.
  Lemma good_sc k fs x : GoodO fs x -> GoodO (VO (smul k a1) :: fs) (smul k x).
  Proof. intros (xs & Hn & -> & <-). exists (smul k a1 :: xs). split; [discriminate|]. split; [reflexivity|]. rewrite mprod_cons, smul_amul_l, amul_1l. reflexivity. Qed.
  Lemma good_app fs gs x y : GoodO fs x -> GoodO gs y -> GoodO (fs ++ gs) (amul x y).
  Proof. intros (xs & Hn & -> & <-) (ys & Hm & -> & <-). exists (xs ++ ys). split; [intros E; apply app_eq_nil in E; now destruct E|]. split; [now rewrite map_app|apply mprod_app]. Qed.

  Lemma op_C_T t x : COp t x -> T t (VO x).
  Proof. apply (C_T W sym_of (A I) VO aadd a0 (smul (kopp k1))); try reflexivity; [apply aadd_assoc|apply aadd_0r]. Qed.
  Definition vx (adj : bool) (e : op S) : A I := if adj then star (value e) else value e.
  Definition Shows (adj : bool) (e : op S) (s : text) (x : A I) : Prop :=
    T s (VO x) /\ (40 <= oprec e -> COp s x) /\ (50 <= oprec e -> firm cterms adj e -> exists fs, Pr s fs /\ GoodO fs x).
  Lemma shows_Pr adj e s fs x : Pr s fs -> GoodO fs x -> Shows adj e s x.
  Proof.
    intros H G. assert (COp s x) as Hx by (eapply Pr_C; [apply aadd_0r|exact H|now apply good_product]). split; [now apply op_C_T|]. split; [now intros _|]. intros _ _. now exists fs.
  Qed.
  (** names *)
  Lemma P_op l h args x : read_op (I:=I) sym_of l h args = Some x -> P [TOp l h args] (VO x).
  Proof. intros E. split; [reflexivity|]. intros rest. apply Ev_all. intros n. rewrite e_prim. cbn [app]. rewrite E. reflexivity. Qed.
  Lemma local_shows adj e l h args (d : bool) (x y : A I) : read_op (I:=I) sym_of l h args = Some x -> (if d then star x else x) = y -> Shows adj e (local_text l h args d) y.
  Proof.
    intros E <-. unfold local_text. destruct d; cbn [dag].
    - eapply shows_Pr; [apply (P_dag W sym_of [TOp l h args] (VO x)); now apply P_op|apply good_one].
    - eapply shows_Pr; [apply (P_Pr W sym_of [TOp l h args] (VO x)), P_op, E|apply good_one].
  Qed.
  Lemma sym_read n h : read_op (I:=I) sym_of (lab n) h (sargs n) = Some (isym n h).
  Proof.
    destruct (Hsym n) as [Hl E]. generalize dependent (lab n). intros k Hl E. unfold read_op. do 7 (destruct k as [|k]; [lia|]). cbn [Nat.leb]. rewrite E. reflexivity.
  Qed.
  Lemma prim_ok (e : op S) adj t x : P t (VO x) -> Shows adj e t x.
  Proof. intros H. eapply shows_Pr; [apply P_Pr; exact H|apply good_one]. Qed.
  Lemma atom_shows adj a : legal_atom I a -> Shows adj (OAtom a) (atom_text lab sargs adj a) (vx adj (OAtom a)).
  Proof.
    destruct a; cbn [legal_atom]; intros HL; cbn [atom_text].
    - eapply local_shows; [apply sym_read|now destruct adj].
    - eapply local_shows; [reflexivity|]. unfold vx. cbn [OpSpec.value atom_val]. destruct adj; cbn [negb]; [symmetry; apply (create_star S dim I _ HL)|apply (destroy_star I _ HL)].
    - eapply local_shows; [reflexivity|]. now destruct adj.
    - assert (forall j k, P [TSig j k ls] (VO (isigma (i:=I) j k ls))) as H by (intros; split; [reflexivity|]; intros rest; apply Ev_all; intros n; rewrite e_prim; reflexivity).
      destruct adj; apply prim_ok; [|apply H]. unfold vx. cbn [OpSpec.value atom_val]. rewrite (sigma_star S dim I). apply H.
    - eapply local_shows; [reflexivity|now destruct adj].
    - eapply local_shows; [reflexivity|now destruct adj].
    - eapply local_shows; [reflexivity|now destruct adj].
    - eapply local_shows; [reflexivity|now destruct adj].
    - eapply local_shows; [reflexivity|now destruct adj].
    - eapply local_shows; [reflexivity|now destruct adj].
  Qed.
  Lemma adj_shows adj a s : legal_atom I a -> bare sargs a -> adj_atom_text lab adj a = Ok s -> Shows adj (OAdj (OAtom a)) s (vx adj (OAdj (OAtom a))).
  Proof.
    assert (forall y : A I, (if negb adj then star y else y) = if adj then star (star y) else star y) as H by (intros; destruct adj; cbn [negb]; [symmetry; apply star_star|reflexivity]).
    destruct a; cbn [legal_atom bare adj_atom_text]; intros HL Hb E; try contradiction; injection E as <-.
    - eapply local_shows; [rewrite <- Hb; apply sym_read|]. apply H.
    - eapply local_shows; [reflexivity|]. unfold vx. cbn [OpSpec.value atom_val]. destruct adj; cbn [negb]; [rewrite star_star; apply (destroy_star I _ HL)|symmetry; apply (create_star S dim I _ HL)].
    - eapply local_shows; [reflexivity|]. apply H.
    - eapply local_shows; [reflexivity|]. apply H.
    - eapply local_shows; [reflexivity|]. apply H.
    - eapply local_shows; [reflexivity|]. apply H.
  Qed.

  (** lists *)
  Definition lt1 adj (x : op S) : res (nat * text) := do t <- otext adj x; Ok (oprec x, t).
  Lemma otext_list (f : list (nat * text) -> text) adj l :
    (do ts <- (fix go (l : list (op S)) : res (list (nat * text)) := match l with [] => Ok [] | x :: l' => do t <- otext adj x; do r <- go l'; Ok ((oprec x, t) :: r) end) l; Ok (f ts))
    = do ts <- mapM (lt1 adj) l; Ok (f ts).
  Proof.
    f_equal. induction l as [|x l IH]; [reflexivity|]. cbn [mapM]. unfold lt1 at 1. rewrite IH. destruct (otext adj x); reflexivity.
  Qed.
  Lemma otext_plus adj l : otext adj (OPlus l) = do ts <- mapM (lt1 adj) l; Ok (plus_text ts).
  Proof. exact (otext_list plus_text adj l). Qed.
  Lemma otext_times adj l : otext adj (OTimes l) = do ts <- mapM (lt1 adj) l; Ok (times_text ts).
  Proof. exact (otext_list times_text adj l). Qed.
  Lemma lt1_F2 adj l : forall ts, mapM (lt1 adj) l = Ok ts -> Forall2 (fun x pt => fst pt = oprec x /\ otext adj x = Ok (snd pt)) l ts.
  Proof.
    induction l as [|x l IH]; intros ts E; cbn [mapM] in E; [injection E as <-; constructor|]. unfold lt1 at 1 in E. destruct (otext adj x) as [t|] eqn:Et; [|discriminate]. cbn [bind] in E.
    destruct (mapM (lt1 adj) l) as [r|]; [|discriminate]. cbn [bind] in E. injection E as <-. constructor; [now split|now apply IH].
  Qed.
  Lemma not_one (t : text) : In TStar t \/ In TLp t \/ In TLb t -> is_one_text t = false.
  Proof. destruct t as [|x [|y t]]; [reflexivity| |destruct x; reflexivity]. intros [[->|[]]|[[->|[]]|[->|[]]]]; reflexivity. Qed.
  Lemma text_not_one adj e s : oshown adj e -> no_scal e -> e <> OOne -> otext adj e = Ok s -> is_one_text (parenthesize (oprec e) 50 s) = false.
  Proof.
    intros Hs Hn H1 E. destruct e as [| |a|c t|l|l|a b|a|a h|b a].
    - destruct adj; [discriminate|]. injection E as <-. reflexivity.
    - contradiction.
    - injection E as <-. destruct a, adj; reflexivity.
    - contradiction.
    - reflexivity.
    - destruct Hs as (Hl & _ & _). rewrite otext_times in E. destruct (mapM (lt1 adj) l) as [ts|] eqn:Em; [|discriminate]. injection E as <-. apply lt1_F2 in Em. apply not_one. left.
      change (parenthesize (oprec (OTimes l)) 50 (times_text ts)) with (times_text ts). destruct Em as [|x p l ts _ Em]; [cbn in Hl; lia|]. destruct Em as [|y q l ts _ Em]; [cbn in Hl; lia|].
      unfold times_text. cbn [map join]. apply in_or_app. right. now left.
    - cbn [AsciiModel.otext] in E. destruct (otext false a) as [s1|]; [|discriminate]. destruct (otext false b) as [s2|]; [|discriminate]. injection E as <-. apply not_one. right. right. now left.
    - destruct a; cbn [AsciiSpec.oshown] in Hs;
        try (destruct Hs as [-> Hs]; cbn [AsciiModel.otext] in E; match type of E with (do s <- ?x; _) = _ => destruct x as [s1|]; [|discriminate] end; injection E as <-; apply not_one; right; left; now left).
      cbn [AsciiModel.otext] in E. destruct a; cbn [adj_atom_text bare] in *; try contradiction; injection E as <-; destruct adj; reflexivity.
    - cbn [AsciiModel.otext] in E. destruct (otext adj a) as [s1|]; [|discriminate]. injection E as <-. apply not_one. right. right. right. now left.
    - reflexivity.
  Qed.

  Lemma oshown_plus adj l : oshown adj (OPlus l) -> l <> [] /\ Forall (fun x => oshown adj x /\ match x with OPM _ _ => forall s, otext false x = Ok s -> starts_minus s = false | _ => True end) l.
  Proof. intros [Hn H]. split; [exact Hn|]. induction l as [|x l IH]; constructor; [apply H|]. destruct l as [|y l]; [constructor|apply IH; [discriminate|apply H]]. Qed.
  Lemma oshown_times adj l : oshown adj (OTimes l) -> adj = false /\ 2 <= length l /\ Forall (fun x => oshown adj x /\ firm cterms adj x) l.
  Proof. intros (Hn & Ha & H). split; [exact Ha|]. split; [exact Hn|]. clear - H. induction l as [|x l IH]; constructor; [apply H|apply IH, H]. Qed.
  Lemma oprec_low e : oprec e < 40 -> exists s a, e = OPM s a.
  Proof. destruct e; cbn; try lia; [destruct (negative cterms c); lia|]. intros _. eauto. Qed.

  Lemma op_factor adj e s : Shows adj e s (vx adj e) -> firm cterms adj e -> exists fs, Pr (parenthesize (oprec e) 50 s) fs /\ GoodO fs (vx adj e).
  Proof.
    intros (H1 & _ & H3) Hf. apply (factor W sym_of (A I) VO GoodO good_one); [exact H1|]. intros Hp. now apply H3.
  Qed.

  Theorem op_shows e : forall adj s, legal I e -> oshown adj e -> otext adj e = Ok s -> Shows adj e s (vx adj e).
  Proof.
    induction e as [| |a|c t IH|l IH|l IH|a b IHa IHb|a IH|a h IH|b a IH] using op_ind'; intros adj s HL HS E.
    - cbn in E. destruct adj; [discriminate|]. injection E as <-. apply prim_ok. split; [reflexivity|]. intros rest. apply Ev_all. intros n. rewrite e_prim. reflexivity.
    - cbn in E. destruct adj; [discriminate|]. injection E as <-. apply prim_ok. split; [reflexivity|]. intros rest. apply Ev_all. intros n. rewrite e_prim. reflexivity.
    - cbn [AsciiModel.otext] in E. injection E as <-. now apply atom_shows.
    - cbn [AsciiModel.otext] in E. destruct (otext adj t) as [u|] eqn:Eu; [|discriminate]. cbn [bind] in E. injection E as <-. destruct HS as (Hn & Hns & HS). cbn [legal] in HL.
      specialize (IH adj u HL HS Eu). destruct t as [| |a0'|c0 t0|l0|l0|a0' b0|a0'|a0' h0|b0 a0'] eqn:Et.
      2: { destruct adj; [discriminate|]. cbn in Eu. injection Eu as <-. unfold scal_text, vx. cbn [OpSpec.value AsciiModel.oprec].
           change (is_one_text (parenthesize 1000 50 [T1 (S:=S)])) with true. change (parenthesize 1000 50 [T1 (S:=S)]) with [T1 (S:=S)]. destruct (seqb c sm1) eqn:Em.
           - pose proof (ev_eq S I _ _ Em) as Em'. rewrite (ev_sm1 I) in Em'. rewrite Em'. assert (COp [TMinus; T1] (smul (kopp k1) a1)) as HC.
             { apply (C_neg W sym_of (A I) VO aadd a0 (smul (kopp k1)) (aadd_0r I) [T1] [VO a1]); [apply P_Pr; split; [reflexivity|]; intros rest; apply Ev_all; intros n; rewrite e_prim; reflexivity|reflexivity]. }
             split; [now apply op_C_T|]. split; [now intros _|]. unfold AsciiModel.oprec. rewrite (proj2 (proj2 (Hc c)) Em). lia.
           - pose proof (num_C W sym_of cterms Hc c) as HC. split; [now apply op_C_T|]. split; [now intros _|]. unfold AsciiModel.oprec. destruct (negative cterms c) eqn:Eg; [lia|]. intros _ [Hf _].
             destruct (num_single (I:=I) cterms Hc c Hf) as (y & En & Ey). rewrite Eg in *. rewrite En, Ey. exists [VO (smul (ev y) a1)]. split; [apply P_Pr, (P_num W sym_of y)|apply good_one]. }
      all: rewrite <- Et in *; assert (t <> OOne) as H1 by (rewrite Et; discriminate); assert (firm cterms adj t) as Hf by (clear - Et Hns; subst t; try exact Logic.I; contradiction); clear Et;
        pose proof (text_not_one adj t u HS Hns H1 Eu) as H0; destruct IH as (T1 & _ & T3);
        pose proof (scal_C W sym_of cterms wrap Hc (A I) VO aadd a0 (smul (kopp k1)) smul GoodO (aadd_0r I) good_product good_one (fun c => good_sc (ev c)) good_sc (fun _ => eq_refl) (smul_mul I)
          adj c (oprec t) u (vx adj t) T1 (fun Hp => T3 Hp Hf) Hn H0) as [H2 H3];
        (assert (vx adj (OScal c t) = smul (if adj then kconj (ev c) else ev c) (vx adj t)) as -> by (unfold vx; cbn [OpSpec.value]; destruct adj; [apply star_smul|reflexivity]));
        (split; [now apply op_C_T|]); (split; [now intros _|]); intros Hp _; apply H3; unfold AsciiModel.oprec in Hp; destruct (negative cterms c); [lia|reflexivity].
    - destruct (oshown_plus adj l HS) as [Hn HF]. pose proof (proj1 (legal_plus I l) HL) as HLl. rewrite otext_plus in E. destruct (mapM (lt1 adj) l) as [ts|] eqn:Em; [|discriminate]. injection E as <-.
      apply lt1_F2 in Em. assert (COp (plus_text ts) (vx adj (OPlus l))) as HC.
      { assert (vx adj (OPlus l) = fold_right aadd a0 (map (vx adj) l)) as ->.
        { unfold vx. cbn [OpSpec.value]. destruct adj; [rewrite star_msum, map_map; reflexivity|reflexivity]. }
        apply (plus_C W sym_of (A I) VO aadd a0 (smul (kopp k1))); try (intros; reflexivity); [apply aadd_assoc|apply aadd_0| |].
        - destruct Em; [contradiction|discriminate].
        - clear Hn HS HL. induction Em as [|x [p t] l ts [Hp Et] Em IHe]; [constructor|]. apply Forall_cons_iff in IH, HF, HLl. destruct IH as [IHx IH], HF as [[HSx Hx] HF], HLl as [Lx HLl]. cbn [map].
          constructor; [|now apply IHe]. cbn [fst snd] in *. subst p. destruct (IHx adj t Lx HSx Et) as (G1 & G2 & _). destruct (Nat.le_gt_cases 40 (oprec x)) as [Hp|Hp]; [left; auto|right].
          split; [exact Hp|]. split; [|exact G1]. destruct (oprec_low x Hp) as (b & a & ->). destruct adj; [discriminate Et|]. now apply Hx. }
      split; [now apply op_C_T|]. split; [now intros _|]. cbn [AsciiModel.oprec]. lia.
    - destruct (oshown_times adj l HS) as (-> & Hl & HF). pose proof (proj1 (legal_times I l) HL) as HLl. rewrite otext_times in E. destruct (mapM (lt1 false) l) as [ts|] eqn:Em; [|discriminate]. injection E as <-.
      apply lt1_F2 in Em. assert (exists fs, Pr (times_text ts) fs /\ GoodO fs (mprod I (map value l))) as (fs & H1 & H2); [|eapply shows_Pr; [exact H1|exact H2]].
      assert (l <> []) as Hn by (intros ->; cbn in Hl; lia). clear Hl HS HL. unfold times_text. induction Em as [|x [p t] l ts [Hp Et] Em IHe]; [contradiction|]. apply Forall_cons_iff in IH, HF, HLl.
      destruct IH as [IHx IH], HF as [[HSx Hx] HF], HLl as [Lx HLl]. cbn [fst snd] in *. subst p. destruct (op_factor false x t (IHx false t Lx HSx Et) Hx) as (fs & F1 & F2). unfold vx in F2. cbn [map join fst snd].
      destruct Em as [|y [q u] l ts [Hq Eu] Em].
      + cbn [map]. exists fs. split; [exact F1|]. rewrite mprod_1. exact F2.
      + destruct (IHe IH HF HLl ltac:(discriminate)) as (gs & G1 & G2). exists (fs ++ gs). cbn [map] in *. rewrite mprod_cons. split; [|now apply good_app].
        apply (Pr_star W sym_of _ fs _ gs); [exact F1|exact G1].
    - destruct HL as [La Lb], HS as [Sa Sb]. cbn [AsciiModel.otext] in E. destruct (otext false a) as [s1|] eqn:Ea; [|discriminate]. destruct (otext false b) as [s2|] eqn:Eb; [|discriminate]. cbn [bind] in E. injection E as <-.
      destruct (IHa false s1 La Sa Ea) as [Ta _]. destruct (IHb false s2 Lb Sb Eb) as [Tb _]. unfold vx in Ta, Tb. set (t := [TLb] ++ s1 ++ [TComma] ++ s2 ++ [TRb]).
      assert (P t (VO (mcomm I (value a) (value b)))) as HP.
      { split; [reflexivity|]. intros rest. unfold t. cbn [app]. rewrite <- !app_assoc. cbn [app]. rewrite <- app_assoc. cbn [app].
        eapply Ev_S; [exact (Ev_and _ _ (Ta (TComma :: s2 ++ TRb :: rest) eq_refl) (Tb (TRb :: rest) eq_refl))|]. intros n [E1 E2]. rewrite e_prim. rewrite E1. cbn [obind snd]. rewrite E2. reflexivity. }
      assert ([TLb] ++ s1 ++ [TComma] ++ s2 ++ [TRb] ++ dag adj = t ++ dag adj) as Et by (unfold t; cbn [app]; rewrite <- !app_assoc; cbn [app]; rewrite <- app_assoc; reflexivity).
      change (TLb :: s1 ++ TComma :: s2 ++ TRb :: dag adj) with ([TLb] ++ s1 ++ [TComma] ++ s2 ++ [TRb] ++ dag adj). rewrite Et. destruct adj; cbn [dag].
      + eapply shows_Pr; [apply P_dag; exact HP|apply good_one].
      + rewrite app_nil_r. now apply prim_ok.
    - cbn [legal] in HL. destruct a as [| |a'|c' t'|l'|l'|a' b'|a'|a' h'|b' a'] eqn:Ea; cbn [AsciiSpec.oshown] in HS; [| |now apply adj_shows| | | | | | |];
        (destruct HS as [-> HS]; match type of Ea with _ = ?x => change (oshown false x) in HS end; rewrite <- Ea in *; assert (otext false (OAdj a) = do s <- otext false a; Ok (parens s ++ [TDag])) as E' by (rewrite Ea; reflexivity));
        rewrite E' in E; (destruct (otext false a) as [u|] eqn:Eu; [|discriminate]); cbn [bind] in E; injection E as <-;
        destruct (IH false u HL HS Eu) as [Ta _]; (eapply shows_Pr; [exact (P_dag W sym_of (parens u) _ (T_parens W sym_of u _ Ta))|apply good_one]).
    - destruct HS as [-> HS]. cbn [AsciiModel.otext] in E. destruct (otext false a) as [u|] eqn:Eu; [|discriminate]. cbn [bind] in E. injection E as <-. destruct (IH false u HL HS Eu) as [Ta _]. apply prim_ok.
      split; [reflexivity|]. intros rest. cbn [app]. rewrite <- app_assoc. cbn [app]. eapply Ev_S; [exact (Ta (TRb :: rest) eq_refl)|]. intros n E. rewrite e_prim. rewrite E. reflexivity.
    - cbn [AsciiModel.otext] in E. destruct adj; [discriminate|]. destruct (otext false a) as [u|] eqn:Eu; [|discriminate]. cbn [bind] in E. injection E as <-. destruct HS as [HS Hm]. destruct (IH false u HL HS Eu) as (_ & Ca & _).
      split; [|split; cbn [AsciiModel.oprec]; lia]. assert (40 <= oprec a) as Hp by (clear - Hm; destruct a; cbn; try lia; destruct (negative cterms c); lia).
      unfold parenthesize. destruct (Nat.ltb_spec (oprec a) 39); [lia|]. refine (T_cc W sym_of (A I) VO aadd a0 (smul (kopp k1)) _ _ (aadd_assoc I) (aadd_0r I) u (value a) _ (negb b) (Ca Hp) _); [reflexivity..|].
      unfold vx. cbn [OpSpec.value]. destruct b; reflexivity.
  Qed.
End Ops.
