(** Proofs for C58: the text of a ket and of a bra. *)
From Coq Require Import QArith Qcanon Ring.
From Verif Require Import Prelude ListFacts BinModel AlgSpec CAlg NcRing OpModel OpSpec OpProofs1 OpProofs2 OpProofs3 KetModel KetSpec KetProofs1 AsciiModel AsciiSpec AsciiProofs1 AsciiProofs2 AsciiProofs3.
Local Open Scope nat_scope.

Section Kets.
  Context {S : scalars} {dim : nat -> option nat} {I : interp S dim} (W : kets I).
  Context (lab : nat -> nat) (sargs : nat -> list S) (sym_of : nat -> list S -> option nat) (Hsym : forall n, 7 <= lab n /\ sym_of (lab n) (sargs n) = Some n).
  Context (cterms : S -> list (bool * S)) (wrap : S -> bool) (Hc : terms_ok I cterms).
  Local Notation text := (list (token S)).
  Local Notation val := (val W).
  Local Notation Pr := (Pr W sym_of). Local Notation P := (P W sym_of). Local Notation T := (T W sym_of).
  Local Notation otext := (otext lab sargs cterms wrap). Local Notation oprec := (oprec cterms).
  Local Notation ktext := (ktext lab sargs cterms wrap). Local Notation kprec := (kprec lab sargs cterms wrap).
  Local Notation oshown := (oshown lab sargs cterms wrap). Local Notation kshown := (kshown lab sargs cterms wrap).
  Local Notation value := (value I). Local Notation kvalue := (kvalue W).
  Local Notation neg := (vs (w:=W) (kopp k1)).
  Add Ring Krk : (kring I).

  Definition mk (adj : bool) (v : V W) : val := if adj then VB v else VK v.
  Definition sck (adj : bool) (k : K I) (v : V W) : V W := vs (if adj then kconj k else k) v.
  Definition lfold1 (fs : list val) : option val := match fs with [] => None | a :: r => lfold W a r end.
  Definition GoodK (h : list nat) (fs : list val) (v : V W) : Prop :=
    existsb (is_bra W) fs = false /\ rfold W fs = Some (VK v) /\
    forall h' gs w, rfold W gs = Some (VK w) -> on h' w -> apart h h' -> rfold W (fs ++ gs) = Some (VK (vm v w)).
  Definition GoodB (h : list nat) (fs : list val) (v : V W) : Prop :=
    existsb (is_bra W) fs = true /\ lfold1 fs = Some (VB v) /\ (forall k, lfold W (VO (smul k a1)) fs = Some (VB (vs (kconj k) v))) /\
    forall h' w, on h' w -> apart h h' -> lfold W (VB w) fs = Some (VB (vm w v)).
  Definition Good (adj : bool) := if adj then GoodB else GoodK.

  Lemma rfold_cons a gs g : rfold W gs = Some g -> rfold W (a :: gs) = vmul W a g.
  Proof. intros E. destruct gs as [|b gs]; [discriminate|]. change (rfold W (a :: b :: gs)) with (obind (rfold W (b :: gs)) (vmul W a)). now rewrite E. Qed.
  Lemma lfold_app fs : forall a gs, lfold W a (fs ++ gs) = obind (lfold W a fs) (fun b => lfold W b gs).
  Proof. induction fs as [|f fs IH]; intros a gs; [reflexivity|]. cbn [app lfold]. destruct (vmul W a f); [apply IH|reflexivity]. Qed.
  Lemma good_product_k adj h fs v : Good adj h fs v -> product W fs = Some (mk adj v).
  Proof. destruct adj; intros (H1 & H2 & _); unfold product; rewrite H1; exact H2. Qed.
  Lemma act_num k (v : V W) : act (smul k a1) v = vs k v.
  Proof. now rewrite (act_smul I W), (act_1 I W). Qed.
  Lemma act_num_star k (v : V W) : act (star (smul k a1)) v = vs (kconj k) v.
  Proof. rewrite star_smul, star_1. apply act_num. Qed.
  Lemma good_one_k adj h v : Good adj h [mk adj v] v.
  Proof.
    destruct adj; (split; [reflexivity|]; split; [reflexivity|]).
    - split; [intros k; cbn; now rewrite act_num_star|]. intros h' w _ _. reflexivity.
    - intros h' gs w E _ _. cbn [app]. rewrite (rfold_cons _ _ _ E). reflexivity.
  Qed.
  Lemma good_sc_k adj h k fs v : Good adj h fs v -> Good adj h (VO (smul k a1) :: fs) (sck adj k v).
  Proof.
    unfold sck. destruct adj.
    - intros (H1 & H2 & H3 & H4). split; [cbn [existsb]; now rewrite H1|]. split; [apply H3|]. split.
      + intros k'. cbn [lfold vmul obind]. rewrite smul_amul_l, amul_1l, <- smul_mul, H3, kconj_mul. now rewrite (vs_mul I W).
      + intros h' w Hw Ha. cbn [lfold vmul obind]. rewrite act_num_star, (H4 h'); [|now apply (on_smul I W)|exact Ha]. do 2 f_equal. now rewrite (vm_smul I W), vm_smulr.
    - intros (H1 & H2 & H3). split; [exact H1|]. split.
      + rewrite (rfold_cons _ _ _ H2). cbn [vmul]. now rewrite act_num.
      + intros h' gs w E Hw Ha. cbn [app]. rewrite (rfold_cons _ _ _ (H3 h' gs w E Hw Ha)). cbn [vmul]. now rewrite act_num, (vm_smul I W).
  Qed.
  Lemma good_same adj h h' fs v : incl h h' -> Good adj h fs v -> Good adj h' fs v.
  Proof.
    intros Hi. assert (forall k, apart h' k -> apart h k) as Hap by (intros k H x Hx; apply H; now apply Hi).
    destruct adj; [intros (H1 & H2 & H3 & H4)|intros (H1 & H2 & H3)]; repeat (split; [assumption|]).
    - intros k w Hw Ha. apply (H4 k w Hw). now apply Hap.
    - intros k gs w E Hw Ha. apply (H3 k gs w E Hw). now apply Hap.
  Qed.
  Lemma good_app_k adj h h' fs gs v w : on h v -> on h' w -> apart h h' -> Good adj h fs v -> Good adj h' gs w -> Good adj (h ++ h') (fs ++ gs) (vm v w).
  Proof.
    intros Hv Hw Ha. assert (apart h' h) as Ha' by (intros x Hx Hx'; exact (Ha x Hx' Hx)). destruct adj.
    - intros (H1 & H2 & H3 & H4) (G1 & G2 & G3 & G4). split; [rewrite existsb_app, H1; reflexivity|]. split; [|split].
      + destruct fs as [|f fs]; [discriminate|]. cbn [lfold1 app] in *. rewrite lfold_app, H2. cbn [obind]. now rewrite (G4 h).
      + intros k. rewrite lfold_app, H3. cbn [obind]. rewrite (G4 h); [|now apply (on_smul I W)|exact Ha']. now rewrite (vm_smul I W).
      + intros k u Hu Hk. rewrite lfold_app, (H4 k u Hu); [|intros x Hx; apply Hk, in_or_app; now left]. cbn [obind]. rewrite (G4 (k ++ h)).
        * now rewrite (vm_assoc I W).
        * apply (on_mul I W); [|exact Hu|exact Hv]. intros x Hx Hx'. apply (Hk x); [apply in_or_app; now left|exact Hx].
        * intros x Hx Hx'. apply in_app_or in Hx'. destruct Hx' as [Hx'|Hx']; [apply (Hk x); [apply in_or_app; now right|exact Hx']|exact (Ha' x Hx Hx')].
    - intros (H1 & H2 & H3) (G1 & G2 & G3). split; [rewrite existsb_app, H1, G1; reflexivity|]. split; [now apply (H3 h')|].
      intros k us u E Hu Hk. rewrite <- app_assoc. rewrite (H3 (h' ++ k) (gs ++ us) (vm w u)).
      + now rewrite (vm_assoc I W).
      + apply (G3 k); [exact E|exact Hu|]. intros x Hx. apply Hk, in_or_app. now right.
      + apply (on_mul I W); [|exact Hw|exact Hu]. intros x Hx. apply Hk, in_or_app. now right.
      + intros x Hx Hx'. apply in_app_or in Hx'. destruct Hx' as [Hx'|Hx']; [exact (Ha x Hx Hx')|]. apply (Hk x); [apply in_or_app; now left|exact Hx'].
  Qed.
  Lemma lfold_ops xs : forall u, lfold W (VB u) (map VO xs) = Some (VB (act (star (mprod I xs)) u)).
  Proof.
    induction xs as [|x xs IH]; intros u; [cbn; now rewrite star_1, (act_1 I W)|]. cbn [map lfold vmul obind]. rewrite IH. do 2 f_equal. rewrite mprod_cons, star_mul, (act_mul I W). reflexivity.
  Qed.
  Lemma rfold_ops_ket xs gs w : rfold W gs = Some (VK w) -> rfold W (map VO xs ++ gs) = Some (VK (act (mprod I xs) w)).
  Proof.
    intros E. induction xs as [|x xs IH]; [cbn [map app mprod fold_right]; now rewrite (act_1 I W)|]. cbn [map app]. rewrite (rfold_cons _ _ _ IH). cbn [vmul]. now rewrite mprod_cons, (act_mul I W).
  Qed.
  (** an operator applied to a ket; in a bra the adjoint stands behind *)
  Lemma good_op (adj : bool) ha h (x : A I) fs gs (v : V W) : lives ha x -> incl ha h -> on h v -> GoodO W fs (if adj then star x else x) -> Good adj h gs v ->
    Good adj h (if adj then gs ++ fs else fs ++ gs) (act x v).
  Proof.
    intros Hl Hi Hv (xs & Hn & -> & Ex). destruct adj.
    - intros (H1 & H2 & H3 & H4). split; [rewrite existsb_app, H1; reflexivity|]. assert (forall u, lfold W (VB u) (map VO xs) = Some (VB (act x u))) as Hx by (intros u; rewrite lfold_ops, Ex, star_star; reflexivity). split; [|split].
      + destruct gs as [|g gs]; [discriminate|]. cbn [lfold1 app] in *. rewrite lfold_app, H2. apply Hx.
      + intros k. rewrite lfold_app, H3. cbn [obind]. rewrite Hx. now rewrite (act_vs I W).
      + intros h' w Hw Ha. rewrite lfold_app, (H4 h' w Hw Ha). cbn [obind]. rewrite Hx. do 2 f_equal. rewrite !(vm_comm I W w). now apply (act_local I W ha h h').
    - intros (H1 & H2 & H3). split; [rewrite existsb_app, H1, no_bra; reflexivity|]. split; [rewrite (rfold_ops_ket _ _ _ H2), Ex; reflexivity|].
      intros h' us w E Hw Ha. rewrite <- app_assoc, (rfold_ops_ket _ _ _ (H3 h' us w E Hw Ha)), Ex. do 2 f_equal. now apply (act_local I W ha h h').
  Qed.

  Definition CK (adj : bool) := C W sym_of (V W) (mk adj) va vz neg.
  Lemma mk_add adj x y : vadd W (mk adj x) (mk adj y) = Some (mk adj (va x y)). Proof. now destruct adj. Qed.
  Lemma mk_neg adj x : vneg W (mk adj x) = mk adj (neg x). Proof. now destruct adj. Qed.
  Lemma k_C_T adj t x : CK adj t x -> T t (mk adj x).
  Proof. apply (C_T W sym_of (V W) (mk adj) va vz neg (mk_add adj) (mk_neg adj) (va_assoc I W) (va_0r W)). Qed.
  Definition ShowsK (adj : bool) (k : ket S) (s : text) : Prop :=
    T s (mk adj (kvalue k)) /\ CK adj s (kvalue k) /\ (50 <= kprec k -> exists fs, Pr s fs /\ Good adj (kspace k) fs (kvalue k)).
  Lemma showsk_Pr adj k s fs : Pr s fs -> Good adj (kspace k) fs (kvalue k) -> ShowsK adj k s.
  Proof.
    intros H G. assert (CK adj s (kvalue k)) as Hx by (eapply Pr_C; [apply (va_0r W)|exact H|exact (good_product_k adj _ _ _ G)]). split; [now apply k_C_T|]. split; [exact Hx|]. intros _. now exists fs.
  Qed.
  Lemma P_kt adj n v : read_ket W sym_of n = Some v -> P (kt adj n) (mk adj v).
  Proof. intros E. destruct adj; (split; [reflexivity|]; intros rest; apply Ev_all; intros m; rewrite e_prim; cbn [kt app]; rewrite E; reflexivity). Qed.
  Lemma kt_shows adj k n : read_ket W sym_of n = Some (kvalue k) -> ShowsK adj k (kt adj n).
  Proof. intros E. eapply showsk_Pr; [apply (P_Pr W sym_of _ (mk adj (kvalue k))), P_kt, E|apply good_one_k]. Qed.
  (** a text that stands for a ket or a bra is not "1" *)
  Lemma ket_not_one adj t v p : T t (mk adj v) -> is_one_text (parenthesize p 50 t) = false.
  Proof.
    intros H. unfold parenthesize. destruct (p <? 50); [apply not_one; right; left; now left|]. destruct t as [|x [|y t]]; [reflexivity| |now destruct x].
    destruct x; try reflexivity; exfalso; destruct (H [] eq_refl) as [n0 Hn]; specialize (Hn (n0 + 10) ltac:(lia)); rewrite (Nat.add_comm n0 10) in Hn; destruct adj; discriminate Hn.
  Qed.

  Definition kt1 adj (x : ket S) : res (nat * text) := do t <- ktext adj x; Ok (kprec x, t).
  Lemma ktext_list (f : list (nat * text) -> text) adj l :
    (do ts <- (fix go (l : list (ket S)) : res (list (nat * text)) := match l with [] => Ok [] | x :: l' => do t <- ktext adj x; do r <- go l'; Ok ((kprec x, t) :: r) end) l; Ok (f ts))
    = do ts <- mapM (kt1 adj) l; Ok (f ts).
  Proof. f_equal. induction l as [|x l IH]; [reflexivity|]. cbn [mapM]. unfold kt1 at 1. rewrite IH. destruct (ktext adj x); reflexivity. Qed.
  Lemma ktext_plus adj l : ktext adj (KPlus l) = do ts <- mapM (kt1 adj) l; Ok (plus_text ts).
  Proof. exact (ktext_list plus_text adj l). Qed.
  Lemma ktext_tensor adj l : ktext adj (KTensor l) = match basis_labels l with Some n => Ok (kt adj (NBasis n)) | None => do ts <- mapM (kt1 adj) l; Ok (times_text ts) end.
  Proof. transitivity (match basis_labels l with Some n => Ok (kt adj (NBasis n)) | None => do ts <- (fix go (l : list (ket S)) : res (list (nat * text)) := match l with [] => Ok [] | x :: l' => do t <- ktext adj x; do r <- go l'; Ok ((kprec x, t) :: r) end) l; Ok (times_text ts) end); [reflexivity|].
    now rewrite (ktext_list times_text adj l). Qed.
  Lemma kt1_F2 adj l : forall ts, mapM (kt1 adj) l = Ok ts -> Forall2 (fun x pt => fst pt = kprec x /\ ktext adj x = Ok (snd pt)) l ts.
  Proof.
    induction l as [|x l IH]; intros ts E; cbn [mapM] in E; [injection E as <-; constructor|]. unfold kt1 at 1 in E. destruct (ktext adj x) as [t|] eqn:Et; [|discriminate]. cbn [bind] in E.
    destruct (mapM (kt1 adj) l) as [r|]; [|discriminate]. cbn [bind] in E. injection E as <-. constructor; [now split|now apply IH].
  Qed.
  Lemma basis_read l : forall n, basis_labels l = Some n -> read_ket W sym_of (NBasis n) = Some (vprod W (map kvalue l)).
  Proof.
    cbn [read_ket]. induction l as [|x l IH]; intros n E; cbn [basis_labels] in E; [injection E as <-; reflexivity|]. destruct x; try discriminate. destruct (basis_labels l) as [r|]; [|discriminate]. injection E as <-.
    specialize (IH r eq_refl). injection IH as IH. cbn [map vprod fold_right fst snd]. unfold vprod in IH. rewrite IH. reflexivity.
  Qed.
  Lemma kshown_list adj l : fold_right (fun x P => kshown adj x /\ P) True l -> Forall (kshown adj) l.
  Proof. induction l as [|x l IH]; intros H; constructor; [apply H|apply IH, H]. Qed.
  Lemma kprec_40 k : 40 <= kprec k.
  Proof. destruct k; cbn; try lia; [destruct (negative cterms c); lia|]. unfold op_ket_prec. destruct (otext false a) as [t|]; [destruct (starts_minus t)|]; lia. Qed.
  Lemma k_factor adj k s : ShowsK adj k s -> exists fs, Pr (parenthesize (kprec k) 50 s) fs /\ Good adj (kspace k) fs (kvalue k).
  Proof.
    intros (H1 & _ & H3). apply (factor W sym_of (V W) (mk adj) (Good adj (kspace k)) (good_one_k adj (kspace k))); [exact H1|exact H3].
  Qed.
  Lemma Hmul_k adj a b x : sck adj (kmul a b) x = sck adj a (sck adj b x).
  Proof. unfold sck. destruct adj; [rewrite kconj_mul|]; apply (vs_mul I W). Qed.
  Lemma Hneg_k adj x : neg x = sck adj (kopp k1) x.
  Proof. unfold sck. destruct adj; [rewrite kconj_opp, kconj_1|]; reflexivity. Qed.

  Theorem ket_shows k : forall adj s, klegal (I:=I) k -> kshown adj k -> ktext adj k = Ok s -> ShowsK adj k s.
  Proof.
    induction k as [| |j l|u l|n h|c t IH|l IH|l IH|a t IH] using ket_ind'; intros adj s HL HS E.
    - contradiction.
    - contradiction.
    - injection E as <-. apply kt_shows. cbn. now rewrite vm_1r.
    - injection E as <-. apply kt_shows. reflexivity.
    - injection E as <-. apply kt_shows. cbn [read_ket]. rewrite (proj2 (Hsym n)). reflexivity.
    - cbn [AsciiModel.ktext] in E. destruct (ktext adj t) as [u|] eqn:Eu; [|discriminate]. cbn [bind] in E. injection E as <-. destruct HS as (Hn & HS). destruct HL as [_ HL].
      destruct (IH adj u HL HS Eu) as (T1 & _ & T3).
      pose proof (scal_C W sym_of cterms wrap Hc (V W) (mk adj) va vz neg (sck adj) (Good adj (kspace t)) (va_0r W) (good_product_k adj _) (good_one_k adj _) (fun c => good_sc_k adj _ (ev c)) (good_sc_k adj _) (Hneg_k adj) (Hmul_k adj)
        adj c (kprec t) u (kvalue t) T1 T3 Hn (ket_not_one adj u _ (kprec t) T1)) as [H2 H3].
      assert (sck adj (if adj then kconj (ev c) else ev c) (kvalue t) = kvalue (KScal c t)) as Ev by (unfold sck; cbn [KetSpec.kvalue]; destruct adj; [rewrite kconj_conj|]; reflexivity).
      rewrite Ev in H2, H3. split; [now apply k_C_T|]. split; [exact H2|]. intros Hp. apply H3. unfold AsciiModel.kprec in Hp. destruct (negative cterms c); [lia|reflexivity].
    - destruct HL as (Hn & _ & HL). apply klegal_fold in HL. destruct HS as [_ HS]. apply kshown_list in HS. rewrite ktext_plus in E. destruct (mapM (kt1 adj) l) as [ts|] eqn:Em; [|discriminate]. injection E as <-.
      apply kt1_F2 in Em. assert (CK adj (plus_text ts) (kvalue (KPlus l))) as HC.
      { apply (plus_C W sym_of (V W) (mk adj) va vz neg (va_assoc I W) (va_0 I W) ts (map kvalue l)).
        - destruct Em; [contradiction|discriminate].
        - clear Hn. induction Em as [|x [p t] l ts [Hp Et] Em IHe]; [constructor|]. apply Forall_cons_iff in IH, HS, HL. destruct IH as [IHx IH], HS as [HSx HS], HL as [[_ Lx] HL]. cbn [map].
          constructor; [|now apply IHe]. cbn [fst snd] in *. subst p. left. split; [apply kprec_40|]. exact (proj1 (proj2 (IHx adj t Lx HSx Et))). }
      split; [now apply k_C_T|]. split; [exact HC|]. cbn [AsciiModel.kprec]. lia.
    - destruct HL as (Hd & HL). apply klegal_fold in HL. destruct HS as [Hn HS]. apply kshown_list in HS. rewrite ktext_tensor in E. destruct (basis_labels l) as [n|] eqn:Eb.
      { injection E as <-. apply kt_shows. now apply basis_read. }
      destruct (mapM (kt1 adj) l) as [ts|] eqn:Em; [|discriminate]. injection E as <-. apply kt1_F2 in Em.
      assert (exists fs, Pr (times_text ts) fs /\ Good adj (flat_map kspace l) fs (vprod W (map kvalue l))) as (fs & H1 & H2).
      2: { eapply showsk_Pr; [exact H1|]. apply (good_same adj (flat_map kspace l)); [apply same_incl, same_sym, kspace_tensor|exact H2]. }
      clear Eb. unfold times_text. induction Em as [|x [p t] l ts [Hp Et] Em IHe]; [contradiction|]. apply Forall_cons_iff in IH, HS, HL.
      destruct IH as [IHx IH], HS as [HSx HS], HL as [[_ Lx] HL]. cbn [fst snd] in *. subst p. destruct (k_factor adj x t (IHx adj t Lx HSx Et)) as (fs & F1 & F2). cbn [map join fst snd].
      destruct Em as [|y [q u] l ts [Hq Eu] Em].
      + cbn [map flat_map]. exists fs. split; [exact F1|]. rewrite vprod_1, app_nil_r. exact F2.
      + assert (exists gs, Pr (join [TStar] (map (fun pt => parenthesize (fst pt) 50 (snd pt)) ((q, u) :: ts))) gs /\ Good adj (flat_map kspace (y :: l)) gs (vprod W (map kvalue (y :: l)))) as (gs & G1 & G2) by (apply IHe; try assumption; [now inversion Hd|discriminate]). exists (fs ++ gs). cbn [map] in *. split; [apply (Pr_star W sym_of _ fs _ gs); [exact F1|exact G1]|].
        change (flat_map kspace (x :: y :: l)) with (kspace x ++ flat_map kspace (y :: l)). change (vprod W (kvalue x :: kvalue y :: map kvalue l)) with (vm (kvalue x) (vprod W (kvalue y :: map kvalue l))).
        apply good_app_k; [now apply kvalue_on| |now apply disjoint_head|exact F2|exact G2].
        apply (vprod_on W (y :: l)); [|exact (disjoint_tail _ _ Hd)]. eapply Forall_impl; [|exact HL]. intros z [_ Lz]. now apply kvalue_on.
    - destruct HL as (_ & Lt & La & Hi). destruct HS as (Sa & Fa & St & Hm). assert (op_ket_prec lab sargs cterms wrap a = 50) as Hp.
      { unfold op_ket_prec. destruct (otext false a) as [t'|]; [rewrite (Hm t' eq_refl)|]; reflexivity. }
      cbn [AsciiModel.ktext] in E. rewrite Hp in E. destruct (otext adj a) as [s1|] eqn:Ea; [|discriminate]. destruct (ktext adj t) as [u|] eqn:Eu; [|discriminate]. cbn [bind] in E. injection E as <-.
      destruct (op_factor W sym_of cterms adj a s1 (op_shows W lab sargs sym_of Hsym cterms wrap Hc a adj s1 La Sa Ea) Fa) as (fs & F1 & F2).
      destruct (k_factor adj t u (IH adj u Lt St Eu)) as (gs & G1 & G2).
      assert (Good adj (kspace t) (if adj then gs ++ fs else fs ++ gs) (act (value a) (kvalue t))) as HG.
      { apply (good_op adj (space a)); [now apply value_lives|exact Hi|now apply kvalue_on| |exact G2]. exact F2. }
      destruct adj; (eapply showsk_Pr; [|exact HG]); apply Pr_juxt; assumption.
  Qed.
End Kets.
