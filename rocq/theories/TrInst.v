(** An interpretation with partial traces: registers of any number of n-level systems. *)
From Coq Require Import Reals QArith Qcanon Ring FunctionalExtensionality Eqdep_dec.
From Verif Require Import Prelude AlgSpec CAlg Cplx OpModel OpSpec OpProofs1 OpSites TrSpec.
Local Open Scope nat_scope.

(** ** Matrix units in any algebra *)
Section Register.
  Context {M : calgebra} (n : nat) (u : nat -> nat -> nat -> A M).
  Context (u_star : forall j k l, star (u j k l) = u k j l)
    (u_mul : forall a b c d l, a < n -> b < n -> c < n -> d < n -> amul (u a b l) (u c d l) = if b =? c then u a d l else a0)
    (u_comm : forall j k l j' k' l', l <> l' -> amul (u j k l) (u j' k' l') = amul (u j' k' l') (u j k l))
    (u_out : forall j k l, ~ (j < n /\ k < n) -> u j k l = a0)
    (u_one : forall l, asum (fun j => u j j l) (seq 0 n) = a1).
  Local Notation L := (seq 0 n).
  Lemma in_L j : In j L <-> j < n.
  Proof. rewrite in_seq. lia. Qed.
  Lemma asum_pick (f : nat -> A M) b (l : list nat) : NoDup l -> In b l -> asum (fun c => if b =? c then f c else a0) l = f b.
  Proof.
    induction l as [|x l IH]; intros Hn Hb; [destruct Hb|]. inversion Hn as [|? ? Hx Hn']; subst. rewrite asum_cons. destruct (Nat.eqb_spec b x) as [-> |Hne].
    - transitivity (aadd (f x) (asum (fun _ => a0) l)); [|rewrite asum_zero; apply aadd_0r]. f_equal. apply asum_ext. intros c Hc. destruct (Nat.eqb_spec x c) as [-> |]; [contradiction|reflexivity].
    - rewrite aadd_0. apply IH; [exact Hn'|]. destruct Hb as [-> |Hb]; [contradiction|exact Hb].
  Qed.
  (** generated by the matrix units on the sites in [h] *)
  Inductive reg (h : list nat) : A M -> Prop :=
  | rg_u j k l : In l h -> reg h (u j k l)
  | rg_0 : reg h a0
  | rg_1 : reg h a1
  | rg_add x y : reg h x -> reg h y -> reg h (aadd x y)
  | rg_mul x y : reg h x -> reg h y -> reg h (amul x y)
  | rg_smul c x : reg h x -> reg h (smul c x).
  Lemma rg_star h x : reg h x -> reg h (star x).
  Proof.
    induction 1; [rewrite u_star; now constructor|rewrite star_0; constructor|rewrite star_1; constructor|rewrite star_add; now constructor|rewrite star_mul; now constructor|rewrite star_smul; now constructor].
  Qed.
  Lemma reg_incl h h' x : incl h h' -> reg h x -> reg h' x.
  Proof. intros H. induction 1; try (now constructor). constructor. now apply H. Qed.
  Lemma reg_asum {X} h (f : X -> A M) l : (forall v, In v l -> reg h (f v)) -> reg h (asum f l).
  Proof. induction l as [|x l IH]; intros H; [apply rg_0|]. rewrite asum_cons. apply rg_add; [apply H; now left|]. apply IH. intros v Hv. apply H. now right. Qed.
  Lemma reg_u_comm h x j k l : reg h x -> ~ In l h -> amul (u j k l) x = amul x (u j k l).
  Proof.
    intros Hx Hl. revert j k. induction Hx as [a b l' Hl'| | |x y _ IHx _ IHy|x y _ IHx _ IHy|c x _ IH]; intros j k.
    - apply u_comm. intros ->. contradiction.
    - now rewrite amul_0l, amul_0r.
    - now rewrite amul_1l, amul_1r.
    - now rewrite amul_addl, amul_addr, IHx, IHy.
    - rewrite amul_assoc, IHx, <- amul_assoc, IHy. apply amul_assoc.
    - now rewrite smul_amul_l, smul_amul_r, IH.
  Qed.
  Lemma reg_commute h h' x y : reg h x -> reg h' y -> apart h h' -> amul x y = amul y x.
  Proof.
    intros Hx Hy Ha. induction Hx as [j k l Hl| | |x1 x2 _ IH1 _ IH2|x1 x2 _ IH1 _ IH2|c x _ IH].
    - apply (reg_u_comm h'); [exact Hy|]. intros H. exact (Ha l Hl H).
    - now rewrite amul_0l, amul_0r.
    - now rewrite amul_1l, amul_1r.
    - now rewrite amul_addl, amul_addr, IH1, IH2.
    - rewrite <- amul_assoc, IH2, amul_assoc, IH1. symmetry. apply amul_assoc.
    - now rewrite smul_amul_l, smul_amul_r, IH.
  Qed.

  (** ** The partial trace over one site *)
  Definition tr1 (l : nat) (x : A M) : A M := asum (fun j => asum (fun k => amul (amul (u k j l) x) (u j k l)) L) L.
  Lemma tr1_add l x y : tr1 l (aadd x y) = aadd (tr1 l x) (tr1 l y).
  Proof.
    unfold tr1. rewrite <- asum_add. apply asum_ext. intros j _. rewrite <- asum_add. apply asum_ext. intros k _. now rewrite amul_addr, amul_addl.
  Qed.
  Lemma tr1_smul l c x : tr1 l (smul c x) = smul c (tr1 l x).
  Proof.
    unfold tr1. rewrite <- asum_smul. apply asum_ext. intros j _. rewrite <- asum_smul. apply asum_ext. intros k _. now rewrite smul_amul_r, smul_amul_l.
  Qed.
  Lemma tr1_0 l : tr1 l a0 = a0.
  Proof. rewrite <- (smul_0 M a0) at 1. rewrite tr1_smul. apply smul_0. Qed.
  Lemma tr1_asum {X} l (f : X -> A M) v : tr1 l (asum f v) = asum (fun w => tr1 l (f w)) v.
  Proof. induction v as [|w v IH]; [apply tr1_0|]. rewrite !asum_cons, tr1_add, IH. reflexivity. Qed.
  Lemma tr1_star l x : tr1 l (star x) = star (tr1 l x).
  Proof.
    unfold tr1. rewrite star_asum. apply asum_ext. intros j _. rewrite star_asum. apply asum_ext. intros k _. rewrite !star_mul, !u_star. symmetry; apply amul_assoc.
  Qed.
  Lemma tr1_left l h x y : ~ In l h -> reg h x -> tr1 l (amul x y) = amul x (tr1 l y).
  Proof.
    intros Hl Hx. unfold tr1. rewrite <- asum_mul_l. apply asum_ext. intros j _. rewrite <- asum_mul_l. apply asum_ext. intros k _.
    rewrite !amul_assoc. do 2 f_equal. now apply (reg_u_comm h).
  Qed.
  Lemma tr1_right l h x y : ~ In l h -> reg h x -> tr1 l (amul y x) = amul (tr1 l y) x.
  Proof.
    intros Hl Hx. unfold tr1. rewrite <- asum_mul_r. apply asum_ext. intros j _. rewrite <- asum_mul_r. apply asum_ext. intros k _.
    rewrite <- !amul_assoc. do 2 f_equal. symmetry. now apply (reg_u_comm h).
  Qed.
  (** a transition on either side *)
  Lemma tr1_u_l l a b x : a < n -> b < n -> tr1 l (amul (u a b l) x) = asum (fun k => amul (amul (u k b l) x) (u a k l)) L.
  Proof.
    intros Ha Hb. unfold tr1. rewrite asum_swap. apply asum_ext. intros k Hk. apply in_L in Hk.
    rewrite <- (asum_pick (fun j => amul (amul (u k b l) x) (u j k l)) a L (seq_NoDup n 0)) by now apply in_L.
    apply asum_ext. intros j Hj. apply in_L in Hj. rewrite amul_assoc, u_mul by assumption. rewrite (Nat.eqb_sym j a). destruct (Nat.eqb_spec a j); [reflexivity|now rewrite !amul_0l].
  Qed.
  Lemma tr1_u_r l a b x : a < n -> b < n -> tr1 l (amul x (u a b l)) = asum (fun k => amul (amul (u k b l) x) (u a k l)) L.
  Proof.
    intros Ha Hb. unfold tr1. rewrite asum_swap. apply asum_ext. intros k Hk. apply in_L in Hk.
    rewrite <- (asum_pick (fun j => amul (amul (u k j l) x) (u a k l)) b L (seq_NoDup n 0)) by now apply in_L.
    apply asum_ext. intros j Hj. apply in_L in Hj. rewrite <- !amul_assoc, u_mul by assumption. destruct (Nat.eqb_spec b j); [reflexivity|now rewrite !amul_0r].
  Qed.
  Lemma tr1_u l a b : a < n -> b < n -> tr1 l (u a b l) = if a =? b then a1 else a0.
  Proof.
    intros Ha Hb. rewrite <- (amul_1r M (u a b l)), tr1_u_l by assumption. rewrite (Nat.eqb_sym a b).
    transitivity (asum (fun k => if b =? a then u k k l else a0) L).
    - apply asum_ext. intros k Hk. apply in_L in Hk. now rewrite amul_1r, u_mul.
    - destruct (b =? a); [apply u_one|apply asum_zero].
  Qed.
  Lemma tr1_1 l : tr1 l a1 = asum (fun _ => a1) L.
  Proof.
    unfold tr1. apply asum_ext. intros j Hj. transitivity (asum (fun j => u j j l) L); [|apply u_one]. apply asum_ext. intros k Hk. apply in_L in Hj, Hk. rewrite amul_1r, u_mul by assumption. now rewrite Nat.eqb_refl.
  Qed.

  (** ** Decomposition of an operator with respect to one site *)
  Definition comb (l : nat) (y : nat -> nat -> A M) : A M := asum (fun a => asum (fun b => amul (u a b l) (y a b)) L) L.
  Lemma comb_ext l y z : (forall a b, a < n -> b < n -> y a b = z a b) -> comb l y = comb l z.
  Proof. intros H. unfold comb. apply asum_ext. intros a Ha. apply asum_ext. intros b Hb. apply in_L in Ha, Hb. now rewrite H. Qed.
  Lemma comb_unit l (c : A M) : comb l (fun a b => if a =? b then c else a0) = c.
  Proof.
    unfold comb. transitivity (asum (fun a => amul (u a a l) c) L).
    - apply asum_ext. intros a Ha. rewrite <- (asum_pick (fun b => amul (u a b l) c) a L (seq_NoDup n 0) Ha). apply asum_ext. intros b _. destruct (a =? b); [reflexivity|apply amul_0r].
    - rewrite asum_mul_r, u_one. apply amul_1l.
  Qed.
  Lemma reg_if (b : bool) h x : reg h x -> reg h (if b then x else a0).
  Proof. destruct b; [easy|intros _; apply rg_0]. Qed.
  Lemma decompose h l x : reg h x -> exists y, (forall a b, reg (sp_diff h [l]) (y a b)) /\ x = comb l y.
  Proof.
    assert (~ In l (sp_diff h [l])) as Hl by (intros H; apply sp_diff_In in H; destruct H as [_ H]; apply H; now left).
    induction 1 as [j k l' Hl'| | |x y _ (p & Hp & ->) _ (q & Hq & ->)|x y _ (p & Hp & ->) _ (q & Hq & ->)|c x _ (p & Hp & ->)].
    - destruct (Nat.eq_dec l' l) as [-> |Hne].
      + destruct (Nat.lt_ge_cases j n) as [Hj|Hj]; [destruct (Nat.lt_ge_cases k n) as [Hk|Hk]|].
        * exists (fun a b => if (j =? a) && (k =? b) then a1 else a0). split; [intros; apply reg_if, rg_1|]. unfold comb.
          rewrite <- (asum_pick (fun a => u a k l) j L (seq_NoDup n 0)) by now apply in_L. apply asum_ext. intros a Ha. destruct (j =? a).
          -- rewrite <- (asum_pick (fun b => u a b l) k L (seq_NoDup n 0)) by now apply in_L. apply asum_ext. intros b _. cbn [andb]. destruct (k =? b); [now rewrite amul_1r|now rewrite amul_0r].
          -- rewrite <- (asum_zero M L) at 1. apply asum_ext. intros b _. cbn [andb]. now rewrite amul_0r.
        * exists (fun _ _ => a0). split; [intros; apply rg_0|]. rewrite u_out by lia. unfold comb. rewrite <- (asum_zero M L) at 1. apply asum_ext. intros a _. rewrite <- (asum_zero M L) at 1. apply asum_ext. intros b _. now rewrite amul_0r.
        * exists (fun _ _ => a0). split; [intros; apply rg_0|]. rewrite u_out by lia. unfold comb. rewrite <- (asum_zero M L) at 1. apply asum_ext. intros a _. rewrite <- (asum_zero M L) at 1. apply asum_ext. intros b _. now rewrite amul_0r.
      + exists (fun a b => if a =? b then u j k l' else a0). split; [intros; apply reg_if, rg_u; apply sp_diff_In; split; [exact Hl'|intros [E|[]]; congruence]|]. symmetry. apply comb_unit.
    - exists (fun a b => if a =? b then a0 else a0). split; [intros; apply reg_if, rg_0|]. symmetry. apply comb_unit.
    - exists (fun a b => if a =? b then a1 else a0). split; [intros; apply reg_if, rg_1|]. symmetry. apply comb_unit.
    - exists (fun a b => aadd (p a b) (q a b)). split; [intros; now apply rg_add|]. unfold comb. rewrite <- asum_add. apply asum_ext. intros a _. rewrite <- asum_add. apply asum_ext. intros b _. symmetry. apply amul_addr.
    - exists (fun a d => asum (fun b => amul (p a b) (q b d)) L). split; [intros; apply reg_asum; intros; now apply rg_mul|]. unfold comb.
      rewrite <- asum_mul_r. apply asum_ext. intros a Ha. apply in_L in Ha.
      transitivity (asum (fun b => asum (fun d => amul (u a d l) (amul (p a b) (q b d))) L) L).
      + rewrite <- asum_mul_r. apply asum_ext. intros b Hb. rewrite <- asum_mul_l.
        rewrite <- (asum_pick (fun c => asum (fun d => amul (u a d l) (amul (p a b) (q c d))) L) b L (seq_NoDup n 0) Hb). apply in_L in Hb.
        apply asum_ext. intros c Hc. apply in_L in Hc. rewrite <- asum_mul_l.
        transitivity (asum (fun d => if b =? c then amul (u a d l) (amul (p a b) (q c d)) else a0) L).
        * apply asum_ext. intros d Hd. apply in_L in Hd. rewrite amul_assoc, <- (amul_assoc M (u a b l)), <- (reg_u_comm _ _ c d l (Hp a b) Hl), (amul_assoc M (u a b l)), u_mul by assumption.
          destruct (b =? c); [symmetry; apply amul_assoc|now rewrite !amul_0l].
        * destruct (b =? c); [reflexivity|apply asum_zero].
      + rewrite asum_swap. apply asum_ext. intros d _. apply asum_mul_l.
    - exists (fun a b => smul c (p a b)). split; [intros; now apply rg_smul|]. unfold comb. rewrite <- asum_smul. apply asum_ext. intros a _. rewrite <- asum_smul. apply asum_ext. intros b _. now rewrite smul_amul_r.
  Qed.
  Lemma tr1_comb h l y : (forall a b, reg (sp_diff h [l]) (y a b)) -> tr1 l (comb l y) = asum (fun a => y a a) L.
  Proof.
    intros Hy. assert (~ In l (sp_diff h [l])) as Hl by (intros H; apply sp_diff_In in H; destruct H as [_ H]; apply H; now left).
    unfold comb. rewrite tr1_asum. apply asum_ext. intros a Ha. rewrite tr1_asum. rewrite <- (asum_pick (fun b => y a b) a L (seq_NoDup n 0) Ha). apply asum_ext. intros b Hb.
    apply in_L in Ha, Hb. rewrite (tr1_right l (sp_diff h [l])) by (try exact Hl; apply Hy). rewrite tr1_u by assumption. destruct (a =? b); [apply amul_1l|apply amul_0l].
  Qed.
  Lemma tr1_reg h l x : reg h x -> reg (sp_diff h [l]) (tr1 l x).
  Proof.
    intros Hx. destruct (decompose h l x Hx) as (y & Hy & ->). rewrite (tr1_comb h l y Hy). apply reg_asum. intros a _. apply Hy.
  Qed.
  (** without sites there are only numbers *)
  Lemma reg_scalar x : reg [] x -> exists c, x = smul c a1.
  Proof.
    induction 1 as [j k l Hl| | |x y _ IHx _ IHy|x y _ IHx _ IHy|c x _ IH].
    - destruct Hl.
    - exists k0. symmetry. apply smul_0.
    - exists k1. symmetry. apply smul_1.
    - destruct IHx as [c ->], IHy as [d ->]. exists (kadd c d). symmetry. apply smul_addl.
    - destruct IHx as [c ->], IHy as [d ->]. exists (kmul c d). now rewrite smul_amul_l, amul_1l, <- smul_mul.
    - destruct IH as [d ->]. exists (kmul c d). now rewrite <- smul_mul.
  Qed.
  Lemma tr1_cyclic l x y : reg [l] x -> tr1 l (amul x y) = tr1 l (amul y x).
  Proof.
    intros Hx. destruct (decompose [l] l x Hx) as (p & Hp & ->). assert (sp_diff [l] [l] = []) as E by (cbn; now rewrite Nat.eqb_refl).
    assert (forall a b, exists c, p a b = smul c a1) as G by (intros a b; apply reg_scalar; rewrite <- E; apply Hp). clear Hx Hp E.
    unfold comb. rewrite <- asum_mul_r, <- asum_mul_l, !tr1_asum. apply asum_ext. intros a Ha. rewrite <- asum_mul_r, <- asum_mul_l, !tr1_asum. apply asum_ext. intros b Hb.
    apply in_L in Ha, Hb. destruct (G a b) as [c ->]. rewrite !smul_amul_r, !smul_amul_l, !amul_1r, !tr1_smul, ?smul_amul_r, ?tr1_smul. f_equal. now rewrite tr1_u_l, tr1_u_r.
  Qed.
  (** ** over any number of sites *)
  Definition trs (h : list nat) (x : A M) : A M := fold_right tr1 x h.
  Lemma trs_reg h : forall h' x, reg h' x -> reg (sp_diff h' h) (trs h x).
  Proof.
    induction h as [|l h IH]; intros h' x Hx; cbn [trs fold_right].
    - apply (reg_incl h'); [|exact Hx]. intros y Hy. apply sp_diff_In. split; [exact Hy|intros []].
    - apply (reg_incl (sp_diff (sp_diff h' h) [l])); [|apply tr1_reg; now apply IH]. intros y Hy. apply sp_diff_In in Hy. destruct Hy as [Hy Hn]. apply sp_diff_In in Hy.
      apply sp_diff_In. split; [apply Hy|]. intros [-> |H]; [apply Hn; now left|now apply Hy].
  Qed.
End Register.

(** ** The register: functions of the configurations of n-level systems *)
Section Levels.
  Context (n : nat).
  Definition lev := { i : nat | (i <? n) = true }.
  Definition num (p : lev) : nat := proj1_sig p.
  Lemma lev_eq (p q : lev) : num p = num q -> p = q.
  Proof. destruct p as [i Hi], q as [j Hj]. cbn. intros ->. f_equal. apply UIP_dec, bool_dec. Qed.
  (** level [k], or the given one if there is no such level *)
  Definition to_lev (k : nat) (p : lev) : lev := match bool_dec (k <? n) true with left H => exist _ k H | right _ => p end.
  Lemma to_lev_num k p : k < n -> num (to_lev k p) = k.
  Proof. intros H. unfold to_lev. destruct (bool_dec (k <? n) true) as [|N]; [reflexivity|]. apply Nat.ltb_lt in H. contradiction. Qed.
  Definition ok (j k : nat) : bool := (j <? n) && (k <? n).
  Definition unit_ (j k : nat) : lo lev := mono lev (fun p => if ok j k && (num p =? j) then c1 else c0) (to_lev k).
  Definition mu (j k l : nat) : A (oprs_c lev) := both lev l (unit_ j k) (unit_ k j).
  Add Ring Crt : cring.
  Lemma mu_star j k l : star (mu j k l) = mu k j l.
  Proof. reflexivity. Qed.
  Lemma mu_comm j k l j' k' l' : l <> l' -> amul (mu j k l) (mu j' k' l') = amul (mu j' k' l') (mu j k l).
  Proof. apply both_comm. Qed.
  Lemma mu_out j k l : ~ (j < n /\ k < n) -> mu j k l = a0.
  Proof.
    intros H. assert (forall a b, ~ (a < n /\ b < n) -> ok a b = false) as G.
    { intros a b Hab. unfold ok. destruct (Nat.ltb_spec a n), (Nat.ltb_spec b n); try reflexivity. exfalso. now apply Hab. }
    apply opr_eq; intros f c; cbn [fst snd mu both]; rewrite at_slice; cbn [unit_ mono la]; rewrite G by tauto; cbn [andb]; cbn; ring.
  Qed.
  Lemma unit_mul a b c d (g : lev -> cx) p : a < n -> b < n -> c < n -> d < n -> unit_ a b (unit_ c d g) p = if b =? c then unit_ a d g p else c0.
  Proof.
    intros Ha Hb Hc Hd. cbn [unit_ mono la]. rewrite (to_lev_num b p Hb). unfold ok. apply Nat.ltb_lt in Ha, Hb, Hc, Hd. rewrite Ha, Hb, Hc, Hd. cbn [andb].
    destruct (b =? c); [|ring]. destruct (num p =? a); [|ring]. replace (to_lev d (to_lev b p)) with (to_lev d p); [ring|].
    apply Nat.ltb_lt in Hd. apply lev_eq. now rewrite !to_lev_num.
  Qed.
  Lemma mu_mul a b c d l : a < n -> b < n -> c < n -> d < n -> amul (mu a b l) (mu c d l) = if b =? c then mu a d l else a0.
  Proof.
    intros Ha Hb Hc Hd. apply opr_eq; intros f x.
    - change (at_ lev l (unit_ a b) (at_ lev l (unit_ c d) f) x = fst (if b =? c then mu a d l else a0 : A (oprs_c lev)) f x). rewrite at_slice2, unit_mul by assumption. destruct (b =? c); reflexivity.
    - change (at_ lev l (unit_ d c) (at_ lev l (unit_ b a) f) x = snd (if b =? c then mu a d l else a0 : A (oprs_c lev)) f x). rewrite at_slice2, unit_mul by assumption. rewrite (Nat.eqb_sym c b). destruct (b =? c); reflexivity.
  Qed.
  Lemma mu_one l : asum (fun j => mu j j l) (seq 0 n) = a1.
  Proof.
    assert (forall (s : list nat) f x, (forall j, In j s -> j < n) -> NoDup s ->
      fst (asum (M:=oprs_c lev) (fun j => mu j j l) s) f x = (if existsb (Nat.eqb (num (x l))) s then f x else c0)
      /\ snd (asum (M:=oprs_c lev) (fun j => mu j j l) s) f x = (if existsb (Nat.eqb (num (x l))) s then f x else c0)) as G.
    { induction s as [|j s IH]; intros f x Hs Hn; [split; reflexivity|]. inversion Hn as [|? ? Hj Hn']; subst. rewrite asum_cons.
      destruct (IH f x (fun j H => Hs j (or_intror H)) Hn') as [G1 G2]. cbn [existsb]. cbn [aadd oprs_c sal oprs_star alg oprs fst snd ladd ap mu both].
      assert (at_ lev l (unit_ j j) f x = if num (x l) =? j then f x else c0) as E.
      { rewrite at_slice. cbn [unit_ mono la]. unfold ok. assert (j < n) as Hjn by (apply Hs; now left). pose proof Hjn as Hb. apply Nat.ltb_lt in Hb. rewrite Hb. cbn [andb].
        destruct (Nat.eqb_spec (num (x l)) j) as [Ej|]; [|ring]. replace (to_lev j (x l)) with (x l) by (apply lev_eq; now rewrite to_lev_num). unfold slice. rewrite upd_id. ring. }
      assert (forall v, v = (if existsb (Nat.eqb (num (x l))) s then f x else c0) -> cadd (at_ lev l (unit_ j j) f x) v = (if (num (x l) =? j) || existsb (Nat.eqb (num (x l))) s then f x else c0)) as F.
      { intros v ->. rewrite E. destruct (Nat.eqb_spec (num (x l)) j) as [Ej|]; cbn [orb]; [|ring]. destruct (existsb _ s) eqn:Ex; [|ring].
        exfalso. apply existsb_exists in Ex. destruct Ex as [k [Hk Ek]]. apply Nat.eqb_eq in Ek. apply Hj. congruence. }
      split; apply F; [exact G1|exact G2]. }
    assert (forall x : cfg lev, existsb (Nat.eqb (num (x l))) (seq 0 n) = true) as Ex.
    { intros x. apply existsb_exists. exists (num (x l)). split; [|apply Nat.eqb_refl]. apply in_seq. destruct (x l) as [i Hi]. cbn. apply Nat.ltb_lt in Hi. lia. }
    apply opr_eq; intros f x; destruct (G (seq 0 n) f x) as [G1 G2]; try (apply seq_NoDup); try (intros j Hj; apply in_seq in Hj; lia); [rewrite G1|rewrite G2]; now rewrite Ex.
  Qed.

  Context {S : scalars} (r : cxreading S).
  Definition levels (l : nat) : option nat := Some n.
  Local Notation R := (site_reading r lev).
  Context (F : nat -> list nat -> A R) (HF : forall m h, reg (M:=R) mu h (F m h)).
  (** symbols stand for any operators on their sites *)
  Definition register : interp S levels.
  Proof.
    refine {| rd := R; boson := fun _ => False; displ := fun _ => False; spin := fun _ => False;
      lives := reg (M:=R) mu; isym := F; icreate := fun _ => a0; idestroy := fun _ => a0;
      isigma := mu : nat -> nat -> nat -> A R; iphase := fun _ _ => a0; idisp := fun _ _ => a0; isqueeze := fun _ _ => a0;
      ijp := fun _ => a0; ijm := fun _ => a0; ijz := fun _ => a0; itrace := trs (M:=R) n mu |}; try (intros; contradiction).
    - intros h h' x. apply reg_incl.
    - apply rg_0.
    - apply rg_1.
    - intros h x y. apply rg_add.
    - intros h x y. apply rg_mul.
    - intros h c x. apply rg_smul.
    - intros h x. apply rg_star, mu_star.
    - intros h h' x. apply trs_reg; [exact mu_mul|exact mu_comm|exact mu_out|exact mu_one].
    - intros h h' x y. apply reg_commute. exact mu_comm.
    - exact HF.
    - intros j k l. apply rg_u. now left.
    - intros j k l. apply mu_star.
    - intros a b c d l H. destruct (H n eq_refl) as (H1 & H2 & H3 & H4). now apply mu_mul.
  Defined.
  Lemma register_laws : trace_laws register.
  Proof.
    pose proof (mu_mul : forall a b c d l, a < n -> b < n -> c < n -> d < n -> amul (a:=R) (mu a b l) (mu c d l) = if b =? c then mu a d l else a0) as Hm.
    pose proof (mu_comm : forall j k l j' k' l', l <> l' -> amul (a:=R) (mu j k l) (mu j' k' l') = amul (mu j' k' l') (mu j k l)) as Hc.
    pose proof (mu_one : forall l, asum (M:=R) (fun j => mu j j l) (seq 0 n) = a1) as H1.
    constructor.
    - reflexivity.
    - intros h l x. change (trs (M:=R) n mu (h ++ [l]) x = trs (M:=R) n mu h (trs (M:=R) n mu [l] x)). unfold trs. now rewrite fold_right_app.
    - intros l x y. apply (tr1_add (M:=R)).
    - intros l c x. apply (tr1_smul (M:=R)).
    - intros l x. apply (tr1_star (M:=R)). exact mu_star.
    - intros l h x y Hl Hx. exact (tr1_left (M:=R) n mu Hc l h x y Hl Hx).
    - intros l h x y Hl Hx. exact (tr1_right (M:=R) n mu Hc l h x y Hl Hx).
    - intros l m E. injection E as <-. change (tr1 (M:=R) n mu l a1 = smul (kQ (r:=R) (qn n)) a1). rewrite (tr1_1 (M:=R) n mu Hm H1), asum_const, seq_length. f_equal.
      clear. induction n as [|m IH]; [symmetry; exact (kQ_0 S R)|]. rewrite kZ_nat_S, IH. change (qn (Datatypes.S m)) with (qn (Nat.add 1 m)).
      rewrite qn_add, kQ_add, qn_1, kQ_1. reflexivity.
    - intros l j k Lj Lk. exact (tr1_u (M:=R) n mu Hm H1 l j k Lj Lk).
    - intros l j k x y Lj Lk H.
      change (tr1 (M:=R) n mu l (amul x (amul (mu j k l : A R) y)) = tr1 (M:=R) n mu l (amul (mu j k l : A R) (amul y x))).
      assert (forall x y, reg (M:=R) mu [l] x -> tr1 (M:=R) n mu l (amul x y) = tr1 (M:=R) n mu l (amul y x)) as Cy
        by (intros; now apply (tr1_cyclic (M:=R) n mu Hm Hc mu_out H1)).
      destruct H as [H|H].
      + transitivity (tr1 (M:=R) n mu l (amul (amul (mu j k l : A R) y) x)); [exact (Cy x _ H)|]. f_equal. symmetry. apply (amul_assoc R).
      + transitivity (tr1 (M:=R) n mu l (amul (amul (mu j k l : A R) y) x)); [|f_equal; symmetry; apply (amul_assoc R)]. symmetry. apply Cy.
        apply rg_mul; [apply rg_u; now left|exact H].
    - intros l [].
  Qed.
End Levels.
