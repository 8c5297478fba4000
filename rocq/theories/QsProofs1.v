(** Superoperators as QuTiP objects (C61). *)
From Coq Require Import QArith Qcanon.
From Verif Require Import Prelude ListFacts CSimpProofs5 AlgSpec CAlg OpModel OpSpec OpProofs1 KetModel SupModel ConvModel ConvSpec QutipModel QutipSpec QsModel QsSpec ConvProofs1 ConvProofs2 ConvProofs3 QutipProofs Properties_Conv Properties_Qutip.
Local Open Scope nat_scope.

Lemma fold_all {A} (P : A -> Prop) l : fold_right (fun x Q => P x /\ Q) True l -> Forall P l.
Proof. induction l as [|x l IH]; cbn [fold_right]; [constructor|]. intros [H1 H2]. constructor; [exact H1|now apply IH]. Qed.

Section Sup.
Context {S : scalars} (r : reading S) (dim : nat -> option nat) (is_num : S -> bool) (expand : op S -> res (op S)).
Add Ring kr : (kring r).
Local Notation k := (K r).
Local Notation mat := (mat r).
Local Notation nsum := (nsum r).
Local Notation act := (act r).
Local Notation stack := (stack r).
Local Notation smat := (smat r). Local Notation SMat := (ConvModel.SMat r).
Local Notation size := (size dim).
Local Notation meq := (meq r).

Lemma nsum_split n m (f : nat -> nat -> k) : nsum (n * m) (fun t => f (t / m) (t mod m)) = nsum n (fun a => nsum m (fun b => f a b)).
Proof.
  destruct m as [|m]; [rewrite Nat.mul_0_r; symmetry; apply (nsum_zero r n)|]. set (m' := Datatypes.S m) in *. assert (m' <> 0) by (subst m'; discriminate). clearbody m'.
  induction n as [|n IH]; [reflexivity|]. rewrite nsum_S. replace (Datatypes.S n * m') with (n * m' + m') by lia. rewrite nsum_plus, IH. f_equal.
  apply nsum_ext. intros i Hi. f_equal.
  - rewrite Nat.div_add_l, Nat.div_small by assumption. lia.
  - rewrite Nat.add_comm, Nat.mod_add, Nat.mod_small by assumption. reflexivity.
Qed.
Lemma act_ext n M u v : (forall t, t < n -> u t = v t) -> forall i, act n M u i = act n M v i.
Proof. intros H i. apply nsum_ext. intros j Hj. now rewrite H. Qed.

(** the result [v] of a conversion acts like [f] on N x N matrices *)
Definition acts (N : nat) (v : smat) (f : mat -> mat) : Prop :=
  match v with
  | ConvModel.SZero _ => forall R, meq N (f R) (mzero r)
  | ConvModel.SMat _ n M => n = N * N /\ forall R i j, i < N -> j < N -> act (N * N) M (stack N R) (j * N + i) = f R i j
  end.
Definition local (N : nat) (f : mat -> mat) : Prop := forall R R', meq N R R' -> meq N (f R) (f R').
Lemma stack_at N R i j : i < N -> stack N R (j * N + i) = R i j.
Proof. intros H. unfold QsSpec.stack. rewrite Nat.div_add_l, Nat.div_small, Nat.add_0_r by lia. rewrite Nat.add_comm, Nat.mod_add, Nat.mod_small by lia. reflexivity. Qed.
Lemma acts_stack N n M f : acts N (SMat n M) f -> forall R t, t < N * N -> act (N * N) M (stack N R) t = stack N (f R) t.
Proof.
  intros [_ H] R t Ht. destruct (split_ix N N t Ht) as [H1 H2]. rewrite (Nat.div_mod t N) at 1 by lia. rewrite (Nat.mul_comm N (t / N)). rewrite H by assumption. reflexivity.
Qed.
Lemma acts_local N v f : acts N v f -> local N f.
Proof.
  destruct v as [|n M]; intros H R R' HR i j Hi Hj; [now rewrite (H R i j Hi Hj), (H R' i j Hi Hj)|]. destruct H as [_ H]. rewrite <- !H by assumption. apply act_ext. intros t Ht. unfold QsSpec.stack.
  destruct (split_ix N N t Ht). now apply HR.
Qed.
Lemma acts_ext N v f g : (forall R, meq N (f R) (g R)) -> acts N v f -> acts N v g.
Proof.
  intros E. destruct v as [|n M]; cbn [acts].
  - intros H R i j Hi Hj. now rewrite <- (E R i j Hi Hj), (H R i j Hi Hj).
  - intros [Hn H]. split; [exact Hn|]. intros R i j Hi Hj. rewrite <- (E R i j Hi Hj). now apply H.
Qed.
Lemma acts_plus N v w f g u : acts N v f -> acts N w g -> q_plus r v w = Ok u -> acts N u (fun R => madd r (f R) (g R)).
Proof.
  destruct v as [|a A], w as [|b B]; cbn [q_plus]; intros H1 H2 E.
  - injection E as <-. intros R i j Hi Hj. unfold madd. rewrite (H1 R i j Hi Hj), (H2 R i j Hi Hj). unfold mzero. ring.
  - injection E as <-. destruct H2 as [-> H2]. split; [reflexivity|]. intros R i j Hi Hj. rewrite H2 by assumption. unfold madd. rewrite (H1 R i j Hi Hj). unfold mzero. ring.
  - injection E as <-. destruct H1 as [-> H1]. split; [reflexivity|]. intros R i j Hi Hj. rewrite H1 by assumption. unfold madd. rewrite (H2 R i j Hi Hj). unfold mzero. ring.
  - destruct H1 as [-> H1], H2 as [-> H2]. rewrite Nat.eqb_refl in E. injection E as <-. split; [reflexivity|]. intros R i j Hi Hj. unfold madd at 2. rewrite <- H1, <- H2 by assumption.
    unfold QsSpec.act. rewrite <- nsum_add. apply nsum_ext. intros t Ht. unfold madd. ring.
Qed.
Lemma acts_scale N v f c : acts N v f -> acts N (match v with ConvModel.SMat _ n M => SMat n (mscale r c M) | ConvModel.SZero _ => v end) (fun R => mscale r c (f R)).
Proof.
  destruct v as [|n M]; cbn [acts].
  - intros H R i j Hi Hj. unfold mscale. rewrite (H R i j Hi Hj). unfold mzero. ring.
  - intros [-> H]. split; [reflexivity|]. intros R i j Hi Hj. unfold mscale at 2. rewrite <- H by assumption. unfold QsSpec.act. rewrite <- nsum_mul_l. apply nsum_ext. intros t Ht. unfold mscale. ring.
Qed.
Lemma acts_mul N v w f g u : acts N v f -> acts N w g -> s_mul r v w = Ok u -> acts N u (fun R => f (g R)).
Proof.
  intros H1 H2. pose proof (acts_local N v f H1) as Lf. destruct v as [|a A], w as [|b B]; cbn [s_mul]; intros E.
  - injection E as <-. intros R. apply H1.
  - injection E as <-. destruct H2 as [-> H2]. split; [reflexivity|]. intros R i j Hi Hj. rewrite (H1 (g R) i j Hi Hj). unfold QsSpec.act. change (mzero r i j) with (@k0 r). rewrite <- (nsum_zero r (N * N)). apply nsum_ext. intros. unfold mzero. ring.
  - injection E as <-. pose proof H1 as H1'. destruct H1' as [-> H1']. split; [reflexivity|]. intros R i j Hi Hj.
    transitivity (f (mzero r) i j); [|symmetry; apply (Lf _ _ (H2 R) i j Hi Hj)]. rewrite <- H1' by assumption. unfold QsSpec.act. apply nsum_ext. intros t Ht. unfold QsSpec.stack, mzero. ring.
  - pose proof H1 as [-> H1']. pose proof H2 as [-> H2']. rewrite Nat.eqb_refl in E. injection E as <-. split; [reflexivity|]. intros R i j Hi Hj.
    rewrite <- H1' by assumption. transitivity (act (N * N) A (act (N * N) B (stack N R)) (j * N + i)).
    + unfold QsSpec.act, mmul. transitivity (nsum (N * N) (fun t => nsum (N * N) (fun s => kmul (kmul (A (j * N + i) s) (B s t)) (stack N R t)))).
      * apply nsum_ext. intros t Ht. now rewrite <- nsum_mul_r.
      * rewrite nsum_swap. apply nsum_ext. intros s Hs. rewrite <- nsum_mul_l. apply nsum_ext. intros. ring.
    + apply act_ext. intros t Ht. now apply (acts_stack N _ B g H2).
Qed.
(** left and right multiplication *)
Lemma spre_acts h v F : stands_for r dim h v F -> acts (size h) (spre r v) (fun R => mmul r (size h) F R).
Proof.
  destruct v as [|n A]; cbn [stands_for spre acts].
  - intros H R i j Hi Hj. unfold mmul. change (mzero r i j) with (@k0 r). rewrite <- (nsum_zero r (size h)). apply nsum_ext. intros t Ht. rewrite <- (H i t Hi Ht). unfold mzero. ring.
  - intros [-> H]. split; [reflexivity|]. intros R i j Hi Hj. set (N := size h) in *. unfold QsSpec.act, mkron, QsSpec.stack.
    rewrite (nsum_split N N (fun a b => kmul (kmul (meye r ((j * N + i) / N) a) (A ((j * N + i) mod N) b)) (R b a))).
    rewrite Nat.div_add_l, Nat.div_small, Nat.add_0_r, (Nat.add_comm (j * N)), Nat.mod_add, Nat.mod_small by lia.
    transitivity (nsum N (fun a => if a =? j then nsum N (fun b => kmul (A i b) (R b a)) else k0)).
    + apply nsum_ext. intros a Ha. unfold meye. rewrite (Nat.eqb_sym j a). destruct (a =? j); [apply nsum_ext; intros; ring|]. transitivity (nsum N (fun _ => k0)); [apply nsum_ext; intros; ring|apply nsum_zero].
    + rewrite nsum_delta by assumption. unfold mmul. apply nsum_ext. intros b Hb. now rewrite (H i b Hi Hb).
Qed.
Lemma spost_acts h v F : stands_for r dim h v F -> acts (size h) (spost r v) (fun R => mmul r (size h) R F).
Proof.
  destruct v as [|n A]; cbn [stands_for spost acts].
  - intros H R i j Hi Hj. unfold mmul. change (mzero r i j) with (@k0 r). rewrite <- (nsum_zero r (size h)). apply nsum_ext. intros t Ht. rewrite <- (H t j Ht Hj). unfold mzero. ring.
  - intros [-> H]. split; [reflexivity|]. intros R i j Hi Hj. set (N := size h) in *. unfold QsSpec.act, mkron, QsSpec.stack, mtransp.
    rewrite (nsum_split N N (fun a b => kmul (kmul (A a ((j * N + i) / N)) (meye r ((j * N + i) mod N) b)) (R b a))).
    rewrite Nat.div_add_l, Nat.div_small, Nat.add_0_r, (Nat.add_comm (j * N)), Nat.mod_add, Nat.mod_small by lia.
    unfold mmul. apply nsum_ext. intros a Ha. transitivity (nsum N (fun b => if b =? i then kmul (R b a) (A a j) else k0)).
    + apply nsum_ext. intros b Hb. unfold meye. rewrite (Nat.eqb_sym i b). destruct (b =? i); ring.
    + rewrite nsum_delta by assumption. now rewrite (H a j Ha Hj).
Qed.

Local Notation convert := (conv_super r dim is_num expand).
Theorem super_good : forall n s h v, NoDup h -> plain_sop s -> convert n s h = Ok v -> acts (size h) v (map_of r dim h s).
Proof.
  induction n as [|n IH]; intros s h v Hn Hp H; [discriminate|]. cbn [conv_super] in H.
  destruct (sp_incl (sspace s) h); [|discriminate]. cbn [negb] in H. destruct h as [|x h0] eqn:Eh; [discriminate|]. rewrite <- Eh in *.
  destruct (eqb_list_nat h (sspace s)) eqn:Es.
  2:{ clear - H. destruct (sspace s) as [|y [|]]; try discriminate H. destruct (of_option _ _); [|discriminate H]. cbn [bind] in H. destruct (conv_super r dim is_num expand n s [y]); discriminate H. }
  apply eqb_list_nat_spec in Es. destruct s as [| |nm hs|a|a|c t|l|l|t]; cbn [sspace] in Es; try (now (rewrite Es in Eh; discriminate Eh)); try discriminate H.
  - step H w Ew. injection H as <-. destruct Hp. apply spre_acts. now apply (C50_convert_value r dim is_num expand n).
  - step H w Ew. injection H as <-. destruct Hp. apply spost_acts. now apply (C50_convert_value r dim is_num expand n).
  - destruct (is_num c); [|discriminate]. step H w Ew. injection H as <-. apply acts_scale. now apply IH.
  - cbn [plain_sop] in Hp. apply fold_all in Hp. clear Eh Es. 
    assert (forall l v0 f0 v, Forall plain_sop l -> acts (size h) v0 f0 -> foldM (fun s o => do v <- convert n o h; q_plus r s v) v0 l = Ok v ->
      acts (size h) v (fun R => fold_right (fun x M => madd r (map_of r dim h x R) M) (f0 R) l)) as G.
    { clear - Hn IH. induction l as [|x l IHl]; intros v0 f0 v Hl H0 H; cbn [foldM fold_right] in *.
      - injection H as <-. exact H0.
      - inversion Hl; subst. step H w Ew. step Ew u Eu. apply IH in Eu; [|assumption|assumption]. pose proof (acts_plus _ _ _ _ _ _ H0 Eu Ew) as H1.
        specialize (IHl w _ v H4 H1 H). eapply acts_ext; [|exact IHl]. intros R. clear - R. cbn beta. intros i j Hi Hj.
        generalize (f0 R), (map_of r dim h x R). intros P Q. revert i j Hi Hj. induction l as [|y l IH]; intros i j Hi Hj; cbn [fold_right]; [unfold madd; ring|].
        unfold madd at 1. rewrite (IH i j Hi Hj). unfold madd. ring. }
    eapply G; [exact Hp| |exact H]. intros R. apply meq_refl.
  - cbn [plain_sop] in Hp. apply fold_all in Hp. step H vs Ev. apply mapM_F2 in Ev. clear Eh Es.
    assert (Forall2 (fun o v => acts (size h) v (map_of r dim h o)) l vs) as HF.
    { eapply F2_impl_in; [|exact Ev]. cbn beta. intros o w Ho Hw. rewrite Forall_forall in Hp. now apply IH; [|apply Hp|]. }
    clear Ev Hp. destruct HF as [|o w l vs Ho HF]; [discriminate|]. cbn [mul_all] in H. cbn [map_of fold_right].
    assert (forall l vs w f v, acts (size h) w f -> Forall2 (fun o v => acts (size h) v (map_of r dim h o)) l vs -> foldM (s_mul r) w vs = Ok v ->
      acts (size h) v (fun R => f (fold_right (fun x M => map_of r dim h x M) R l))) as G.
    { clear. induction l as [|y l IHl]; intros vs w f v Hw HF H; inversion HF; subst; cbn [foldM fold_right] in *.
      - injection H as <-. exact Hw.
      - step H u Eu. pose proof (acts_mul _ _ _ _ _ _ Hw H2 Eu) as Hu. exact (IHl _ _ _ _ Hu H4 H). }
    exact (G l vs w _ v Ho HF H).
Qed.
End Sup.
