(** Products of two multiplications, and collapse operators on one local space. *)
From Coq Require Import QArith Qcanon.
From Verif Require Import Prelude ListFacts SortModel SortProofs BinModel OpModel OpSpec OpProofs1 OpForms OpOrder OpFuel OpLocal OpRun CSimpProofs5 SupModel SupSpec SupOrder.
Local Open Scope nat_scope.

Section Two.
  Context {S : scalars} (solt : sop S -> sop S -> bool) (slt : list nat -> list nat -> bool).
  Context (K : ocreators S).
  Local Notation times := (super_times K (real_sorder solt slt)).
  Lemma times_pre_post n a b : times (Datatypes.S (Datatypes.S n)) [SPre a; SPost b] = Ok (STimes [SPre a; SPost b]).
  Proof. reflexivity. Qed.
  Lemma times_post_pre n a b : times (Datatypes.S (Datatypes.S n)) [SPost a; SPre b] = Ok (STimes [SPre b; SPost a]).
  Proof. reflexivity. Qed.
  Lemma sort_pre2 a b : sp_disjoint (space a) (space b) = false -> pysorted (super_lt solt slt) [SPre a; SPre b] = [SPre a; SPre b].
  Proof.
    intros H. assert (sp_disjoint (space b) (space a) = false) as H'.
    { destruct (sp_disjoint (space b) (space a)) eqn:E; [|reflexivity]. rewrite <- H. symmetry. apply sp_disjoint_apart, apart_sym. now apply sp_disjoint_apart. }
    unfold pysorted. cbn -[super_lt]. assert (super_lt solt slt (SPre b) (SPre a) = false) as ->; [|reflexivity].
    cbn [super_lt sspace]. destruct (space b), (space a); try discriminate; now rewrite H'.
  Qed.
  Lemma sort_post2 a b : sp_disjoint (space a) (space b) = false -> pysorted (super_lt solt slt) [SPost a; SPost b] = [SPost a; SPost b].
  Proof.
    intros H. assert (sp_disjoint (space b) (space a) = false) as H'.
    { destruct (sp_disjoint (space b) (space a)) eqn:E; [|reflexivity]. rewrite <- H. symmetry. apply sp_disjoint_apart, apart_sym. now apply sp_disjoint_apart. }
    unfold pysorted. cbn -[super_lt]. assert (super_lt solt slt (SPost b) (SPost a) = false) as ->; [|reflexivity].
    cbn [super_lt sspace]. destruct (space b), (space a); try discriminate; now rewrite H'.
  Qed.
  Fixpoint notimes (t : sop S) : Prop := match t with STimes _ => False | SScal _ b => notimes b | _ => True end.
  Lemma notimes_scal (t : sop S) : forall c, notimes t -> notimes (super_scal c t).
  Proof.
    induction t; intros c0 Ht; cbn [super_scal]; destruct (seqb c0 s1); try exact Ht; destruct (seqb c0 s0); try exact Logic.I; try exact Ht. now apply IHt.
  Qed.
  Lemma notimes_pre (p : op S) : notimes (pre_create p).
  Proof. induction p; cbn [pre_create]; try exact Logic.I. now apply notimes_scal. Qed.
  Lemma notimes_post (p : op S) : notimes (post_create p).
  Proof. induction p; cbn [post_create]; try exact Logic.I. now apply notimes_scal. Qed.
  Lemma times_pre_pre n a b p : sp_disjoint (space a) (space b) = false -> k_times K [a; b] = Ok p ->
    times (Datatypes.S (Datatypes.S (Datatypes.S n))) [SPre a; SPre b] = Ok (pre_create p).
  Proof.
    intros H E. change (stimes_step K (real_sorder solt slt) (times (Datatypes.S (Datatypes.S n))) (Datatypes.S (Datatypes.S n)) [SPre a; SPre b] = Ok (pre_create p)).
    unfold stimes_step, real_sorder. cbn [existsb is_szero orb]. change (sflat_times [SPre a; SPre b]) with [SPre a; SPre b]. rewrite (sort_pre2 _ _ H).
    cbn [bind filter is_sone negb]. unfold match_replace_binary. cbn -[k_times pre_create is_sone]. rewrite E. cbn -[pre_create is_sone].
    pose proof (notimes_pre p) as Hp.
    destruct (is_sone (pre_create p)) eqn:E1; [destruct (pre_create p); try discriminate; reflexivity|].
    destruct (pre_create p); try reflexivity. destruct Hp.
  Qed.
  Lemma times_post_post n a b p : sp_disjoint (space a) (space b) = false -> k_times K [b; a] = Ok p ->
    times (Datatypes.S (Datatypes.S (Datatypes.S n))) [SPost a; SPost b] = Ok (post_create p).
  Proof.
    intros H E. change (stimes_step K (real_sorder solt slt) (times (Datatypes.S (Datatypes.S n))) (Datatypes.S (Datatypes.S n)) [SPost a; SPost b] = Ok (post_create p)).
    unfold stimes_step, real_sorder. cbn [existsb is_szero orb]. change (sflat_times [SPost a; SPost b]) with [SPost a; SPost b]. rewrite (sort_post2 _ _ H).
    cbn [bind filter is_sone negb]. unfold match_replace_binary. cbn -[k_times post_create is_sone]. rewrite E. cbn -[post_create is_sone].
    pose proof (notimes_post p) as Hp.
    destruct (is_sone (post_create p)) eqn:E1; [destruct (post_create p); try discriminate; reflexivity|].
    destruct (post_create p); try reflexivity. destruct Hp.
  Qed.
End Two.

Section Local.
  Context {S : scalars} (dim : nat -> option nat) (olt : op S -> op S -> bool) (slt : list nat -> list nat -> bool) (solt : sop S -> sop S -> bool).
  Local Notation code := (code dim olt slt).
  Local Notation checked := (checked dim olt slt).
  Lemma times_pre_post_careful K n a b : super_times K (careful_sorder solt slt) (Datatypes.S (Datatypes.S n)) [SPre a; SPost b] = Ok (STimes [SPre (S:=S) a; SPost b]).
  Proof.
    change (stimes_step K (careful_sorder solt slt) (super_times K (careful_sorder solt slt) (Datatypes.S n)) (Datatypes.S n) [SPre a; SPost b] = Ok (STimes [SPre a; SPost b])).
    unfold stimes_step. cbn [existsb is_szero orb]. change (sflat_times [SPre a; SPost b]) with [SPre a; SPost b]. rewrite stwo_careful. reflexivity.
  Qed.
  Lemma lindblad_local l n m c : good_orders olt slt -> local_to l c ->
    lindblad solt slt (checked n) (careful_sorder solt slt) (Datatypes.S (Datatypes.S m)) (AOp c)
    = lindblad solt slt (code n) (real_sorder solt slt) (Datatypes.S (Datatypes.S m)) (AOp c).
  Proof.
    intros Ho Hc. cbn [lindblad]. pose proof (local_agree l dim olt slt Ho n) as HA. destruct (oadj_agree l _ _ HA c Hc) as [E G].
    fold (checked n) in *. fold (code n) in *. rewrite <- E. destruct (oadj (checked n) c) as [cd|e] eqn:Ecd; [|reflexivity]. cbn [bind].
    rewrite times_pre_post_careful, (times_pre_post solt slt). cbn [bind].
    assert (agree l (k_times (checked n) [cd; c]) (k_times (code n) [cd; c])) as [Et _].
    { apply (a_times l _ _ HA). constructor; [now apply G|]. constructor; [exact Hc|constructor]. }
    now rewrite Et.
  Qed.
  Lemma liouvillian_local n m h cs : good_orders olt slt -> Forall (fun c => match c with AOp c => exists l, local_to l c | ANum _ => True end) cs ->
    liouvillian solt slt (checked n) (careful_sorder solt slt) (Datatypes.S (Datatypes.S m)) h cs
    = liouvillian solt slt (code n) (real_sorder solt slt) (Datatypes.S (Datatypes.S m)) h cs.
  Proof.
    intros Ho Hcs. unfold liouvillian. assert (forall f g, (forall c, In c cs -> f c = g c) -> mapM f cs = mapM (B:=sop S) g cs) as G.
    { intros f g. clear. induction cs as [|c cs IH]; intros H; [reflexivity|]. cbn [mapM]. rewrite (H c (or_introl eq_refl)), IH; [reflexivity|]. intros; apply H; now right. }
    rewrite (G _ (lindblad solt slt (code n) (real_sorder solt slt) (Datatypes.S (Datatypes.S m)))); [reflexivity|].
    intros c Hc. rewrite Forall_forall in Hcs. specialize (Hcs c Hc). destruct c as [c|c]; [|reflexivity]. destruct Hcs as [l Hl]. now apply (lindblad_local l).
  Qed.
End Local.
