(** Sums and multiples of multiplications by operators on one local space: applying
    them needs no reordering. *)
From Coq Require Import QArith Qcanon.
From Verif Require Import Prelude ListFacts SortModel SortProofs BinModel OpModel OpSpec OpProofs1 OpForms OpOrder OpFuel OpLocal OpRun CSimpProofs5 SupModel SupSpec SupOrder SupProofs1 SupProofs5.
Local Open Scope nat_scope.

Section TwoSided.
  Context {S : scalars} (P : op S -> Prop) (solt : sop S -> sop S -> bool) (slt : list nat -> list nat -> bool).
  Local Notation ts := (two_sided P).
  Lemma ts_super_scal (t : sop S) : forall c, ts t -> ts (super_scal c t).
  Proof.
    induction t as [| |n h|a|a|v b IH|l _|l _|t _] using sop_ind'; intros c Ht; cbn [super_scal]; destruct (seqb c s1); try exact Ht; destruct (seqb c s0); try (apply ts_zero); try (now apply ts_scal).
    apply IH. now inversion Ht.
  Qed.
  Lemma ts_super_plus l : (forall x, In x l -> ts x) -> ts (super_plus solt slt l).
  Proof.
    intros H.
    assert (forall x, In x (sflat_plus l) -> ts x) as H1.
    { intros x Hx. unfold sflat_plus in Hx. apply in_flat_map in Hx. destruct Hx as [y [Hy Hx]]. specialize (H y Hy).
      destruct y; try (destruct Hx as [<- |[]]; exact H). inversion H; subst. auto. }
    assert (forall x, In x (pysorted (sfull_lt solt slt) (sflat_plus l)) -> ts x) as H2 by (intros x Hx; apply H1; now apply pysorted_In in Hx).
    assert (forall (m : list (sop S * S)) ops, (forall tc, In tc m -> ts (fst tc)) -> (forall x, In x ops -> ts x) ->
      forall tc, In tc (fold_left (fun m o => let '(c, t) := scoeff_term o in scmap_add c t m) ops m) -> ts (fst tc)) as H3.
    { intros m ops. revert m. induction ops as [|o ops IH]; intros m Hm Ho tc Htc; [now apply Hm|]. cbn [fold_left] in Htc.
      destruct (scoeff_term o) as [c t] eqn:Eo. revert Htc. apply IH; [|intros; apply Ho; now right].
      assert (ts t) as Ht. { specialize (Ho o (or_introl eq_refl)). destruct o; cbn in Eo; injection Eo as <- <-; try exact Ho. now inversion Ho. }
      clear - Hm Ht. induction m as [|[t' c'] m IHm]; cbn [scmap_add]; intros tc Htc; [destruct Htc as [<- |[]]; exact Ht|].
      destruct (sop_eqb t' t); destruct Htc as [<- |Htc]; try exact (Hm (t', c') (or_introl eq_refl)).
      - apply Hm. now right.
      - apply IHm; [|exact Htc]. intros; apply Hm; now right. }
    unfold super_plus. set (f := filter _ _). assert (forall x, In x f -> ts x) as Hf.
    { intros x Hx. unfold f in Hx. apply filter_In in Hx. destruct Hx as [Hx _]. apply in_map_iff in Hx. destruct Hx as [[t c] [<- Htc]]. apply ts_super_scal.
      exact (H3 [] _ (fun tc (F : In tc []) => match F with end) H2 (t, c) Htc). }
    destruct f as [|x [|y f']]; [apply ts_zero|apply Hf; now left|now apply ts_plus].
  Qed.
  Lemma ts_super_sub a b : ts a -> ts b -> ts (super_sub solt slt a b).
  Proof. intros Ha Hb. apply ts_super_plus. intros x [<- |[<- |[]]]; [exact Ha|now apply ts_super_scal]. Qed.
  Lemma ts_commutator a : P a -> ts (commutator_super solt slt a).
  Proof. intros H. apply ts_super_sub; [now apply ts_pre|now apply ts_post]. Qed.
  Lemma ts_anti a : P a -> ts (anti_commutator_super solt slt a).
  Proof. intros H. apply ts_super_plus. intros x [<- |[<- |[]]]; [now apply ts_pre|now apply ts_post]. Qed.
  Lemma ts_lindblad K n c s :
    (forall x, P x -> forall y, oadj K x = Ok y -> P y) -> (forall x y z, P x -> P y -> k_times K [x; y] = Ok z -> P z) -> P c ->
    lindblad solt slt K (real_sorder solt slt) (Datatypes.S (Datatypes.S n)) (AOp c) = Ok s -> ts s.
  Proof.
    intros Ha Ht Hc H. cbn [lindblad] in H. step H cd Ecd. rewrite times_pre_post in H. cbn [bind] in H. step H q Eqq. injection H as <-.
    pose proof (Ha c Hc cd Ecd) as Hcd. apply ts_super_sub; [now apply ts_times|]. apply ts_super_scal, ts_anti. exact (Ht _ _ _ Hcd Hc Eqq).
  Qed.
  Lemma ts_liouvillian K n h cs s :
    (forall x, P x -> forall y, oadj K x = Ok y -> P y) -> (forall x y z, P x -> P y -> k_times K [x; y] = Ok z -> P z) -> P h ->
    Forall (fun c => match c with AOp c => P c | ANum _ => True end) cs ->
    liouvillian solt slt K (real_sorder solt slt) (Datatypes.S (Datatypes.S n)) h cs = Ok s -> ts s.
  Proof.
    intros Ha Ht Hh Hcs H. unfold liouvillian in H. step H ds Eds. injection H as <-. apply ts_super_plus. intros x [<- |Hx]; [now apply ts_super_scal, ts_commutator|].
    clear Hh. revert ds Eds Hx. induction cs as [|c cs IH]; cbn [mapM]; intros ds E Hx; [injection E as <-; destruct Hx|].
    step E d Ed. step E ds' Eds. injection E as <-. destruct Hx as [<- |Hx].
    - pose proof (Forall_inv Hcs) as Hc. destruct c as [c|c]; [exact (ts_lindblad K n c d Ha Ht Hc Ed)|]. injection Ed as <-. apply ts_zero.
    - exact (IH (Forall_inv_tail Hcs) ds' eq_refl Hx).
  Qed.
End TwoSided.

Section Local.
  Context {S : scalars} (l : nat) (solt : sop S -> sop S -> bool) (slt : list nat -> list nat -> bool).
  Context (K K' : ocreators S) (HK : agreeK l K K').
  Context (app : sop S -> op S -> option (op S)) (unapp : op S -> option (sop S * op S)) (Hun : forall x, local_to l x -> unapp x = None).
  Lemma apply_agree : forall n s b, two_sided (local_to l) s -> local_to l b ->
    agree l (super_apply K (careful_sorder solt slt) app unapp n s b) (super_apply K' (real_sorder solt slt) app unapp n s b).
  Proof.
    induction n as [|n IH]; intros s b Hs Hb; [apply agree_err|]. cbn [super_apply].
    assert (forall r r', agree l r r' ->
      agree l match b with
         | OScal u b' => do p <- super_apply K (careful_sorder solt slt) app unapp n s b'; k_scal K u p
         | _ => match unapp b with Some (sB, c) => do st <- super_times K (careful_sorder solt slt) n [s; sB]; super_apply K (careful_sorder solt slt) app unapp n st c | None => r end
         end
         match b with
         | OScal u b' => do p <- super_apply K' (real_sorder solt slt) app unapp n s b'; k_scal K' u p
         | _ => match unapp b with Some (sB, c) => do st <- super_times K' (real_sorder solt slt) n [s; sB]; super_apply K' (real_sorder solt slt) app unapp n st c | None => r' end
         end) as G.
    { intros r r' Hr. rewrite (Hun b Hb). destruct b; try exact Hr. apply agree_bind; [now apply IH|]. intros e He. now apply (a_scal l _ _ HK). }
    destruct Hs as [| |a Ha|a Ha|c t Ht|es Hes|a a' Ha Ha'].
    - apply agree_ok. exact Logic.I.
    - now apply agree_ok.
    - apply G. apply (a_times l _ _ HK). constructor; [exact Ha|constructor; [exact Hb|constructor]].
    - apply G. apply (a_times l _ _ HK). constructor; [exact Hb|constructor; [exact Ha|constructor]].
    - apply agree_bind; [now apply IH|]. intros e He. now apply (a_scal l _ _ HK).
    - apply agrees_bind; [|intros; now apply (a_plus l _ _ HK)]. apply agrees_mapM. intros x Hx. apply IH; [now apply Hes|exact Hb].
    - apply G. change (last_prepost [SPre a; SPost a']) with (Some ([SPre a], SPost a')). cbn beta iota.
      assert (forall KK, super_times KK (careful_sorder solt slt) n [SPre a] = match n with 0 => Err OutOfFuel | _ => Ok (SPre a) end) as E1 by (intros KK; destruct n; reflexivity).
      assert (forall KK, super_times KK (real_sorder solt slt) n [SPre a] = match n with 0 => Err OutOfFuel | _ => Ok (SPre a) end) as E2 by (intros KK; destruct n; reflexivity).
      rewrite E1, E2. destruct n as [|n']; [apply agree_err|]. cbn [bind].
      apply agree_bind; [apply IH; [now apply ts_post|exact Hb]|]. intros y Hy. apply IH; [now apply ts_pre|exact Hy].
  Qed.
End Local.
