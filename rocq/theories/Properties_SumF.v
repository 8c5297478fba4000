(** C77 Writing indexed sums with Sum. *)
From Verif Require Import Prelude ListFacts SortModel HilbertModel BasisModel BasisSpec BasisProofs AlgSpec AlgInst IdxModel IdxSpec Properties_Basis SumFModel.

(** Sum(x, args, kwargs)(t) *)
Definition sum_of (x : idx) (args : list value) (kwargs : list (kw * value)) (sp : space) (t : term) : res term :=
  do f <- Sum x args kwargs; f sp t.

(** every way to write a range: start first, [to] and [step] positional or by keyword, in either order *)
Theorem C77_range x a b s sp t :
  let r := Ok (TSum t [(x, OverRange a b s)]) in
  sum_of x [VInt a; VInt b; VInt s] [] sp t = r
  /\ sum_of x [VInt a; VInt b] [(KStep, VInt s)] sp t = r
  /\ sum_of x [VInt a] [(KTo, VInt b); (KStep, VInt s)] sp t = r
  /\ sum_of x [VInt a] [(KStep, VInt s); (KTo, VInt b)] sp t = r.
Proof. cbn zeta. repeat split. Qed.
Theorem C77_range_default x a b sp t :
  sum_of x [VInt a; VInt b] [] sp t = Ok (TSum t [(x, OverRange a b 1)])
  /\ sum_of x [VInt a] [(KTo, VInt b)] sp t = Ok (TSum t [(x, OverRange a b 1)]).
Proof. split; reflexivity. Qed.
Theorem C77_list x l sp t :
  sum_of x [VList l] [] sp t = Ok (TSum t [(x, OverList l)]) /\ sum_of x [VTuple l] [] sp t = Ok (TSum t [(x, OverList l)]).
Proof. split; reflexivity. Qed.
(** the space of the term is the default *)
Theorem C77_space x d sp t :
  sum_of x [VSpace (SLocal d)] [] sp t = Ok (TSum t [(x, OverFock d)])
  /\ sum_of x [] [(KHs, VSpace (SLocal d))] sp t = Ok (TSum t [(x, OverFock d)])
  /\ sum_of x [] [] (SLocal d) t = Ok (TSum t [(x, OverFock d)])
  /\ sum_of x [] [(KHs, VNone)] (SLocal d) t = Ok (TSum t [(x, OverFock d)])
  /\ forall n, sum_of x [VSpace (SSpin n)] [] sp t = Ok (TSum t [(x, OverFock (Some n))])
     /\ sum_of x [] [] (SSpin n) t = Ok (TSum t [(x, OverFock (Some n))]).
Proof. repeat split. Qed.

(** what the sums are worth: over the values the arguments describe *)
Theorem C77_values x a b s sp t r : s <> 0%Z -> sum_of x [VInt a; VInt b; VInt s] [] sp t = Ok r ->
  exists vs, NoDup vs
  /\ (forall v, In v vs <-> (exists k : Z, 0 <= k /\ v = a + k * s)%Z /\ (if (0 <? s)%Z then v <= b else b <= v)%Z)
  /\ forall (M : algebra) symI atomI e, tden M symI atomI e r = asum (fun v => tden M symI atomI (upd e x v) t) vs.
Proof.
  intros Hs H. rewrite (proj1 (C77_range x a b s sp t)) in H. injection H as <-.
  destruct (C26_range_values a b s Hs) as [l [E [V [N _]]]]. exists l. split; [exact N|]. split; [exact V|].
  intros M symI atomI e. cbn [tden sum_ranges fst snd]. unfold vals. now rewrite E.
Qed.
Theorem C77_list_values x l sp t r : sum_of x [VList l] [] sp t = Ok r ->
  forall (M : algebra) symI atomI e, tden M symI atomI e r = asum (fun v => tden M symI atomI (upd e x v) t) l.
Proof. intros H. rewrite (proj1 (C77_list x l sp t)) in H. now injection H as <-. Qed.
Theorem C77_space_values x n sp t r : sum_of x [VSpace (SLocal (Some n))] [] sp t = Ok r ->
  forall (M : algebra) symI atomI e, tden M symI atomI e r = asum (fun v => tden M symI atomI (upd e x (Z.of_nat v)) t) (seq 0 n).
Proof.
  intros H M symI atomI e. rewrite (proj1 (C77_space x (Some n) sp t)) in H. injection H as <-. cbn [tden sum_ranges fst snd].
  unfold vals. cbn [irange_values]. induction (seq 0 n) as [|v l IH]; [reflexivity|]. cbn [map asum fold_right]. f_equal. exact IH.
Qed.

(** wrong arguments: of the positional types Sum rejects at once with TypeError all but those of the
    documentation; everything else is noticed, with TypeError, only when the term is given *)
Theorem C77_dispatch x args kwargs :
  match Sum x args kwargs with
  | Err e => e = TypeError
  | Ok _ => args = [] \/ (exists d, args = [VSpace (SLocal d)]) \/ (exists n, args = [VSpace (SSpin n)])
      \/ (exists l, args = [VList l] \/ args = [VTuple l]) \/ exists a l, args = VInt a :: map VInt l /\ length l <= 2
  end.
Proof.
  unfold Sum. destruct args as [|v1 [|v2 [|v3 [|v4 args]]]]; cbn [dispatch bind].
  - now left.
  - destruct v1 as [a|l|l|[d|n|]| |]; cbn [bind]; try reflexivity.
    + do 4 right. exists a, []. split; [reflexivity|cbn; lia].
    + do 3 right. left. exists l. now left.
    + do 3 right. left. exists l. now right.
    + right. left. now exists d.
    + do 2 right. left. now exists n.
  - destruct v1 as [a|l|l|[d|n|]| |]; cbn [bind]; try reflexivity. destruct v2 as [b|l|l|[d|n|]| |]; cbn [bind]; try reflexivity.
    do 4 right. exists a, [b]. split; [reflexivity|cbn; lia].
  - destruct v1 as [a|l|l|[d|n|]| |]; cbn [bind]; try reflexivity. destruct v2 as [b|l|l|[d|n|]| |]; cbn [bind]; try reflexivity.
    destruct v3 as [c|l|l|[d|n|]| |]; cbn [bind]; try reflexivity.
    do 4 right. exists a, [b; c]. split; [reflexivity|cbn; lia].
  - destruct v1 as [a|l|l|[d|n|]| |]; cbn [bind]; try reflexivity. destruct v2 as [b|l|l|[d|n|]| |]; cbn [bind]; try reflexivity.
    destruct v3 as [c|l|l|[d|n|]| |]; cbn [bind]; reflexivity.
Qed.
(** a range with some keywords: accepted exactly if start, to and step are integers given once
    each and [to] is given, and then the range is the one they describe *)
Theorem C77_range_accepts x a kwargs sp t r : NoDup (map fst kwargs) ->
  sum_of x [VInt a] kwargs sp t = Ok r <->
  exists b s, r = TSum t [(x, OverRange a b s)] /\ In (KTo, VInt b) kwargs
    /\ (In (KStep, VInt s) kwargs \/ (s = 1%Z /\ ~ In KStep (map fst kwargs)))
    /\ forall k, In k (map fst kwargs) -> k = KTo \/ k = KStep.
Proof.
  assert (Keq : forall k k', kw_eqb k k' = true <-> k = k') by (intros [] []; cbn; split; congruence).
  intros N.
  assert (Kget : forall k v, kget k kwargs = Some v <-> In (k, v) kwargs).
  { intros k v. induction kwargs as [|[k' v'] l IH]; cbn [kget In]; [split; [discriminate|tauto]|]. cbn [map fst] in N.
    inversion N as [|? ? N1 N2]; subst. destruct (kw_eqb k k') eqn:E.
    - apply Keq in E. subst k'. split; [intros H; injection H as ->; now left|]. intros [H|H]; [now injection H as ->|].
      exfalso. apply N1. apply in_map_iff. now exists (k, v).
    - rewrite IH by exact N2. split; [auto|]. intros [H|H]; [|exact H]. injection H as -> ->.
      assert (kw_eqb k k = true) by now apply Keq. congruence. }
  assert (Knone : forall k, kget k kwargs = None <-> ~ In k (map fst kwargs)).
  { intros k. destruct (kget k kwargs) as [v|] eqn:E.
    - split; [discriminate|]. intros H. apply Kget in E. exfalso. apply H. apply in_map_iff. now exists (k, v).
    - split; [|reflexivity]. intros _ H. apply in_map_iff in H. destruct H as [[k' v] [<- H]]. apply Kget in H. cbn [fst] in E. congruence. }
  unfold sum_of, Sum. cbn [dispatch bind make_range bind_pos bind_args].
  unfold bind_args. cbn [bind_pos bind map fst].
  destruct (forallb _ kwargs) eqn:F.
  - assert (Kw : forall k, In k (map fst kwargs) -> k = KTo \/ k = KStep).
    { intros k Hk. apply in_map_iff in Hk. destruct Hk as [[k' v] [<- Hk]]. rewrite forallb_forall in F. specialize (F _ Hk).
      cbn [fst] in *. destruct k'; cbn in F; try discriminate; auto. }
    cbn [bind app kget kw_eqb]. destruct (kget KTo kwargs) as [tv|] eqn:ET.
    + cbn [as_int bind]. apply Kget in ET. destruct tv as [b| | | | |]; cbn [as_int bind].
      2-6: split; [discriminate|]; intros [b' [s' [_ [H _]]]]; apply Kget in H; apply Kget in ET; congruence.
      destruct (kget KStep kwargs) as [sv|] eqn:ES.
      * apply Kget in ES. destruct sv as [s| | | | |]; cbn [as_int bind].
        2-6: split; [discriminate|]; intros [b' [s' [_ [_ [[H|[_ H]] _]]]]];
          [apply Kget in H; apply Kget in ES; congruence|exfalso; apply H; apply in_map_iff; eexists; split; [|exact ES]; reflexivity].
        split.
        -- intros H. injection H as <-. exists b, s. auto 8.
        -- intros [b' [s' [-> [H1 [[H2|[_ H2]] _]]]]].
           ++ apply Kget in H1, H2, ET, ES. assert (b' = b) by congruence. assert (s' = s) by congruence. now subst.
           ++ exfalso. apply H2. apply in_map_iff. now exists (KStep, VInt s).
      * cbn [as_int bind]. apply Knone in ES. split.
        -- intros H. injection H as <-. exists b, 1%Z. auto 8.
        -- intros [b' [s' [-> [H1 [H2 _]]]]].
           destruct H2 as [H2|[-> _]]; [exfalso; apply ES; apply in_map_iff; now exists (KStep, VInt s')|].
           apply Kget in H1, ET. assert (b' = b) by congruence. now subst.
    + split; [discriminate|]. intros [b [s [_ [H _]]]]. apply Kget in H. congruence.
  - split; [discriminate|]. intros [b [s [_ [_ [_ H]]]]]. exfalso.
    assert (F' : forallb (fun kv => kmem (fst kv) [KStart; KTo; KStep] && negb (kmem (fst kv) [KStart])) kwargs = true); [|congruence].
    apply forallb_forall. intros [k v] Hk. assert (K : k = KTo \/ k = KStep) by (apply H; apply in_map_iff; now exists (k, v)).
    destruct K as [-> | ->]; reflexivity.
Qed.
(** a lone integer passes Sum and fails for every term; a step of zero passes both and fails when
    the sum is written out *)
Theorem C77_late_errors x a b sp t :
  (exists f, Sum x [VInt a] [] = Ok f /\ f sp t = Err TypeError)
  /\ sum_of x [VInt a; VInt b; VInt 0] [] sp t = Ok (TSum t [(x, OverRange a b 0)]) /\ irange_values (OverRange a b 0) = Err ValueError.
Proof. split; [eexists; split; reflexivity|]. split; reflexivity. Qed.
Local Notation i_ := (0, 0).
Example C77_hyps :
  sum_of i_ [VInt 1] [(KStep, VInt 3); (KTo, VInt 8)] (SLocal None) (TAtom 0 [IVar i_]) = Ok (TSum (TAtom 0 [IVar i_]) [(i_, OverRange 1 8 3)])
  /\ tden Zalg (fun _ _ => 0%Z) (fun _ l => last l 1%Z) (fun _ => 0%Z) (TSum (TAtom 0 [IVar i_]) [(i_, OverRange 1 8 3)]) = 12%Z
  /\ sum_of i_ [VInt 1] [(KTo, VInt 8); (KHs, VNone)] (SLocal None) (TAtom 0 [IVar i_]) = Err TypeError
  /\ sum_of i_ [VSpace SProd] [] (SLocal None) (TAtom 0 [IVar i_]) = Err TypeError.
Proof. repeat split. Qed.
Print Assumptions C77_range. Print Assumptions C77_range_default. Print Assumptions C77_list. Print Assumptions C77_space.
Print Assumptions C77_values. Print Assumptions C77_list_values. Print Assumptions C77_space_values. Print Assumptions C77_dispatch.
Print Assumptions C77_range_accepts. Print Assumptions C77_late_errors. Print Assumptions C77_hyps.
