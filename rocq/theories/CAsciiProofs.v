(** The printed text of a circuit reads back as the circuit. *)
From Verif Require Import Prelude PermModel CircModel CSimpProofs3 CAsciiModel CAsciiSpec.

Section Proofs.
  Context {X : Type} (chan : nat -> nat) (python : bool).
  Local Notation circ := (circ X).
  Local Notation text := (list (ctoken X)).
  Local Notation read_loose := (read_loose chan python).
  Local Notation read_more_loose := (read_more_loose chan python).
  Local Notation read_tight := (read_tight chan python).
  Local Notation read_more_tight := (read_more_tight chan python).
  Local Notation read_prim := (read_prim chan python).
  Local Notation tight := (tight python).
  Local Notation loose := (loose python).

  Definition tokof (f : operator) : ctoken X := match f with Series => USer | Concat => UCat end.
  Definition stop (f : operator) (t : text) : Prop := match t with x :: _ => is_op f x = false | [] => True end.
  Local Notation operands := (@operands X).
  Local Notation apply_all := (@apply_all X).
  Local Notation item := (text * circ)%type.
  (** the text is a primary for the circuit *)
  Definition prim_ok (i : item) : Prop := exists n0, forall n, n0 <= n -> forall rest, read_prim n (fst i ++ rest) = Some (snd i, rest).

  Lemma tok_tight : is_op tight (tokof tight) = true. Proof. unfold tight, CAsciiSpec.tight. now destruct python. Qed.
  Lemma tok_loose : is_op loose (tokof loose) = true. Proof. unfold loose, CAsciiSpec.loose. now destruct python. Qed.
  Lemma tok_lt : is_op tight (tokof loose) = false. Proof. unfold loose, tight, CAsciiSpec.loose, CAsciiSpec.tight. now destruct python. Qed.

  Lemma more_tight_ok l : Forall prim_ok l -> exists n0, forall n, n0 <= n -> forall rest, stop tight rest ->
    read_more_tight n (concat (map (fun i => tokof tight :: fst i) l) ++ rest) = Some (map snd l, rest).
  Proof.
    induction l as [|i l IH]; intros H.
    - exists 1. intros [|n] Hn rest Hs; [lia|]. cbn [map concat app CAsciiSpec.read_more_tight]. destruct rest as [|x r]; [reflexivity|]. cbn in Hs. now rewrite Hs.
    - destruct (Forall_inv H) as [k1 H1]. destruct (IH (Forall_inv_tail H)) as [k2 H2]. exists (S (max k1 k2)). intros [|n] Hn rest Hs; [lia|].
      cbn [map concat app CAsciiSpec.read_more_tight]. rewrite tok_tight. rewrite <- app_assoc. rewrite H1 by lia. rewrite H2 by (try assumption; lia). reflexivity.
  Qed.
  Lemma tight_ok i l : Forall prim_ok (i :: l) -> exists n0, forall n, n0 <= n -> forall rest, stop tight rest ->
    read_tight n (fst i ++ concat (map (fun i => tokof tight :: fst i) l) ++ rest) = Some (apply_all tight (map snd (i :: l)), rest).
  Proof.
    intros H. destruct (Forall_inv H) as [k1 H1]. destruct (more_tight_ok l (Forall_inv_tail H)) as [k2 H2]. exists (S (max k1 k2)).
    intros [|n] Hn rest Hs; [lia|]. cbn [CAsciiSpec.read_tight]. rewrite H1 by lia. rewrite H2 by (try assumption; lia). reflexivity.
  Qed.
  Lemma tight_1 i : prim_ok i -> exists n0, forall n, n0 <= n -> forall rest, stop tight rest -> read_tight n (fst i ++ rest) = Some (snd i, rest).
  Proof.
    intros H. destruct (tight_ok i [] (Forall_cons _ H (Forall_nil _))) as [k Hk]. exists k. intros n Hn rest Hs. exact (Hk n Hn rest Hs).
  Qed.
  Lemma more_loose_ok l : Forall prim_ok l -> exists n0, forall n, n0 <= n -> forall rest, stop loose rest -> stop tight rest ->
    read_more_loose n (concat (map (fun i => tokof loose :: fst i) l) ++ rest) = Some (map snd l, rest).
  Proof.
    induction l as [|i l IH]; intros H.
    - exists 1. intros [|n] Hn rest Hs Hr; [lia|]. cbn [map concat app CAsciiSpec.read_more_loose]. destruct rest as [|x r]; [reflexivity|]. cbn in Hs. now rewrite Hs.
    - destruct (tight_1 i (Forall_inv H)) as [k1 H1]. destruct (IH (Forall_inv_tail H)) as [k2 H2]. exists (S (max k1 k2)). intros [|n] Hn rest Hs Hr; [lia|].
      cbn [map concat app CAsciiSpec.read_more_loose]. rewrite tok_loose. rewrite <- app_assoc. rewrite H1; [|lia|].
      + rewrite H2 by (try assumption; lia). reflexivity.
      + destruct l as [|j l]; [exact Hr|]. cbn [map concat app stop]. apply tok_lt.
  Qed.
  Lemma loose_ok i l : Forall prim_ok (i :: l) -> exists n0, forall n, n0 <= n -> forall rest, stop loose rest -> stop tight rest ->
    read_loose n (fst i ++ concat (map (fun i => tokof loose :: fst i) l) ++ rest) = Some (apply_all loose (map snd (i :: l)), rest).
  Proof.
    intros H. destruct (tight_1 i (Forall_inv H)) as [k1 H1]. destruct (more_loose_ok l (Forall_inv_tail H)) as [k2 H2]. exists (S (max k1 k2)).
    intros [|n] Hn rest Hs Hr; [lia|]. cbn [CAsciiSpec.read_loose]. rewrite H1; [|lia|].
    - rewrite H2 by (try assumption; lia). reflexivity.
    - destruct l as [|j l]; [exact Hr|]. cbn [map concat app stop]. apply tok_lt.
  Qed.
  Lemma ujoin_concat f i (l : list item) : ujoin (tokof f) (map fst (i :: l)) = fst i ++ concat (map (fun i => tokof f :: fst i) l).
  Proof.
    revert i. induction l as [|j l IH]; intros i; [cbn; now rewrite app_nil_r|]. change (map fst (i :: j :: l)) with (fst i :: map fst (j :: l)).
    change (ujoin (tokof f) (fst i :: map fst (j :: l))) with (fst i ++ tokof f :: ujoin (tokof f) (map fst (j :: l))). rewrite IH. reflexivity.
  Qed.
  (** the text with [rest] following is read as the circuit *)
  Definition closes (rest : text) : Prop := stop Series rest /\ stop Concat rest.
  Lemma items_ok f i l : Forall prim_ok (i :: l) -> exists n0, forall n, n0 <= n -> forall rest, closes rest ->
    read_loose n (ujoin (tokof f) (map fst (i :: l)) ++ rest) = Some (apply_all f (map snd (i :: l)), rest).
  Proof.
    intros H. assert (f = loose \/ f = tight) as [-> | ->] by (unfold loose, tight, CAsciiSpec.loose, CAsciiSpec.tight; destruct f, python; auto).
    - destruct (loose_ok i l H) as [k Hk]. exists k. intros n Hn rest [R1 R2]. rewrite ujoin_concat, <- app_assoc.
      apply Hk; [exact Hn|unfold loose, CAsciiSpec.loose|unfold tight, CAsciiSpec.tight]; destruct python; assumption.
    - destruct (tight_ok i l H) as [k Hk]. exists (S (S k)). intros [|n] Hn rest [R1 R2]; [lia|]. rewrite ujoin_concat, <- app_assoc.
      cbn [CAsciiSpec.read_loose]. rewrite Hk; [|lia|unfold tight, CAsciiSpec.tight; destruct python; assumption].
      destruct n as [|n]; [lia|]. assert (stop loose rest) as Hs by (unfold loose, CAsciiSpec.loose; destruct python; assumption).
      destruct rest as [|x r]; cbn [CAsciiSpec.read_more_loose]; [reflexivity|]. cbn in Hs. now rewrite Hs.
  Qed.

  (** the items of the text of a circuit *)
  Definition shape (c : circ) (t : text) (v : circ) : Prop :=
    exists f i l, t = ujoin (tokof f) (map fst (i :: l)) /\ v = apply_all f (map snd (i :: l)) /\ Forall prim_ok (i :: l)
      /\ match c with CSeries _ => f = Series | CConcat _ => f = Concat | _ => l = [] end.
  Lemma shape_reads c t v : shape c t v -> exists n0, forall n, n0 <= n -> forall rest, closes rest -> read_loose n (t ++ rest) = Some (v, rest).
  Proof. intros (f & i & l & -> & -> & H & _). now apply items_ok. Qed.
  Lemma prim_parens c t v : shape c t v -> prim_ok (uparens t, v).
  Proof.
    intros H. destruct (shape_reads c t v H) as [k Hk]. exists (S k). intros [|n] Hn rest; [lia|]. unfold uparens. cbn [fst snd app CAsciiSpec.read_prim].
    rewrite <- app_assoc. cbn [app]. rewrite Hk; [reflexivity|lia|split; reflexivity].
  Qed.
  Lemma shape_prim c t v : prim_ok (t, v) -> match c with CSeries _ | CConcat _ => False | _ => True end -> shape c t v.
  Proof.
    intros H Hc. exists Series, (t, v), []. split; [reflexivity|]. split; [reflexivity|]. split; [now constructor|]. now destruct c.
  Qed.
  Lemma prim_shape c t v : shape c t v -> match c with CSeries _ | CConcat _ => False | _ => True end -> prim_ok (t, v).
  Proof.
    intros (f & i & l & -> & -> & H & Hl) Hc. assert (l = []) as -> by (destruct c; easy). destruct i as [t v]. exact (Forall_inv H).
  Qed.

  (** [apply_all] absorbs the lists of the operands *)
  Lemma operands_apply f l : operands f (apply_all f l) = flat_map (operands f) l.
  Proof.
    destruct l as [|c [|d l]]; [now destruct f|cbn [apply_all flat_map]; now rewrite app_nil_r|]. unfold apply_all. destruct f; reflexivity.
  Qed.
  Lemma apply_concat f (ls : list (list circ)) : Forall (fun l => l <> []) ls -> apply_all f (concat ls) = apply_all f (map (apply_all f) ls).
  Proof.
    intros H. destruct ls as [|l1 [|l2 ls]]; [reflexivity| |].
    - cbn [concat map]. rewrite app_nil_r. reflexivity.
    - assert (flat_map (operands f) (concat (l1 :: l2 :: ls)) = flat_map (operands f) (map (apply_all f) (l1 :: l2 :: ls))) as E.
      { generalize (l1 :: l2 :: ls). intros m. induction m as [|l m IH]; [reflexivity|]. cbn [concat map flat_map]. rewrite flat_map_app, operands_apply. now f_equal. }
      pose proof (Forall_inv H) as N1. pose proof (Forall_inv (Forall_inv_tail H)) as N2.
      destruct l1 as [|a l1]; [easy|]. destruct l2 as [|b l2]; [easy|].
      assert (forall (x y : circ) m, (exists u v w, m = u :: v :: w) -> apply_all f m = match f with Series => CSeries (flat_map (operands f) m) | Concat => CConcat (flat_map (operands f) m) end) as A.
      { intros _ _ m (u & v & w & ->). reflexivity. }
      rewrite (A a a); [|cbn [concat app]; destruct l1; cbn [app]; repeat eexists]. rewrite (A a a (map _ _)) by (cbn [map]; repeat eexists).
      now rewrite E.
  Qed.

  (** a text made of primaries for the operands of a circuit *)
  Definition part (f : operator) (t : text) (v : circ) : Prop :=
    exists l, t = ujoin (tokof f) (map fst l) /\ v = apply_all f (map snd l) /\ Forall prim_ok l /\ l <> [].
  Lemma part_prim f t v : prim_ok (t, v) -> part f t v.
  Proof. intros H. exists [(t, v)]. repeat split; [constructor; [exact H|constructor]|discriminate]. Qed.
  Lemma ujoin_app (sep : ctoken X) (a b : list text) : a <> [] -> b <> [] -> ujoin sep (a ++ b) = ujoin sep a ++ sep :: ujoin sep b.
  Proof.
    intros Ha Hb. induction a as [|x a IH]; [easy|]. destruct a as [|y a].
    - cbn [app]. destruct b; [easy|reflexivity].
    - change ((x :: y :: a) ++ b) with (x :: (y :: a) ++ b). change (ujoin sep (x :: (y :: a) ++ b)) with (x ++ sep :: ujoin sep ((y :: a) ++ b)).
      rewrite IH by discriminate. change (ujoin sep (x :: y :: a)) with (x ++ sep :: ujoin sep (y :: a)). now rewrite <- app_assoc.
  Qed.
  Lemma parts_shape f (ts : list text) (vs : list circ) : Forall2 (part f) ts vs -> ts <> [] ->
    exists l, l <> [] /\ Forall prim_ok l /\ ujoin (tokof f) ts = ujoin (tokof f) (map fst l) /\ apply_all f vs = apply_all f (map snd l).
  Proof.
    intros H Hne. assert (exists ls, Forall (fun l => l <> []) ls /\ Forall prim_ok (concat ls) /\ ts = map (fun l => ujoin (tokof f) (map fst l)) ls
      /\ vs = map (fun l : list item => apply_all f (map snd l)) ls) as (ls & N & P & Et & Ev).
    { clear Hne. induction H as [|t v ts vs (l & E1 & E2 & E3 & E4) _ (ls & N & P & Et & Ev)]; [exists []; repeat split; constructor|].
      exists (l :: ls). split; [now constructor|]. split; [cbn [concat]; now apply Forall_app|]. split; cbn [map]; now f_equal. }
    exists (concat ls). assert (ls <> []) as Hls by (intros ->; now subst ts). split.
    { destruct ls as [|[|i l] ls]; [easy| |discriminate]. now apply Forall_inv in N. }
    split; [exact P|]. split.
    - rewrite Et. clear - N Hls. induction ls as [|l ls IH]; [easy|]. destruct ls as [|l2 ls]; [cbn [map concat]; now rewrite app_nil_r|].
      change (concat (l :: l2 :: ls)) with (l ++ concat (l2 :: ls)). rewrite (map_app fst l (concat (l2 :: ls))), ujoin_app; [|pose proof (Forall_inv N); destruct l; [easy|discriminate]|].
      + change (map (fun l => ujoin (tokof f) (map fst l)) (l :: l2 :: ls)) with (ujoin (tokof f) (map fst l) :: map (fun l => ujoin (tokof f) (map fst l)) (l2 :: ls)).
        rewrite <- IH; [reflexivity|exact (Forall_inv_tail N)|discriminate].
      + pose proof (Forall_inv (Forall_inv_tail N)). destruct l2; [easy|discriminate].
    - rewrite Ev, concat_map, apply_concat, map_map; [reflexivity|]. clear - N. induction N as [|l ls Hl _ IH]; constructor; [|exact IH]. destruct l; [easy|discriminate].
  Qed.
  Lemma parts_circuit f c (ts : list text) (vs : list circ) : Forall2 (part f) ts vs -> ts <> [] ->
    match c with CSeries _ => f = Series | CConcat _ => f = Concat | _ => False end -> shape c (ujoin (tokof f) ts) (apply_all f vs).
  Proof.
    intros H Hne Hc. destruct (parts_shape f ts vs H Hne) as (l & N & P & -> & ->). destruct l as [|i l]; [easy|]. exists f, i, l.
    repeat split; [exact P|]. now destruct c.
  Qed.

  (** *** concatenations: runs of identities *)
  Definition run (k : nat) : list circ := if 0 <? k then [circuit_identity k] else [].
  Fixpoint group (k : nat) (ops : list circ) : list circ :=
    match ops with [] => run k | o :: r => match o with CId => group (k + 1) r | _ => run k ++ flat o :: group 0 r end end.
  Lemma group_other k o r : o <> CId -> group k (o :: r) = run k ++ flat o :: group 0 r.
  Proof. now destruct o. Qed.
  Lemma group_span n : forall k r, group k (repeat CId n ++ r) = group (k + n) r.
  Proof. induction n as [|n IH]; intros k r; [now rewrite Nat.add_0_r|]. cbn [repeat app group]. rewrite IH. f_equal. lia. Qed.
  Lemma span (l : list circ) : exists n, l = repeat CId n \/ exists o r, l = repeat CId n ++ o :: r /\ o <> CId.
  Proof.
    induction l as [|o l (n & [-> | (p & r & -> & Hp)])]; [exists 0; now left| |];
      (assert (o = CId \/ o <> CId) as [-> | N] by (destruct o; (now left) || (right; discriminate))).
    - exists (S n). now left.
    - exists 0. right. exists o, (repeat CId n). now split.
    - exists (S n). right. exists p, r. now split.
    - exists 0. right. exists o, (repeat CId n ++ p :: r). now split.
  Qed.
  Lemma run_operands k : flat_map (operands Concat) (run k) = repeat CId k.
  Proof. unfold run. destruct k as [|[|k]]; [reflexivity|reflexivity|]. cbn [Nat.ltb Nat.leb flat_map circuit_identity CAsciiSpec.operands]. now rewrite app_nil_r. Qed.
  Lemma ids_operands n : flat_map (operands Concat) (map flat (repeat (@CId X) n)) = repeat CId n.
  Proof. induction n; [reflexivity|]. cbn [repeat map flat flat_map CAsciiSpec.operands app]. now f_equal. Qed.
  Lemma group_operands l : flat_map (operands Concat) (group 0 l) = flat_map (operands Concat) (map flat l).
  Proof.
    remember (length l) as m eqn:Em. assert (length l <= m) as Hm by lia. clear Em. revert l Hm. induction m as [|m IH]; intros l Hm; [destruct l; [reflexivity|cbn in Hm; lia]|].
    destruct (span l) as (n & [-> | (o & r & -> & No)]).
    - rewrite <- (app_nil_r (repeat CId n)) at 1. rewrite group_span. cbn [group]. now rewrite run_operands, ids_operands.
    - rewrite group_span, group_other by exact No. rewrite map_app, !flat_map_app, run_operands, ids_operands. cbn [map flat_map Nat.add]. f_equal. f_equal.
      apply IH. rewrite app_length in Hm. cbn [length] in Hm. lia.
  Qed.
  Lemma group_nil l : group 0 l = [] -> l = [].
  Proof.
    destruct (span l) as (n & [-> | (o & r & -> & No)]).
    - rewrite <- (app_nil_r (repeat CId n)) at 1. rewrite group_span. cbn [group Nat.add]. unfold run. destruct n; [reflexivity|discriminate].
    - rewrite group_span, group_other by exact No. intros E. now apply app_eq_nil in E as [_ E].
  Qed.
  Lemma two (l m : list circ) : 2 <= length l -> 2 <= length m -> flat_map (operands Concat) l = flat_map (operands Concat) m -> apply_all Concat l = apply_all Concat m.
  Proof. destruct l as [|a [|b l]], m as [|c [|d m]]; cbn [length]; try lia. intros _ _ E. unfold CAsciiSpec.apply_all. now rewrite E. Qed.
  Lemma group_apply l : l <> [] -> apply_all Concat (group 0 l) = apply_all Concat (map flat l).
  Proof.
    intros Hl. destruct (span l) as (n & [-> | (o & r & -> & No)]).
    - transitivity (apply_all Concat (group 0 (repeat CId n ++ []))); [now rewrite app_nil_r|]. rewrite group_span. cbn [group Nat.add]. unfold run. destruct n as [|[|n]]; [easy|reflexivity|].
      change (0 <? S (S n)) with true. cbn iota. change (apply_all Concat [circuit_identity (S (S n))]) with (@CConcat X (repeat CId (S (S n)))).
      rewrite <- (ids_operands (S (S n))) at 1. reflexivity.
    - destruct (Nat.eq_dec (n + length r) 0) as [E|E].
      + destruct n; [|lia]. destruct r; [|cbn in E; lia]. cbn [repeat app]. rewrite group_other by exact No. reflexivity.
      + apply two; [| |apply group_operands].
        * rewrite group_span, group_other by exact No. rewrite app_length. cbn [length Nat.add]. destruct n as [|n]; [|unfold run; cbn [Nat.ltb Nat.leb length]; lia].
          destruct r as [|x r]; [cbn in E; lia|]. destruct (group 0 (x :: r)) eqn:G; [now apply group_nil in G|]. cbn [length]. lia.
        * rewrite map_length, app_length, repeat_length. cbn [length]. lia.
  Qed.
  Lemma run_part k : Forall2 (part Concat) (if 0 <? k then [[UCid k]] else []) (run k).
  Proof.
    unfold run. destruct (Nat.ltb_spec 0 k) as [Hk|Hk]; constructor; [|constructor]. apply part_prim. exists 1. intros [|n] Hn rest; [lia|].
    destruct k as [|[|k]]; [lia|reflexivity|reflexivity].
  Qed.
  Lemma cat_parts_group ops : Forall (fun o : circ => shape o (ctext o) (flat o)) ops -> forall k,
    Forall2 (part Concat) (cat_parts k (map (fun o => (o, ctext o)) ops)) (group k ops).
  Proof.
    induction ops as [|o ops IH]; intros H k; [apply run_part|]. pose proof (Forall_inv H) as Ho. apply Forall_inv_tail in H.
    cbn [map cat_parts group]. 
    assert (o <> CId -> part Concat (match o with CSeries _ => uparens (ctext o) | _ => uparenthesize (cprec o) 40 (ctext o) end) (flat o)) as P.
    { intros _. destruct o; try (apply part_prim; apply (prim_shape _ _ _ Ho); exact Logic.I).
      - apply part_prim. exact (prim_parens _ _ _ Ho).
      - destruct Ho as (f & i & l & E1 & E2 & E3 & E4). cbn in E4. subst f. exists (i :: l). repeat split; [exact E1|exact E2|exact E3|discriminate]. }
    assert (forall t v, part Concat t v -> Forall2 (part Concat) (if 0 <? k then [UCid k] :: t :: cat_parts 0 (map (fun o => (o, ctext o)) ops) else t :: cat_parts 0 (map (fun o => (o, ctext o)) ops)) (run k ++ v :: group 0 ops)) as G.
    { intros t v Ht. pose proof (run_part k) as R. pose proof (IH H 0) as I0. revert R. unfold run. destruct (0 <? k); intros R; cbn [app].
      - constructor; [inversion R; assumption|]. now constructor.
      - now constructor. }
    destruct o; try (apply G, P; discriminate). apply IH, H.
  Qed.

  Theorem text_shape (c : circ) : nonempty c -> labelled chan c -> shape c (ctext c) (flat c).
  Proof.
    induction c as [l n|s n|p| | |ops IH|ops IH|d o i IH|d IH] using circ_ind'; intros Hn Hl;
      try (apply shape_prim; [|exact Logic.I]; exists 1; intros [|k] Hk rest; [lia|reflexivity]).
    - apply shape_prim; [|exact Logic.I]. cbn in Hl. subst n. exists 1. intros [|k] Hk rest; [lia|reflexivity].
    - destruct Hn as [Hne Hn]. change (ctext (CSeries ops)) with (ujoin (tokof Series) (map (fun o => uparenthesize (cprec o) 50 (ctext o)) ops)).
      change (flat (CSeries ops)) with (apply_all Series (map flat ops)). apply parts_circuit; [|destruct ops; [easy|discriminate]|reflexivity].
      clear Hne. cbn [labelled] in Hl. induction ops as [|o ops IHo]; [constructor|]. cbn [map]. destruct Hn as [N1 N2], Hl as [L1 L2].
      constructor; [|apply IHo; [exact (Forall_inv_tail IH)|assumption|assumption]]. pose proof (Forall_inv IH N1 L1) as Ho.
      destruct o; try (apply part_prim; apply (prim_shape _ _ _ Ho); exact Logic.I).
      + destruct Ho as (f & i & l & E1 & E2 & E3 & E4). cbn in E4. subst f. exists (i :: l). repeat split; [exact E1|exact E2|exact E3|discriminate].
      + apply part_prim. exact (prim_parens _ _ _ Ho).
    - destruct Hn as [Hne Hn]. change (ctext (CConcat ops)) with (ujoin (tokof Concat) (cat_parts 0 (map (fun o => (o, ctext o)) ops))).
      change (flat (CConcat ops)) with (apply_all Concat (map flat ops)). rewrite <- group_apply by exact Hne. apply parts_circuit; [| |reflexivity].
      + apply cat_parts_group. clear Hne. cbn [labelled] in Hl. induction ops as [|o ops IHo]; [constructor|]. destruct Hn as [N1 N2], Hl as [L1 L2].
        constructor; [exact (Forall_inv IH N1 L1)|]. apply IHo; [exact (Forall_inv_tail IH)|assumption|assumption].
      + assert (length (cat_parts 0 (map (fun o => (o, ctext o)) ops)) = length (group 0 ops)) as E.
        { clear. generalize 0. induction ops as [|o ops IH]; intros k; cbn [map cat_parts group]; [unfold run; destruct (0 <? k); reflexivity|].
          destruct o; try apply IH; unfold run; destruct (0 <? k); cbn [length app]; now rewrite IH. }
        intros E0. rewrite E0 in E. apply Hne, group_nil. now destruct (group 0 ops).
    - apply shape_prim; [|exact Logic.I]. destruct (shape_reads _ _ _ (IH Hn Hl)) as [k Hk]. exists (S k). intros [|n] H rest; [lia|].
      cbn [ctext fst snd app CAsciiSpec.read_prim]. rewrite <- app_assoc. cbn [app]. rewrite Hk; [reflexivity|lia|split; reflexivity].
    - apply shape_prim; [|exact Logic.I]. destruct (shape_reads _ _ _ (IH Hn Hl)) as [k Hk]. exists (S k). intros [|n] H rest; [lia|].
      cbn [ctext fst snd app CAsciiSpec.read_prim]. rewrite <- app_assoc. cbn [app]. rewrite Hk; [reflexivity|lia|split; reflexivity].
  Qed.
  Theorem text_reads (c : circ) : nonempty c -> labelled chan c -> creads chan python (ctext c) (flat c).
  Proof.
    intros Hn Hl. destruct (shape_reads _ _ _ (text_shape c Hn Hl)) as [k Hk]. exists k. intros n H. rewrite <- (app_nil_r (ctext c)). apply Hk; [exact H|]. split; exact Logic.I.
  Qed.
End Proofs.

Lemma creads_fun {X} chan python (t : list (ctoken X)) c d : creads chan python t c -> creads chan python t d -> c = d.
Proof. intros [n H] [m H']. specialize (H (max n m) ltac:(lia)). specialize (H' (max n m) ltac:(lia)). congruence. Qed.

Lemma flattened_flat {X} (c : circ X) : flattened c -> flat c = c.
Proof.
  induction c as [l n|s n|p| | |ops IH|ops IH|d o i IH|d IH] using circ_ind'; intros H; cbn [flat]; try reflexivity.
  - destruct H as [H2 H]. assert (map flat ops = ops /\ flat_map (operands Series) ops = ops) as [-> E].
    { clear H2. induction ops as [|o ops IHo]; [now split|]. destruct H as [[H1 H2] H3]. destruct (IHo (Forall_inv_tail IH) H3) as [E1 E2].
      cbn [map flat_map]. rewrite E1, E2. rewrite (Forall_inv IH H1). split; [reflexivity|]. now destruct o. }
    destruct ops as [|a [|b ops]]; cbn [length] in H2; try lia. unfold apply_all. now rewrite E.
  - destruct H as [H2 H]. assert (map flat ops = ops /\ flat_map (operands Concat) ops = ops) as [-> E].
    { clear H2. induction ops as [|o ops IHo]; [now split|]. destruct H as [[H1 H2] H3]. destruct (IHo (Forall_inv_tail IH) H3) as [E1 E2].
      cbn [map flat_map]. rewrite E1, E2. rewrite (Forall_inv IH H1). split; [reflexivity|]. now destruct o. }
    destruct ops as [|a [|b ops]]; cbn [length] in H2; try lia. unfold apply_all. now rewrite E.
  - now rewrite IH.
  - now rewrite IH.
Qed.
Lemma flattened_nonempty {X} (c : circ X) : flattened c -> nonempty c.
Proof.
  induction c as [l n|s n|p| | |ops IH|ops IH|d o i IH|d IH] using circ_ind'; intros H; cbn [nonempty]; try exact Logic.I; try (now apply IH);
    (destruct H as [H2 H]; split; [destruct ops; [cbn in H2; lia|discriminate]|]; clear H2; induction ops as [|o ops IHo]; [exact Logic.I|];
     destruct H as [[H1 _] H3]; split; [exact (Forall_inv IH H1)|exact (IHo (Forall_inv_tail IH) H3)]).
Qed.

(** *** writing nested products as one does not change the meaning *)
From Verif Require Import CSimpModel CSimpSpec CSimpProofs5.
Section Meaning.
  Context (M : cmodel) {X : Type} (sym : nat -> nat -> dom M) (lden : X -> dom M).
  Local Notation mean := (mean M sym lden). Local Notation smean := (smean M sym lden). Local Notation cmean := (cmean M sym lden).
  Lemma operands_series (l : list (circ X)) : flat_map (operands Series) l = flat_series l.
  Proof. unfold flat_series. induction l as [|c l IH]; [reflexivity|]. cbn [flat_map]. rewrite IH. now destruct c. Qed.
  Lemma operands_concat (l : list (circ X)) : flat_map (operands Concat) l = flat_concat l.
  Proof. unfold flat_concat. induction l as [|c l IH]; [reflexivity|]. cbn [flat_map]. rewrite IH. now destruct c. Qed.
  Lemma no_fb_all (l : list (circ X)) : fold_right (fun o P => no_feedback o /\ P) True l <-> Forall (fun o => no_feedback o) l.
  Proof. induction l as [|o l IH]; cbn [fold_right]; [split; [constructor|easy]|]. rewrite IH. split; [intros [A B]; now constructor|intros A; split; [exact (Forall_inv A)|exact (Forall_inv_tail A)]]. Qed.
  Lemma no_fb_operands f (l : list (circ X)) : Forall (fun o => no_feedback o) l -> Forall (fun o => no_feedback o) (flat_map (operands f) l).
  Proof.
    induction l as [|o l IH]; intros H; [constructor|]. cbn [flat_map]. apply Forall_app. split; [|apply IH, (Forall_inv_tail H)]. apply Forall_inv in H.
    destruct f, o; try (now constructor); now apply no_fb_all.
  Qed.
  Lemma flat_no_feedback (c : circ X) : no_feedback c -> no_feedback (flat c).
  Proof.
    induction c as [l n|s n|p| | |ops IH|ops IH|d o i IH|d IH] using circ_ind'; intros H; cbn [flat]; try exact H; try (now apply IH);
      (change (fold_right (fun o P => no_feedback o /\ P) True ops) in H; apply no_fb_all in H;
       assert (Forall (fun o => no_feedback o) (map flat ops)) as F by (rewrite Forall_map; rewrite Forall_forall in *; intros x Hx; apply IH; auto);
       unfold apply_all; destruct (map flat ops) as [|a [|b m]]; [exact Logic.I|exact (Forall_inv F)|apply no_fb_all, no_fb_operands, F]).
  Qed.
  Lemma flat_mean c n a : mean c n a -> mean (flat c) n a.
  Proof.
    apply (mean_mut M X sym lden (fun c n a => mean (flat c) n a) (fun l n a => smean (map flat l) n a)
      (fun l n a => cmean (map flat l) n a /\ (Forall (fun o => 0 < cdim o) l -> Forall (fun o => 0 < cdim o) (map flat l)))); cbn [flat]; clear c n a.
    - intros. now constructor.
    - intros. now constructor.
    - intros. now constructor.
    - constructor.
    - constructor.
    - intros ops n a Hne Hn _ H. destruct ops as [|o ops]; [easy|]. unfold apply_all. destruct (map flat (o :: ops)) as [|x [|y m]] eqn:E; [discriminate|now apply smean_1_inv|].
      rewrite <- E in *. constructor; [|exact Hn|].
      + rewrite operands_series. eapply flat_series_ne; [exact H|discriminate].
      + rewrite operands_series. now apply flat_series_ok.
    - intros ops n a Hne Hc [H Hp] Hpos. apply Hp in Hpos. destruct ops as [|o ops]; [easy|]. unfold apply_all. destruct (map flat (o :: ops)) as [|x [|y m]] eqn:E; [discriminate|now apply cmean_1_inv|].
      clear E. constructor; [|rewrite operands_concat; now apply flat_concat_ok|].
      + cbn [flat_map CAsciiSpec.operands]. pose proof (Forall_inv Hpos) as Px. destruct x as [| | | | | |lx| |]; cbn [CAsciiSpec.operands app]; try discriminate. destruct lx; [cbn in Px; lia|discriminate].
      + revert H Hpos. clear. generalize (x :: y :: m). intros l. revert n a. induction l as [|c l IH]; intros n a H Hp; [constructor|]. cbn [flat_map].
        inversion H as [|? ? k1 k2 u v Hc Hl]; subst. apply Forall_app. split; [|exact (IH _ _ Hl (Forall_inv_tail Hp))]. pose proof (Forall_inv Hp) as P0.
        destruct c; cbn [CAsciiSpec.operands]; try (now constructor). now inversion Hc.
    - intros d n a o i b _ H Hn Ho Hi Hl. econstructor; eassumption.
    - intros d n a _ H Hn Hf. constructor; [exact H|exact Hn|]. now apply flat_no_feedback.
    - intros n. constructor.
    - intros d l n a b _ Hd _ Hl. cbn [map]. now constructor.
    - split; [constructor|intros _; constructor].
    - intros d l n m a b Hd0 Hd _ [Hl Hp]. cbn [map]. split; [now constructor|]. intros P. constructor; [|apply Hp, (Forall_inv_tail P)].
      rewrite (mean_cdim _ _ _ _ _ _ Hd), <- (mean_cdim _ _ _ _ _ _ Hd0). exact (Forall_inv P).
  Qed.
End Meaning.
