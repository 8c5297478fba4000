(** Reading back what srepr prints: texts put together from texts. *)
From Verif Require Import Prelude ListFacts SreprModel SreprSpec.

Section Parse.
Context (env : nat -> option px).
Local Notation parse := (parse env). Local Notation parse_members := (parse_members env).
Local Notation parse_args := (parse_args env). Local Notation parse_keys := (parse_keys env).

(** what may follow a value, what a value starts with *)
Definition follows (r : list tok) : Prop := match r with [] | TComma :: _ | TRp :: _ | TRb :: _ => True | _ => False end.
Definition opener (t : tok) : Prop := match t with TName _ | TLeaf _ | TStr _ | TLp | TLb => True | _ => False end.
Definition ev {A} (g : nat -> option A) (v : A) : Prop := exists f0, forall f, f0 <= f -> g f = Some v.
Definition rd (s : list tok) (x : px) : Prop :=
  (exists t s', spaceless s = t :: s' /\ opener t) /\
  forall rest, follows rest -> ev (fun f => parse f (spaceless s ++ rest)) (x, rest).

Lemma ev_S {A} (g : nat -> option A) v : ev (fun f => g (S f)) v -> ev g v.
Proof. intros [f0 H]. exists (S f0). intros [|f] Hf; [lia|]. apply H. lia. Qed.
Lemma ev_bind {A B} (g : nat -> option A) (h : A -> nat -> option B) v w : ev g v -> ev (h v) w -> ev (fun f => match g f with Some u => h u f | None => None end) w.
Proof. intros [f0 H] [f1 H1]. exists (f0 + f1). intros f Hf. rewrite H by lia. apply H1. lia. Qed.
Lemma ev_ret {A} (v : A) : ev (fun _ => Some v) v.
Proof. exists 0. reflexivity. Qed.
Lemma ev_ext {A} (g h : nat -> option A) v : (forall f, g f = h f) -> ev h v -> ev g v.
Proof. intros E [f0 H]. exists f0. intros f Hf. rewrite E. now apply H. Qed.

Lemma spaceless_app a b : spaceless (a ++ b) = spaceless a ++ spaceless b.
Proof. apply filter_app. Qed.

Lemma rd_name n : env n = None -> rd [TName n] (XSing n).
Proof.
  intros E. split; [now exists (TName n), []|]. intros rest Hr. apply ev_S. exists 0. intros f _. cbn.
  destruct rest as [|[] rest]; cbn in Hr; try contradiction; now rewrite E.
Qed.
Lemma rd_var n v : env n = Some v -> rd [TName n] v.
Proof.
  intros E. split; [now exists (TName n), []|]. intros rest Hr. apply ev_S. exists 0. intros f _. cbn.
  destruct rest as [|[] rest]; cbn in Hr; try contradiction; now rewrite E.
Qed.
Lemma rd_leaf n : rd [TLeaf n] (XLeaf n).
Proof. split; [now exists (TLeaf n), []|]. intros rest _. apply ev_S. exists 0. reflexivity. Qed.
Lemma rd_str n : rd [TStr n] (XStr n).
Proof. split; [now exists (TStr n), []|]. intros rest _. apply ev_S. exists 0. reflexivity. Qed.

(** *** members of tuples and lists *)
Definition closer (c : tok) : Prop := c = TRp \/ c = TRb.
Lemma members_end c rest : closer c -> ev (fun f => parse_members f c (c :: rest)) ([], rest).
Proof. intros [-> | ->]; apply ev_S; exists 0; reflexivity. Qed.
Lemma members_step f c t s : closer c -> opener t -> parse_members (S f) c (t :: s) =
  match parse f (t :: s) with
      | Some (x, TComma :: r) => match parse_members f c r with Some (l, r') => Some (x :: l, r') | None => None end
      | Some (x, TRp :: r) => match c with TRp => Some ([x], r) | _ => None end
      | Some (x, TRb :: r) => match c with TRb => Some ([x], r) | _ => None end
      | _ => None
  end.
Proof. intros [-> | ->] Ht; destruct t; cbn in Ht; try contradiction; reflexivity. Qed.
Lemma members_ok c (tail : list tok) rest ss xs : closer c -> tail = [c] \/ tail = [TComma; c] -> Forall2 rd ss xs -> ss <> [] ->
  ev (fun f => parse_members f c (spaceless (join ss) ++ tail ++ rest)) (xs, rest).
Proof.
  intros Hc Ht H. induction H as [|s x ss xs [Ho Hs] HF IH]; intros Hn; [contradiction|]. destruct Ho as [t [s' [Es Ho]]]. apply ev_S.
  destruct ss as [|s2 ss].
  - inversion HF. subst. cbn [join].
    eapply ev_ext. { intros f. rewrite Es. cbn [app]. rewrite (members_step f c t _ Hc Ho). reflexivity. }
    change (t :: s' ++ tail ++ rest) with ((t :: s') ++ tail ++ rest). rewrite <- Es.
    eapply (ev_bind (fun f => parse f (spaceless s ++ tail ++ rest)) (fun u f => match u with
       | (x, TComma :: r) => match parse_members f c r with Some (l, r') => Some (x :: l, r') | None => None end
       | (x, TRp :: r) => match c with TRp => Some ([x], r) | _ => None end
       | (x, TRb :: r) => match c with TRb => Some ([x], r) | _ => None end
       | _ => None end) (x, tail ++ rest)).
    + apply Hs. destruct Ht as [-> | ->]; [destruct Hc as [-> | ->]|]; exact Logic.I.
    + destruct Ht as [-> | ->]; cbn [app]; [destruct Hc as [-> | ->]; apply ev_ret|].
      apply (ev_bind (fun f => parse_members f c (c :: rest)) (fun u f => let '(l, r') := u in Some (x :: l, r')) ([], rest)); [now apply members_end|apply ev_ret].
  - specialize (IH ltac:(discriminate)). change (join (s :: s2 :: ss)) with (s ++ TComma :: TSp :: join (s2 :: ss)). rewrite spaceless_app. cbn [spaceless filter].
    fold (spaceless (join (s2 :: ss))). rewrite <- app_assoc. cbn [app].
    eapply ev_ext. { intros f. rewrite Es. cbn [app]. rewrite (members_step f c t _ Hc Ho). reflexivity. }
    rewrite app_comm_cons, <- Es.
    eapply (ev_bind (fun f => parse f (spaceless s ++ TComma :: spaceless (join (s2 :: ss)) ++ tail ++ rest)) (fun u f => match u with
       | (x, TComma :: r) => match parse_members f c r with Some (l, r') => Some (x :: l, r') | None => None end
       | (x, TRp :: r) => match c with TRp => Some ([x], r) | _ => None end
       | (x, TRb :: r) => match c with TRb => Some ([x], r) | _ => None end
       | _ => None end) (x, TComma :: spaceless (join (s2 :: ss)) ++ tail ++ rest)).
    + apply Hs. exact Logic.I.
    + apply (ev_bind (fun f => parse_members f c (spaceless (join (s2 :: ss)) ++ tail ++ rest)) (fun u f => let '(l, r') := u in Some (x :: l, r')) (xs, rest)); [exact IH|apply ev_ret].
Qed.
Lemma rd_list ss xs : Forall2 rd ss xs -> rd (seq_text TLb TRb ss) (XList xs).
Proof.
  intros H. split. { exists TLb. eexists. split; [reflexivity|exact Logic.I]. }
  intros rest Hr. apply ev_S. unfold seq_text. cbn [spaceless filter app]. change (filter (fun t => match t with TSp => false | _ => true end)) with spaceless.
  rewrite spaceless_app, <- app_assoc.
  assert (ev (fun f => parse_members f TRb (spaceless (join ss) ++ spaceless (match ss with [_] => [TComma; TRb] | _ => [TRb] end) ++ rest)) (xs, rest)) as HM.
  { destruct ss as [|s ss].
    - inversion H. subst. cbn. apply members_end. now right.
    - apply members_ok; [now right| |exact H|discriminate]. destruct ss; [now right|now left]. }
  apply (ev_bind (fun f => parse_members f TRb (spaceless (join ss) ++ spaceless (match ss with [_] => [TComma; TRb] | _ => [TRb] end) ++ rest)) (fun u f => let '(l, r') := u in Some (XList l, r')) (xs, rest)); [exact HM|apply ev_ret].
Qed.
Lemma paren_step f t s : opener t -> parse (S f) (TLp :: t :: s) =
      match parse f (t :: s) with
      | Some (x, TRp :: r') => Some (x, r')
      | Some (x, TComma :: r') => match parse_members f TRp r' with Some (l, r'') => Some (XTup (x :: l), r'') | None => None end
      | _ => None
      end.
Proof. destruct t; cbn [opener]; intros H; try contradiction; reflexivity. Qed.
Lemma rd_tup ss xs : Forall2 rd ss xs -> rd (seq_text TLp TRp ss) (XTup xs).
Proof.
  intros H. split. { exists TLp. eexists. split; [reflexivity|exact Logic.I]. }
  intros rest Hr. apply ev_S. unfold seq_text. cbn [spaceless filter app]. change (filter (fun t => match t with TSp => false | _ => true end)) with spaceless.
  rewrite spaceless_app, <- app_assoc.
  destruct H as [|s x ss xs [[t [s' [Es Ho]]] Hs] HF]; [apply ev_ret|].
  assert (exists r, spaceless (join (s :: ss)) ++ spaceless (match ss with [] => [TComma; TRp] | _ => [TRp] end) ++ rest = spaceless s ++ TComma :: r
    /\ ev (fun f => parse_members f TRp r) (xs, rest)) as [r [Er Hm]].
  { destruct ss as [|s2 ss].
    - inversion HF. subst. cbn [join]. exists (TRp :: rest). split; [reflexivity|]. apply members_end. now left.
    - exists (spaceless (join (s2 :: ss)) ++ [TRp] ++ rest). split.
      + change (join (s :: s2 :: ss)) with (s ++ TComma :: TSp :: join (s2 :: ss)). rewrite spaceless_app. cbn [spaceless filter]. fold (spaceless (join (s2 :: ss))). now rewrite <- app_assoc.
      + apply members_ok; [now left|now left|exact HF|discriminate]. }
  rewrite Er, Es. cbn [app].
  eapply ev_ext. { intros f. rewrite (paren_step f t _ Ho). reflexivity. }
  rewrite app_comm_cons, <- Es.
  apply (ev_bind (fun f => parse f (spaceless s ++ TComma :: r)) (fun u f => match u with
      | (x, TRp :: r') => Some (x, r')
      | (x, TComma :: r') => match parse_members f TRp r' with Some (l, r'') => Some (XTup (x :: l), r'') | None => None end
      | _ => None end) (x, TComma :: r)); [apply Hs; exact Logic.I|].
  apply (ev_bind (fun f => parse_members f TRp r) (fun u f => let '(l, r') := u in Some (XTup (x :: l), r')) (xs, rest)); [exact Hm|apply ev_ret].
Qed.

(** *** calls *)
Definition rdk (p : nat * list tok) (q : nat * px) : Prop := fst p = fst q /\ rd (snd p) (snd q).
Lemma keys_ok rest ks kw : Forall2 rdk ks kw -> ks <> [] ->
  ev (fun f => parse_keys f (spaceless (join (map (fun p => TKey (fst p) :: TEq :: snd p) ks)) ++ TRp :: rest)) (kw, rest).
Proof.
  intros H. induction H as [|[k s] [k' x] ks kw [Ek [_ Hs]] HF IH]; intros Hn; [contradiction|]. cbn [fst snd] in Ek, Hs. subst k'. apply ev_S.
  destruct ks as [|p2 ks].
  - inversion HF. subst. cbn [map fst snd join spaceless filter app]. change (filter (fun t => match t with TSp => false | _ => true end)) with spaceless.
    apply (ev_bind (fun f => parse f (spaceless s ++ TRp :: rest)) (fun u f => match u with
      | (x, TComma :: r') => match parse_keys f r' with Some (kw, r'') => Some ((k, x) :: kw, r'') | None => None end
      | (x, TRp :: r') => Some ([(k, x)], r')
      | _ => None end) (x, TRp :: rest)); [apply Hs; exact Logic.I|apply ev_ret].
  - specialize (IH ltac:(discriminate)). cbn [map fst snd] in *.
    set (J := join ((TKey (fst p2) :: TEq :: snd p2) :: map (fun p => TKey (fst p) :: TEq :: snd p) ks)) in *.
    change (join ((TKey k :: TEq :: s) :: (TKey (fst p2) :: TEq :: snd p2) :: map (fun p => TKey (fst p) :: TEq :: snd p) ks)) with (TKey k :: TEq :: s ++ TComma :: TSp :: J).
    cbn [spaceless filter]. fold (spaceless (s ++ TComma :: TSp :: J)). rewrite spaceless_app. cbn [spaceless filter]. fold (spaceless J). rewrite <- !app_comm_cons, <- app_assoc. cbn [app].
    apply (ev_bind (fun f => parse f (spaceless s ++ TComma :: spaceless J ++ TRp :: rest)) (fun u f => match u with
      | (x, TComma :: r') => match parse_keys f r' with Some (kw, r'') => Some ((k, x) :: kw, r'') | None => None end
      | (x, TRp :: r') => Some ([(k, x)], r')
      | _ => None end) (x, TComma :: spaceless J ++ TRp :: rest)); [apply Hs; exact Logic.I|].
    apply (ev_bind (fun f => parse_keys f (spaceless J ++ TRp :: rest)) (fun u f => let '(l, r') := u in Some ((k, x) :: l, r')) (kw, rest)); [exact IH|apply ev_ret].
Qed.
Definition kw_text (ks : list (nat * list tok)) : list tok := join (map (fun p => TKey (fst p) :: TEq :: snd p) ks).
Lemma kw_starts p ks : exists s, spaceless (kw_text (p :: ks)) = TKey (fst p) :: s.
Proof. unfold kw_text. destruct ks; cbn [map join app spaceless filter]; eexists; reflexivity. Qed.
Lemma keys_step f k s : parse_args (S f) (TKey k :: s) = match parse_keys f (TKey k :: s) with Some (kw, r) => Some ([], kw, r) | None => None end.
Proof. reflexivity. Qed.
Lemma args_keys rest ks kw : Forall2 rdk ks kw -> ev (fun f => parse_args f (spaceless (kw_text ks) ++ TRp :: rest)) ([], kw, rest).
Proof.
  intros H. apply ev_S. destruct ks as [|p ks]; [inversion H; apply ev_ret|].
  pose proof (keys_ok rest (p :: ks) kw H ltac:(discriminate)) as HK. fold (kw_text (p :: ks)) in HK. destruct (kw_starts p ks) as [s Es].
  eapply ev_ext. { intros f. rewrite Es. cbn [app]. rewrite keys_step. reflexivity. }
  rewrite app_comm_cons, <- Es. apply (ev_bind (fun f => parse_keys f (spaceless (kw_text (p :: ks)) ++ TRp :: rest)) (fun u f => let '(l, r') := u in Some ([], l, r')) (kw, rest)); [exact HK|apply ev_ret].
Qed.
Lemma args_step f t s : opener t -> parse_args (S f) (t :: s) =
      match parse f (t :: s) with
      | Some (x, TComma :: r) => match parse_args f r with Some (args, kw, r') => Some (x :: args, kw, r') | None => None end
      | Some (x, TRp :: r) => Some ([x], [], r)
      | _ => None
      end.
Proof. destruct t; cbn [opener]; intros H; try contradiction; reflexivity. Qed.
Definition kw_tail (args : list (list tok)) (ks : list (nat * list tok)) : list tok :=
  match ks with [] => [] | _ => (match args with [] => [] | _ => [TComma; TSp] end) ++ kw_text ks end.
Lemma args_ok rest ss xs ks kw : Forall2 rd ss xs -> Forall2 rdk ks kw ->
  ev (fun f => parse_args f (spaceless (join ss ++ kw_tail ss ks) ++ TRp :: rest)) (xs, kw, rest).
Proof.
  intros H HK. induction H as [|s x ss xs [[t [s' [Es Ho]]] Hs] HF IH].
  - cbn [join app]. unfold kw_tail. destruct ks as [|p ks]; [inversion HK; apply ev_S, ev_ret|]. cbn [app]. now apply args_keys.
  - apply ev_S.
    assert (exists r, spaceless (join (s :: ss) ++ kw_tail (s :: ss) ks) ++ TRp :: rest = spaceless s ++ r /\ follows r /\
      ev (fun f => match r with TComma :: r' => match parse_args f r' with Some (args, kw, r'') => Some (x :: args, kw, r'') | None => None end
                                | TRp :: r' => Some ([x], [], r') | _ => None end) (x :: xs, kw, rest)) as [r [Er [Hf Hr]]].
    { destruct ss as [|s2 ss].
      - inversion HF. subst. cbn [join]. rewrite spaceless_app, <- app_assoc. eexists. split; [reflexivity|]. unfold kw_tail. destruct ks as [|p ks].
        + inversion HK. subst. cbn. split; [exact Logic.I|apply ev_ret].
        + cbn [app spaceless filter]. fold (spaceless (kw_text (p :: ks))). split; [exact Logic.I|].
          apply (ev_bind (fun f => parse_args f (spaceless (kw_text (p :: ks)) ++ TRp :: rest)) (fun u f => let '(a, k, r') := u in Some (x :: a, k, r')) ([], kw, rest)); [now apply args_keys|apply ev_ret].
      - exists (TComma :: spaceless (join (s2 :: ss) ++ kw_tail (s2 :: ss) ks) ++ TRp :: rest). split; [|split; [exact Logic.I|]].
        + change (join (s :: s2 :: ss)) with (s ++ TComma :: TSp :: join (s2 :: ss)). rewrite !spaceless_app. cbn [spaceless filter]. fold (spaceless (join (s2 :: ss))).
          change (kw_tail (s2 :: ss) ks) with (kw_tail (s :: s2 :: ss) ks). rewrite <- !app_assoc. cbn [app]. reflexivity.
        + apply (ev_bind (fun f => parse_args f (spaceless (join (s2 :: ss) ++ kw_tail (s2 :: ss) ks) ++ TRp :: rest)) (fun u f => let '(a, k, r') := u in Some (x :: a, k, r')) (xs, kw, rest)); [exact IH|apply ev_ret]. }
    rewrite Er, Es. cbn [app]. eapply ev_ext. { intros f. rewrite (args_step f t _ Ho). reflexivity. }
    rewrite app_comm_cons, <- Es.
    apply (ev_bind (fun f => parse f (spaceless s ++ r)) (fun u f => match u with
      | (x, TComma :: r) => match parse_args f r with Some (args, kw, r') => Some (x :: args, kw, r') | None => None end
      | (x, TRp :: r) => Some ([x], [], r)
      | _ => None end) (x, r)); [now apply Hs|]. exact Hr.
Qed.
Lemma call_kw h ss ks : call_text h ss ks = TName h :: TLp :: (join ss ++ kw_tail ss ks) ++ [TRp].
Proof. unfold call_text, kw_tail, kw_text. rewrite <- app_assoc. reflexivity. Qed.
Lemma rd_call h ss xs ks kw : Forall2 rd ss xs -> Forall2 rdk ks kw -> rd (call_text h ss ks) (XExpr h xs kw).
Proof.
  intros H HK. rewrite call_kw. split. { eexists. eexists. split; [reflexivity|exact Logic.I]. }
  intros rest _. apply ev_S. cbn [spaceless filter app]. fold (spaceless ((join ss ++ kw_tail ss ks) ++ [TRp])). rewrite spaceless_app. cbn [spaceless filter]. fold (spaceless (join ss ++ kw_tail ss ks)). rewrite <- app_assoc. cbn [app].
  apply (ev_bind (fun f => parse_args f (spaceless (join ss ++ kw_tail ss ks) ++ TRp :: rest)) (fun u f => let '(a, k, r') := u in Some (XExpr h a k, r')) (xs, kw, rest)); [now apply args_ok|apply ev_ret].
Qed.
Lemma rd_reads s x : rd s x -> reads env s x.
Proof. intros [_ H]. destruct (H [] Logic.I) as [f0 Hf]. exists f0. intros f Hle. specialize (Hf f Hle). now rewrite app_nil_r in Hf. Qed.
End Parse.
