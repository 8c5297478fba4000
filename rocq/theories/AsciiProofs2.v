(** Proofs for C58: scalar multiples, and the text of an operator. *)
From Coq Require Import QArith Qcanon Ring.
From Verif Require Import Prelude ListFacts BinModel AlgSpec CAlg NcRing OpModel OpSpec OpProofs1 OpProofs2 OpProofs3 KetModel KetSpec KetProofs1 AsciiModel AsciiSpec AsciiProofs1.
Local Open Scope nat_scope.

Section Scal.
  Context {S : scalars} {dim : nat -> option nat} {I : interp S dim} (W : kets I).
  Context (sym_of : nat -> list S -> option nat).
  Context (cterms : S -> list (bool * S)) (wrap : S -> bool) (Hc : terms_ok I cterms).
  Local Notation text := (list (token S)).
  Local Notation val := (val W).
  Local Notation Pr := (Pr W sym_of). Local Notation P := (P W sym_of). Local Notation T := (T W sym_of).
  Local Notation num_text := (num_text cterms). Local Notation scal_text := (scal_text cterms wrap).
  Add Ring Kra : (kring I).
  Local Notation COp := (C W sym_of (A I) VO aadd a0 (smul (kopp k1))).

  Definition num (c : S) : val := VO (smul (ev c) a1).
  Lemma P_num c : P [TNum c] (num c).
  Proof. split; [reflexivity|]. intros rest. apply Ev_all. intros n. rewrite e_prim. reflexivity. Qed.
  Lemma smul_opp k (x : A I) : smul (kopp k1) (smul k x) = smul (kopp k) x.
  Proof. rewrite <- smul_mul. f_equal. ring. Qed.
  Lemma num_C c : COp (num_text c) (smul (ev c) a1).
  Proof.
    destruct (Hc c) as (Hn & E & _). exists (map (fun sx : bool * S => (fst sx, [TNum (snd sx)], smul (ev (r:=I) (snd sx)) a1)) (cterms c)). split; [now destruct (cterms c)|]. split; [|split].
    - unfold AsciiModel.num_text, tail_text. rewrite map_map. reflexivity.
    - apply Forall_forall. intros ch Hch. apply in_map_iff in Hch. destruct Hch as ([s x] & <- & _). exists [num x]. cbn [fst snd]. split; [apply P_Pr, P_num|reflexivity].
    - rewrite E. clear. induction (cterms c) as [|[s x] l IH]; cbn [map total fold_right fst snd]; [symmetry; apply smul_0|]. rewrite smul_addl. f_equal; [|exact IH].
      unfold sval. cbn [fst snd]. destruct s; [apply smul_opp|reflexivity].
  Qed.
  Lemma num_single c : single cterms c -> exists x, num_text c = (if negative cterms c then [TMinus; TNum x] else [TNum x]) /\ ev (r:=I) c = if negative cterms c then kopp (ev (r:=I) x) else ev (r:=I) x.
  Proof.
    intros Hs. destruct (Hc c) as (Hn & E & _). unfold single in Hs. unfold AsciiModel.num_text, negative. destruct (cterms c) as [|[s x] [|]]; [contradiction| |discriminate]. exists x.
    cbn [map concat fst snd fold_right] in *. split; [now destruct s|]. rewrite E. destruct s; ring.
  Qed.

  (** a number times something *)
  Section Kind.
    Context (X : Type) (mk : X -> val) (add : X -> X -> X) (zero : X) (neg : X -> X) (sc : K I -> X -> X) (Good : list val -> X -> Prop).
    Context (add_zr : forall x, add x zero = x).
    Context (Hgood : forall fs x, Good fs x -> product W fs = Some (mk x)) (Hone : forall x, Good [mk x] x).
    Context (Hsc : forall c fs x, Good fs x -> Good (num c :: fs) (sc (ev c) x)) (Hsc' : forall k fs x, Good fs x -> Good (VO (smul k a1) :: fs) (sc k x)).
    Context (Hneg : forall x, neg x = sc (kopp k1) x) (Hmul : forall a b x, sc (kmul a b) x = sc a (sc b x)).
    Local Notation C := (C W sym_of X mk add zero neg).
    Lemma factor p t x : T t (mk x) -> (50 <= p -> exists fs, Pr t fs /\ Good fs x) -> exists fs, Pr (parenthesize p 50 t) fs /\ Good fs x.
    Proof.
      intros H1 H2. unfold parenthesize. destruct (Nat.ltb_spec p 50); [|now apply H2]. exists [mk x]. split; [|apply Hone]. apply P_Pr, T_parens. exact H1.
    Qed.
    Lemma scal_C adj c p t x : T t (mk x) -> (50 <= p -> exists fs, Pr t fs /\ Good fs x) -> neat cterms wrap adj c -> is_one_text (parenthesize p 50 t) = false ->
      C (scal_text adj c p t) (sc (if adj then kconj (ev c) else ev c) x) /\
      (negative cterms c = false -> exists fs, Pr (scal_text adj c p t) fs /\ Good fs (sc (if adj then kconj (ev c) else ev c) x)).
    Proof.
      intros H1 H2 Hn H0. destruct (factor p t x H1 H2) as (fs & Hp & Hg). unfold AsciiModel.scal_text. rewrite H0. set (t' := parenthesize p 50 t) in *.
      set (c' := if adj then sconj c else c) in *. assert (ev (r:=I) c' = if adj then kconj (ev (r:=I) c) else ev (r:=I) c) as Ec by (unfold c'; destruct adj; [apply (ev_conj S I)|reflexivity]).
      rewrite <- Ec. destruct (seqb c sm1) eqn:Em.
      - pose proof (proj2 (proj2 (Hc c)) Em) as Hneg1. split; [|congruence]. pose proof (ev_eq S I _ _ Em) as Em'. rewrite (ev_sm1 I) in Em'.
        replace (ev (r:=I) c') with (kopp (@k1 I)) by (rewrite Ec, Em'; destruct adj; [rewrite kconj_opp, kconj_1; reflexivity|reflexivity]). rewrite <- Hneg. eapply C_neg; [exact add_zr|exact Hp|now apply Hgood].
      - destruct (wrap c) eqn:Ew.
        + assert (Pr (parens (num_text c') ++ TStar :: t') (VO (smul (ev c') a1) :: fs)) as Q.
          { apply (Pr_star W sym_of _ [VO (smul (ev c') a1)]); [|exact Hp]. apply P_Pr, T_parens. apply (C_T W sym_of (A I) VO aadd a0 (smul (kopp k1))); try reflexivity; [apply aadd_assoc|apply aadd_0r|apply num_C]. }
          split; [eapply Pr_C; [exact add_zr|exact Q|apply Hgood; now apply Hsc']|]. intros _. eexists. split; [exact Q|now apply Hsc'].
        + destruct Hn as [Hn|[Hn Hs]]; [congruence|]. fold c' in Hn, Hs. destruct (num_single c' Hn) as (y & En & Ey). rewrite Hs in *. rewrite En, Ey. destruct (negative cterms c).
          * split; [|discriminate]. cbn [app]. replace (kopp (ev (r:=I) y)) with (kmul (kopp k1) (ev (r:=I) y)) by ring. rewrite Hmul, <- Hneg. eapply C_neg; [exact add_zr|apply (Pr_star W sym_of [TNum y] [num y]); [apply P_Pr, P_num|exact Hp]|].
            apply Hgood. now apply Hsc.
          * assert (Pr ([TNum y] ++ TStar :: t') (num y :: fs)) as Q by (apply (Pr_star W sym_of [TNum y] [num y]); [apply P_Pr, P_num|exact Hp]).
            split; [eapply Pr_C; [exact add_zr|exact Q|apply Hgood; now apply Hsc]|]. intros _. eexists. split; [exact Q|now apply Hsc].
    Qed.
  End Kind.
End Scal.
