From Verif Require Import Prelude ListFacts PermModel PermSpec PermProofs1 PermProofs4 CircModel CircProofs2 CSimpModel CSimpSpec CSimpProofs3 CSimpProofs4 CSimpProofs5 CSimpProofs6.
From Verif Require Import AlgSpec CAlg NcRing MatModel SlhModel MatSpec MatProofs SlhProofs1 SlhProofs2 SlhProofs3 SlhProofs4 SlhProofs5 SlhProofs6 SlhProofs7 SlhProofs8 CSimpSlh ToSlhModel ToSlhSpec.

Section Ev.
  Context {M : calgebra} (comp : nat -> nat -> res (slh M)) (inv : A M -> res (K M)) (slh_eq : slh M -> slh M -> bool).
  Context (Hinv : sound_inv inv) (Heq : forall s t, slh_eq s t = true -> s = t).
  Local Notation slh := (slh M). Local Notation circ := (circ slh).
  Local Notation SM := (slh_model M).
  Implicit Types (a b s : slh) (c : circ) (l : list circ).

  (** symbols that do not evaluate are given a nonsense value *)
  Definition symd (l n : nat) : dom SM := match comp l n with Ok s => s | Err _ => SLH (tab 0 0 (fun _ _ => a0)) (tab 0 0 (fun _ _ => a0)) a0 end.
  Definition ldend (s : slh) : dom SM := s.
  Local Notation mean := (mean SM symd ldend). Local Notation smean := (smean SM symd ldend). Local Notation cmean := (cmean SM symd ldend).
  Local Notation ev := (to_slh comp inv).

  Fixpoint go (op : slh -> slh -> res slh) (acc : slh) l : res slh :=
    match l with
    | [] => Ok acc
    | o :: l' => do b <- ev o; do r <- op acc b; go op r l'
    end.
  Definition reduce (op : slh -> slh -> res slh) l : res slh :=
    match l with
    | [] => Err TypeError
    | [o] => match o with CSlh s _ => Ok s | _ => Err Unmodelled end
    | o :: l' => do a <- ev o; go op a l'
    end.
  Lemma ev_series ops : ev (CSeries ops) = reduce (series_with_slh (M:=M)) ops.
  Proof. reflexivity. Qed.
  Lemma ev_concat ops : ev (CConcat ops) = reduce (concatenate_slh (M:=M)) ops.
  Proof. reflexivity. Qed.
  Lemma cid_slh_ok : cid_slh (M:=M) = Ok (prm [0]).
  Proof.
    rewrite id1. unfold cid_slh, mk_slh. cbn [nrows ncols Nat.eqb negb]. do 2 f_equal.
  Qed.

  (** the meaning of an expression is what it evaluates to *)
  Lemma mean_ev c : forall n a s, mean c n a -> ev c = Ok s -> s = a.
  Proof.
    induction c using circ_ind'; intros k a t Hm He.
    - cbn in He. inversion Hm; subst. unfold symd. now rewrite He.
    - cbn in He. inversion Hm; subst. injection He as <-. reflexivity.
    - cbn in He. inversion Hm as [| |? Hne Hp| | | | | |]; subst. rewrite (perm_mkS p Hp) in He. injection He as <-. reflexivity.
    - inversion Hm; subst.
      change (ev CId) with (cid_slh (M:=M)) in *. rewrite cid_slh_ok in He. injection He as <-. reflexivity.
    - discriminate He.
    - rewrite ev_series in He. inversion Hm as [| | | | |? ? ? Hne Hk Hs| | |]; subst ops0 n a0.
      assert (forall l acc x y, Forall (fun o => forall n a s, mean o n a -> ev o = Ok s -> s = a) l ->
        phys k acc -> smean l k x -> go (series_with_slh (M:=M)) acc l = Ok y -> y = ser k acc x) as G.
      { clear. induction l as [|o l IH]; intros acc x y HF Hacc Hs Hg; cbn [go] in Hg.
        - injection Hg as <-. inversion Hs; subst. cbn [mprm slh_model]. rewrite prm_ident. symmetry. apply ident_r, Hacc.
        - inversion Hs as [|? ? ? u v Hu Hv]; subst. step Hg b Eb. step Hg r Er.
          assert (b = u) as -> by exact (Forall_inv HF _ _ _ Hu Eb).
          pose proof (mean_ok _ _ _ _ _ _ Hu) as Pu. change (phys k u) in Pu.
          rewrite (series_ok acc u k (proj1 Hacc) (proj1 Pu)) in Er. injection Er as <-.
          rewrite (IH (ser k acc u) v y (Forall_inv_tail HF)); [|now apply phys_ser|exact Hv|exact Hg].
          apply ser_assoc. apply Hacc. }
      destruct ops as [|o [|o2 ops]]; [easy| |].
      + cbn [reduce] in He. destruct o as [|s m| | | | | | |]; try discriminate. injection He as <-.
        apply smean_1_inv in Hs. now inversion Hs.
      + unfold reduce in He. step He u Eu. inversion Hs as [|? ? ? x y Hx Hy]; subst.
        assert (u = x) as -> by exact (Forall_inv H _ _ _ Hx Eu).
        apply (G (o2 :: ops)); [exact (Forall_inv_tail H)|exact (mean_ok _ _ _ _ _ _ Hx)|exact Hy|exact He].
    - rewrite ev_concat in He. inversion Hm as [| | | | | |? ? ? Hne Hs _| |]; subst ops0 n a0.
      assert (forall l acc m n x y, Forall (fun o => forall n a s, mean o n a -> ev o = Ok s -> s = a) l ->
        phys m acc -> cmean l n x -> go (concatenate_slh (M:=M)) acc l = Ok y -> y = cat m n acc x) as G.
      { clear. induction l as [|o l IH]; intros acc m n x y HF Hacc Hs Hg; cbn [go] in Hg.
        - injection Hg as <-. inversion Hs; subst. cbn [mprm slh_model]. rewrite id0. symmetry. apply cat_ident0_r, Hacc.
        - inversion Hs as [|? ? n1 n2 u v Hu Hv]; subst. step Hg b Eb. step Hg r Er.
          assert (b = u) as -> by exact (Forall_inv HF _ _ _ Hu Eb).
          pose proof (mean_ok _ _ _ _ _ _ Hu) as Pu. change (phys n1 u) in Pu.
          rewrite (concat_ok acc u m n1 (proj1 Hacc) (proj1 Pu)) in Er. injection Er as <-.
          rewrite (IH (cat m n1 acc u) (m + n1) n2 v y (Forall_inv_tail HF)); [|now apply phys_cat|exact Hv|exact Hg].
          apply SlhProofs4.cat_assoc. }
      destruct ops as [|o [|o2 ops]]; [easy| |].
      + cbn [reduce] in He. destruct o as [|s m| | | | | | |]; try discriminate. injection He as <-.
        apply cmean_1_inv in Hs. now inversion Hs.
      + unfold reduce in He. step He u Eu. inversion Hs as [|? ? n1 n2 x y Hx Hy]; subst.
        assert (u = x) as -> by exact (Forall_inv H _ _ _ Hx Eu).
        apply (G (o2 :: ops)); [exact (Forall_inv_tail H)|exact (mean_ok _ _ _ _ _ _ Hx)|exact Hy|exact He].
    - cbn [to_slh] in He. step He x Ex. inversion Hm as [| | | | | | |? ? y ? ? ? Hd Hk Ho Hi Hl|]; subst.
      assert (x = y) as -> by (eapply IHc; [exact Hd|reflexivity]).
      eapply (slh_feedback_closes M inv Hinv k y o i); [exact (mean_ok _ _ _ _ _ _ Hd)|exact Ho|exact Hi|exact He|exact Hl].
    - cbn [to_slh] in He. step He x Ex. inversion Hm as [| | | | | | | |? ? y Hd Hk Hnf]; subst.
      assert (x = y) as -> by (eapply IHc; [exact Hd|reflexivity]).
      pose proof (mean_ok _ _ _ _ _ _ Hd) as Py. change (phys k y) in Py.
      rewrite (sinv_ok y k (proj1 Py)) in He. injection He as <-. reflexivity.
  Qed.

  (** and a valid expression that evaluates has a meaning *)
  Lemma ev_mean c : valid comp c -> forall s, ev c = Ok s -> mean c (cdim c) s.
  Proof.
    induction c using circ_ind'; intros Hv t He.
    - cbn in He, Hv. destruct Hv as [Hn Hp]. pose proof (mean_sym SM symd ldend l n Hn) as G. unfold symd in G. rewrite He in G.
      apply G. apply phys_spec. now apply Hp.
    - cbn in He, Hv. injection He as <-. destruct Hv as [Hn Hp]. apply (mean_slh SM symd ldend s n Hn). apply phys_spec. exact Hp.
    - cbn in Hv. destruct Hv as [Hne Hp]. apply is_perm_bij in Hp. cbn [to_slh] in He. rewrite (perm_mkS p Hp) in He. injection He as <-.
      apply (mean_perm SM symd ldend p Hne Hp).
    - change (ev CId) with (cid_slh (M:=M)) in He. rewrite cid_slh_ok in He. injection He as <-. apply mean_id.
    - discriminate He.
    - rewrite ev_series in He. destruct Hv as [Hne Hv]. 
      assert (forall l n acc y, Forall (fun c => valid comp c -> forall s, ev c = Ok s -> mean c (cdim c) s) l ->
        fold_right (fun o P => valid comp o /\ P) True l -> phys n acc ->
        go (series_with_slh (M:=M)) acc l = Ok y -> exists x, smean l n x) as G.
      { clear. induction l as [|o l IH]; intros n acc y HF Hv Hacc Hg; cbn [go] in Hg.
        - eexists. constructor.
        - step Hg b Eb. step Hg r Er. destruct Hv as [Hvo Hv]. pose proof (Forall_inv HF Hvo _ Eb) as Mo.
          pose proof (mean_ok _ _ _ _ _ _ Mo) as Po. change (phys (cdim o) b) in Po.
          assert (n = cdim o) as En.
          { unfold series_with_slh, mmul in Er. destruct Hacc as [[(_ & Hc & _) _] _], Po as [[(Hr & _) _] _]. rewrite Hc, Hr in Er.
            destruct (Nat.eqb_spec n (cdim o)); [assumption|discriminate Er]. }
          rewrite <- En in *. rewrite (series_ok acc b n (proj1 Hacc) (proj1 Po)) in Er. injection Er as <-.
          destruct (IH n _ y (Forall_inv_tail HF) Hv (phys_ser n acc b Hacc Po) Hg) as [x Hx].
          eexists. constructor; [exact Mo|exact Hx]. }
      destruct ops as [|o [|o2 ops]]; [easy| |].
      + cbn [reduce] in He. destruct o as [|s m| | | | | | |]; try discriminate. injection He as <-.
        destruct Hv as [[Hm Hp] _]. cbn [cdim]. apply mean_series; [discriminate|exact Hm|]. apply smean_1.
        apply (mean_slh SM symd ldend s m Hm). apply phys_spec. exact Hp.
      + unfold reduce in He. step He u Eu. destruct Hv as [Hvo Hv]. pose proof (Forall_inv H Hvo _ Eu) as Mo.
        destruct (G (o2 :: ops) (cdim o) u t (Forall_inv_tail H) Hv (mean_ok _ _ _ _ _ _ Mo) He) as [x Hx].
        cbn [cdim]. assert (mean (CSeries (o :: o2 :: ops)) (cdim o) (ser (cdim o) u x)) as Mt.
        { apply mean_series; [discriminate| |].
          - destruct (cdim o) eqn:Eo; [|lia]. apply mean_zero_inv in Mo. destruct Mo as [-> _]. discriminate Eu.
          - exact (smean_cons SM symd ldend _ _ _ _ _ Mo Hx). }
        assert (ev (CSeries (o :: o2 :: ops)) = Ok t) as He2 by (rewrite ev_series; unfold reduce; now rewrite Eu).
        rewrite <- (mean_ev _ _ _ _ Mt He2) in Mt. exact Mt.
    - rewrite ev_concat in He. destruct Hv as [Hne Hv]. 
      assert (forall o s, mean o (cdim o) s -> ev o = Ok s -> 0 < cdim o) as Hpos.
      { clear. intros o s Mo Eo. destruct (cdim o) eqn:E; [|lia]. apply mean_zero_inv in Mo. destruct Mo as [-> _]. discriminate Eo. }
      assert (forall l n acc y, Forall (fun c => valid comp c -> forall s, ev c = Ok s -> mean c (cdim c) s) l ->
        fold_right (fun o P => valid comp o /\ P) True l -> phys n acc ->
        go (concatenate_slh (M:=M)) acc l = Ok y ->
        exists x, cmean l (sum (map cdim l)) x /\ Forall (fun o => 0 < cdim o) l) as G.
      { clear - Hpos. induction l as [|o l IH]; intros n acc y HF Hv Hacc Hg; cbn [go] in Hg.
        - eexists. split; constructor.
        - step Hg b Eb. step Hg r Er. destruct Hv as [Hvo Hv]. pose proof (Forall_inv HF Hvo _ Eb) as Mo.
          pose proof (mean_ok _ _ _ _ _ _ Mo) as Po. change (phys (cdim o) b) in Po.
          rewrite (concat_ok acc b n (cdim o) (proj1 Hacc) (proj1 Po)) in Er. injection Er as <-.
          destruct (IH _ _ y (Forall_inv_tail HF) Hv (phys_cat n _ acc b Hacc Po) Hg) as (x & Hx & Hps).
          eexists. split; [constructor; [exact Mo|exact Hx]|]. constructor; [exact (Hpos _ _ Mo Eb)|exact Hps]. }
      destruct ops as [|o [|o2 ops]]; [easy| |].
      + cbn [reduce] in He. destruct o as [|s m| | | | | | |]; try discriminate. injection He as <-.
        destruct Hv as [[Hm Hp] _]. cbn [cdim map sum fold_right].
        assert (mean (CSlh s m) m s) as Mo by (apply (mean_slh SM symd ldend s m Hm); apply phys_spec; exact Hp).
        apply mean_concat; [discriminate| |constructor; [exact Hm|constructor]].
        rewrite Nat.add_0_r. now apply cmean_1.
      + unfold reduce in He. step He u Eu. destruct Hv as [Hvo Hv]. pose proof (Forall_inv H Hvo _ Eu) as Mo.
        destruct (G (o2 :: ops) (cdim o) u t (Forall_inv_tail H) Hv (mean_ok _ _ _ _ _ _ Mo) He) as (x & Hx & Hps).
        assert (mean (CConcat (o :: o2 :: ops)) (cdim (CConcat (o :: o2 :: ops))) (cat (cdim o) (sum (map cdim (o2 :: ops))) u x)) as Mt.
        { apply mean_concat; [discriminate| |constructor; [exact (Hpos _ _ Mo Eu)|exact Hps]].
          change (cdim (CConcat (o :: o2 :: ops))) with (cdim o + sum (map cdim (o2 :: ops))). exact (cmean_cons SM symd ldend _ _ _ _ _ _ Mo Hx). }
        assert (ev (CConcat (o :: o2 :: ops)) = Ok t) as He2 by (rewrite ev_concat; unfold reduce; now rewrite Eu).
        rewrite <- (mean_ev _ _ _ _ Mt He2) in Mt. exact Mt.
    - cbn [to_slh] in He. destruct Hv as (Hv & Hn & Ho & Hi). step He x Ex. pose proof (IHc Hv x eq_refl) as Mc.
      cbn [cdim]. destruct (cdim c) as [|n] eqn:En; [lia|]. replace (S n - 1) with n by lia.
      apply (mean_fb SM symd ldend c n x o i t Mc); [lia|lia|lia|].
      apply (slh_feedback_loop M inv Hinv n x o i t); [exact (mean_ok _ _ _ _ _ _ Mc)|lia|lia|exact He].
    - cbn [to_slh] in He. destruct Hv as (Hv & Hnf). step He x Ex. pose proof (IHc Hv x eq_refl) as Mc.
      cbn [cdim]. pose proof (mean_ok _ _ _ _ _ _ Mc) as Px. change (phys (cdim c) x) in Px.
      rewrite (sinv_ok x _ (proj1 Px)) in He. injection He as <-.
      apply (mean_sinv SM symd ldend c (cdim c) x Mc); [|exact Hnf].
      destruct (cdim c) eqn:E; [|lia]. apply mean_zero_inv in Mc. destruct Mc as [-> _]. discriminate Ex.
  Qed.
End Ev.
