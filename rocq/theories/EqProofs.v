From Verif Require Import Prelude EqModel.

Section Ind.
  Variable P : obj -> Prop.
  Hypothesis HA : forall n, P (Atom n).
  Hypothesis HT : forall xs, Forall P xs -> P (Tup xs).
  Hypothesis HI : forall c args kw key, Forall P key -> P (Inst c args kw key).
  Fixpoint obj_key_ind (o : obj) : P o :=
    match o with
    | Atom n => HA n
    | Tup xs => HT xs ((fix go l : Forall P l := match l with [] => Forall_nil _ | x :: l' => Forall_cons _ (obj_key_ind x) (go l') end) xs)
    | Inst c a k key => HI c a k key ((fix go l : Forall P l := match l with [] => Forall_nil _ | x :: l' => Forall_cons _ (obj_key_ind x) (go l') end) key)
    end.
End Ind.

Lemma eqb_tup xs ys : obj_eqb (Tup xs) (Tup ys) = objs_eqb xs ys.
Proof. reflexivity. Qed.
Lemma eqb_inst c a k xs d a' k' ys : obj_eqb (Inst c a k xs) (Inst d a' k' ys) = (c =? d) && objs_eqb xs ys.
Proof. reflexivity. Qed.

Lemma objs_refl xs : Forall (fun x => obj_eqb x x = true) xs -> objs_eqb xs xs = true.
Proof. induction 1 as [|x xs H _ IH]; cbn; [reflexivity|]. rewrite H. exact IH. Qed.
Lemma obj_eqb_refl o : obj_eqb o o = true.
Proof.
  induction o using obj_key_ind; [apply Nat.eqb_refl| |].
  - rewrite eqb_tup. apply objs_refl; assumption.
  - rewrite eqb_inst, Nat.eqb_refl. apply objs_refl; assumption.
Qed.
Lemma obj_eqb_sym_ o : forall b, obj_eqb o b = obj_eqb b o.
Proof.
  assert (forall xs, Forall (fun x => forall b, obj_eqb x b = obj_eqb b x) xs -> forall ys, objs_eqb xs ys = objs_eqb ys xs) as L.
  { induction 1 as [|x xs H _ IH]; intros [|y ys]; cbn; try reflexivity. rewrite H, IH. reflexivity. }
  induction o using obj_key_ind; intros [m|ys|d a' k' ys]; try reflexivity.
  - cbn. apply Nat.eqb_sym.
  - rewrite !eqb_tup. apply L; assumption.
  - rewrite !eqb_inst. rewrite Nat.eqb_sym. f_equal. apply L; assumption.
Qed.
Lemma obj_eqb_trans_ o : forall b c, obj_eqb o b = true -> obj_eqb b c = true -> obj_eqb o c = true.
Proof.
  assert (forall xs, Forall (fun x => forall b c, obj_eqb x b = true -> obj_eqb b c = true -> obj_eqb x c = true) xs ->
    forall ys zs, objs_eqb xs ys = true -> objs_eqb ys zs = true -> objs_eqb xs zs = true) as L.
  { induction 1 as [|x xs H _ IH]; intros [|y ys] [|z zs]; cbn; try discriminate; try reflexivity.
    rewrite !andb_true_iff. intros [A1 A2] [B1 B2]. split; [exact (H y z A1 B1)|exact (IH ys zs A2 B2)]. }
  induction o using obj_key_ind; intros [m|ys|d a' k' ys] [m'|zs|d' a'' k'' zs]; try discriminate.
  - cbn. rewrite !Nat.eqb_eq. congruence.
  - rewrite !eqb_tup. apply L; assumption.
  - rewrite !eqb_inst, !andb_true_iff, !Nat.eqb_eq. intros [-> A] [-> B]. split; [reflexivity|]. exact (L key H ys zs A B).
Qed.

Section Sound.
  Variable fw : forwarding.
  Variable ok : nat -> Prop.  (** classes whose __init__ forwards everything *)
  Hypothesis faithful : forall c args kw, ok c -> fw c args kw = (args, kw).
  Variable arity : nat -> list nat. (** the keyword names of a class *)

  (** an object built only from such classes, with the class's keywords *)
  Inductive proper : obj -> Prop :=
  | proper_atom n : proper (Atom n)
  | proper_tup xs : Forall proper xs -> proper (Tup xs)
  | proper_inst c args kwargs : ok c -> map fst kwargs = arity c -> Forall proper args ->
      Forall (fun nv => proper (snd nv)) kwargs -> proper (new fw c args kwargs).

  Lemma proper_new c args kwargs : ok c -> new fw c args kwargs = Inst c args kwargs (key_parts args kwargs).
  Proof. intros H. unfold new. rewrite faithful by exact H. reflexivity. Qed.

  Lemma kw_pairs_inj k k' : map fst k = map fst k' ->
    map (fun nv : nat * obj => Tup [Atom (fst nv); snd nv]) k = map (fun nv => Tup [Atom (fst nv); snd nv]) k' -> k = k'.
  Proof.
    revert k'. induction k as [|[n v] k IH]; intros [|[n' v'] k']; cbn; try discriminate; try reflexivity.
    intros H1 H2. injection H1 as -> H1. injection H2 as -> H2. f_equal. apply IH; assumption.
  Qed.

  Lemma eqb_sound_ a : proper a -> forall b, proper b -> obj_eqb a b = true -> a = b.
  Proof.
    induction a as [n|xs IH|c args kw key IH] using obj_key_ind; intros Pa b Pb E.
    - destruct b; try discriminate. cbn in E. apply Nat.eqb_eq in E. congruence.
    - destruct b as [|ys|]; try discriminate. rewrite eqb_tup in E. f_equal.
      inversion Pa as [|? Px|c0 a0 k0 H1 H2 H3 H4 H5]; subst; [|rewrite proper_new in H5 by exact H1; discriminate].
      inversion Pb as [|? Py|c0 a0 k0 H1 H2 H3 H4 H5]; subst; [|rewrite proper_new in H5 by exact H1; discriminate].
      clear Pa Pb. revert ys Py E. induction xs as [|x xs IHx]; intros [|y ys] Py E; cbn in E; try discriminate; [reflexivity|].
      apply andb_true_iff in E. destruct E as [E1 E2]. apply Forall_cons_iff in IH. destruct IH as [IH1 IH2].
      apply Forall_cons_iff in Px. apply Forall_cons_iff in Py. f_equal.
      + apply IH1; tauto.
      + apply IHx; tauto.
    - destruct b as [| |d args' kw' key']; try discriminate. rewrite eqb_inst in E.
      apply andb_true_iff in E. destruct E as [Ec E]. apply Nat.eqb_eq in Ec. subst d.
      inversion Pa as [| |c1 a1 k1 O1 A1 F1 G1 H1]; rewrite proper_new in H1 by exact O1. injection H1 as -> -> -> <-.
      inversion Pb as [| |c2 a2 k2 O2 A2 F2 G2 H2]; rewrite proper_new in H2 by exact O2. injection H2 as -> -> -> <-.
      assert (key_parts args kw = key_parts args' kw') as K.
      { assert (Forall proper (key_parts args kw)) as P1.
        { apply Forall_app. split; [exact F1|]. apply Forall_forall. intros x Hx. apply in_map_iff in Hx.
          destruct Hx as (nv & <- & Hn). rewrite Forall_forall in G1. repeat constructor. apply G1; exact Hn. }
        assert (Forall proper (key_parts args' kw')) as P2.
        { apply Forall_app. split; [exact F2|]. apply Forall_forall. intros x Hx. apply in_map_iff in Hx.
          destruct Hx as (nv & <- & Hn). rewrite Forall_forall in G2. repeat constructor. apply G2; exact Hn. }
        clear - IH P1 P2 E. revert P1 P2 E IH. generalize (key_parts args kw) as xs, (key_parts args' kw') as ys.
        induction xs as [|x xs IHx]; intros [|y ys] P1 P2 E IH; cbn in E; try discriminate; [reflexivity|].
        apply andb_true_iff in E. destruct E as [E1 E2]. apply Forall_cons_iff in IH. destruct IH as [IH1 IH2].
        apply Forall_cons_iff in P1. apply Forall_cons_iff in P2. f_equal; [apply IH1; tauto|apply IHx; tauto]. }
      assert (kw = kw' /\ args = args') as [-> ->]; [|reflexivity].
      unfold key_parts in K.
      assert (length kw = length kw') as Lk by (rewrite <- (map_length fst kw), <- (map_length fst kw'), A1, A2; reflexivity).
      assert (length args = length args') as La.
      { apply (f_equal (@length obj)) in K. rewrite !app_length, !map_length in K. lia. }
      assert (args = args' /\ map (fun nv : nat * obj => Tup [Atom (fst nv); snd nv]) kw = map (fun nv => Tup [Atom (fst nv); snd nv]) kw') as [Ea Ek].
      { clear - K La. revert args' La K. induction args as [|x args IHa]; intros [|y args'] La K; cbn in *; try discriminate.
        - split; [reflexivity|exact K].
        - injection K as -> K. injection La as La. destruct (IHa args' La K) as [-> H]. split; [reflexivity|exact H]. }
      split; [|exact Ea]. apply kw_pairs_inj; [congruence|exact Ek].
  Qed.
End Sound.
