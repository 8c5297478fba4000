(** The objects BraKet(a, b) and KetBra(a, b) that are not simplified, as complex numbers
    and as sums of products of transition operators: registers of n-level systems meet
    the hypotheses of C43. *)
From Coq Require Import Reals QArith Qcanon Ring FunctionalExtensionality.
From Verif Require Import Prelude AlgSpec CAlg Cplx OpModel OpSpec OpProofs1 OpSites TrInst KetModel KetSpec KetProofs1 KetInst.
Local Open Scope nat_scope.
Add Ring Crk2 : cring.

(** complex numbers as scalars *)
Definition Cs : scalars :=
  {| sc := cx; seqb := fun a b => if cx_dec a b then true else false; sQ := cQ; sadd := cadd; ssub := fun a b => cadd a (copp b); smult := cmul;
     sneg := copp; sdiv2 := cmul chalf; sconj := cconj; sI := ci; sexp := cexp; ssqrt := csqrt |}.
Definition cs_reading : cxreading Cs.
Proof.
  refine {| cev := fun a : Cs => a |}; try reflexivity. intros a b. cbn. destruct (cx_dec a b); [easy|discriminate].
Defined.

Section Objects.
  Context (n : nat) (p0 : lev n).
  Local Notation R := (site_reading cs_reading (lev n)).
  Context (F : nat -> list nat -> A R) (HF : forall m h, TrInst.reg (M:=R) (mu n) h (F m h)).
  Context (E : nat -> list nat -> vec (lev n)) (HE : forall m h, on_ n h (E m h)) (HE1 : forall m h, inn n p0 h (E m h) (E m h) = c1).
  Local Notation I := (register n cs_reading F HF).
  Definition RK : kets I := register_kets n p0 cs_reading F HF E HE HE1.
  Local Notation kval := (kvalue RK).

  Definition space2 (a b : ket Cs) : list nat := kspace a ++ kspace b.
  Definition bk_of (a b : ket Cs) : Cs := inn n p0 (space2 a b) (kval a) (kval b).
  Fixpoint units_op (h : list nat) (x y : vec (lev n)) : op Cs :=
    match h with
    | [] => OScal (cmul (x (z0 n p0)) (cconj (y (z0 n p0))) : Cs) OOne
    | l :: h' => OPlus (map (fun j => OPlus (map (fun k => OTimes [OAtom (ASigma j k l); units_op h' (fix_ n p0 l j x) (fix_ n p0 l k y)]) (seq 0 n))) (seq 0 n))
    end.
  Definition kb_of (a b : ket Cs) : op Cs :=
    if is_kzero a then OZero else if is_kzero b then OZero else units_op (nd (space2 a b)) (kval a) (kval b).
  Lemma legal_map {X} (f : X -> op Cs) l : (forall x, In x l -> legal I (f x)) -> fold_right (fun x P => legal I x /\ P) True (map f l).
  Proof. induction l as [|x l IH]; intros H; cbn [map fold_right]; [exact Logic.I|]. split; [apply H; now left|]. apply IH. intros y Hy. apply H. now right. Qed.
  Lemma msum_asum {X} (f : X -> op Cs) l : msum I (map (value I) (map f l)) = asum (M:=I) (fun x => value I (f x)) l.
  Proof. induction l as [|x l IH]; [reflexivity|]. rewrite asum_cons, <- IH. reflexivity. Qed.
  Lemma units_op_sound h : forall x y, means I (units_op h x y) (units n p0 h x y).
  Proof.
    induction h as [|l h IH]; intros x y; [now split|]. cbn [units_op units]. split.
    - cbn [legal]. apply legal_map. intros j Hj. cbn [legal]. apply legal_map. intros k Hk. apply in_seq in Hj, Hk. cbn [legal fold_right].
      split; [split; cbn; lia|]. split; [apply IH|exact Logic.I].
    - cbn [value]. rewrite msum_asum. apply asum_ext. intros j _. cbn [value]. rewrite msum_asum. apply asum_ext. intros k _. cbn [value map mprod fold_right].
      rewrite (proj2 (IH (fix_ n p0 l j x) (fix_ n p0 l k y))). f_equal. apply (amul_1r I).
  Qed.
  Lemma zero_or (a : ket Cs) : is_kzero a = true /\ a = KZero \/ is_kzero a = false /\ a <> KZero.
  Proof. destruct a; [now left|..]; right; split; try reflexivity; discriminate. Qed.
  Lemma space2_same h a b : same_kets h [a; b] -> a <> KZero -> b <> KZero -> same_set (space2 a b) h.
  Proof.
    intros H Ha Hb x. unfold space2. rewrite in_app_iff. rewrite (H a (or_introl eq_refl) Ha x), (H b (or_intror (or_introl eq_refl)) Hb x). tauto.
  Qed.
  Lemma legal_on h k : klegal (I:=I) k -> (k <> KZero -> same_set (kspace k) h) -> on (w:=RK) h (kval k).
  Proof.
    intros Hk Hs. destruct (zero_or k) as [[_ ->]|[_ N]]; [apply (on_0 I RK)|]. apply (on_same I RK (kspace k)); [now apply Hs|]. now apply kvalue_on.
  Qed.
  Lemma bk_of_ok : bk_ok RK bk_of.
  Proof.
    intros a b h Ha Hb H. assert (on (w:=RK) h (kval a)) as Oa by (apply legal_on; [exact Ha|intros N; apply H; [now left|exact N]]).
    assert (on (w:=RK) h (kval b)) as Ob by (apply legal_on; [exact Hb|intros N; apply H; [right; now left|exact N]]).
    assert (ev (r:=I) (bk_of a b) = inner (w:=RK) (space2 a b) (kval a) (kval b)) as -> by reflexivity.
    destruct (zero_or a) as [[_ ->]|[_ Na]].
    - change (kval KZero) with (vz (w:=RK)). rewrite (inner_zl RK h (kval b) Ob). apply (inner_zl RK). unfold space2. cbn [kspace app]. now apply kvalue_on.
    - destruct (zero_or b) as [[_ ->]|[_ Nb]].
      + change (kval KZero) with (vz (w:=RK)). rewrite (inner_z RK h (kval a) Oa). apply (inner_z RK). unfold space2. cbn [kspace app]. rewrite app_nil_r. now apply kvalue_on.
      + apply (inner_same I RK). now apply space2_same.
  Qed.
  Lemma kb_of_ok : kb_ok RK kb_of.
  Proof.
    intros a b h Ha Hb H. assert (on (w:=RK) h (kval a)) as Oa by (apply legal_on; [exact Ha|intros N; apply H; [now left|exact N]]).
    assert (on (w:=RK) h (kval b)) as Ob by (apply legal_on; [exact Hb|intros N; apply H; [right; now left|exact N]]).
    unfold kb_of. destruct (zero_or a) as [[-> ->]|[-> Na]].
    - split; [exact Logic.I|]. change (kval KZero) with (vz (w:=RK)). now rewrite (outer_z RK h (kval b) Ob).
    - destruct (zero_or b) as [[-> ->]|[-> Nb]].
      + split; [exact Logic.I|]. change (kval KZero) with (vz (w:=RK)). now rewrite (outer_zr RK h (kval a) Oa).
      + pose proof (space2_same h a b H Na Nb) as Hs. rewrite <- (outer_same I RK _ _ (kval a) (kval b) Hs).
        change (outer (w:=RK) (space2 a b) (kval a) (kval b)) with (out n p0 (space2 a b) (kval a) (kval b)).
        assert (forall f, on_ n h f -> on_ n (space2 a b) f) as G by (intros f; apply on_same_; intros x; apply Hs).
        rewrite (out_units n p0 (space2 a b) (kval a) (kval b) (G _ Oa) (G _ Ob)). apply units_op_sound.
  Qed.
End Objects.

(** ** Normalised symbols, for any number of sites: all systems in one level *)
Section Symbols.
  Context (n : nat) (p0 : lev n).
  Definition sym_ket (m : nat) (h : list nat) : vec (lev n) := fun c => if forallb (fun l => num n (c l) =? num n p0) h then c1 else c0.
  Lemma sym_on m h : on_ n h (sym_ket m h).
  Proof.
    intros c c' Hc. unfold sym_ket. assert (forallb (fun l => num n (c l) =? num n p0) h = forallb (fun l => num n (c' l) =? num n p0) h) as ->; [|reflexivity].
    revert Hc. induction h as [|l h IH]; intros Hc; [reflexivity|]. cbn [forallb]. rewrite (Hc l) by now left. f_equal. apply IH. intros x Hx. apply Hc. now right.
  Qed.
  Lemma sms_sharp h : NoDup h -> forall (f : vec (lev n)), (forall c l, In l h -> c l <> p0 -> f c = c0) -> forall c, (forall l, In l h -> c l = p0) -> sms n p0 h f c = f c.
  Proof.
    induction h as [|l h IH]; intros Hn f Hf c Hc; [reflexivity|]. inversion Hn as [|? ? Hl Hn']; subst. cbn [sms fold_right]. change (fold_right (sm n p0) f h) with (sms n p0 h f). unfold sm.
    assert (sms n p0 h f c = f c) as <- by (apply (IH Hn'); [intros d x Hx; apply (Hf d x); now right|intros x Hx; apply Hc; now right]).
    transitivity (csum (fun j => if j =? num n p0 then sms n p0 h f (upd c l (lv n p0 j)) else c0) (seq 0 n)).
    - apply csum_ext. intros j Hj. apply in_seq in Hj. destruct (Nat.eqb_spec j (num n p0)); [reflexivity|].
      rewrite (sms_at n p0 l h f (fun _ => c0)); [|exact Hl|].
      + clear. generalize (upd c l (lv n p0 j)). induction h as [|x h IH]; intros d; [reflexivity|]. cbn [sms fold_right]. change (fold_right (sm n p0) ?g h) with (sms n p0 h g). unfold sm. transitivity (csum (fun _ => c0) (seq 0 n)); [|apply csum_0]. apply csum_ext. intros i _. apply IH.
      + intros c' Hc'. rewrite upd_same in Hc'. apply (Hf c' l); [now left|]. intros Ep. rewrite Hc' in Ep. apply (f_equal (num n)) in Ep. rewrite lv_num in Ep by lia. contradiction.
    - rewrite (pick n (fun j => sms n p0 h f (upd c l (lv n p0 j)))) by apply num_lt. rewrite lv_of. f_equal. rewrite <- (Hc l) at 1 by now left. apply upd_id.
  Qed.
  Lemma sym_norm m h : inn n p0 h (sym_ket m h) (sym_ket m h) = c1.
  Proof.
    unfold inn. rewrite sms_sharp; [|apply nd_nodup| |reflexivity].
    - unfold vmul, vconj, sym_ket. assert (forallb (fun l => num n (z0 n p0 l) =? num n p0) h = true) as ->; [|apply cx_eq; cbn; ring]. apply forallb_forall. intros l _. apply Nat.eqb_refl.
    - intros c l Hl Hc. rewrite nd_In in Hl. unfold vmul, vconj, sym_ket. assert (forallb (fun l => num n (c l) =? num n p0) h = false) as ->; [|apply cx_eq; cbn; ring].
      apply Bool.not_true_is_false. intros Ht. rewrite forallb_forall in Ht. specialize (Ht l Hl). apply Nat.eqb_eq in Ht. apply Hc. now apply lev_eq.
  Qed.
End Symbols.
