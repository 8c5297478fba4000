(** move_drive_to_H: the returned triple is the input driven by the negated amplitudes. *)
From Verif Require Import Prelude ListFacts PermModel AlgSpec CAlg NcRing MatModel SlhModel MatSpec CircModel MatProofs SlhProofs1 SlhProofs2 SlhProofs3 SlhProofs4 SlhProofs5 SlhProofs8.

Section Drive.
  Context {M : calgebra}.
  Add Ring Kr9 : (kring M).
  Notation slh := (slh M). Notation A := (A M). Notation K := (K M). Notation sm := (@bigsum M).
  Context (idcoeff : A -> K) (kzero : K -> bool) (Hz : forall c, kzero c = true -> c = k0).
  Definition selected (which : list nat) (j : nat) : bool :=
    match which with [] => true | _ => existsb (Nat.eqb j) which end.
  Definition amp (which : list nat) (a : slh) (j : nat) : K :=
    if selected which j then kopp (idcoeff (Lf a j)) else k0.
  Lemma combine_seq_map {B} (f : nat -> B) (n s : nat) : combine (seq s n) (map f (seq s n)) = map (fun k => (k, f k)) (seq s n).
  Proof. revert s. induction n; intros; cbn; [reflexivity|]. now rewrite IHn. Qed.
  Lemma drive_amps_eq which a n : system a n -> drive_amps idcoeff which a = map (amp which a) (seq 0 n).
  Proof.
    intros Ha. unfold drive_amps. rewrite (Ls_system n a Ha), map_length, seq_length, combine_seq_map, map_map.
    apply map_ext. intros j. cbn [fst snd]. unfold amp, selected. destruct which; cbn [orb]; reflexivity.
  Qed.
  Lemma driven_zero n (al : nat -> K) (a : slh) : (forall j, j < n -> al j = k0) -> system a n -> driven n al a = a.
  Proof.
    intros H Ha. unfold driven. rewrite <- (ident_l n a Ha) at 2. f_equal. unfold ident. apply mkS_ext; [reflexivity| |reflexivity].
    intros i Hi. rewrite H by exact Hi. apply smul_0.
  Qed.
  Lemma move_drive_ok which (a : slh) n : system a n ->
    move_drive_to_H idcoeff kzero which a = Ok (driven n (amp which a) a).
  Proof.
    intros Ha. unfold move_drive_to_H. rewrite (drive_amps_eq which a n Ha).
    destruct (forallb kzero _) eqn:E.
    - rewrite driven_zero; [reflexivity| |exact Ha]. intros j Hj. apply Hz.
      rewrite forallb_forall in E. apply E. apply in_map, in_seq. lia.
    - unfold slh_cdim. destruct Ha as [Ha1 Ha2]. pose proof Ha1 as (Hr & _). rewrite Hr.
      unfold mk_slh. rewrite map_length, seq_length. cbn [nrows ncols identity_matrix tab]. rewrite !Nat.eqb_refl. cbn [negb bind].
      rewrite (series_ok _ a n); [|split; apply tab_shape|now split].
      f_equal. unfold driven. f_equal. unfold identity_matrix, mkS. f_equal.
      apply tab_ext. intros i j Hi _. rewrite (nth_map_lt (amp which a) (seq 0 n) i k0 0) by (now rewrite seq_length).
      now rewrite seq_nth by assumption.
  Qed.
  Lemma imp_sum n (al : nat -> K) (a : slh) :
    imp (sm n (fun k => smul (kconj (kopp (al k))) (Lf a k))) =
    smul (kmul (kopp iu) khalf) (sm n (fun k => aadd (smul (al k) (star (Lf a k))) (aopp (smul (kconj (al k)) (Lf a k))))).
  Proof.
    unfold imp. rewrite star_sm, sm_add, sm_opp.
    rewrite (sm_ext n (fun k => star (smul (kconj (kopp (al k))) (Lf a k))) (fun k => aopp (smul (al k) (star (Lf a k))))).
    2:{ intros k _. rewrite star_smul, kconj_conj. apply smul_opp. }
    rewrite (sm_ext n (fun k => smul (kconj (kopp (al k))) (Lf a k)) (fun k => aopp (smul (kconj (al k)) (Lf a k)))).
    2:{ intros k _. rewrite kconj_opp. apply smul_opp. }
    rewrite !sm_opp. set (x := sm n _). set (y := sm n _).
    unfold aopp. rewrite !smul_addr, <- !smul_mul. f_equal; f_equal; ring.
  Qed.
End Drive.
