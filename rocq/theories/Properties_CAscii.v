(** C63: the printed form of a circuit can be read back. *)
From Coq Require Import QArith Qcanon.
From Verif Require Import Prelude ListFacts PermModel PermSpec PermProofs1 CircModel BinModel CSimpModel CSimpSpec CSimpProofs3 CSimpProofs7 AlgSpec CAlg CInst NcRing MatModel SlhModel MatSpec
  SlhProofs8 CSimpSlh ToSlhModel ToSlhSpec ToSlhProofs Properties_Slh Properties_Circuit CAsciiModel CAsciiSpec CAsciiProofs.
Local Open Scope nat_scope.

Section C63.
  Context {X : Type} (chan : nat -> nat).
  Implicit Types (c d : circ X).
  (** every printed circuit reads back as the circuit itself, up to writing nested series
      products and concatenations as one: with either operator taken to bind tighter *)
  Theorem C63_reads_back python c : nonempty c -> labelled chan c -> creads chan python (ctext c) (flat c).
  Proof. apply text_reads. Qed.
  Theorem C63_reads_exactly python c : flattened c -> labelled chan c -> creads chan python (ctext c) c.
  Proof. intros H Hl. rewrite <- (flattened_flat c H) at 2. apply text_reads; [now apply flattened_nonempty|exact Hl]. Qed.
  (** different circuits have different texts *)
  Theorem C63_unambiguous c d : flattened c -> flattened d -> labelled chan c -> labelled chan d -> ctext c = ctext d -> c = d.
  Proof.
    intros Fc Fd Lc Ld E. apply (creads_fun chan true (ctext c)); [now apply C63_reads_exactly|]. rewrite E. now apply C63_reads_exactly.
  Qed.
  Theorem C63_same_text c d : nonempty c -> nonempty d -> labelled chan c -> labelled chan d -> ctext c = ctext d -> flat c = flat d.
  Proof.
    intros Fc Fd Lc Ld E. apply (creads_fun chan true (ctext c)); [now apply C63_reads_back|]. rewrite E. now apply C63_reads_back.
  Qed.
End C63.

(** the text determines the SLH triple *)
Section Value.
  Context {M : calgebra} (comp : nat -> nat -> res (slh M)) (inv : A M -> res (K M)) (Hinv : sound_inv inv) (chan : nat -> nat).
  Local Notation toSLH := (to_slh comp inv).
  Local Notation valid := (valid comp).
  Implicit Types (c d : circ (slh M)).
  Lemma valid_nonempty c : valid c -> nonempty c.
  Proof.
    induction c as [l n|s n|p| | |ops IH|ops IH|d o i IH|d IH] using circ_ind'; intros H; cbn [nonempty]; try exact Logic.I; try (apply IH, H);
      (destruct H as [H2 H]; split; [exact H2|]; clear H2; induction ops as [|o ops IHo]; [exact Logic.I|];
       destruct H as [H1 H3]; split; [exact (Forall_inv IH H1)|exact (IHo (Forall_inv_tail IH) H3)]).
  Qed.
  Theorem C63_flat_value c s s' : valid c -> toSLH c = Ok s -> toSLH (flat c) = Ok s' -> s' = s.
  Proof.
    intros V E E'. pose proof (ev_mean comp inv Hinv _ V _ E) as Mc. apply flat_mean in Mc. exact (mean_ev comp inv Hinv _ _ _ _ Mc E').
  Qed.
  Theorem C63_same_value c d s t : valid c -> valid d -> labelled chan c -> labelled chan d -> ctext c = ctext d ->
    toSLH c = Ok s -> toSLH d = Ok t -> s = t.
  Proof.
    intros Vc Vd Lc Ld E Es Et. pose proof (C63_same_text chan c d (valid_nonempty c Vc) (valid_nonempty d Vd) Lc Ld E) as Ef.
    pose proof (ev_mean comp inv Hinv _ Vc _ Es) as Mc. pose proof (ev_mean comp inv Hinv _ Vd _ Et) as Md. apply flat_mean in Mc, Md. rewrite Ef in Mc.
    exact (proj2 (mean_fun _ _ _ _ _ _ Mc _ _ Md)).
  Qed.
End Value.

(** the number of channels of a component is not displayed *)
Theorem C63_channels_refuted {X} : exists c d : circ X, flattened c /\ flattened d /\ c <> d /\ cdim c <> cdim d /\ ctext c = ctext d.
Proof. exists (CConcat [CSym 0 1; CId]), (CConcat [CSym 0 2; CId]). cbn. repeat split; try lia; discriminate. Qed.

(** (B << cid(2)) with feedback and inverse, permutations and runs of identities: the text,
    its circuit, and the value of a small one *)
Definition ex_chan (l : nat) : nat := match l with 0 => 2 | _ => 1 end.
Definition ex_c : circ (slh CM) :=
  CConcat [CId; CId; CSeries [CConcat [CSym 1 1; CId]; CPerm [1; 0]; CFeedback (CConcat [CId; CSym 0 2]) 2 0]; CId; CSInv (CSym 1 1); CSlh ex_b 1].
Example C63_hypotheses : flattened ex_c /\ labelled ex_chan ex_c /\ nonempty ex_c /\ cdim ex_c = 7.
Proof. cbn. repeat split; try lia; discriminate. Qed.
Example C63_text_example :
  ctext ex_c = [UCid 2; UCat; ULp; ULp; UName 1; UCat; UCid 1; URp; USer; UPerm [1; 0]; USer; ULb; UCid 1; UCat; UName 0; UFb 2 0; URp; UCat; UCid 1; UCat;
    ULb; UName 1; UInv; UCat; USlh ex_b 1]
  /\ read_loose ex_chan true 40 (ctext ex_c) = Some (ex_c, []) /\ read_loose ex_chan false 40 (ctext ex_c) = Some (ex_c, []).
Proof. repeat split; reflexivity. Qed.
(** a text in which the two conventions differ is never printed *)
Example C63_conventions_differ : let t : list (ctoken (slh CM)) := [UName 1; UCat; UName 1; USer; UName 0] in
  read_loose ex_chan true 20 t = Some (CSeries [CConcat [CSym 1 1; CSym 1 1]; CSym 0 2], [])
  /\ read_loose ex_chan false 20 t = Some (CConcat [CSym 1 1; CSeries [CSym 1 1; CSym 0 2]], []).
Proof. repeat split; reflexivity. Qed.
(** nested and flat products with the same text and the same value *)
Definition ex_nested : circ (slh CM) := CSeries [CSym 0 2; CSeries [CPerm [1; 0]; CConcat [CSym 1 1; CSym 1 1]]].
Definition ex_flat : circ (slh CM) := CSeries [CSym 0 2; CPerm [1; 0]; CConcat [CSym 1 1; CSym 1 1]].
Example C63_value_hypotheses : valid ex_comp ex_nested /\ valid ex_comp ex_flat /\ labelled ex_chan ex_nested /\ labelled ex_chan ex_flat
  /\ ctext ex_nested = ctext ex_flat /\ flat ex_nested = ex_flat
  /\ both (to_slh ex_comp ex_inv ex_nested) (to_slh ex_comp ex_inv ex_flat) = true /\ sound_inv (M:=CM) ex_inv.
Proof.
  pose proof ex_a_physical as Pa. pose proof ex_b_physical as Pb.
  assert (bijection [1; 0]) as Hb by (apply is_perm_bij, checkp_spec; reflexivity).
  assert (valid ex_comp (CSym 0 2)) as V0 by (split; [lia|]; intros s [= <-]; exact Pa).
  assert (valid ex_comp (CSym 1 1)) as V1 by (split; [lia|]; intros s [= <-]; exact Pb).
  assert (valid ex_comp (CPerm [1; 0])) as Vp by (split; [discriminate|exact Hb]).
  assert (forall l, l <> [] -> Forall (valid ex_comp) l -> valid ex_comp (CSeries l) /\ valid ex_comp (CConcat l)) as V.
  { intros l Hl F. assert (fold_right (fun o P => valid ex_comp o /\ P) True l) by (clear Hl; induction F as [|x l Hx _ IH]; [exact Logic.I|exact (conj Hx IH)]). split; (split; assumption). }
  assert (valid ex_comp (CConcat [CSym 1 1; CSym 1 1])) as Vc by (apply V; [discriminate|]; repeat (constructor; [exact V1|]); constructor).
  split; [apply V; [discriminate|]; constructor; [exact V0|]; constructor; [|constructor]; apply V; [discriminate|]; constructor; [exact Vp|]; constructor; [exact Vc|constructor]|].
  split; [apply V; [discriminate|]; constructor; [exact V0|]; constructor; [exact Vp|]; constructor; [exact Vc|constructor]|].
  split; [repeat split|]. split; [repeat split|]. split; [reflexivity|]. split; [reflexivity|]. split; [vm_compute; reflexivity|exact ex_inv_sound].
Qed.

Print Assumptions C63_reads_back. Print Assumptions C63_reads_exactly. Print Assumptions C63_unambiguous. Print Assumptions C63_same_text.
Print Assumptions C63_flat_value. Print Assumptions C63_same_value. Print Assumptions C63_channels_refuted. Print Assumptions C63_hypotheses. Print Assumptions C63_value_hypotheses.
