(** C31, C32, C34, C36 for products over several local spaces: nothing needs to be
    checked when every factor acts on one local space. See Properties_Op1 and
    Properties_Op2 for the general statements, C22_scaled_product_refuted for what
    goes wrong with scaled products over several spaces as factors. *)
From Coq Require Import Reals QArith Qcanon Qreals Permutation Sorting.
From Verif Require Import Prelude ListFacts SortModel SortSpec SortProofs BinModel AlgSpec CAlg Cplx OpModel OpSpec OpForms OpProofs1 OpProofs2 OpProofs3 OpFuel OpOrder OpLocal OpClosed OpSiteSpec OpMulti1 OpMulti2 OpMulti3 OpSites OpFock OpSx OpRun Properties_Op1 Properties_Op2.
Local Open Scope nat_scope.

Section Op.
  Context {S : scalars} {dim : nat -> option nat} (I : interp S dim).
  Context (olt : op S -> op S -> bool) (slt : list nat -> list nat -> bool).
  Context (Ho : site_order olt slt).
  Local Notation code := (code dim olt slt).

  (** a product of operators, each on one local space or itself such a product, in
      any order: the result is sorted by local space and has the value of the product *)
  Theorem C34_sites_product_value n l e :
    Forall tidy l -> Forall (legal I) l -> k_times (code n) l = Ok e ->
    nf e /\ legal I e /\ value I e = mprod I (map (value I) l).
  Proof.
    intros Ht Hl H. destruct (g_tidy _ _ (sites_agree dim olt slt Ho n) l Ht) as [E G].
    split; [now apply G|]. unfold OpRun.code in H. rewrite <- E in H. exact (s_times I _ (checked_sound I olt slt n) l e Hl H).
  Qed.
  (** a product of multiples of such products, if they are given in the order of
      the local spaces *)
  Theorem C34_sorted_product_value n l e :
    Forall nf l -> ordl l -> Forall (legal I) l -> k_times (code n) l = Ok e ->
    nf e /\ legal I e /\ value I e = mprod I (map (value I) l).
  Proof.
    intros Hn Hs Hl H. destruct (g_ord _ _ (sites_agree dim olt slt Ho n) l Hn Hs) as [E G].
    split; [now apply G|]. unfold OpRun.code in H. rewrite <- E in H. exact (s_times I _ (checked_sound I olt slt n) l e Hl H).
  Qed.
  (** commutators of such products and their multiples, of symbols, and of
      commutators of those *)
  Theorem C36_sites_commutator_value n a b e :
    sumless a -> sumless b -> legal I a -> legal I b -> k_comm (code n) a b = Ok e ->
    sumless e /\ legal I e
    /\ value I e = aadd (amul (value I a) (value I b)) (smul (kopp k1) (amul (value I b) (value I a))).
  Proof.
    intros Ma Mb Ha Hb H. destruct (h_comm _ _ (sites_agree2 dim olt slt Ho n) a b Ma Mb) as [E G].
    split; [now apply G|]. unfold OpRun.code in H. rewrite <- E in H. exact (s_comm I _ (checked_sound I olt slt n) a b e Ha Hb H).
  Qed.
  (** adjoints of sums, multiples and commutators of such products *)
  Theorem C32_sites_adjoint_value n e e' :
    loose e -> legal I e -> oadj (code n) e = Ok e' -> legal I e' /\ value I e' = star (value I e).
  Proof.
    intros Hs Hl H. destruct (oadj_loose _ _ (sites_agree2 dim olt slt Ho n) e Hs) as [E _].
    unfold OpRun.code in H. rewrite <- E in H. exact (oadj_sound I _ (checked_sound I olt slt n) e e' Hl H).
  Qed.
  (** expansion of sums, multiples and commutators of such products (sorted, as
      [create] returns them); the result is of the same kind *)
  Theorem C31_sites_expand_value n m e e' :
    sited e -> legal I e -> expand (code n) m e = Ok e' -> sited e' /\ legal I e' /\ value I e' = value I e.
  Proof.
    intros Hs Hl H. destruct (expand_sited _ _ (sites_agree2 dim olt slt Ho n) m e Hs) as [E G].
    split; [apply sumf_sited; now apply G|]. unfold OpRun.code in H. rewrite <- E in H. exact (expand_sound I _ (checked_sound I olt slt n) m e e' Hl H).
  Qed.
End Op.

Section Fock.
  Context {S : scalars} (r : cxreading S) (dim : nat -> option nat) (is_boson : nat -> bool) (Hb : forall l, is_boson l = true -> dim l = None).
  Local Notation F := (fock r dim is_boson Hb).
  (** in the number representation, over any number of modes: the product the code
      computes acts on every state as the factors do, one after the other *)
  Theorem C34_sites_number_states (olt : op S -> op S -> bool) slt n l e f c :
    site_order olt slt -> Forall tidy l -> Forall (legal F) l -> k_times (code dim olt slt n) l = Ok e ->
    acts r dim is_boson Hb (value F e) f c = fold_right (fun x g => acts r dim is_boson Hb (value F x) g) f l c.
  Proof.
    intros Ho Ht Hl H. destruct (C34_sites_product_value F olt slt Ho n l e Ht Hl H) as [_ [_ ->]]. clear.
    revert c. induction l as [|x l IH]; intros c; [reflexivity|]. cbn [map fold_right]. change (mprod F (value F x :: map (value F) l)) with (amul (value F x) (mprod F (map (value F) l))).
    rewrite C34_product_acts. unfold acts at 1 3. f_equal. apply FunctionalExtensionality.functional_extensionality. exact IH.
  Qed.
End Fock.

(** ** Examples *)
Theorem x_site_order : site_order xolt xslt.
Proof.
  constructor.
  - exact good_x.
  - intros [|p h] H; [contradiction|reflexivity].
  - intros [|p h] [|q h'] H H' G; try contradiction. unfold xslt. cbn [lexlt]. assert (p < q) as L by (apply G; now left).
    apply Nat.ltb_lt in L. now rewrite L.
Qed.
Definition two : list (op Sx) := [x_a 1; OTimes [x_ad 0; sym 1 [1]]; x_a 0; x_ad 1; x_ad 0].
(** a_1 (a_0^* X_1) a_0 a_1^* a_0^*: the factors of the two modes are separated, then
    reordered within each mode *)
Example C34_ex_sites :
  Forall tidy two /\ Forall (legal xfock) two
  /\ is_ok (k_times (xcode 9) two)
       (OTimes [x_ad 0; OPlus [OOne; OTimes [x_ad 0; x_a 0]]; x_a 1; sym 1 [1]; x_ad 1]) = true.
Proof.
  split; [|split; [repeat constructor|vm_compute; reflexivity]].
  assert (forall l a, atom_space a = [l] -> tidy (OAtom a : op Sx)) as H by (intros l a E; left; exists l; now right).
  constructor; [now apply (H 1)|]. constructor.
  { right. eexists. split; [reflexivity|]. constructor; [exists 0; now right|]. constructor; [exists 1; now right|constructor]. }
  constructor; [now apply (H 0)|]. constructor; [now apply (H 1)|]. constructor; [now apply (H 0)|constructor].
Qed.
(** (2 (a_0 + a_0^* ) (a_1 + 3)).expand(), and [a_0 a_1^*, a_1] *)
Definition e_two : op Sx := OScal (num 2) (OTimes [OPlus [x_a 0; x_ad 0]; OPlus [x_a 1; OScal (num 3) OOne]]).
Example C31_ex_sites :
  sited e_two /\ legal xfock e_two
  /\ is_ok (expand (xcode 9) 9 e_two)
       (OPlus [OScal (num 6) (x_ad 0); OScal (num 6) (x_a 0); OScal (num 2) (OTimes [x_ad 0; x_a 1]); OScal (num 2) (OTimes [x_a 0; x_a 1])]) = true.
Proof.
  split; [|split; [repeat constructor|vm_compute; reflexivity]].
  apply sd_nf, nf_scal, nf_times.
  - constructor; [exists 0; repeat split; now right|]. constructor; [exists 1; repeat split; now right|constructor].
  - constructor; [repeat constructor|]. constructor; [|constructor]. intros p q Hp Hq. cbn in Hp, Hq. destruct Hp as [<- |[]], Hq as [<- |[]]. lia.
Qed.
Example C32_ex_sites :
  let e : op Sx := OPlus [OScal (XI : Sx) (OTimes [x_a 1; sym 1 [0]; x_a 0]); sym 2 [0; 1]] in
  loose e /\ legal xfock e
  /\ is_ok (oadj (xcode 9) e) (OPlus [OScal (x_neg XI) (OTimes [x_ad 0; OAdj (sym 1 [0]); x_ad 1]); OAdj (sym 2 [0; 1])]) = true.
Proof.
  cbn zeta. split; [|split; [repeat constructor|vm_compute; reflexivity]].
  apply ls_plus. intros x [<- |[<- |[]]]; [|apply ls_atom]. apply ls_scal, ls_tidy. right. eexists. split; [reflexivity|].
  constructor; [exists 1; now right|]. constructor; [exists 0; now right|]. constructor; [exists 0; now right|constructor].
Qed.
Example C36_ex_sites :
  let a : op Sx := OTimes [x_a 0; x_ad 1] in
  sumless a /\ sumless (OScal (num 2) (x_a 1)) /\ legal xfock a /\ legal xfock (OScal (num 2) (x_a 1))
  /\ is_ok (k_comm (xcode 9) a (OScal (num 2) (x_a 1))) (OScal (num 2) (OComm a (x_a 1))) = true.
Proof.
  cbn zeta. split; [|split; [|split; [repeat constructor|split; [repeat constructor|vm_compute; reflexivity]]]].
  - apply sl_nf, nf_times.
    + constructor; [exists 0; now right|]. constructor; [exists 1; now right|constructor].
    + constructor; [repeat constructor|]. constructor; [|constructor]. intros p q Hp Hq. cbn in Hp, Hq. destruct Hp as [<- |[]], Hq as [<- |[]]. lia.
  - apply sl_scal, sl_nf, nf_site. exists 1. now right.
Qed.

Print Assumptions C34_sites_product_value.
Print Assumptions C34_sorted_product_value.
Print Assumptions C34_sites_number_states.
Print Assumptions C36_sites_commutator_value.
Print Assumptions C32_sites_adjoint_value.
Print Assumptions C31_sites_expand_value.
