(** C24 bases of product spaces, C25 labels and indices, C26 index ranges. *)
From Verif Require Import Prelude ListFacts SortModel HilbertModel BasisModel BasisSpec BasisProofs.

(** ** C24 *)

(** dimension, basis_labels and basis_states of a product all have the product
    of the factor dimensions as their size *)
Theorem C24_dimension l bs :
  have_bases l bs ->
  dimension (Prod l) = Ok (product_of (map (@length str) bs))
  /\ (exists labels, basis_labels (Prod l) = Ok labels
        /\ length labels = product_of (map (@length str) bs))
  /\ (forall sts, prod_basis_states l = Ok sts -> length sts = product_of (map (@length str) bs)).
Proof.
  intros H. split; [|split].
  - cbn. rewrite (dims_ok _ _ H). cbn. rewrite prod_fold. f_equal. lia.
  - cbn. rewrite (have_bases_labels _ _ H). cbn. eexists. split; [reflexivity|].
    now rewrite map_length, cartesian_length.
  - intros sts. unfold prod_basis_states. rewrite (have_bases_labels _ _ H). cbn. intros E.
    apply mapM_ok_inv in E. destruct E as [E _]. now rewrite E, cartesian_length.
Qed.

(** row-major order: the state (and label) at position [rank is] is the tensor
    product of the basis states that the index tuple [is] picks; every position
    belongs to exactly one index tuple *)
Theorem C24_row_major l bs :
  have_bases l bs -> Forall (@NoDup str) bs ->
  exists sts labels, prod_basis_states l = Ok sts /\ basis_labels (Prod l) = Ok labels
    /\ (forall is, index_tuple bs is ->
          exists ks, nth_error sts (rank (map (@length str) bs) is) = Some ks
            /\ nth_error labels (rank (map (@length str) bs) is) = Some (join (map k_label ks))
            /\ map k_space ks = l /\ map k_index ks = map Z.of_nat is
            /\ Forall2 (fun k p => nth_error (fst p) (snd p) = Some (k_label k)) ks (combine bs is))
    /\ (forall p, p < length sts ->
          exists is, index_tuple bs is /\ rank (map (@length str) bs) is = p
            /\ forall js, index_tuple bs js -> rank (map (@length str) bs) js = p -> js = is).
Proof.
  intros Hb Hn. destruct (prod_states_ok l bs Hb Hn) as [sts [H1 [H2 H3]]].
  exists sts, (map join (cartesian bs)). split; [exact H1|]. split.
  { cbn. now rewrite (have_bases_labels _ _ Hb). }
  split.
  - intros is Hi. exists (state_at l bs is). split; [now apply H3|].
    assert (HL : map k_label (state_at l bs is) = picked bs is
              /\ map k_space (state_at l bs is) = l /\ map k_index (state_at l bs is) = map Z.of_nat is
              /\ Forall2 (fun k p => nth_error (fst p) (snd p) = Some (k_label k)) (state_at l bs is) (combine bs is)).
    { clear - Hb Hi. revert is Hi. induction Hb as [|s b l bs E1 E2 IH]; intros is Hi;
        inversion Hi as [|x y is' bs' Hlt Hi']; subst; [repeat split; constructor|].
      destruct (IH is' Hi') as [F1 [F2 [F3 F4]]].
      unfold state_at in *. cbn [combine map k_label k_space k_index fst snd]. rewrite picked_cons, F1, F2, F3.
      repeat split. constructor; [|exact F4]. cbn [fst snd k_label]. now apply nth_error_nth_lt. }
    destruct HL as [F1 [F2 [F3 F4]]]. rewrite F1. split; [|split; [exact F2|split; [exact F3|exact F4]]].
    rewrite nth_error_map, (nth_cartesian bs is Hi). reflexivity.
  - intros p Hp. rewrite H2 in Hp. destruct (rank_onto _ _ Hp) as [is [F1 F2]].
    exists is. split; [now apply index_tuple_lt|]. split; [exact F2|].
    intros js Hj E. apply index_tuple_lt in Hj. apply (rank_inj (map (@length str) bs)); [exact Hj|exact F1|congruence].
Qed.

(** the enumerated states are pairwise different *)
Theorem C24_states_distinct l bs sts :
  have_bases l bs -> Forall (@NoDup str) bs -> prod_basis_states l = Ok sts -> NoDup sts.
Proof.
  intros Hb Hn Hs. destruct (C24_row_major l bs Hb Hn) as [sts' [labels [E1 [_ [Hrow Honto]]]]].
  rewrite E1 in Hs. injection Hs as ->.
  apply NoDup_nth_error. intros i j Hi E.
  assert (Hj : j < length sts) by (apply nth_error_Some; rewrite <- E; apply nth_error_Some; exact Hi).
  destruct (Honto i Hi) as [is [I1 [I2 _]]]. destruct (Honto j Hj) as [js [J1 [J2 _]]].
  destruct (Hrow is I1) as [ks [K1 [_ [_ [K2 _]]]]]. destruct (Hrow js J1) as [ks' [K1' [_ [_ [K2' _]]]]].
  rewrite I2 in K1. rewrite J2 in K1'. assert (ks = ks') by congruence. subst ks'.
  assert (is = js); [|congruence].
  apply (HilbertProofs.map_inj Z.of_nat); [intros x y; lia|]. congruence.
Qed.

(** basis_state(i) is the i-th state, and basis_state(label i) is the same
    state when labels contain no comma *)
Theorem C24_basis_state_index l bs sts i :
  have_bases l bs -> Forall (@NoDup str) bs -> prod_basis_states l = Ok sts -> (0 <= i)%Z ->
  prod_basis_state l (Idx i) = of_option IndexError (nth_error sts (Z.to_nat i)).
Proof.
  intros Hb Hn Hs Hi. unfold prod_basis_states in Hs. unfold prod_basis_state.
  rewrite (have_bases_labels _ _ Hb) in *. cbn [bind] in *.
  unfold py_nth. replace (0 <=? i)%Z with true by (symmetry; now apply Z.leb_le).
  destruct (mapM_ok_inv _ _ _ Hs) as [Hl Hnth].
  destruct (nth_error (cartesian bs) (Z.to_nat i)) as [w|] eqn:E.
  - destruct (Hnth _ _ E) as [ks [F1 F2]]. cbn [of_option bind]. rewrite F1, F2. reflexivity.
  - apply nth_error_None in E. replace (nth_error sts (Z.to_nat i)) with (@None (list ket)); [reflexivity|].
    symmetry. apply nth_error_None. lia.
Qed.
Theorem C24_basis_state_label l bs labels i w :
  have_bases l bs -> l <> [] -> Forall (Forall comma_free) bs ->
  basis_labels (Prod l) = Ok labels -> nth_error labels i = Some w ->
  prod_basis_state l (Lab w) = prod_basis_state l (Idx (Z.of_nat i))
  /\ exists ks, prod_basis_state l (Lab w) = Ok ks /\ join (map k_label ks) = w.
Proof.
  intros Hb Hne Hc Hl Hi. cbn in Hl. rewrite (have_bases_labels _ _ Hb) in Hl. injection Hl as <-.
  rewrite nth_error_map in Hi. destruct (nth_error (cartesian bs) i) as [v|] eqn:E; [|discriminate].
  cbn in Hi. injection Hi as <-. destruct (cartesian_at _ _ _ E) as [is [I1 [I2 ->]]].
  assert (Hlen : length bs = length is) by (symmetry; exact (Forall2_length' _ _ _ I1)).
  assert (Hlb : length l = length bs) by exact (Forall2_length' _ _ _ Hb).
  assert (Hs : split (join (picked bs is)) = picked bs is).
  { apply split_join; [|now apply picked_comma_free].
    intros F. apply (f_equal (@length str)) in F. rewrite picked_length in F by exact Hlen.
    destruct l; [congruence|]. cbn in *. lia. }
  destruct (kets_of_labels l bs is Hb I1) as [ks [K1 [_ K2]]].
  assert (A1 : prod_basis_state l (Lab (join (picked bs is))) = Ok ks).
  { unfold prod_basis_state. rewrite Hs. rewrite picked_length by exact Hlen.
    rewrite <- Hlb, Nat.eqb_refl. cbn [negb]. now rewrite K1. }
  rewrite A1. split; [|exists ks; split; [reflexivity|now rewrite K2]].
  unfold prod_basis_state. rewrite (have_bases_labels _ _ Hb). cbn [bind]. unfold py_nth.
  replace (0 <=? Z.of_nat i)%Z with true by (symmetry; apply Z.leb_le; lia).
  rewrite Nat2Z.id, E. cbn [of_option bind]. now rewrite K1.
Qed.
Theorem C24_labels_distinct l bs labels :
  have_bases l bs -> Forall (@NoDup str) bs -> Forall (Forall comma_free) bs ->
  basis_labels (Prod l) = Ok labels -> NoDup labels.
Proof.
  intros Hb Hn Hc Hl. cbn in Hl. rewrite (have_bases_labels _ _ Hb) in Hl. injection Hl as <-.
  apply NoDup_nth_error. intros i j Hi E. rewrite map_length in Hi.
  assert (Hj : j < length (cartesian bs)).
  { rewrite !nth_error_map in E. apply nth_error_Some. intros F. rewrite F in E.
    destruct (nth_error (cartesian bs) i) eqn:G; [discriminate|]. apply nth_error_None in G. lia. }
  rewrite !nth_error_map in E.
  destruct (nth_error (cartesian bs) i) as [v|] eqn:Ei; [|apply nth_error_None in Ei; lia].
  destruct (nth_error (cartesian bs) j) as [w|] eqn:Ej; [|apply nth_error_None in Ej; lia].
  cbn in E. injection E as E.
  destruct (cartesian_at _ _ _ Ei) as [is [I1 [I2 ->]]]. destruct (cartesian_at _ _ _ Ej) as [js [J1 [J2 ->]]].
  assert (is = js); [|congruence].
  apply (picked_inj bs); try assumption. apply join_inj; try (now apply picked_comma_free); [|exact E].
  rewrite !picked_length; [reflexivity|symmetry; exact (Forall2_length' _ _ _ J1)|symmetry; exact (Forall2_length' _ _ _ I1)].
Qed.

(** a factor without a basis makes dimension, labels and states raise BasisNotSetError *)
Theorem C24_no_basis l s :
  In s l -> l_basis s = None ->
  dimension (Prod l) = Err BasisNotSetError /\ basis_labels (Prod l) = Err BasisNotSetError
  /\ prod_basis_states l = Err BasisNotSetError
  /\ forall i, prod_basis_state l (Idx i) = Err BasisNotSetError.
Proof.
  intros Hs Hb.
  assert (H1 : mapM local_labels l = Err BasisNotSetError).
  { induction l as [|t l IH]; [destruct Hs|]. cbn [mapM]. unfold local_labels at 1.
    destruct (l_basis t) as [b|] eqn:E; [|reflexivity]. cbn [of_option bind].
    destruct Hs as [->|Hs]; [congruence|]. now rewrite IH. }
  assert (H2 : mapM local_dim l = Err BasisNotSetError).
  { clear H1. induction l as [|t l IH]; [destruct Hs|]. cbn [mapM]. unfold local_dim at 1, local_labels.
    destruct (l_basis t) as [b|] eqn:E; [|reflexivity]. cbn [of_option bind].
    destruct Hs as [->|Hs]; [congruence|]. now rewrite IH. }
  unfold prod_basis_states, prod_basis_state. cbn [dimension basis_labels]. rewrite H1, H2. repeat split.
Qed.

(** duplicate labels are accepted by the constructor, and then two of the
    enumerated basis states coincide *)
Theorem C24_duplicate_labels_refuted :
  exists s, local_init [48] (Some [[97]; [97]]) None [] None = Ok s
    /\ exists sts, local_basis_states s = Ok sts /\ nth_error sts 0 = nth_error sts 1 /\ length sts = 2.
Proof. eexists. split; [reflexivity|]. eexists. split; [reflexivity|]. split; reflexivity. Qed.
(** a label containing a comma makes the product's own labels unusable *)
Theorem C24_comma_label_refuted :
  exists s t, local_init [48] (Some [[97; 44; 98]]) None [] None = Ok s
    /\ local_init [49] (Some [[99]]) None [] None = Ok t
    /\ basis_labels (Prod [s; t]) = Ok [[97; 44; 98; 44; 99]]
    /\ prod_basis_state [s; t] (Lab [97; 44; 98; 44; 99]) = Err KeyError.
Proof. eexists. eexists. repeat split. Qed.
(** a negative index raises for a local space but counts from the end for a product *)
Theorem C24_negative_index_refuted :
  exists s t, local_init [48] (Some [[97]; [98]]) None [] None = Ok s
    /\ local_init [49] (Some [[97]; [98]]) None [] None = Ok t
    /\ local_basis_state s (Idx (-1)) = Err IndexError
    /\ prod_basis_state [s; t] (Idx (-1)) = prod_basis_state [s; t] (Idx 3)
    /\ exists ks, prod_basis_state [s; t] (Idx (-1)) = Ok ks.
Proof. eexists. eexists. repeat split. eexists. reflexivity. Qed.
(** an unknown label of the trivial space raises TypeError, not KeyError *)
Theorem C24_trivial_label_refuted : trivial_basis_state (Lab [120]) = Err TypeError.
Proof. vm_compute. reflexivity. Qed.

Definition ex_tls : local := mk_local None (Lit [48]) (Some [[103]; [101]]) [].
Definition ex_three : local := mk_local None (Lit [49]) (Some [[97]; [98]; [99]]) [].
Example C24_hyps :
  have_bases [ex_tls; ex_three] [[[103]; [101]]; [[97]; [98]; [99]]]
  /\ Forall (@NoDup str) [[[103]; [101]]; [[97]; [98]; [99]]]
  /\ Forall (Forall comma_free) [[[103]; [101]]; [[97]; [98]; [99]]]
  /\ index_tuple [[[103]; [101]]; [[97]; [98]; [99]]] [1; 0] /\ rank [2; 3] [1; 0] = 3
  /\ basis_labels (Prod [ex_tls; ex_three])
     = Ok [[103; 44; 97]; [103; 44; 98]; [103; 44; 99]; [101; 44; 97]; [101; 44; 98]; [101; 44; 99]]
  /\ prod_basis_state [ex_tls; ex_three] (Lab [101; 44; 97]) = Ok [mk_ket ex_tls [101] 1; mk_ket ex_three [97] 0].
Proof.
  split; [repeat constructor|]. split.
  { repeat constructor; cbn; intuition discriminate. }
  split; [repeat constructor; unfold comma_free; cbn; intuition discriminate|].
  split; [repeat constructor|]. repeat split.
Qed.

(** ** C25 *)

(** the constructor: dimension and basis agree, or ValueError *)
Theorem C25_constructor label basis dim ids order s :
  local_init label basis dim ids order = Ok s ->
  match l_basis s with
  | Some b => local_dim s = Ok (length b) /\ (forall n, dim = Some n -> n = length b)
              /\ (forall b', basis = Some b' -> b = b')
              /\ (basis = None -> NoDup b /\ Forall comma_free b
                    /\ forall i, i < length b -> nth_error b i = Some (str_of_nat i))
  | None => basis = None /\ dim = None
  end.
Proof.
  unfold local_init. destruct (label_ok label); [|discriminate].
  destruct basis as [b|], dim as [n|]; cbn [init_basis].
  - destruct (n =? length b) eqn:E; [|discriminate]. apply Nat.eqb_eq in E. cbn [bind]. intros [= <-]. cbn.
    repeat split; intros; try discriminate; congruence.
  - cbn [bind]. intros [= <-]. cbn. repeat split; intros; try discriminate; congruence.
  - cbn [bind]. intros [= <-]. cbn [l_basis]. split; [reflexivity|]. split.
    { intros m [= <-]. now rewrite map_length, seq_length. }
    split; [discriminate|]. intros _. split; [|split].
    + apply FinFun.Injective_map_NoDup; [|apply seq_NoDup]. intros x y. apply str_of_nat_inj.
    + apply Forall_forall. intros w Hw. apply in_map_iff in Hw. destruct Hw as [k [<- _]]. apply str_of_nat_comma_free.
    + intros i Hi. rewrite map_length, seq_length in Hi.
      rewrite nth_error_map, (nth_error_nth_lt _ _ 0) by (now rewrite seq_length).
      rewrite seq_nth by exact Hi. reflexivity.
  - cbn [bind]. intros [= <-]. cbn. split; reflexivity.
Qed.
Theorem C25_constructor_rejects label b n ids order :
  n <> length b -> local_init label (Some b) (Some n) ids order = Err ValueError.
Proof.
  intros H. unfold local_init. destruct (label_ok label); [|reflexivity]. cbn [init_basis].
  apply Nat.eqb_neq in H. now rewrite H.
Qed.

(** labels and indices are in bijection: instantiating by label and by index
    gives the same ket, whose label and index are the given ones *)
Theorem C25_label_index s b i x :
  l_basis s = Some b -> NoDup b -> nth_error b i = Some x ->
  exists k, basis_ket s (Lab x) = Ok k /\ basis_ket s (Idx (Z.of_nat i)) = Ok k
    /\ k_label k = x /\ k_index k = Z.of_nat i
    /\ local_basis_state s (Lab x) = Ok k /\ local_basis_state s (Idx (Z.of_nat i)) = Ok k.
Proof.
  intros Hb Hn Hi. destruct (unpack_same s b i x Hb Hn Hi) as [H1 H2].
  exists (mk_ket s x (Z.of_nat i)). unfold local_basis_state, basis_ket. rewrite H1, H2. repeat split.
Qed.
(** everything outside the basis is rejected, and a returned ket is always a
    basis state of the space *)
Theorem C25_only_basis_states s b a k :
  l_basis s = Some b -> basis_ket s a = Ok k ->
  k_space k = s /\ (0 <= k_index k < Z.of_nat (length b))%Z
  /\ nth_error b (Z.to_nat (k_index k)) = Some (k_label k)
  /\ match a with Idx i => k_index k = i | Lab x => k_label k = x end.
Proof.
  intros Hb. unfold basis_ket. destruct a as [i|x].
  - rewrite (unpack_idx s b) by exact Hb.
    destruct (Z.ltb_spec i 0), (Z.leb_spec (Z.of_nat (length b)) i); cbn; try discriminate.
    intros [= <-]. cbn. repeat split; try lia. apply nth_error_nth_lt. lia.
  - rewrite (unpack_lab s b) by exact Hb. destruct (str_index x b) as [i|] eqn:E; [|discriminate].
    cbn. intros [= <-]. cbn. apply str_index_Some in E. destruct E as [E _].
    assert (i < length b) by (apply nth_error_Some; congruence).
    rewrite Nat2Z.id. repeat split; try lia. exact E.
Qed.
Theorem C25_out_of_range s b :
  l_basis s = Some b ->
  (forall i, ~ (0 <= i < Z.of_nat (length b))%Z ->
     basis_ket s (Idx i) = Err ValueError /\ local_basis_state s (Idx i) = Err IndexError
     /\ ket_create s (Idx i) = Ok None)
  /\ (forall x, ~ In x b ->
     basis_ket s (Lab x) = Err ValueError /\ local_basis_state s (Lab x) = Err KeyError
     /\ ket_create s (Lab x) = Err ValueError).
Proof.
  intros Hb. split.
  - intros i Hi. assert (E : basis_ket s (Idx i) = Err ValueError).
    { unfold basis_ket. rewrite (unpack_idx s b) by exact Hb.
      destruct (Z.ltb_spec i 0), (Z.leb_spec (Z.of_nat (length b)) i); cbn; try reflexivity. lia. }
    split; [exact E|]. unfold local_basis_state. rewrite E. split; [reflexivity|].
    unfold ket_create. rewrite Hb.
    destruct (Z.ltb_spec i 0), (Z.leb_spec (Z.of_nat (length b)) i); cbn; try reflexivity. lia.
  - intros x Hx. assert (E : basis_ket s (Lab x) = Err ValueError).
    { unfold basis_ket. rewrite (unpack_lab s b) by exact Hb. apply str_index_None in Hx. now rewrite Hx. }
    split; [exact E|]. unfold local_basis_state, ket_create. rewrite E. split; reflexivity.
Qed.

(** BasisKet.next(n) is the basis state n places further, or the zero ket when
    that leaves the basis; prev(n) is next(-n) *)
Theorem C25_next s b i n :
  l_basis s = Some b -> i < length b -> NoDup b ->
  forall k, basis_ket s (Idx (Z.of_nat i)) = Ok k ->
  (forall j, (Z.of_nat j = Z.of_nat i + n)%Z -> j < length b ->
     exists k', ket_next k n = Ok (Some k') /\ basis_ket s (Idx (Z.of_nat j)) = Ok k'
       /\ nth_error b j = Some (k_label k'))
  /\ (~ (0 <= Z.of_nat i + n < Z.of_nat (length b))%Z -> ket_next k n = Ok None)
  /\ ket_prev k n = ket_next k (- n).
Proof.
  intros Hb Hi Hn k Hk.
  assert (Hk' : k = mk_ket s (nth i b []) (Z.of_nat i)).
  { destruct (unpack_same s b i (nth i b []) Hb Hn (nth_error_nth_lt b i [] Hi)) as [_ H2].
    unfold basis_ket in Hk. rewrite H2 in Hk. cbn in Hk. congruence. }
  subst k. unfold ket_prev, ket_next. cbn [k_space k_index]. rewrite !(next_idx s b) by exact Hb.
  split; [|split; [|reflexivity]].
  - intros j Hj Hlt. rewrite <- Hj.
    destruct (Z.leb_spec 0 (Z.of_nat j)); [|lia]. destruct (Z.ltb_spec (Z.of_nat j) (Z.of_nat (length b))); [|lia].
    cbn [andb]. destruct (unpack_same s b j (nth j b []) Hb Hn (nth_error_nth_lt b j [] Hlt)) as [_ H2].
    unfold basis_ket. rewrite H2. cbn. eexists. repeat split. cbn. now apply nth_error_nth_lt.
  - intros Hout.
    destruct (Z.leb_spec 0 (Z.of_nat i + n)), (Z.ltb_spec (Z.of_nat i + n) (Z.of_nat (length b))); cbn; try reflexivity. lia.
Qed.
(** steps add up, as long as the walk stays inside the basis *)
Theorem C25_next_additive s b a c n m :
  l_basis s = Some b -> NoDup b ->
  (match a with Idx i => 0 <= i < Z.of_nat (length b) | Lab x => In x b end)%Z ->
  next_label s a n = Ok c -> next_label s c m = next_label s a (n + m).
Proof.
  intros Hb Hn Ha E. destruct a as [i|x].
  - rewrite (next_idx s b) in E by exact Hb.
    destruct (Z.leb_spec 0 (i + n)), (Z.ltb_spec (i + n) (Z.of_nat (length b))); cbn [andb] in E; try discriminate.
    injection E as <-. rewrite !(next_idx s b) by exact Hb. now rewrite Z.add_assoc.
  - apply In_nth_error in Ha. destruct Ha as [i Hi].
    rewrite (next_lab s b i) in E by assumption.
    destruct (Z.leb_spec 0 (Z.of_nat i + n)), (Z.ltb_spec (Z.of_nat i + n) (Z.of_nat (length b)));
      cbn [andb] in E; try discriminate.
    injection E as <-.
    rewrite (next_lab s b (Z.to_nat (Z.of_nat i + n))); [|exact Hb|exact Hn|apply nth_error_nth_lt; lia].
    rewrite (next_lab s b i) by assumption. rewrite Z2Nat.id by lia. now rewrite Z.add_assoc.
Qed.
(** the answer for a label is the label of the answer for its index *)
Theorem C25_next_label_index s b i x n :
  l_basis s = Some b -> NoDup b -> nth_error b i = Some x ->
  match next_label s (Idx (Z.of_nat i)) n with
  | Ok (Idx j) => exists y, nth_error b (Z.to_nat j) = Some y /\ next_label s (Lab x) n = Ok (Lab y)
                  /\ spin_next_label b (Idx (Z.of_nat i)) n = Ok y /\ spin_next_label b (Lab x) n = Ok y
  | Ok (Lab _) => False
  | Err e => e = IndexError /\ next_label s (Lab x) n = Err IndexError
             /\ spin_next_label b (Idx (Z.of_nat i)) n = Err IndexError
             /\ spin_next_label b (Lab x) n = Err IndexError
  end.
Proof.
  intros Hb Hn Hi. rewrite (next_idx s b) by exact Hb. rewrite (next_lab s b i) by assumption.
  assert (Hs : spin_next_label b (Lab x) n = spin_next_label b (Idx (Z.of_nat i)) n).
  { unfold spin_next_label. now rewrite (str_index_NoDup b i x Hn Hi). }
  rewrite Hs. unfold spin_next_label.
  destruct (Z.leb_spec 0 (Z.of_nat i + n)), (Z.ltb_spec (Z.of_nat i + n) (Z.of_nat (length b)));
  destruct (Z.ltb_spec (Z.of_nat i + n) 0), (Z.leb_spec (Z.of_nat (length b)) (Z.of_nat i + n)); try lia;
    cbn [andb orb]; try (repeat split; fail).
  exists (nth (Z.to_nat (Z.of_nat i + n)) b []).
  assert (F : nth_error b (Z.to_nat (Z.of_nat i + n)) = Some (nth (Z.to_nat (Z.of_nat i + n)) b []))
    by (apply nth_error_nth_lt; lia).
  rewrite F. repeat split.
Qed.
(** without a basis every non-negative integer is a basis state *)
Theorem C25_no_basis s i n :
  l_basis s = None ->
  ((0 <= i)%Z -> exists k, basis_ket s (Idx i) = Ok k /\ k_index k = i /\ k_space k = s
     /\ ((0 <= i + n)%Z -> exists k', ket_next k n = Ok (Some k') /\ k_index k' = (i + n)%Z)
     /\ ((i + n < 0)%Z -> ket_next k n = Ok None))
  /\ ((i < 0)%Z -> basis_ket s (Idx i) = Err ValueError /\ ket_create s (Idx i) = Ok None)
  /\ (forall x, basis_ket s (Lab x) = Err BasisNotSetError).
Proof.
  intros Hb. split; [|split].
  - intros Hi. unfold ket_next, basis_ket, unpack. rewrite Hb.
    destruct (Z.ltb_spec i 0); [lia|]. cbn [bind fst snd]. eexists. split; [reflexivity|].
    split; [reflexivity|]. split; [reflexivity|]. cbn [k_space k_index next_label]. cbv zeta. rewrite Hb. split.
    + intros Hp. pose proof Hp as Hp'. apply Z.ltb_ge in Hp'. rewrite Hp'. cbv iota beta. rewrite Hp'. cbn. eexists. split; reflexivity.
    + intros Hp. destruct (Z.ltb_spec (i + n) 0); [|lia]. reflexivity.
  - intros Hi. unfold ket_create, basis_ket, unpack. rewrite Hb. destruct (Z.ltb_spec i 0); [|lia]. split; reflexivity.
  - intros x. unfold basis_ket, unpack, local_labels. rewrite Hb. reflexivity.
Qed.
(** spin spaces: 2s+1 different labels, the k-th for m = -s + k *)
Theorem C25_spin_labels s2 :
  ((0 < s2)%Z -> exists b, spin_basis s2 = Ok b /\ length b = Z.to_nat (s2 + 1) /\ NoDup b /\ Forall comma_free b
     /\ forall k, k < length b -> nth_error b k = Some (render_half (2 * Z.of_nat k - s2)))
  /\ ((s2 <= 0)%Z -> spin_basis s2 = Err ValueError)
  /\ (forall m m', render_half m = render_half m' -> m = m').
Proof.
  split; [|split; [|apply render_half_inj]].
  - intros H. destruct (spin_basis s2) as [b|e] eqn:E.
    + exists b. split; [reflexivity|]. destruct (spin_basis_ok _ _ E) as [H1 [H2 [H3 H4]]].
      split; [exact H1|]. split; [exact H2|]. split; [exact H3|]. intros k Hk.
      rewrite (nth_error_nth_lt b k []) by exact Hk. f_equal. now apply H4.
    + unfold spin_basis in E. destruct (Z.leb_spec (s2 + 1) 1); [lia|discriminate].
  - intros H. unfold spin_basis. destruct (Z.leb_spec (s2 + 1) 1); [reflexivity|lia].
Qed.
(** symbolic labels with a Hilbert space cannot be moved: TypeError; and a
    FockLabel that evaluates to -1 renders to the last label *)
Theorem C25_symbolic_next_refuted i s s2 n :
  next_symbolic (FockLabelL i s) n = Err TypeError /\ next_symbolic (SpinIndexL i s2) n = Err TypeError.
Proof. split; reflexivity. Qed.
Theorem C25_fock_label_wraps_refuted s b :
  l_basis s = Some b -> b <> [] -> fock_label_render s (-1) = Ok (last b []).
Proof.
  intros Hb Hne. unfold fock_label_render, local_labels. rewrite Hb. cbn [of_option bind].
  unfold py_nth. cbn [Z.leb Z.compare].
  assert (Hl : length b <> 0) by (destruct b; [congruence|discriminate]).
  destruct (Z.leb_spec (- Z.of_nat (length b)) (-1)); [|lia].
  replace (Z.to_nat (Z.of_nat (length b) + -1)) with (length b - 1) by lia.
  rewrite (nth_error_nth_lt b _ []) by lia. cbn. f_equal. clear - Hne.
  rewrite (app_removelast_last [] Hne) at 1 2. rewrite app_length. cbn [length].
  rewrite app_nth2 by lia. replace (_ - _) with 0 by lia. reflexivity.
Qed.
Example C25_hyps :
  l_basis ex_three = Some [[97]; [98]; [99]] /\ NoDup [[97]; [98]; [99]]
  /\ next_label ex_three (Lab [97]) 2 = Ok (Lab [99])
  /\ ket_next (mk_ket ex_three [97] 0) 3 = Ok None
  /\ spin_basis 3 = Ok [[45; 51; 47; 50]; [45; 49; 47; 50]; [43; 49; 47; 50]; [43; 51; 47; 50]]
  /\ spin_basis 2 = Ok [[45; 49]; [48]; [43; 49]].
Proof.
  split; [reflexivity|]. split; [repeat constructor; cbn; intuition discriminate|].
  repeat split; vm_compute; reflexivity.
Qed.

(** ** C26 *)

(** the inclusive range: exactly the values start + k*step that do not pass
    the end point, both end points included when reached, each once, in order *)
Theorem C26_range_values a b s :
  (s <> 0)%Z ->
  exists l, irange_values (OverRange a b s) = Ok (Some l)
    /\ (forall v, In v l <-> (exists k : Z, 0 <= k /\ v = a + k * s)%Z /\ (if (0 <? s)%Z then v <= b else b <= v)%Z)
    /\ NoDup l
    /\ (forall i, i < length l -> nth_error l i = Some (a + Z.of_nat i * s)%Z).
Proof.
  intros Hs. cbn [irange_values]. destruct (Z.eqb_spec s 0); [contradiction|].
  eexists. split; [reflexivity|]. split; [|split].
  - intros v. rewrite In_range by exact Hs. unfold range_stop.
    destruct (Z.ltb_spec 0 s), (Z.leb_spec 0 s); try lia;
      (split; intros [H1 H2]; (split; [exact H1|lia])).
  - now apply range_NoDup.
  - intros i Hi. rewrite range_length in Hi. unfold range_list.
    rewrite nth_error_map, (nth_error_nth_lt _ _ 0) by (now rewrite seq_length).
    rewrite seq_nth by exact Hi. reflexivity.
Qed.
(** length and membership agree with iteration, for every range; piecewise_one
    is the indicator function except for Fock space ranges *)
Theorem C26_len_contains r l :
  irange_values r = Ok (Some l) ->
  irange_len r = Ok (length l)
  /\ (forall v, exists c, irange_contains r v = Ok c /\ (c = true <-> In v l))
  /\ ((forall n, r <> OverFock (Some n)) ->
      forall v, (In v l -> irange_one r v = Ok 1%Z) /\ (~ In v l -> irange_one r v = Ok 0%Z)).
Proof.
  assert (Hone : forall v (l : list Z), (In v l -> (if existsb (Z.eqb v) l then 1 else 0) = 1)%Z
    /\ (~ In v l -> (if existsb (Z.eqb v) l then 1 else 0) = 0)%Z).
  { intros v l0. pose proof (existsb_Zeqb v l0). destruct (existsb (Z.eqb v) l0); split; intros; try reflexivity; intuition discriminate. }
  destruct r as [l0|a b s|[n|]]; cbn [irange_values irange_len irange_contains irange_one].
  - intros [= <-]. split; [reflexivity|]. split.
    + intros v. eexists. split; [reflexivity|]. apply existsb_Zeqb.
    + intros _ v. split; intros H; f_equal; now apply Hone.
  - destruct (Z.eqb_spec s 0); [discriminate|]. intros [= <-]. split; [now rewrite range_length|]. split.
    + intros v. eexists. split; [reflexivity|]. now apply range_contains_spec.
    + intros _ v. split; intros H; f_equal; now apply Hone.
  - intros [= <-]. split; [now rewrite map_length, seq_length|]. split.
    + intros v. eexists. split; [reflexivity|]. rewrite andb_true_iff, Z.leb_le, Z.ltb_lt, in_map_iff. split.
      * intros H. exists (Z.to_nat v). split; [lia|]. apply in_seq. lia.
      * intros [k [<- H]]. apply in_seq in H. lia.
    + intros H. exfalso. now apply (H n).
  - discriminate.
Qed.
(** Fock space of unknown dimension: all non-negative integers *)
Theorem C26_fock_infinite v :
  irange_values (OverFock None) = Ok None
  /\ irange_contains (OverFock None) v = Ok (0 <=? v)%Z
  /\ (irange_one (OverFock None) v = Ok 1%Z <-> (0 <= v)%Z).
Proof.
  repeat split; cbn; destruct (Z.leb_spec 0 v); intros H'; try reflexivity; try discriminate; lia.
Qed.
(** piecewise_one of a finite Fock space also gives 1 for the value [dim] *)
Theorem C26_fock_one_refuted n :
  irange_contains (OverFock (Some n)) (Z.of_nat n) = Ok false /\ irange_one (OverFock (Some n)) (Z.of_nat n) = Ok 1%Z.
Proof.
  cbn. destruct (Z.leb_spec 0 (Z.of_nat n)); [|lia]. rewrite Z.ltb_irrefl, Z.leb_refl. split; reflexivity.
Qed.
Theorem C26_fock_one_partial n v :
  v <> Z.of_nat n ->
  (irange_one (OverFock (Some n)) v = Ok 1%Z <-> irange_contains (OverFock (Some n)) v = Ok true)
  /\ (irange_one (OverFock (Some n)) v = Ok 0%Z <-> irange_contains (OverFock (Some n)) v = Ok false).
Proof.
  intros H. cbn.
  destruct (Z.leb_spec 0 v), (Z.leb_spec v (Z.of_nat n)), (Z.ltb_spec v (Z.of_nat n)); try lia; cbn;
    split; split; try reflexivity; discriminate.
Qed.
(** a zero step raises ValueError, the length of an infinite range TypeError *)
Theorem C26_errors a b v :
  irange_values (OverRange a b 0) = Err ValueError /\ irange_len (OverRange a b 0) = Err ValueError
  /\ irange_contains (OverRange a b 0) v = Err ValueError /\ irange_len (OverFock None) = Err TypeError.
Proof. repeat split. Qed.
Example C26_hyps :
  irange_values (OverRange 5 (-2) (-3)) = Ok (Some [5; 2; -1])%Z
  /\ irange_values (OverRange 1 7 3) = Ok (Some [1; 4; 7])%Z
  /\ irange_len (OverRange 1 6 3) = Ok 2 /\ irange_contains (OverRange 1 7 3) 7 = Ok true.
Proof. repeat split. Qed.

Print Assumptions C24_dimension.
Print Assumptions C24_row_major.
Print Assumptions C24_states_distinct.
Print Assumptions C24_basis_state_index.
Print Assumptions C24_basis_state_label.
Print Assumptions C24_labels_distinct.
Print Assumptions C24_no_basis.
Print Assumptions C24_duplicate_labels_refuted.
Print Assumptions C24_comma_label_refuted.
Print Assumptions C24_negative_index_refuted.
Print Assumptions C24_trivial_label_refuted.
Print Assumptions C25_constructor.
Print Assumptions C25_constructor_rejects.
Print Assumptions C25_label_index.
Print Assumptions C25_only_basis_states.
Print Assumptions C25_out_of_range.
Print Assumptions C25_next.
Print Assumptions C25_next_additive.
Print Assumptions C25_next_label_index.
Print Assumptions C25_no_basis.
Print Assumptions C25_spin_labels.
Print Assumptions C25_symbolic_next_refuted.
Print Assumptions C25_fock_label_wraps_refuted.
Print Assumptions C26_range_values.
Print Assumptions C26_len_contains.
Print Assumptions C26_fock_infinite.
Print Assumptions C26_fock_one_refuted.
Print Assumptions C26_fock_one_partial.
Print Assumptions C26_errors.
