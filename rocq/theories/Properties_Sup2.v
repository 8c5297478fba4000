(** C37 the Lindblad master equation. [generator h cs rho] is
    -i[h, rho] + sum over c in cs of c rho c* - (c*c rho + rho c*c)/2 (SupSpec). *)
From Coq Require Import QArith Qcanon.
From Verif Require Import Prelude ListFacts SortModel SortProofs BinModel AlgSpec CAlg CInst OpModel OpSpec OpForms OpProofs1 OpProofs2 OpProofs3 OpFuel OpOrder OpLocal OpSx OpRun.
From Verif Require Import SupModel SupSpec SupProofs1 SupProofs2 SupProofs3 SupOrder SupProofs4 SupProofs5 SupLocal SupInst Properties_Op1 Properties_Sup1.
From Verif Require MatModel SlhModel.
Local Open Scope nat_scope.

Section Sup.
  Context {S : scalars} {dim : nat -> option nat} (T : sinterp S dim).
  Context (olt : op S -> op S -> bool) (slt : list nat -> list nat -> bool) (solt : sop S -> sop S -> bool).
  Local Notation code := (code dim olt slt).
  Local Notation checked := (checked dim olt slt).
  Local Notation real := (real_sorder solt slt).
  Local Notation careful := (careful_sorder solt slt).
  Local Notation legal := (legal T).
  Local Notation value := (value T).
  Local Notation slegal := (slegal T).
  Local Notation svalue := (svalue T).
  Local Notation arg := (arg (S:=S)).

  (** ** The formula *)
  Theorem C37_liouvillian_value n m h (cs : list arg) s : legal h -> Forall (arg_legal T) cs ->
    liouvillian solt slt (checked n) careful m h cs = Ok s ->
    liouvillian solt slt (code n) real m h cs = Ok s /\ slegal s
    /\ forall rho, svalue s rho = generator (value h) (map (arg_value T) cs) rho.
  Proof.
    intros Hh Hc H. split.
    - exact (le_ok _ _ _ (liouvillian_mono solt slt _ _ (checked_le (dim:=dim) olt slt n) _ _ (careful_le slt solt) m m h cs (Nat.le_refl m)) H).
    - exact (liouvillian_sound T solt slt _ (checked_sound T olt slt n) _ (careful_sorder_ok solt slt) m h cs s Hh Hc H).
  Qed.
  (** no check is needed if every collapse operator acts on one local space (not
      necessarily the same for all), whatever the Hamiltonian *)
  Theorem C37_local_collapse_value n m h (cs : list arg) s : good_orders olt slt ->
    Forall (fun c => match c with AOp c => exists l, local_to l c | ANum _ => True end) cs -> legal h -> Forall (arg_legal T) cs ->
    liouvillian solt slt (code n) real (2 + m) h cs = Ok s ->
    slegal s /\ forall rho, svalue s rho = generator (value h) (map (arg_value T) cs) rho.
  Proof.
    intros Ho Hl Hh Hc H. change (2 + m) with (Datatypes.S (Datatypes.S m)) in H. rewrite <- liouvillian_local in H by assumption.
    exact (liouvillian_sound T solt slt _ (checked_sound T olt slt n) _ (careful_sorder_ok solt slt) _ h cs s Hh Hc H).
  Qed.
  (** [L * rho] computed by the code *)
  Theorem C37_apply_value app unapp n m h (cs : list arg) s rho e : apps_ok T app unapp -> legal h -> Forall (arg_legal T) cs -> legal rho ->
    liouvillian solt slt (checked n) careful m h cs = Ok s -> super_apply (checked n) careful app unapp m s rho = Ok e ->
    liouvillian solt slt (code n) real m h cs = Ok s /\ super_apply (code n) real app unapp m s rho = Ok e
    /\ legal e /\ value e = generator (value h) (map (arg_value T) cs) (value rho).
  Proof.
    intros Ha Hh Hc Hr H He. destruct (C37_liouvillian_value n m h cs s Hh Hc H) as [E [L V]].
    destruct (C40_apply_value T olt slt solt app unapp n m s rho e Ha L Hr He) as [E' [L' V']]. repeat split; try assumption. now rewrite V', V.
  Qed.
  Theorem C37_local_apply_value l app unapp n m k h (cs : list arg) s rho e : apps_ok T app unapp -> (forall x, local_to l x -> unapp x = None) -> good_orders olt slt ->
    local_to l h -> Forall (fun c => match c with AOp c => local_to l c | ANum _ => True end) cs -> local_to l rho ->
    legal h -> Forall (arg_legal T) cs -> legal rho ->
    liouvillian solt slt (code n) real (2 + m) h cs = Ok s -> super_apply (code n) real app unapp k s rho = Ok e ->
    legal e /\ value e = generator (value h) (map (arg_value T) cs) (value rho).
  Proof.
    intros Ha Hu Ho Hlh Hlc Hlr Hh Hc Hr H He.
    destruct (C37_local_collapse_value n m h cs s Ho) as [L V]; try assumption.
    { apply (Forall_impl _ (P:=fun c => match c with AOp c => local_to l c | ANum _ => True end)); [|exact Hlc]. intros [c|c]; [|trivial]. intros G. now exists l. }
    pose proof (local_agree l dim olt slt Ho n) as HA.
    assert (two_sided (local_to l) s) as Hs.
    { apply (ts_liouvillian (local_to l) solt slt (code n) m h cs); try assumption.
      - intros x Hx y Hy. destruct (oadj_agree l _ _ HA x Hx) as [Ex Gx]. apply Gx. rewrite Ex. exact Hy.
      - intros x y z Hx Hy Hz. destruct (a_times l _ _ HA [x; y]) as [Ex Gx]; [constructor; [exact Hx|constructor; [exact Hy|constructor]]|]. apply Gx. rewrite Ex. exact Hz. }
    destruct (C40_local_apply_value T olt slt solt l app unapp n k s rho e Ha Hu Ho Hs Hlr L Hr He) as [_ [Le Ve]]. split; [exact Le|]. now rewrite Ve, V.
  Qed.
  (** the terms, as they come out *)
  Theorem C37_lindblad_form n m c cd q : oadj (code n) c = Ok cd -> k_times (code n) [cd; c] = Ok q ->
    lindblad solt slt (code n) real (2 + m) (AOp c)
    = Ok (super_sub solt slt (STimes [SPre c; SPost cd]) (super_scal half (super_plus solt slt [SPre q; SPost q]))).
  Proof. intros H1 H2. cbn [lindblad]. rewrite H1. cbn [bind]. change (2 + m) with (Datatypes.S (Datatypes.S m)). rewrite times_pre_post. cbn [bind]. now rewrite H2. Qed.
  (** numbers among the collapse operators do not contribute *)
  Theorem C37_scalar_collapse n m c : lindblad solt slt (code n) real m (ANum c) = Ok SZero
    /\ forall rho, dissipator (M:=T) (smul (ev c) a1) rho = a0.
  Proof. split; [reflexivity|]. intros rho. apply dissipator_scalar. Qed.

  (** ** Trace and Hermiticity *)
  Theorem C37_trace_free n m h (cs : list arg) s : legal h -> Forall (arg_legal T) cs ->
    liouvillian solt slt (checked n) careful m h cs = Ok s ->
    forall f : A T -> K T, (forall x y, f (aadd x y) = kadd (f x) (f y)) -> (forall k x, f (smul k x) = kmul k (f x)) -> (forall x y, f (amul x y) = f (amul y x)) ->
    forall rho, f (svalue s rho) = k0.
  Proof. intros Hh Hc H f Fa Fs Fc rho. destruct (C37_liouvillian_value n m h cs s Hh Hc H) as [_ [_ V]]. rewrite V. now apply generator_trace. Qed.
  Theorem C37_hermitian n m h (cs : list arg) s : legal h -> Forall (arg_legal T) cs -> star (value h) = value h ->
    liouvillian solt slt (checked n) careful m h cs = Ok s ->
    forall rho, star (svalue s rho) = svalue s (star rho).
  Proof. intros Hh Hc Hs H rho. destruct (C37_liouvillian_value n m h cs s Hh Hc H) as [_ [_ V]]. rewrite !V. now apply generator_star. Qed.

  (** ** SLH.symbolic_master_equation is the same equation *)
  Theorem C37_master_equation n m h (cs : list arg) s (g : SlhModel.slh T) : legal h -> Forall (arg_legal T) cs ->
    SlhModel.sH g = value h -> SlhModel.Ls g = map (arg_value T) cs ->
    liouvillian solt slt (checked n) careful m h cs = Ok s ->
    forall rho, svalue s rho = SlhModel.master_equation g rho.
  Proof.
    intros Hh Hc Eh El H rho. destruct (C37_liouvillian_value n m h cs s Hh Hc H) as [_ [_ V]]. rewrite V, generator_master, Eh, El. reflexivity.
  Qed.

  (** ** Commutators *)
  Theorem C37_commutator_value n a b e : legal a -> legal b -> commutator solt slt (checked n) a (Some (AOp b)) = Ok e ->
    exists c, e = inr c /\ legal c /\ value c = mcomm T (value a) (value b).
  Proof. apply commutator_sound, checked_sound. Qed.
  Theorem C37_anti_commutator_value n a b e : legal a -> legal b -> anti_commutator solt slt (checked n) a (Some (AOp b)) = Ok e ->
    exists c, e = inr c /\ legal c /\ value c = aadd (amul (value a) (value b)) (amul (value b) (value a)).
  Proof. apply anti_commutator_sound, checked_sound. Qed.
  Theorem C37_commutator_map n a : legal a -> exists s, commutator solt slt (code n) a None = Ok (inl s) /\ slegal s /\ forall x, svalue s x = mcomm T (value a) x.
  Proof. intros Ha. exists (commutator_super solt slt a). split; [reflexivity|]. now apply commutator_super_sound. Qed.
  Theorem C37_anti_commutator_map n a : legal a ->
    exists s, anti_commutator solt slt (code n) a None = Ok (inl s) /\ slegal s /\ forall x, svalue s x = aadd (amul (value a) x) (amul x (value a)).
  Proof. intros Ha. exists (anti_commutator_super solt slt a). split; [reflexivity|]. now apply anti_commutator_super_sound. Qed.
  (** The commutator with the number 0 is not the zero operator but the map [A, .] *)
  Theorem C37_commutator_zero_refuted n a : seqb (@s0 S) s0 = true ->
    commutator solt slt (code n) a (Some (ANum s0)) = commutator solt slt (code n) a None.
  Proof. intros H. unfold commutator, truthy. now rewrite H. Qed.
End Sup.

(** ** Examples *)
(** the oscillator in mode 0 with loss and a drive; a second decay channel in mode 1 *)
Definition xE : sinterp Sx xdim := elementary xfock (fun _ _ => []) (fun _ _ => Forall_nil _).
Definition xsolt (a b : sop Sx) : bool := false.
Definition ex_h : op Sx := OPlus [OScal (XVar 0) (x_a 0); OTimes [x_ad 0; x_a 0]].
Definition ex_cs : list (arg (S:=Sx)) := [AOp (S:=Sx) (OPlus [OScal (XVar 1) OOne; x_a 0]); ANum (num 3); AOp (OTimes [x_ad 1; x_a 1])].
Example C37_ex_liouvillian :
  legal xE ex_h /\ Forall (arg_legal xE) ex_cs
  /\ Forall (fun c => match c with AOp c => exists l, local_to (S:=Sx) l c | ANum _ => True end) ex_cs /\ good_orders xolt xslt
  /\ match liouvillian xsolt xslt (xchecked 9) (careful_sorder xsolt xslt) 9 ex_h ex_cs, liouvillian xsolt xslt (xcode 9) (real_sorder xsolt xslt) 9 ex_h ex_cs with
     | Ok (SPlus l), Ok (SPlus l') => (length l =? 5) && (length l' =? 5) | _, _ => false end = true.
Proof.
  split; [cbn; repeat split; vm_compute; reflexivity|]. split.
  { repeat constructor; cbn; repeat split; vm_compute; reflexivity. }
  split; [|split; [exact good_x|vm_compute; reflexivity]].
  constructor; [exists 0; cbn; auto|constructor; [exact Logic.I|constructor; [exists 1; cbn; auto|constructor]]].
Qed.
(** the decaying two-level system: L * rho for rho = |1><1| *)
Definition ex_l : res (sop Gs) := liouvillian gsolt xslt (gcode 9) (real_sorder gsolt xslt) 9 (gsig 1 1) [AOp (gsig 0 1)].
Example C37_ex_apply :
  match ex_l with
  | Ok s => is_gop (super_apply (gcode 9) (real_sorder gsolt xslt) (fun _ _ => None) (fun _ => None) 9 s (gsig 1 1)) (OPlus [gsig 0 0; OScal (gnum (-1)) (gsig 1 1)])
  | _ => false end = true
  /\ match liouvillian gsolt xslt (gchecked 9) (careful_sorder gsolt xslt) 9 (gsig 1 1) [AOp (gsig 0 1)] with Ok _ => true | _ => false end = true
  /\ star (value qubit_s (gsig 1 1)) = value qubit_s (gsig 1 1).
Proof. split; [vm_compute; reflexivity|]. split; [vm_compute; reflexivity|]. apply q2_eqb_eq. vm_compute. reflexivity. Qed.
(** an SLH triple with the same Hamiltonian and collapse operators *)
Example C37_ex_slh : exists g : SlhModel.slh qubit_s,
  SlhModel.sH g = value qubit_s (gsig 1 1) /\ SlhModel.Ls g = map (arg_value qubit_s) [AOp (gsig 0 1)].
Proof.
  exists (SlhModel.SLH (M:=qubit_s) (MatModel.Mat 1 1 [[a1]]) (MatModel.Mat 1 1 [[value qubit_s (gsig 0 1)]]) (value qubit_s (gsig 1 1))).
  split; reflexivity.
Qed.
Example C37_ex_commutator :
  match commutator gsolt xslt (gchecked 9) (gsig 0 1) (Some (AOp (gsig 1 0))) with Ok (inr c) => oeqb c (OPlus [gsig 0 0; OScal (gnum (-1)) (gsig 1 1)]) | _ => false end = true
  /\ match anti_commutator gsolt xslt (gchecked 9) (gsig 0 1) (Some (AOp (gsig 1 0))) with Ok (inr c) => oeqb c (OPlus [gsig 0 0; gsig 1 1]) | _ => false end = true
  /\ seqb (s:=Gs) s0 s0 = true
  /\ match commutator gsolt xslt (gcode 9) (gsig 0 1) (Some (ANum s0)) with Ok (inl (SPlus [SPre _; SScal _ (SPost _)])) => true | _ => false end = true.
Proof. repeat split; vm_compute; reflexivity. Qed.

Print Assumptions C37_liouvillian_value.
Print Assumptions C37_local_collapse_value.
Print Assumptions C37_apply_value.
Print Assumptions C37_local_apply_value.
Print Assumptions C37_lindblad_form.
Print Assumptions C37_scalar_collapse.
Print Assumptions C37_trace_free.
Print Assumptions C37_hermitian.
Print Assumptions C37_master_equation.
Print Assumptions C37_commutator_value.
Print Assumptions C37_anti_commutator_value.
Print Assumptions C37_commutator_map.
Print Assumptions C37_anti_commutator_map.
Print Assumptions C37_commutator_zero_refuted.
