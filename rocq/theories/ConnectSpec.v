(** Specification vocabulary for [connect] (C15). *)
From Verif Require Import Prelude PermSpec CircModel CSimpModel ConnectModel AlgSpec CAlg MatModel SlhModel MatSpec.

(** ** which ports a connection names *)
Section Refs.
  Context {X : Type} (lit : lits X) (portsin portsout : circ X -> option (list nat)).
  Local Notation circ := (circ X).
  (** component number [k]: by its index, or as the only component equal to the given object *)
  Inductive names_component (components : list circ) : cref -> nat -> Prop :=
  | by_index k : k < length components -> names_component components (CompIndex (Z.of_nat k)) k
  | by_object c d k : nth_error components k = Some d -> ceqb lit d c = true ->
      (forall j d', nth_error components j = Some d' -> ceqb lit d' c = true -> j = k) ->
      names_component components (CompObj c) k.
  (** port number [k] of a component with [n] channels: by its index or by its (first) label *)
  Inductive names_port (labels : option (list nat)) (n : nat) : pref -> nat -> Prop :=
  | port_by_index k : k < n -> names_port labels n (PortIndex (Z.of_nat k)) k
  | port_by_name l s k : labels = Some l -> nth_error l k = Some s -> (forall j, j < k -> nth_error l j <> Some s) ->
      names_port labels n (PortName s) k.
  (** the channels of all components are numbered through; [refers cn (o, i)]: the connection leads
      from output channel [o] to input channel [i] *)
  Definition channel (components : list circ) (k p : nat) : nat := sum (map cdim (firstn k components)) + p.
  Definition refers (components : list circ) (cn : connection (X:=X)) (oi : nat * nat) : Prop :=
    let '((c1, op), (c2, ip)) := cn in
    exists k1 k2 d1 d2 p q,
      names_component components c1 k1 /\ nth_error components k1 = Some d1 /\ names_port (portsout d1) (cdim d1) op p /\
      names_component components c2 k2 /\ nth_error components k2 = Some d2 /\ names_port (portsin d2) (cdim d2) ip q /\
      oi = (channel components k1 p, channel components k2 q).
  (** Component.__init__ asserts that there is a label for every port *)
  Definition labels_fit (c : circ) : Prop :=
    (forall l, portsin c = Some l -> length l = cdim c) /\ (forall l, portsout c = Some l -> length l = cdim c).
End Refs.

(** ** the network *)
(** the ports of an n-channel system that are not in [used], in their order *)
Definition others (n : nat) (used : list nat) : list nat := filter (fun k => negb (existsb (Nat.eqb k) used)) (seq 0 n).
(** no port is used twice, and all exist *)
Definition good_wires (n : nat) (wires : list (nat * nat)) : Prop :=
  NoDup (map fst wires) /\ NoDup (map snd wires) /\ forall o i, In (o, i) wires -> o < n /\ i < n.

Section Wire.
  Context {M : calgebra} (inv : A M -> res (K M)).
  (** the components side by side *)
  Fixpoint side_by_side (acc : slh M) (ss : list (slh M)) : res (slh M) :=
    match ss with [] => Ok acc | s :: ss' => do r <- concatenate_slh acc s; side_by_side r ss' end.
  Definition all_side_by_side (ss : list (slh M)) : res (slh M) :=
    match ss with [] => Err ValueError | s :: ss' => side_by_side s ss' end.
  (** Connect one output to one input after the other. [outs] and [ins] are the original numbers of the ports
      that the system still has. *)
  Fixpoint wire (s : slh M) (outs ins : list nat) (wires : list (nat * nat)) : res (slh M) :=
    match wires with
    | [] => Ok s
    | (o, i) :: wires' =>
      do p <- of_option ValueError (index_of o outs);
      do q <- of_option ValueError (index_of i ins);
      do outs' <- of_option ValueError (remove_first o outs);
      do ins' <- of_option ValueError (remove_first i ins);
      do t <- slh_feedback inv s p q;
      wire t outs' ins' wires'
    end.
  (** Declaratively, on the level of the fields: [t] is the system that results from connecting the wires
      of the n-channel system [s] if, for all fields [x] entering [s] such that the field entering each
      wired input is the one leaving the output, the external outputs (and the drift) of [s] are those
      of [t] on the external inputs. *)
  Definition port (l : list nat) (j : ix) : ix := match j with iC k => iC (nth k l 0) | _ => j end.
  Definition networks (n : nat) (s : slh M) (wires : list (nat * nat)) (t : slh M) : Prop :=
    let outs := others n (map fst wires) in
    let ins := others n (map snd wires) in
    let m := n - length wires in
    system t m /\
    forall x : ix -> A M,
      (forall o i, In (o, i) wires -> x (iC i) = apply_gen n (generator n s) x (iC o)) ->
      forall j, inb m j ->
        apply_gen m (generator m t) (fun j => x (port ins j)) j = apply_gen n (generator n s) x (port outs j).
End Wire.
