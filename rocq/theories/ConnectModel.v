(** connect(components, connections),
    /repo/src/qnet/algebra/toolbox/circuit_manipulation.py.
    SLH objects are compared by their values, so [expand().simplify_scalar()]
    (:166-167) is the identity here. Not modelled: references that are neither ints nor circuits. *)
From Verif Require Import Prelude PermModel CircModel CSimpModel.

(** circuit_algebra.py:1778-1786 *)
Fixpoint cumsum_from (sm : nat) (l : list nat) : list nat :=
  match l with [] => [] | s :: l' => (sm + s) :: cumsum_from (sm + s) l' end.
Definition cumsum (l : list nat) : list nat :=
  match l with [] => [] | s :: l' => s :: cumsum_from s l' end.

(** Python's [d[k] = v] and [{k: v for ...}] (a repeated key keeps its place) *)
Fixpoint dict_set (k v : Z) (d : list (Z * Z)) : list (Z * Z) :=
  match d with
  | [] => [(k, v)]
  | (k', v') :: d' => if (k =? k')%Z then (k', v) :: d' else (k', v') :: dict_set k v d'
  end.
Definition dict_of (items : list (Z * Z)) : list (Z * Z) := fold_left (fun d kv => dict_set (fst kv) (snd kv) d) items [].
(** [range(a, a + m)] *)
Definition zrange (a : Z) (m : nat) : list Z := map (fun k => (a + Z.of_nat k)%Z) (seq 0 m).

Section Connect.
Context {X : Type} (lit : lits X).
Local Notation circ := (circ X).
(** the PORTSIN and PORTSOUT attributes; [None]: the circuit has no such attribute
    (only subclasses of Component have) *)
Context (portsin portsout : circ -> option (list nat)).
Context (toSLH : circ -> res X).

(** a component: its index, or the object itself *)
Inductive cref := CompIndex (z : Z) | CompObj (c : circ).
(** a port: its index, or its name *)
Inductive pref := PortIndex (z : Z) | PortName (name : nat).
Definition connection : Type := (cref * pref) * (cref * pref).

(** [components.index(c)] *)
Fixpoint find_index (c : circ) (l : list circ) : option nat :=
  match l with [] => None | d :: l' => if ceqb lit d c then Some 0 else option_map S (find_index c l') end.
(** [counts[c]], :60-62 *)
Definition count (c : circ) (l : list circ) : nat := length (filter (fun d => ceqb lit d c) l).
(** :66-83 and :84-101 *)
Definition component_index (components : list circ) (r : cref) : res nat :=
  match r with
  | CompObj c => if 1 <? count c components then Err ValueError else of_option ValueError (find_index c components)
  | CompIndex z => if (z <? 0)%Z || (Z.of_nat (length components) <=? z)%Z then Err ValueError else Ok (Z.to_nat z)
  end.
(** :102-121 and :122-141; [labels] is PORTSOUT resp. PORTSIN, [n] the cdim *)
Definition port_index (labels : option (list nat)) (n : nat) (p : pref) : res nat :=
  match p with
  | PortName s => match labels with None => Err ValueError | Some l => of_option ValueError (index_of s l) end
  | PortIndex z => if (z <? 0)%Z || (Z.of_nat n <=? z)%Z then Err ValueError else Ok (Z.to_nat z)
  end.
(** the body of the loop, :64-146: (op_idx, ip_idx) *)
Definition resolve (components : list circ) (offsets : list nat) (cn : connection) : res (nat * nat) :=
  let '((c1, op), (c2, ip)) := cn in
  do k1 <- component_index components c1;
  do k2 <- component_index components c2;
  do d1 <- of_option IndexError (nth_error components k1);
  do d2 <- of_option IndexError (nth_error components k2);
  do o <- port_index (portsout d1) (cdim d1) op;
  do i <- port_index (portsin d2) (cdim d2) ip;
  do f1 <- of_option IndexError (nth_error offsets k1);
  do f2 <- of_option IndexError (nth_error offsets k2);
  Ok (f1 + o, f2 + i).

(** [for k in range(nfb): combined = combined.feedback()], :164-167 *)
Fixpoint close_loops (K : creators X) (nfb : nat) (c : circ) : res circ :=
  match nfb with 0 => Ok c | S k => do c' <- k_mfb K c (cdim c - 1) (cdim c - 1); close_loops K k c' end.

Definition connect (fuel : nat) (components : list circ) (connections : list connection) (force_SLH : bool) : res circ :=
  let K := simp lit fuel in
  do combined <- k_concat K components;
  let cdims := map cdim components in
  let offsets := cumsum (0 :: removelast cdims) in
  do pairs <- mapM (resolve components offsets) connections;
  let omap := map (fun p => Z.of_nat (fst p)) pairs in
  let imap := map (fun p => Z.of_nat (snd p)) pairs in
  let n := cdim combined in
  let nfb := length connections in
  let ks := zrange (Z.of_nat n - Z.of_nat nfb) nfb in
  do imapping <- map_channels (dict_of (combine ks imap)) n;
  do omapping <- map_channels (dict_of (combine omap ks)) n;
  do t <- k_series K [omapping; combined];
  do u <- k_series K [t; imapping];
  do v <- (if force_SLH then do s <- toSLH u; Ok (slh_of lit s) else Ok u);
  close_loops K nfb v.
End Connect.
Arguments CompIndex {X} z. Arguments CompObj {X} c.
