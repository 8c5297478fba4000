(** Specification vocabulary for the circuit simplifier (C13, C14): what a
    circuit expression means, given any interpretation of components, series,
    concatenation, inversion, channel permutations and feedback that obeys the
    laws of the SLH formalism (established for SLH triples in C09-C12). *)
From Verif Require Import Prelude PermModel PermSpec PermProofs1 PermProofs4 CircModel CircProofs2.

(** the concatenation of a list of systems with their channel numbers *)
Fixpoint catl_of {D : Type} (cat : nat -> nat -> D -> D -> D) (e : D) (l : list (nat * D)) : D :=
  match l with [] => e | (n, a) :: l' => cat n (sum (map fst l')) a (catl_of cat e l') end.
(** block [k] moves to position [bp k] *)
Definition move_blocks {B} (d : B) (bp : list nat) (l : list B) : list B :=
  map (fun j => nth (nth j (inv_of bp) 0) l d) (seq 0 (length l)).

Record cmodel := {
  dom : Type;
  mok : nat -> dom -> Prop;                    (* [mok n a]: a is a system with n channels *)
  mser : nat -> dom -> dom -> dom;             (* series product of n-channel systems *)
  mcat : nat -> nat -> dom -> dom -> dom;      (* concatenation *)
  minv : nat -> dom -> dom;                    (* series inverse *)
  mprm : list nat -> dom;                      (* channel permutation *)
  mfb : nat -> dom -> dom -> Prop;             (* [mfb n a b]: closing the loop from the last output to
                                                  the last input of the (n+1)-channel system a is possible
                                                  and yields the n-channel system b *)
  ok_ser : forall n a b, mok n a -> mok n b -> mok n (mser n a b);
  ok_cat : forall n m a b, mok n a -> mok m b -> mok (n + m) (mcat n m a b);
  ok_inv : forall n a, mok n a -> mok n (minv n a);
  ok_prm : forall p, is_perm p -> mok (length p) (mprm p);
  ok_fb : forall n a b, mok (S n) a -> mfb n a b -> mok n b;
  ser_assoc : forall n a b c, mok n a -> mok n b -> mok n c -> mser n (mser n a b) c = mser n a (mser n b c);
  ser_id_l : forall n a, mok n a -> mser n (mprm (seq 0 n)) a = a;
  ser_id_r : forall n a, mok n a -> mser n a (mprm (seq 0 n)) = a;
  cat_assoc : forall n1 n2 n3 a b c, mok n1 a -> mok n2 b -> mok n3 c ->
    mcat (n1 + n2) n3 (mcat n1 n2 a b) c = mcat n1 (n2 + n3) a (mcat n2 n3 b c);
  cat_0_l : forall n a, mok n a -> mcat 0 n (mprm []) a = a;
  cat_0_r : forall n a, mok n a -> mcat n 0 a (mprm []) = a;
  interchange : forall n m a b c d, mok n a -> mok n c -> mok m b -> mok m d ->
    mser (n + m) (mcat n m a b) (mcat n m c d) = mcat n m (mser n a c) (mser m b d);
  prm_ser : forall p q, is_perm p -> is_perm q -> length p = length q ->
    mser (length p) (mprm p) (mprm q) = mprm (comp p q);
  cat_prm : forall p q, is_perm p -> is_perm q ->
    mcat (length p) (length q) (mprm p) (mprm q) = mprm (concatenate_permutations p q);
  nat_block : forall l bp, Forall (fun na => mok (fst na) (snd na)) l -> is_perm bp -> length bp = length l ->
    mser (sum (map fst l)) (mprm (fbp bp (map fst l))) (catl_of mcat (mprm []) l)
    = mser (sum (map fst l)) (catl_of mcat (mprm []) (move_blocks (0, mprm []) bp l)) (mprm (fbp bp (map fst l)));
  inv_l : forall n a, mok n a -> mser n (minv n a) a = mprm (seq 0 n);
  inv_r : forall n a, mok n a -> mser n a (minv n a) = mprm (seq 0 n);
  fb_fun : forall n a b c, mok (S n) a -> mfb n a b -> mfb n a c -> b = c;
  fb_cat : forall n1 n2 a b c, mok n1 a -> mok (S n2) b -> mfb (n1 + n2) (mcat n1 (S n2) a b) c ->
    exists b', mfb n2 b b' /\ c = mcat n1 n2 a b';
  fb_ser_l : forall n a b c, mok n a -> mok (S n) b ->
    mfb n (mser (S n) (mcat n 1 a (mprm [0])) b) c -> exists b', mfb n b b' /\ c = mser n a b';
  fb_ser_r : forall n a b c, mok n a -> mok (S n) b ->
    mfb n (mser (S n) b (mcat n 1 a (mprm [0]))) c -> exists b', mfb n b b' /\ c = mser n b' a;
  fb_prm : forall n p c, is_perm p -> length p = S n -> mfb n (mprm p) c -> c = mprm (fb_perm p n n);
  fb_inv : forall n a b, mok (S n) a -> mfb n a b -> mfb n (minv (S n) a) (minv n b)
}.

Section Mean.
  Context (M : cmodel).
  (** [mports n a o i]: the (n+1)-channel system [a] with output [o] and input
      [i] moved to the last position *)
  Definition mports (n : nat) (a : dom M) (o i : nat) : dom M :=
    mser M (S n) (mser M (S n) (mprm M (m_out o (S n))) a) (mprm M (m_in i (S n))).
  (** closing the loop from output [o] to input [i] *)
  Definition loop (n : nat) (a : dom M) (o i : nat) (b : dom M) : Prop := mfb M n (mports n a o i) b.

  Context {X : Type}.
  (** interpretation of symbols and SLH literals *)
  Context (sym : nat -> nat -> dom M) (lden : X -> dom M).

  Fixpoint no_feedback (c : circ X) : Prop :=
    match c with
    | CSeries ops | CConcat ops => fold_right (fun o P => no_feedback o /\ P) True ops
    | CFeedback _ _ _ => False
    | CSInv d => no_feedback d
    | _ => True
    end.

  (** [mean c n a]: the circuit [c] has [n] channels and denotes the system [a].
      [SeriesInverse] is interpreted only around operands without [Feedback]
      ([SeriesInverse.create] never wraps anything but symbols), because circuit
      equality ignores the ports of [Feedback]. *)
  Inductive mean : circ X -> nat -> dom M -> Prop :=
  | mean_sym l n : 0 < n -> mok M n (sym l n) -> mean (CSym l n) n (sym l n)
  | mean_slh s n : 0 < n -> mok M n (lden s) -> mean (CSlh s n) n (lden s)
  | mean_perm p : p <> [] -> is_perm p -> mean (CPerm p) (length p) (mprm M p)
  | mean_id : mean CId 1 (mprm M [0])
  | mean_zero : mean CZero 0 (mprm M [])
  | mean_series ops n a : ops <> [] -> 0 < n -> smean ops n a -> mean (CSeries ops) n a
  | mean_concat ops n a : ops <> [] -> cmean ops n a -> Forall (fun o => 0 < cdim o) ops ->
      mean (CConcat ops) n a
  | mean_fb c n a o i b : mean c (S n) a -> 0 < n -> o <= n -> i <= n -> loop n a o i b -> mean (CFeedback c o i) n b
  | mean_sinv c n a : mean c n a -> 0 < n -> no_feedback c -> mean (CSInv c) n (minv M n a)
  with smean : list (circ X) -> nat -> dom M -> Prop :=
  | smean_nil n : smean [] n (mprm M (seq 0 n))
  | smean_cons c l n a b : mean c n a -> smean l n b -> smean (c :: l) n (mser M n a b)
  with cmean : list (circ X) -> nat -> dom M -> Prop :=
  | cmean_nil : cmean [] 0 (mprm M [])
  | cmean_cons c l n m a b : mean c n a -> cmean l m b -> cmean (c :: l) (n + m) (mcat M n m a b).
End Mean.
