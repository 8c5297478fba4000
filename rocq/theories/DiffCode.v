(** Numbering of the names of derivatives. Used only to show that the hypotheses of C54
    can be met. *)
From stdpp Require countable.
From Coq Require Import QArith Qcanon List.
From Verif Require Import OpSx.

Import stdpp.countable.
Fixpoint sx_tree (a : sx) : gen_tree (nat + Qc) :=
  match a with
  | XQ q => GenNode 0 [GenLeaf (inr q)]
  | XI => GenNode 1 []
  | XVar n => GenLeaf (inl n)
  | XAdd a b => GenNode 2 [sx_tree a; sx_tree b]
  | XMul a b => GenNode 3 [sx_tree a; sx_tree b]
  | XConj a => GenNode 4 [sx_tree a]
  | XExp a => GenNode 5 [sx_tree a]
  | XSqrt q => GenLeaf (inr q)
  end.
Fixpoint tree_sx (t : gen_tree (nat + Qc)) : sx :=
  match t with
  | GenNode 0 [GenLeaf (inr q)] => XQ q
  | GenLeaf (inl n) => XVar n
  | GenNode 2 [a; b] => XAdd (tree_sx a) (tree_sx b)
  | GenNode 3 [a; b] => XMul (tree_sx a) (tree_sx b)
  | GenNode 4 [a] => XConj (tree_sx a)
  | GenNode 5 [a] => XExp (tree_sx a)
  | GenLeaf (inr q) => XSqrt q
  | _ => XI
  end.
Lemma tree_sx_tree a : tree_sx (sx_tree a) = a.
Proof. induction a; cbn; congruence. Qed.

(** what a symbol is: the k-th derivative of the symbol n, of a phase, or the zero operator *)
Inductive name := NPlain (k n : nat) | NPhase (k : nat) (u : sx) | NZero.
Definition name_sum (a : name) : (nat * nat) + (nat * gen_tree (nat + Qc)) + unit :=
  match a with NPlain k n => inl (inl (k, n)) | NPhase k u => inl (inr (k, sx_tree u)) | NZero => inr tt end.
Definition sum_name (s : (nat * nat) + (nat * gen_tree (nat + Qc)) + unit) : name :=
  match s with inl (inl (k, n)) => NPlain k n | inl (inr (k, t)) => NPhase k (tree_sx t) | inr _ => NZero end.
Lemma sum_name_sum a : sum_name (name_sum a) = a.
Proof. destruct a; cbn; rewrite ?tree_sx_tree; reflexivity. Qed.
Definition name_code (a : name) : nat := Pos.to_nat (encode (name_sum a)).
Definition code_name (n : nat) : name := match decode (Pos.of_nat n) with Some s => sum_name s | None => NZero end.
Theorem code_name_code a : code_name (name_code a) = a.
Proof. unfold code_name, name_code. rewrite Pos2Nat.id, decode_encode. apply sum_name_sum. Qed.
Print Assumptions code_name_code.
