(** C16: [match_replace_binary]. *)
From Coq Require Import Relations.
From Verif Require Import Prelude BinModel BinSpec BinProofs.

(** the rules and the class are valid in a monoid: the neutral element denotes
    the unit, an instance of the class denotes the product of its arguments,
    and every rule is an identity *)
Definition valid_rules {A} (cls : bincls A) (M : monoid) (den : A -> M) : Prop :=
  (forall r, is_neutral cls r = true -> den r = unit_ M) /\
  is_neutral cls (neutral cls) = true /\
  (forall r args, instance_args cls r = Some args -> den r = product M den args) /\
  (forall x y r, rewrites_to cls x y r -> den r = mul M (den x) (den y)).

Definition result_value {A} (M : monoid) (den : A -> M) (out : A + list A) : M :=
  match out with inl x => den x | inr l => product M den l end.

Theorem C16_product_preserved : forall A (cls : bincls A) (M : monoid) (den : A -> M) fuel ops out,
  valid_rules cls M den -> match_replace_binary cls fuel ops = Ok out ->
  result_value M den out = product M den ops.
Proof.
  intros A cls M den fuel ops out (V1 & V2 & V3 & V4) H.
  assert (valid_in cls M den) as V by (split; [|split]; assumption).
  unfold match_replace_binary in H.
  destruct (mrb_reduce cls _ fuel ops) as [l|] eqn:E; cbn [bind] in H; [|discriminate].
  apply reduce_reach in E. rewrite (reach_product cls M den _ _ V E).
  destruct l as [|x [|y l]]; injection H as <-; cbn.
  - apply V1, V2.
  - symmetry; apply mul_unit_r.
  - reflexivity.
Qed.
Print Assumptions C16_product_preserved.

(** nothing but in-place rewriting of adjacent pairs happens: in particular
    operands are never reordered, duplicated or dropped *)
Theorem C16_only_adjacent_rewrites : forall A (cls : bincls A) fuel ops l,
  match_replace_binary cls fuel ops = Ok (inr l) -> reachable cls ops l.
Proof.
  intros A cls fuel ops out H. unfold match_replace_binary in H.
  destruct (mrb_reduce cls _ fuel ops) as [l|] eqn:E; cbn [bind] in H; [|discriminate].
  apply reduce_reach in E. destruct l as [|x [|y l]]; try discriminate. injection H as <-. exact E.
Qed.
Print Assumptions C16_only_adjacent_rewrites.

Theorem C16_only_adjacent_rewrites_object : forall A (cls : bincls A) fuel ops x,
  match_replace_binary cls fuel ops = Ok (inl x) ->
  reachable cls ops [x] \/ (reachable cls ops [] /\ x = neutral cls).
Proof.
  intros A cls fuel ops out H. unfold match_replace_binary in H.
  destruct (mrb_reduce cls _ fuel ops) as [l|] eqn:E; cbn [bind] in H; [|discriminate].
  apply reduce_reach in E. destruct l as [|x [|y l]]; try discriminate; injection H as <-.
  - right; split; [exact E|reflexivity].
  - left; exact E.
Qed.
Print Assumptions C16_only_adjacent_rewrites_object.

(** on return no adjacent pair is reducible, provided the operand lists of
    replacements that are themselves instances of the class are irreducible
    (which they are when replacements are built by [create]) *)
Theorem C16_fixpoint : forall A (cls : bincls A) fuel ops l,
  (forall x y r, rewrites_to cls x y r -> irreducible cls (contributes cls r)) ->
  match_replace_binary cls fuel ops = Ok (inr l) -> irreducible cls l.
Proof.
  intros A cls fuel ops out Hc H. unfold match_replace_binary in H.
  destruct (mrb_reduce cls _ fuel ops) as [l|] eqn:E; cbn [bind] in H; [|discriminate].
  apply (reduce_irr cls Hc) in E. destruct l as [|x [|y l]]; try discriminate. injection H as <-. exact E.
Qed.
Print Assumptions C16_fixpoint.

(** termination: if no rule raises and every replacement lowers some weight,
    the recursion ends, for any operand list (fuel: total weight plus one) *)
Theorem C16_terminates : forall A (cls : bincls A) (w : A -> nat) ops,
  (forall rule x y e, In rule (binary_rules cls) -> rule x y <> Raises e) ->
  (forall x y r, rewrites_to cls x y r -> sum (map w (contributes cls r)) < w x + w y) ->
  exists out, match_replace_binary cls (S (sum (map w ops))) ops = Ok out.
Proof.
  intros A cls w ops Hn Hd.
  assert (forall x y, exists r, get_binary_replacement cls x y = Ok r) as Hn'.
  { intros x y. unfold get_binary_replacement. induction (binary_rules cls) as [|q qs IH].
    - exists None; reflexivity.
    - cbn. destruct (q x y) eqn:E; try (apply IH; intros; apply Hn; right; assumption).
      + eexists; reflexivity.
      + exfalso. exact (Hn q x y e (or_introl eq_refl) E). }
  destruct (reduce_total cls w Hn' Hd (S (length ops)) (S (sum (map w ops))) ops) as (l & E & _);
    [lia|unfold weight; lia|].
  unfold match_replace_binary. rewrite E. cbn [bind].
  destruct l as [|x [|y l]]; eexists; reflexivity.
Qed.
Print Assumptions C16_terminates.

(** The duplicate filter of the docstring, plus a rule that cancels 7 with 8
    and one whose replacement is itself an instance of the class. Values are
    lists: [[n]] is the operand n, other lists are instances of the class. *)
Definition demo_cls : bincls (list nat) := {|
  binary_rules := [
    (fun a b => match a, b with [x], [y] => if x =? y then Replaces (Some [x]) else NoMatch | _, _ => NoMatch end);
    (fun a b => match a, b with [7], [8] => Replaces (Some []) | _, _ => Refuses end);
    (fun a b => match a, b with [9], [1] => Replaces (Some [2;3]) | _, _ => NoMatch end)];
  is_neutral := fun a => match a with [] => true | _ => false end;
  neutral := [];
  instance_args := fun a => match a with [_] => None | _ => Some (map (fun x => [x]) a) end |}.
Example C16_hyps :
  match_replace_binary demo_cls 99 [[7];[8];[8];[1];[7];[8];[1];[9];[1];[3]] = Ok (inr [[8];[1];[2];[3]]) /\
  rewrites_to demo_cls [9] [1] [2;3] /\ contributes demo_cls [2;3] = [[2];[3]] /\
  irreducible demo_cls (contributes demo_cls [2;3]).
Proof.
  split; [reflexivity|]. split.
  - apply gbr_spec. reflexivity.
  - split; [reflexivity|]. intros pre x y post E [r Hr]. apply gbr_spec in Hr.
    destruct pre as [|p [|q pre]]; cbn in E; try discriminate.
    + injection E as <- <- _. discriminate.
    + injection E as _ E. destruct pre; discriminate.
Qed.
(** a monoid in which the first rule is an identity: numbers under max *)
Definition max_monoid : monoid := {| carrier := nat; mul := Nat.max; unit_ := 0;
  mul_assoc := Nat.max_assoc; mul_unit_l := Nat.max_0_l; mul_unit_r := Nat.max_0_r |}.
Definition dup_cls : bincls nat := {|
  binary_rules := [fun a b => if a =? b then Replaces (Some a) else NoMatch];
  is_neutral := fun a => a =? 0; neutral := 0; instance_args := fun _ => None |}.
Example C16_valid_hyps : valid_rules dup_cls max_monoid (fun x : nat => x : max_monoid) /\
  match_replace_binary dup_cls 99 [1;2;2;2;3;2;2] = Ok (inr [1;2;3;2]).
Proof.
  split; [|reflexivity]. split; [|split; [reflexivity|split]].
  - intros r H. apply Nat.eqb_eq in H. exact H.
  - discriminate.
  - intros x y r H. apply gbr_spec in H. cbv [get_binary_replacement try_rules dup_cls binary_rules] in H.
    destruct (Nat.eqb_spec x y) as [->|]; [|discriminate]. injection H as <-. symmetry; apply Nat.max_id.
Qed.
