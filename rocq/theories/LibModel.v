(** The library components, /repo/src/qnet/algebra/library/circuit_components.py,
    and [Circuit.coherent_input], /repo/src/qnet/algebra/core/circuit_algebra.py:261-294. *)
From Verif Require Import Prelude PermModel AlgSpec CAlg MatModel CircModel SlhModel CSimpModel CSimpSlh ToSlhModel.

Section Lib.
  Context {M : calgebra}.
  Notation A := (A M). Notation K := (K M). Notation slh := (slh M).
  (** sympy's [exp], [cos] and [sin] *)
  Context (kexp kcos ksin : K -> K).
  (** a number as an operator, circuit_algebra.py:339-344 *)
  Definition num_op (x : K) : A := smul x a1.

  (** circuit_components.py:15, 48, 74: the three classes with their parameters *)
  Inductive component := CoherentDriveCC (displacement : K) | PhaseCC (phase : K) | Beamsplitter (mixing_angle : K).
  (** circuit_components.py:34, 60, 127: CDIM *)
  Definition comp_cdim (c : component) : nat := match c with Beamsplitter _ => 2 | _ => 1 end.
  (** circuit_components.py:41-44, 67-70, 134-139: [_toSLH] *)
  Definition comp_slh (c : component) : res slh :=
    match c with
    | CoherentDriveCC alpha => mk_slh (Mat 1 1 [[num_op k1]]) (Mat 1 1 [[num_op alpha]]) (num_op k0)
    | PhaseCC phi => mk_slh (Mat 1 1 [[num_op (kexp (kmul iu phi))]]) (Mat 1 1 [[num_op k0]]) (num_op k0)
    | Beamsplitter theta =>
        mk_slh (Mat 2 2 [[num_op (kcos theta); num_op (kopp (ksin theta))];
                         [num_op (ksin theta); num_op (kcos theta)]])
               (Mat 2 1 [[num_op k0]; [num_op k0]]) (num_op k0)
    end.
  (** The objects a circuit is made of, by label: [table l] is the library
      component with that label; [other] evaluates all further symbols (user
      defined components; a bare CircuitSymbol raises CannotConvertToSLH). *)
  Context (table : nat -> option component) (other : nat -> nat -> res slh).
  Definition lib_comp (l n : nat) : res slh :=
    match table l with
    | Some c => if n =? comp_cdim c then comp_slh c else Err Unmodelled
    | None => other l n
    end.

  (** circuit_algebra.py:279-294; an amplitude comes with the label of the
      component [Displace_cc(displacement=amp)]; [kzero] is the test [amp == 0].
      [Concatenation(...)] is the plain constructor, not [create]. *)
  Context (lit : lits slh) (kzero : K -> bool).
  Definition displacement (la : nat * K) : circ slh := CSym (fst la) 1.
  Definition coherent_input (fuel : nat) (c : circ slh) (input_amps : list (nat * K)) : res (circ slh) :=
    if negb (length input_amps =? cdim c) then Err WrongCDimError
    else
      let concat_displacements :=
        match input_amps with
        | [a] => displacement a
        | _ => CConcat (map (fun a => if negb (kzero (snd a)) then displacement a else CId) input_amps)
        end in
      k_series (simp lit fuel) [c; concat_displacements].
End Lib.
