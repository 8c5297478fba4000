(** liouvillian_normal_form.
    /repo/src/qnet/algebra/core/super_operator_algebra.py:427-625 *)
From Coq Require Import QArith Qcanon.
From Verif Require Import Prelude SortModel BinModel OpModel SupModel.
Local Open Scope nat_scope.

Section Nf.
Context {S : scalars}.
Local Notation op := (op S).
Local Notation sop := (sop S).

(** What the routine asks of Python, SymPy and numpy about coefficients:
    [complex(c)] for a ScalarValue (a number, or an exception), [c.simplify_scalar()],
    [sympy.sqrt(c)], and [numpy.sqrt] of a real number (nan for negative numbers is not
    modelled, the oracle may fail there). *)
Record coeff_ops := {
  to_complex : S -> res unit;
  csimp : S -> S;
  root : S -> res S;
  nroot : S -> res S
}.
Context (solt : sop -> sop -> bool) (slt : list nat -> list nat -> bool).
Context (K : ocreators S) (sord : list sop -> res (list sop)) (F : coeff_ops).

(** A coefficient: the singleton One (None) or a ScalarValue *)
Definition coeff := option S.
Definition split_coeff (s : sop) : coeff * sop := match s with SScal c t => (Some c, t) | _ => (None, s) end.
(** [coeff * A] *)
Definition times_coeff (c : coeff) (a : op) : res op := match c with None => Ok a | Some c => k_scal K c a end.

(** collapse_form: a dictionary of dictionaries *)
Fixpoint inner_set (b : op) (c : coeff) (d : list (op * coeff)) : list (op * coeff) :=
  match d with
  | [] => [(b, c)]
  | (b', c') :: d' => if oeqb b' b then (b', c) :: d' else (b', c') :: inner_set b c d'
  end.
Fixpoint outer_set (a b : op) (c : coeff) (d : list (op * list (op * coeff))) : list (op * list (op * coeff)) :=
  match d with
  | [] => [(a, [(b, c)])]
  | (a', i) :: d' => if oeqb a' a then (a', inner_set b c i) :: d' else (a', i) :: outer_set a b c d'
  end.
(** [collapse_form[a][b]]; None stands for the default, the integer 0 *)
Definition inner_get (b : op) (d : list (op * coeff)) : option coeff := option_map snd (find (fun p => oeqb (fst p) b) d).
Definition outer_get (a b : op) (d : list (op * list (op * coeff))) : option coeff :=
  match find (fun p => oeqb (fst p) a) d with Some (_, i) => inner_get b i | None => None end.

Record form := Form { spres : list op; sposts : list op; cross : list (op * list (op * coeff)); symb : bool }.
(** lines 482-512: one summand *)
Definition classify (f : form) (s : sop) : res form :=
  let '(c, t) := split_coeff s in
  match t with
  | SPre a => do x <- times_coeff c a; Ok (Form (spres f ++ [x]) (sposts f) (cross f) (symb f))
  | SPost a => do x <- times_coeff c a; Ok (Form (spres f) (sposts f ++ [x]) (cross f) (symb f))
  | STimes [SPre a; SPost b] =>
    do cs <- match c with
             | None => Ok (None, symb f)
             | Some c =>
               match to_complex F c with
               | Ok _ => Ok (Some c, symb f)
               | Err ValueError | Err TypeError => Ok (Some (csimp F c), true)
               | Err e => Err e
               end
             end;
    Ok (Form (spres f) (sposts f) (outer_set a b (fst cs) (cross f)) (snd cs))
  | _ => Err BadLiouvillianError
  end.

(** a coefficient (or the default 0) as it enters symbolic products *)
Definition coeff_val (c : option coeff) : S := match c with None => s0 | Some None => s1 | Some (Some c) => c end.
(** [complex(collapse_form[a][b])]: One.__complex__ is 1j (scalar_algebra.py:812-813) *)
Definition coeff_complex (c : option coeff) : S := match c with None => s0 | Some None => sI | Some (Some c) => c end.
Definition re (z : S) : S := sdiv2 (sadd z (sconj z)).

(** lines 521-538 for a basis of one operator: is the routine symbolic after the check
    that the coefficient is real? (Warnings are only printed.) *)
Definition check_real (c : option coeff) (sym : bool) : res bool :=
  match c with
  | None | Some None => Ok sym
  | Some (Some k) =>
    if seqb k s0 then Ok sym
    else
    let d := ssub (sconj k) k in
    if seqb d s0 || seqb d s1 then Ok sym
    else match to_complex F d with Ok _ => Ok sym | Err ValueError => Ok true | Err e => Err e end
  end.
(** lines 539-548: the collapse operator and the correction *)
Definition symbolic_one (l : op) (k : S) : res (op * op) :=
  do r <- root F k;
  do x <- k_scal K r l;
  do ad <- oadj K l;
  do p <- k_times K [ad; l];
  do q <- k_scal K k p;
  do sd <- k_scal K half q;
  Ok (x, sd).
(** lines 596-606 with a matrix of one row: [eigh] reads the real part of the
    diagonal and returns it with the vector (1) *)
Definition numeric_one (fuel : nat) (l : op) (z : S) : res (op * op) :=
  do sv <- nroot F (re z);
  do x <- k_scal K sv l;
  do nl <- add_scalar K x s0;
  do ad <- oadj K nl;
  do h <- k_scal K half ad;
  do p <- k_times K [h; nl];
  do sd <- expand K fuel p;
  Ok (nl, sd).

(** Python's [sum] of a list of operators: a number if there are none *)
Definition osum (l : list op) : res (arg (S:=S)) :=
  match l with
  | [] => Ok (ANum s0)
  | x :: rest => do y <- add_scalar K x s0; do r <- foldM (fun a b => k_plus K [a; b]) y rest; Ok (AOp r)
  end.
Definition add_args (a b : arg (S:=S)) : res (arg (S:=S)) :=
  match a, b with
  | AOp x, AOp y => rmap AOp (k_plus K [x; y])
  | AOp x, ANum c | ANum c, AOp x => rmap AOp (add_scalar K x c)
  | ANum c, ANum d => Ok (ANum (sadd c d))
  end.
Definition is_zero_arg (a : arg (S:=S)) : bool := match a with AOp OZero => true | _ => false end.
(** lines 611-614: is the warning printed? *)
Definition warns (p q : arg (S:=S)) : res bool :=
  do s <- add_args p q;
  if negb (is_zero_arg s) then Ok true
  else match p with
       | ANum _ => Err AttributeError
       | AOp x => do ad <- oadj K x; do t <- k_plus K [ad; x]; Ok (negb (is_zero_arg (AOp t)))
       end.

(** What is returned, and whether the last warning is printed *)
Record normal_form := NF { nf_H : arg (S:=S); nf_Ls : list op; nf_warned : bool }.
(** [sorted(collapse_form.keys())]: operators have no [<], so that more than one key
    raises TypeError; the branches for larger bases (lines 549-595) are never reached.
    With no keys, [numpy.linalg.eigh] raises LinAlgError on the empty array. *)
Definition finish (fuel : nat) (f : form) : res normal_form :=
  do cs <- match cross f with
           | _ :: _ :: _ => Err TypeError
           | [] => if symb f then Ok ([], []) else Err PlainException
           | [(l, _)] =>
             do ad <- oadj K l;
             do sym <- check_real (outer_get l ad (cross f)) (symb f);
             do xs <- (if sym then symbolic_one l (coeff_val (outer_get l ad (cross f)))
                       else numeric_one fuel l (coeff_complex (outer_get l ad (cross f))));
             Ok ([fst xs], [snd xs])
           end;
  do p <- osum (spres f ++ snd cs);
  do q <- osum (sposts f ++ snd cs);
  do w <- warns p q;
  do h <- match p with
          | ANum _ => Ok (ANum s0)
          | AOp x => do y <- k_scal K sI x; do h <- expand K fuel y; Ok (AOp h)
          end;
  Ok (NF h (fst cs) w).
Definition liouvillian_normal_form (fuel : nat) (L : sop) (symbolic : bool) : res normal_form :=
  do L' <- sexpand solt slt K sord fuel L;
  match L' with
  | SPlus l => do f <- foldM classify (Form [] [] [] symbolic) l; finish fuel f
  | SZero => Ok (NF (AOp OZero) [] false)
  | _ => Err BadLiouvillianError
  end.
End Nf.
