(** Partial traces: OperatorTrace.create.
    /repo/src/qnet/algebra/core/operator_algebra.py:609-671, 819-886,
    /repo/src/qnet/algebra/_rules.py:311-352 *)
From Coq Require Import QArith Qcanon.
From Verif Require Import Prelude OpModel.
Local Open Scope nat_scope.

Section Tr.
Context {S : scalars}.
Local Notation op := (op S).
Context (dim : nat -> option nat) (K : ocreators S).

(** HilbertSpace.dimension: the product of the dimensions of the local factors; raises
    BasisNotSetError if one of them has no basis (hilbert_space_algebra.py:421-431,
    531-532, 758-768) *)
Fixpoint sp_dim (h : list nat) : res nat :=
  match h with
  | [] => Ok 1
  | l :: h' => match dim l with None => Err BasisNotSetError | Some d => do r <- sp_dim h'; Ok (d * r) end
  end.

(** The first LocalSigma in a list: its first label, what is before it, and the list
    from there on (lines 856-862) *)
Fixpoint first_sigma (l : list op) : option (nat * (list op * list op)) :=
  match l with
  | [] => None
  | OAtom (ASigma j k ls) :: l' => Some (j, ([], l))
  | x :: l' => match first_sigma l' with Some (j, (before, from)) => Some (j, (x :: before, from)) | None => None end
  end.
Definition is_sigma (e : op) : bool := match e with OAtom (ASigma _ _ _) => true | _ => false end.
(** lines 854-863. [rest[0]] raises IndexError for an empty list. *)
Definition rotate (ls : nat) (rest : list op) : res (list op) :=
  match rest with
  | [] => Err IndexError
  | x :: _ =>
    if is_sigma x && is_sigma (last rest OOne) then Ok rest
    else match first_sigma rest with
         | Some (m, (before, from)) => Ok (from ++ before ++ [OAtom (ASigma m m ls)])
         | None => Ok rest
         end
  end.

(** [chk ls l] is a monitor for the products that are factored; the code has none. *)
Context (chk : nat -> list op -> bool).
Section Create.
Context (rec : list nat -> op -> res op).
(** [OperatorTimes.create(pull_out...) * OperatorTrace.create(OperatorTimes.create(rest...))] *)
Definition pulled (ls : nat) (pull rest : list op) : res op :=
  do p <- k_times K pull;
  do r <- k_times K rest;
  do t <- rec [ls] r;
  k_times K [p; t].
(** factor_for_trace, lines 819-870; [Ok None]: CannotSimplify *)
Definition factor_for_trace (ls : nat) (e : op) : res (option op) :=
  if eqb_list_nat (space e) [ls] then
    match e with
    | OTimes l =>
      let pull := filter (fun o => match space o with [] => true | _ => false end) l in
      let rest := filter (fun o => match space o with [] => false | _ => true end) l in
      match pull with [] => Ok None | _ => rmap Some (pulled ls pull rest) end
    | _ => Ok None
    end
  else if negb (sp_mem ls (space e)) then
    match dim ls with
    | None => Err BasisNotSetError
    | Some d => rmap Some (k_scal K (sQ (qn d)) e)
    end
  else
    match e with
    | OTimes l =>
      let pull := filter (fun o => negb (sp_mem ls (space o))) l in
      let rest := filter (fun o => sp_mem ls (space o)) l in
      do rest' <- rotate ls rest;
      match pull with
      | [] => Ok None
      | _ => if chk ls l then rmap Some (pulled ls pull rest') else Err Unmodelled
      end
    | _ => Ok None
    end.
(** The rules R001 to R011; a Hilbert space is the increasing list of its labels. The
    levels of a LocalSigma are integers, so that R010 gives One or Zero. *)
Definition trace_step (h : list nat) (e : op) : res op :=
  match h with
  | [] => Ok e
  | _ =>
    match e with
    | OZero => Ok OZero
    | OOne => do d <- sp_dim h; k_scal K (sQ (qn d)) OOne
    | OPlus l => do l' <- mapM (rec h) l; k_plus K l'
    | OAdj a => do t <- rec h a; oadj K t
    | OScal c a => do t <- rec h a; k_scal K c t
    | _ =>
      match h with
      | [ls] =>
        let by_factor := do r <- factor_for_trace ls e; match r with Some x => Ok x | None => Ok (OTr e h) end in
        match e with
        | OAtom (ACreate l) | OAtom (ADestroy l) => if l =? ls then Ok OZero else by_factor
        | OAtom (ASigma j k l) => if l =? ls then k_scal K (if j =? k then s1 else s0) OOne else by_factor
        | _ => by_factor
        end
      | _ => do t <- rec [last h 0] e; rec (removelast h) t
      end
    end
  end.
End Create.
(** with recursion depth at most [n] *)
Fixpoint trace_create (n : nat) (h : list nat) (e : op) : res op :=
  match n with 0 => Err OutOfFuel | Datatypes.S m => trace_step (trace_create m) h e end.
(** OperatorTrace._expand, lines 645-648 *)
Definition expand_trace (n : nat) (h : list nat) (e : op) : res op := do e' <- expand K n e; trace_create n h e'.
End Tr.

(** the code *)
Definition no_monitor {S : scalars} (ls : nat) (l : list (op S)) : bool := true.
(** Monitor: no pulled-out factor is moved past a factor that shares a space with it, and
    a rotation moves only factors on the space that is traced over, or moves past such
    factors only. *)
Fixpoint pulls {S : scalars} (ls : nat) (l : list (op S)) : bool :=
  match l with
  | [] => true
  | x :: l' => pulls ls l' && (if sp_mem ls (space x) then forallb (fun o => sp_mem ls (space o) || sp_disjoint (space x) (space o)) l' else true)
  end.
Definition only {S : scalars} (ls : nat) (l : list (op S)) : bool := forallb (fun o => eqb_list_nat (space o) [ls]) l.
Definition turns {S : scalars} (ls : nat) (rest : list (op S)) : bool :=
  match first_sigma rest with Some (_, (before, from)) => only ls before || only ls from | None => true end.
Definition monitor {S : scalars} (ls : nat) (l : list (op S)) : bool :=
  pulls ls l && turns ls (filter (fun o => sp_mem ls (space o)) l).
