(** Reading the text of a circuit. A reader for the displayed notation, independent of the
    printer: names, "cid(k)" for k parallel wires, brackets, and the two operators "<<" and
    "+", either of which may be taken to bind tighter ([python]: "+" binds tighter, as it does
    for the Python operators of the library; otherwise "<<" does, as multiplication does in
    mathematics). *)
From Verif Require Import Prelude PermModel CircModel CAsciiModel.

Section CRead.
  Context {X : Type}.
  Local Notation circ := (circ X).
  Local Notation text := (list (ctoken X)).
  (** the number of channels of the component with this label *)
  Context (chan : nat -> nat).

  Inductive operator := Series | Concat.
  (** series products and concatenations are associative: nested ones are written as one *)
  Definition operands (f : operator) (c : circ) : list circ :=
    match f, c with Series, CSeries l => l | Concat, CConcat l => l | _, _ => [c] end.
  Definition apply_all (f : operator) (l : list circ) : circ :=
    match l with
    | [c] => c
    | _ => let all := flat_map (operands f) l in match f with Series => CSeries all | Concat => CConcat all end
    end.

  Section Convention.
  Context (python : bool).
  Definition tight := if python then Concat else Series.
  Definition loose := if python then Series else Concat.
  Definition is_op (f : operator) (t : ctoken X) : bool :=
    match f, t with Series, USer => true | Concat, UCat => true | _, _ => false end.

  (** the first argument bounds the depth of the recursion *)
  Fixpoint read_loose (n : nat) (t : text) {struct n} : option (circ * text) :=
    match n with
    | 0 => None
    | S n => match read_tight n t with
      | None => None
      | Some (c, r) => match read_more_loose n r with Some (cs, r') => Some (apply_all loose (c :: cs), r') | None => None end
      end
    end
  with read_more_loose (n : nat) (t : text) {struct n} : option (list circ * text) :=
    match n with
    | 0 => None
    | S n => match t with
      | x :: r => if is_op loose x then
          match read_tight n r with
          | None => None
          | Some (c, r) => match read_more_loose n r with Some (cs, r') => Some (c :: cs, r') | None => None end
          end else Some ([], t)
      | [] => Some ([], t)
      end
    end
  with read_tight (n : nat) (t : text) {struct n} : option (circ * text) :=
    match n with
    | 0 => None
    | S n => match read_prim n t with
      | None => None
      | Some (c, r) => match read_more_tight n r with Some (cs, r') => Some (apply_all tight (c :: cs), r') | None => None end
      end
    end
  with read_more_tight (n : nat) (t : text) {struct n} : option (list circ * text) :=
    match n with
    | 0 => None
    | S n => match t with
      | x :: r => if is_op tight x then
          match read_prim n r with
          | None => None
          | Some (c, r) => match read_more_tight n r with Some (cs, r') => Some (c :: cs, r') | None => None end
          end else Some ([], t)
      | [] => Some ([], t)
      end
    end
  with read_prim (n : nat) (t : text) {struct n} : option (circ * text) :=
    match n with
    | 0 => None
    | S n => match t with
      | UName l :: r => Some (CSym l (chan l), r)
      | USlh s k :: r => Some (CSlh s k, r)
      | UPerm p :: r => Some (CPerm p, r)
      | UId :: r => Some (CId, r)
      | UZero :: r => Some (CZero, r)
      | UCid 0 :: r => Some (CZero, r)
      | UCid 1 :: r => Some (CId, r)
      | UCid k :: r => Some (CConcat (repeat CId k), r)
      | ULp :: r => match read_loose n r with Some (c, URp :: r') => Some (c, r') | _ => None end
      | ULb :: r => match read_loose n r with
          | Some (c, UFb o i :: r') => Some (CFeedback c o i, r')
          | Some (c, UInv :: r') => Some (CSInv c, r')
          | _ => None
          end
      | _ => None
      end
    end.
  (** the whole text is a notation for [c] *)
  Definition creads (t : text) (c : circ) : Prop := exists n0, forall n, n0 <= n -> read_loose n t = Some (c, []).
  End Convention.

  (** [c] with nested series products and nested concatenations written as one *)
  Fixpoint flat (c : circ) : circ :=
    match c with
    | CSeries l => apply_all Series (map flat l)
    | CConcat l => apply_all Concat (map flat l)
    | CFeedback d o i => CFeedback (flat d) o i
    | CSInv d => CSInv (flat d)
    | _ => c
    end.
  (** no series product or concatenation of no operands *)
  Fixpoint nonempty (c : circ) : Prop :=
    match c with
    | CSeries l | CConcat l => l <> [] /\ fold_right (fun o P => nonempty o /\ P) True l
    | CFeedback d _ _ | CSInv d => nonempty d
    | _ => True
    end.
  (** series products of at least two operands which are not series products, and the same for concatenations *)
  Fixpoint flattened (c : circ) : Prop :=
    match c with
    | CSeries l => 2 <= length l /\ fold_right (fun o P => (flattened o /\ match o with CSeries _ => False | _ => True end) /\ P) True l
    | CConcat l => 2 <= length l /\ fold_right (fun o P => (flattened o /\ match o with CConcat _ => False | _ => True end) /\ P) True l
    | CFeedback d _ _ | CSInv d => flattened d
    | _ => True
    end.
  (** the components have the numbers of channels that belong to their labels *)
  Fixpoint labelled (c : circ) : Prop :=
    match c with
    | CSym l n => n = chan l
    | CSeries l | CConcat l => fold_right (fun o P => labelled o /\ P) True l
    | CFeedback d _ _ | CSInv d => labelled d
    | _ => True
    end.
End CRead.
