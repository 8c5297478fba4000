(** The text of circuits: QnetAsciiPrinter with the default settings.
    /repo/src/qnet/printing/asciiprinter.py:205-260, 180-194, _precedence.py:17-45, 84-98.
    The text is a list of symbols (tokens). How a token is spelled, blanks, the printing of
    the arguments of a symbol and of the entries of an SLH literal (base.py:92-96) are not
    modelled; the printer's cache is transparent. *)
From Verif Require Import Prelude PermModel CircModel.

Inductive ctoken (X : Type) :=
| UName (label : nat)          (* a component with its arguments: "A", "B(x, y)"; its number of channels is not displayed *)
| USlh (s : X) (n : nat)       (* "SLH(S, L, H)" *)
| UPerm (p : list nat)         (* "Perm(1, 0)" *)
| UCid (k : nat)               (* "cid(k)" *)
| UId | UZero                  (* "CIdentity", "CircuitZero" *)
| USer | UCat                  (* "<<", "+" *)
| ULp | URp                    (* "(", ")" *)
| ULb                          (* "[" *)
| UFb (o i : nat)              (* "]_{o->i}" *)
| UInv.                        (* "]^{-1}" *)
Arguments UName {X} label. Arguments USlh {X} s n. Arguments UPerm {X} p. Arguments UCid {X} k.
Arguments UId {X}. Arguments UZero {X}. Arguments USer {X}. Arguments UCat {X}. Arguments ULp {X}. Arguments URp {X}.
Arguments ULb {X}. Arguments UFb {X} o i. Arguments UInv {X}.

Section CAscii.
Context {X : Type}.
Local Notation circ := (circ X).
Local Notation text := (list (ctoken X)).

(** _precedence.py:31-33, 84-98: Add 40, Mul 50, Atom 1000 *)
Definition cprec (c : circ) : nat :=
  match c with CSeries _ => 50 | CConcat _ => 40 | _ => 1000 end.
Definition uparens (t : text) : text := ULp :: t ++ [URp].
(** asciiprinter.py:180-194 *)
Definition uparenthesize (p level : nat) (t : text) : text := if p <? level then uparens t else t.
(** [sep.join(parts)] *)
Fixpoint ujoin (sep : ctoken X) (parts : list text) : text :=
  match parts with [] => [] | [t] => t | t :: r => t ++ sep :: ujoin sep r end.
(** asciiprinter.py:226-237: consecutive identities become one string; the operands come with
    their texts; the loop with its counter [id_count] *)
Fixpoint cat_parts (id_count : nat) (ops : list (circ * text)) : list text :=
  match ops with
  | [] => if 0 <? id_count then [[UCid id_count]] else []
  | (o, t) :: r =>
    match o with
    | CId => cat_parts (id_count + 1) r
    | _ =>
      (* asciiprinter.py:240-250 *)
      let part := match o with CSeries _ => uparens t | _ => uparenthesize (cprec o) 40 t end in
      if 0 <? id_count then [UCid id_count] :: part :: cat_parts 0 r else part :: cat_parts 0 r
    end
  end.
(** asciiprinter.py:205-260; singletons: base.py:92-96 *)
Fixpoint ctext (c : circ) : text :=
  match c with
  | CSym l _ => [UName l]
  | CSlh s n => [USlh s n]
  | CPerm p => [UPerm p]
  | CId => [UId]
  | CZero => [UZero]
  | CSeries ops => ujoin USer (map (fun o => uparenthesize (cprec o) 50 (ctext o)) ops)
  | CConcat ops => ujoin UCat (cat_parts 0 (map (fun o => (o, ctext o)) ops))
  | CFeedback d o i => ULb :: ctext d ++ [UFb o i]
  | CSInv d => ULb :: ctext d ++ [UInv]
  end.
End CAscii.
