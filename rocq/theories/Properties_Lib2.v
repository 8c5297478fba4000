(** C60, continued: a driven circuit to which the theorems apply. *)
From Coq Require Import QArith Qcanon.
From Verif Require Import Prelude PermModel CircModel CSimpModel CSimpSpec AlgSpec CAlg CInst MatModel SlhModel MatSpec CSimpSlh ToSlhModel ToSlhSpec Properties_Slh LibModel LibSpec Properties_Lib.
Local Open Scope nat_scope.

(** symbol 7: a two-level emitter, symbol 8: two emitters behind a beam splitter,
    component 1: a laser with amplitude (3+4i)/5 *)
Definition al : gq := Gq (Q2Qc (3 # 5)) (Q2Qc (4 # 5)).
Definition tab1 (l : nat) : option (component (M:=CM)) := if l =? 1 then Some (CoherentDriveCC (M:=CM) al) else if l =? 2 then Some (CoherentDriveCC (M:=CM) g0) else None.
Definition oth (l n : nat) : res (slh CM) :=
  if (l =? 7) && (n =? 1) then Ok ex_b else if (l =? 8) && (n =? 2) then Ok ex_a else Err CannotConvertToSLH.
Definition cmp := lib_comp (M:=CM) (fun x => x) (fun x => x) (fun x => x) tab1 oth.
Definition ceqb (s t : slh CM) : bool := false.
Definition kz (x : gq) : bool := gq_eqb x g0.
Definition net : circ (slh CM) := CSeries [CConcat [CSym 7 1; CId]; CSym 8 2].
Example C60_input_hyps :
  valid cmp net /\ cdim net = 2 /\ res_is (to_slh (M:=CM) cmp ex_inv net) = true /\
  (forall la, In la [(1, al); (2, g0)] -> tab1 (fst la) = Some (CoherentDriveCC (M:=CM) (snd la))) /\
  (forall x, kz x = true -> x = g0) /\
  match coherent_input (slh_lits CM ex_inv ceqb) kz 20 net [(1, al); (2, g0)] with
  | Ok (CSeries [CConcat [CSym 7 1; CId]; CSym 8 2; CConcat [CSym 1 1; CId]]) => true
  | _ => false
  end = true /\
  res_is (to_slh (M:=CM) cmp ex_inv (CSeries [CConcat [CSym 7 1; CId]; CSym 8 2; CConcat [CSym 1 1; CId]])) = true /\
  coherent_input (slh_lits CM ex_inv ceqb) kz 20 net [(1, al)] = Err WrongCDimError /\
  (forall i j, i < 2 -> j < 2 -> exists c, ent (sS ex_a) i j = smul (a:=CM) c a1).
Proof.
  split.
  { cbn. split; [easy|]. split; [split; [easy|split; [|easy]]|split; [|easy]].
    - split; [lia|]. intros s E. assert (s = ex_b) as -> by (unfold cmp, lib_comp, oth in E; cbn [tab1 Nat.eqb andb] in E; congruence). exact ex_b_physical.
    - split; [lia|]. intros s E. assert (s = ex_a) as -> by (unfold cmp, lib_comp, oth in E; cbn [tab1 Nat.eqb andb] in E; congruence). exact ex_a_physical. }
  split; [reflexivity|]. split; [vm_compute; reflexivity|].
  split; [intros la [<-|[<-|[]]]; reflexivity|].
  split; [intros x Hx; apply gq_eqb_eq; exact Hx|].
  split; [vm_compute; reflexivity|]. split; [vm_compute; reflexivity|]. split; [reflexivity|].
  intros i j Hi Hj. destruct i as [|[|i]], j as [|[|j]]; try lia; [exists (Gq (Q2Qc (3 # 5)) (Q2Qc (0 # 5)))|exists (Gq (Q2Qc (0 # 5)) (Q2Qc (4 # 5)))|exists (Gq (Q2Qc (0 # 5)) (Q2Qc (4 # 5)))|exists (Gq (Q2Qc (3 # 5)) (Q2Qc (0 # 5)))]; reflexivity.
Qed.
