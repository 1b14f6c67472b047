(** What a user of Arm and Disarm relies on. *)
From Verif Require Import Util Conc EpollCbModel.

(** Callback [c] is armed, with id [i]. *)
Definition is_armed (s : st) (i c : nat) : Prop := In (i, c) (armed s).

(** The use that the code supports: while reported events are being dispatched nobody arms a
    descriptor if that takes an entry disarmed since the events were reported, one of which is still
    to be looked at; nor does a callback arm if that makes the table grow. *)
Definition calm (s : st) (l : lab) : bool :=
  match l, nfree s, mode s with
  | Arm, Some i, _ => negb (existsb (fun p => fst p =? i) (batch s))
  | Arm, None, Run _ _ => false
  | _, _, _ => true
  end.
Definition cstep (s : st) (l : lab) : outcome st := if calm s l then step s l else Stuck.
