(** What a user of EpollAdd and EpollDel relies on. *)
From Verif Require Import Util Conc UpollModel.

(** Poll requests do not fail by themselves; the kernel does not end a multishot by itself. *)
Definition no_failure (l : lab) : Prop := match l with KErr _ => False | _ => True end.
Definition no_end (l : lab) : Prop := match l with KEvent _ false => False | _ => True end.

(** The callback is not called after EpollDel has returned. *)
Fixpoint quiet (returned : bool) (h : list ev) : Prop :=
  match h with
  | [] => True
  | Called :: t => returned = false /\ quiet returned t
  | Deleted :: t => quiet true t
  | Deleting :: t => quiet returned t
  end.
