(** What a user of GetSubmitEntry relies on. *)
From Verif Require Import Util Conc RingCbModel.

(** The submission made with callback number [c] and [tag] is in flight, at position [k]. *)
Definition in_flight (s : st) (k c : nat) (tag : N) : Prop := exists x, nth_error (fl s) k = Some x /\ scb x = Some c /\ stag x = tag.
Definition flying (s : st) (c : nat) : Prop := exists k tag, in_flight s k c tag.
(** Callback [c] has been submitted. *)
Definition submitted (s : st) (c : nat) : Prop := c < nid s.

(** The use that the code supports: a callback of a multishot operation does not submit when that makes
    the table grow. *)
Definition calm (s : st) (l : lab) : bool :=
  match l, mode s, nfree s with Submit true _, Run _ _ true, None => false | _, _, _ => true end.
Definition cstep (s : st) (l : lab) : outcome st := if calm s l then step s l else Stuck.
