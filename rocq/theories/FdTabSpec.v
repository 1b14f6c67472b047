(** What users of the direct descriptor table see. *)
From Verif Require Import Util Conc FdTabModel.
From Coq Require Import ZArith.

(** Slot [k] was handed out for descriptor [fd] and has not been given back. *)
Definition holds (s : st) (k : nat) (fd : Z) : Prop := In (k, fd) (live s).
Definition held (s : st) (k : nat) : Prop := exists fd, holds s k fd.
