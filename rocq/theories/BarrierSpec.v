(** What a user sees of a Barrier. *)
From Verif Require Import Util Conc MonModel BarrierModel.
(** How many calls of Wait() fiber [t] has started and finished; what its [r]-th call (from 0) returned. *)
Definition entered (s : mst bst bloc) (t : nat) : nat := ent (cs s) t.
Definition returned (s : mst bst bloc) (t : nat) : nat := length (ret (cs s) t).
Definition answer (s : mst bst bloc) (t r : nat) : option bool := nth_error (ret (cs s) t) r.
(** No call is in progress, except for suspended ones. *)
Definition at_rest (s : mst bst bloc) (t : nat) : Prop :=
  pc s t = Run BIdle \/ (exists k, pc s t = LParked k) \/ (exists k, pc s t = CvParked k).
