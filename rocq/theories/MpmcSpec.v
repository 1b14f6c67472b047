(** C12: the sequential specification. Successful calls are those of a FIFO that never holds more
    than [c] elements. An unsuccessful call leaves the FIFO alone; when it may happen is the
    subject of separate theorems (mpmc_enqueue_false, mpmc_dequeue_false), because it depends on
    calls in progress, which a sequential specification cannot mention. *)
From Verif Require Import Util Conc MpmcModel.

Definition wfifo {T} (c : nat) (q : list T) (o : op T) (r : res T) (q' : list T) : Prop :=
  match o, r with
  | Enq v, RBool true => length q < c /\ q' = q ++ [v]
  | Enq _, RBool false => q' = q
  | Deq, ROpt (Some v) | DeqSC, ROpt (Some v) => q = v :: q'
  | Deq, ROpt None | DeqSC, ROpt None => q' = q
  | _, _ => False
  end.
