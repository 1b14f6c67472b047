(** C13: the sequential specification, a FIFO of nodes. PopWeak may refuse (no element, not "empty") only
    while the queue is not empty; it reports "empty" only if it is. Empty() answers false only if the
    queue is not empty (when it may answer true is the subject of mpsc_empty_true). *)
From Verif Require Import Util Conc MpscModel.

Definition nfifo (q : list nat) (o : op) (r : res) (q' : list nat) : Prop :=
  match o, r with
  | Push n, RUnit => ~ In n q /\ q' = q ++ [n]
  | PopWeak, RPop (Some n) false => q = n :: q'
  | PopWeak, RPop None true => q = [] /\ q' = []
  | PopWeak, RPop None false => q <> [] /\ q' = q
  | Empty, RBool b => q' = q /\ (b = false -> q <> [])
  | _, _ => False
  end.
