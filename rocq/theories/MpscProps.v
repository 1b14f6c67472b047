(** C13: MPSCIntrusiveQueue, any number of producers, one consumer, every schedule. *)
From Verif Require Import Util Conc MpscModel MpscSpec MpscProof.

(** No schedule touches the next pointer of a node that was handed back to the consumer. *)
Theorem mpsc_safe nx0 : safe step (init nx0).
Proof. exact (mpsc_safe_pf nx0). Qed.
Print Assumptions mpsc_safe.

(** Every history is that of a FIFO of nodes: every node pushed comes out exactly once, in an order that
    respects real time (hence in particular each producer's own order); "empty" is reported only when the
    FIFO is empty, "try again" only when it is not. *)
Theorem mpsc_linearizable nx0 s : reachable step (init nx0) s -> linearizable nfifo [] (erase (tr s)).
Proof. exact (mpsc_linearizable_pf nx0 s). Qed.
Print Assumptions mpsc_linearizable.

(** Empty() answers true only if at that moment the FIFO is empty or a Push has not finished. *)
Theorem mpsc_empty_true nx0 s l s' q : reachable step (init nx0) s -> step s l = Next s' ->
  tr s' = tr s ++ [Lin 0 Empty (RBool true)] -> legal nfifo [] (effects (tr s)) q ->
  q = [] \/ push_in_progress s.
Proof. exact (mpsc_empty_true_pf nx0 s l s' q). Qed.
Print Assumptions mpsc_empty_true.

(** If no Push is between publishing its node and linking it, and producers do not move, Pop() returns
    the oldest node with its first attempt (nothing iff the FIFO is empty): it never spins. *)
Theorem mpsc_pop_quiet nx0 s q : reachable step (init nx0) s -> cp s = CIdle ->
  (forall t prev n, pp s t <> PLink prev n) -> legal nfifo [] (effects (tr s)) q ->
  exists s', pop_alone 10 s = Some (s', hd_error q) /\ legal nfifo [] (effects (tr s')) (tl q) /\ cp s' = CIdle.
Proof. exact (mpsc_pop_quiet_pf nx0 s q). Qed.
Print Assumptions mpsc_pop_quiet.

(** Non-vacuity: two producers interleaved (the second links before the first), the consumer is told to
    try again, then gets both, pushes the stub, re-pushes node 5, and ends empty. *)
Definition P t n := repeat (StepP t) n.
Definition C n := repeat StepC n.
Definition run_tr ls := match exec step (init (fun n => Some n)) ls with Next s => Some (erase (tr s)) | _ => None end.
Example mpsc_demo :
  run_tr ([CallPush 0 5; CallPush 1 6] ++ P 0 2 ++ P 1 4 ++ [CallEmpty] ++ C 2 ++ [CallPop] ++ C 3 ++ P 0 2 ++
          [CallPop] ++ C 3 ++ [CallPush 1 5] ++ P 1 4 ++ [CallPop] ++ C 2 ++ [CallPop] ++ C 7 ++ [CallPop] ++ C 3)
  = Some [Inv 1 (Push 5); Inv 2 (Push 6); Ret 2 (Push 6) RUnit; Inv 0 Empty; Ret 0 Empty (RBool true);
          Inv 0 PopWeak; Ret 0 PopWeak (RPop None false); Ret 1 (Push 5) RUnit;
          Inv 0 PopWeak; Ret 0 PopWeak (RPop (Some 5) false); Inv 2 (Push 5); Ret 2 (Push 5) RUnit;
          Inv 0 PopWeak; Ret 0 PopWeak (RPop (Some 6) false); Inv 0 PopWeak; Ret 0 PopWeak (RPop (Some 5) false);
          Inv 0 PopWeak; Ret 0 PopWeak (RPop None true)].
Proof. vm_compute. reflexivity. Qed.
