(** C12: mpmc_bounded_queue under every schedule of any number of producers and consumers. *)
From Verif Require Import Util Conc MpmcModel MpmcSpec MpmcProof.

(** No schedule constructs over a live payload, moves from or destroys raw storage. *)
Theorem mpmc_safe T k c : 1 <= k -> safe step (init k c : state T).
Proof. exact (mpmc_safe_pf k c). Qed.
Print Assumptions mpmc_safe.

(** Every history is that of a FIFO bounded by the capacity: accepted values come out exactly once, in
    the order of acceptance, never more than 2^k are held. *)
Theorem mpmc_linearizable T k c (s : state T) : 1 <= k -> reachable step (init k c) s ->
  linearizable (wfifo (2 ^ k)) [] (erase (tr s)).
Proof. exact (mpmc_linearizable_pf k c s). Qed.
Print Assumptions mpmc_linearizable.

(** try_enqueue answers false only if, at some moment during the call, the queue held 2^k values, or a
    consumer had already taken a value but not yet returned. *)
Theorem mpmc_enqueue_false T k c (s : state T) l s' t v : 1 <= k -> reachable step (init k c) s ->
  step s l = Next s' -> tr s' = tr s ++ [Lin t (Enq v) (RBool false)] ->
  exists q, legal (wfifo (2 ^ k)) [] (effects (tr s)) q /\ length q <= 2 ^ k /\
    (length q = 2 ^ k \/ exists t', dequeueing (pc s t')).
Proof. exact (mpmc_enqueue_false_pf k c s l s' t v). Qed.
Print Assumptions mpmc_enqueue_false.

(** A dequeue answers false only if, at some moment during the call, the queue held nothing, or a
    producer had its value accepted but not yet returned. *)
Theorem mpmc_dequeue_false T k c (s : state T) l s' t o : 1 <= k -> reachable step (init k c) s ->
  step s l = Next s' -> tr s' = tr s ++ [Lin t o (ROpt None)] ->
  exists q, legal (wfifo (2 ^ k)) [] (effects (tr s)) q /\
    (q = [] \/ exists t', enqueueing (pc s t')).
Proof. exact (mpmc_dequeue_false_pf k c s l s' t o). Qed.
Print Assumptions mpmc_dequeue_false.

(** Two threads about to touch a payload never touch the same cell: no data race on T. *)
Theorem mpmc_no_race T k c (s : state T) t t' p p' : 1 <= k -> reachable step (init k c) s -> t <> t' ->
  accesses (pc s t) = Some p -> accesses (pc s t') = Some p' -> cell k p <> cell k p'.
Proof. exact (mpmc_no_race_pf k c s t t' p p'). Qed.
Print Assumptions mpmc_no_race.

(** empty() and is_full() on an instantaneous state. *)
Theorem mpmc_empty_full T k c (s : state T) : 1 <= k -> reachable step (init k c) s ->
  exists q, legal (wfifo (2 ^ k)) [] (effects (tr s)) q /\ length q <= 2 ^ k /\
    (q = [] -> empty s = true) /\ (length q = 2 ^ k -> is_full s = true) /\
    (empty s = true -> q = [] \/ exists t, enqueueing (pc s t)) /\
    (is_full s = true -> length q = 2 ^ k \/ exists t, dequeueing (pc s t)).
Proof. exact (mpmc_empty_full_pf k c s). Qed.
Print Assumptions mpmc_empty_full.

(** The destructor destroys every remaining payload and no raw storage. *)
Theorem mpmc_destroy T k c (s : state T) : 1 <= k -> reachable step (init k c) s -> (forall t, pc s t = Idle) ->
  exists d, destroy s = Some d /\ forall i, i < 2 ^ k -> d i = None.
Proof. exact (mpmc_destroy_pf k c s). Qed.
Print Assumptions mpmc_destroy.

(** Non-vacuity. [go n t]: [n] steps of thread [t]. *)
Definition go (n t : nat) : list (label nat) := repeat (Step t false) n.
Definition run_tr (k : nat) c (ls : list (label nat)) := match exec step (init k c) ls with Next s => Some (erase (tr s)) | _ => None end.
Example mpmc_demo :
  run_tr 1 None
    ([Call 0 (Enq 7); Call 1 (Enq 8)] ++ go 2 0 ++ go 2 1 ++ go 1 1 ++ go 1 0 ++ go 3 1 ++ go 6 0 ++
     [Call 2 Deq; Call 3 Deq] ++ go 2 2 ++ go 7 3 ++ go 8 2 ++ [Call 0 (Enq 9)] ++ go 6 0)
  = Some [Inv 0 (Enq 7); Inv 1 (Enq 8); Ret 1 (Enq 8) (RBool true); Ret 0 (Enq 7) (RBool true);
          Inv 2 Deq; Inv 3 Deq; Ret 3 Deq (ROpt (Some 8)); Ret 2 Deq (ROpt (Some 7)); Inv 0 (Enq 9);
          Ret 0 (Enq 9) (RBool true)].
Proof. vm_compute. reflexivity. Qed.

(** The weak clause of mpmc_enqueue_false is needed: here one of two cells is logically free (one value
    was taken) and try_enqueue still answers false, because the consumer has not released the cell. *)
Example mpmc_false_full :
  exists s s', reachable step (init 1 (Some 2) : state nat) s /\ step s (Step 0 false) = Next s' /\
    tr s' = tr s ++ [Lin 0 (Enq 9) (RBool false)] /\ legal (wfifo 2) [] (effects (tr s)) [8].
Proof.
  destruct (exec step (init 1 (Some 2)) ([Call 0 (Enq 7)] ++ go 6 0 ++ [Call 0 (Enq 8)] ++ go 6 0 ++
     [Call 2 DeqSC] ++ go 5 2 ++ [Call 0 (Enq 9)] ++ go 1 0)) as [| |s] eqn:E;
    [vm_compute in E; discriminate|vm_compute in E; discriminate|].
  exists s. pose proof (f_equal (fun o => match o with Next s => step s (Step 0 false) | _ => Stuck end) E) as F.
  cbv beta iota in F. destruct (step s (Step 0 false)) as [| |s'] eqn:G;
    [vm_compute in F; discriminate|vm_compute in F; discriminate|].
  exists s'. split; [eexists; exact E|]. split; auto.
  assert (X : tr s = [Inv 0 (Enq 7); Lin 0 (Enq 7) (RBool true); Ret 0 (Enq 7) (RBool true);
     Inv 0 (Enq 8); Lin 0 (Enq 8) (RBool true); Ret 0 (Enq 8) (RBool true);
     Inv 2 DeqSC; Lin 2 DeqSC (ROpt (Some 7)); Inv 0 (Enq 9)]).
  { vm_compute in E. injection E as <-. reflexivity. }
  assert (Y : tr s' = tr s ++ [Lin 0 (Enq 9) (RBool false)]).
  { rewrite X. vm_compute in F. injection F as <-. reflexivity. }
  split; auto. rewrite X. simpl. repeat (econstructor; [simpl; repeat split; lia || reflexivity|]). constructor.
Qed.
