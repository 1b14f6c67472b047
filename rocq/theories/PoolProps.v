(** C73: ProactorPool::AwaitBrief and AwaitFiberOnAll. *)
From Verif Require Import Util Conc PoolModel PoolSpec PoolProof.

Section S.
Variables n cap : nat.
Hypothesis cap_pos : 0 < cap.

(** When a call returns, its function has run on each proactor, exactly once and to the end; and it does not run afterwards. *)
Theorem pool_await s pre c post : reachable (step n cap) init s -> hist s = pre ++ Ret c :: post ->
  all_once n c pre /\ all_once n c (hist s) /\ times (Ret c) (hist s) = 1.
Proof. exact (pool_await_pf n cap cap_pos s pre c post). Qed.
(** Each proactor takes the tasks in the order in which they were queued, and loses none. *)
Theorem pool_fifo s i : reachable (step n cap) init s -> subm s i = taken s i ++ q s i.
Proof. exact (pool_fifo_pf n cap cap_pos s i). Qed.
(** A DispatchBrief that waits for room in the queue is woken, or the proactor has something to do that ends with a wake-up. *)
Theorem pool_awake s c i e : reachable (step n cap) init s -> calls s c = Disp i (Sleep e) -> e <> epoch s i \/ q s i <> [] \/ lp s i <> Idle.
Proof. exact (pool_awake_pf n cap cap_pos s c i e). Qed.
(** As long as a call has not returned, something can happen ... *)
Theorem pool_progress s c : reachable (step n cap) init s -> calls s c <> Absent -> calls s c <> Returned ->
  exists l s', is_call l = false /\ step n cap s l = Next s'.
Proof. exact (pool_progress_pf n cap cap_pos s c). Qed.
(** ... and unless new calls are made, that comes to an end: so every call returns. *)
Theorem pool_terminates s : reachable (step n cap) init s ->
  exists N, forall ls s', forallb (fun l => negb (is_call l)) ls = true -> exec (step n cap) s ls = Next s' -> length ls <= N.
Proof. exact (pool_terminates_pf n cap cap_pos s). Qed.
End S.

(** Two proactors with queues of length 1, two concurrent calls: the second one finds the first queue full and sleeps. *)
Definition busy : list lab :=
  [LCall true; LCall false; LDisp 0; LDisp 1; LDisp 1; LDisp 1; LDisp 0].
Example pool_sleep_met : exists s, exec (step 2 1) init busy = Next s /\ calls s 1 = Disp 0 (Sleep 0) /\ epoch s 0 = 0 /\ q s 0 = [0] /\ calls s 0 = Wait.
Proof. eexists. split; [cbv; reflexivity|]. cbn. auto. Qed.
Definition rest : list lab :=
  [LPop 0; LTaskEnd 0; LBatchEnd 0; LDisp 1; LDisp 1; LDisp 1; LPop 0; LTaskEnd 0; LPop 1; LTaskEnd 1; LRet 0; LFBegin 1 0; LDisp 1; LPop 1; LTaskEnd 1; LFBegin 1 1;
   LFEnd 1 1; LFEnd 1 0; LRet 1].
Example pool_await_met : exists s, exec (step 2 1) init (busy ++ rest) = Next s /\
  hist s = [Begin 0 0; End 0 0; Begin 0 1; End 0 1; Ret 0; Begin 1 0; Begin 1 1; End 1 1; End 1 0; Ret 1].
Proof. eexists. split; [cbv; reflexivity|]. cbn. auto. Qed.

Print Assumptions pool_await.
Print Assumptions pool_fifo.
Print Assumptions pool_awake.
Print Assumptions pool_progress.
Print Assumptions pool_terminates.
