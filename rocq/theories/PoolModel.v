(** Model of ProactorPool::AwaitBrief and AwaitFiberOnAll (util/proactor_pool.h:67-195) on top of ProactorBase::DispatchBrief
    (util/fibers/proactor_base.h:382-400) and of the loop that takes tasks from the queue (util/fibers/epoll_proactor.cc:201-231,
    util/fibers/uring_proactor.cc:861-881).

    [n] proactors, each with a task queue of capacity [cap]; any number of calls, from any threads or fibers (but not from a brief
    task, which must not block). The queue is a FIFO (C11-C12 are about queues), an EventCount is its epoch (C14), a
    FiberBlockingCounter its count (C16). What the function of a call does takes time: it begins and ends. *)
From Verif Require Import Util Conc.

(** The share of a call that is meant for one proactor. [Spawned]: the fiber of AwaitFiberOnAll exists but has not begun. *)
Inductive stage := NotYet | Queued | Run | Spawned | FRun | Done.
(** DispatchBrief: [First]: the attempt at line 383; [Prep]: before prepareWait; [Again e]: before the second attempt; [Sleep e]: in wait. *)
Inductive disp := First | Prep | Again (e : nat) | Sleep (e : nat).
(** [Disp i d]: a call is giving the task to proactor [i]. *)
Inductive call := Absent | Disp (i : nat) (d : disp) | Wait | Returned.
(** The main loop: [InBatch]: between two tasks of a batch. *)
Inductive loop := Idle | Running (c : nat) | InBatch.
Inductive ev := Begin (c i : nat) | End (c i : nat) | Ret (c : nat).
Record st := mkS {
  calls : nat -> call; nextc : nat;
  brief : nat -> bool;               (* AwaitBrief, or else AwaitFiberOnAll *)
  cnt : nat -> nat;                  (* the counter of the call *)
  q : nat -> list nat;
  lp : nat -> loop;
  epoch : nat -> nat;                (* task_queue_avail_ *)
  share : nat -> nat -> stage;
  subm : nat -> list nat;            (* for the statements: what was ever queued, and what was taken out *)
  taken : nat -> list nat;
  hist : list ev }.
Definition init : st := mkS (fun _ => Absent) 0 (fun _ => false) (fun _ => 0) (fun _ => []) (fun _ => Idle) (fun _ => 0) (fun _ _ => NotYet) (fun _ => []) (fun _ => []) [].

Inductive lab := LCall (b : bool) | LDisp (c : nat) | LPop (i : nat) | LTaskEnd (i : nat) | LBatchEnd (i : nat) | LFBegin (c i : nat) | LFEnd (c i : nat) | LRet (c : nat).

Definition set2 (f : nat -> nat -> stage) (c i : nat) (x : stage) : nat -> nat -> stage := upd f c (upd (f c) i x).

Section M.
Variables n cap : nat.

(** The call goes on with the next proactor, or waits (proactor_pool.h:68-92). *)
Definition after (i : nat) : call := if Nat.ltb (S i) n then Disp (S i) First else Wait.
(** try_enqueue. *)
Definition enqueue (c i : nat) (fail : call) (s : st) : st :=
  if Nat.ltb (length (q s i)) cap
  then mkS (upd (calls s) c (after i)) (nextc s) (brief s) (cnt s) (upd (q s) i (q s i ++ [c])) (lp s) (epoch s) (set2 (share s) c i Queued)
           (upd (subm s) i (subm s i ++ [c])) (taken s) (hist s)
  else mkS (upd (calls s) c fail) (nextc s) (brief s) (cnt s) (q s) (lp s) (epoch s) (share s) (subm s) (taken s) (hist s).
Definition setcall (c : nat) (x : call) (s : st) : st :=
  mkS (upd (calls s) c x) (nextc s) (brief s) (cnt s) (q s) (lp s) (epoch s) (share s) (subm s) (taken s) (hist s).

Definition step (s : st) (l : lab) : outcome st :=
  match l with
  (* proactor_pool.h:101-123, 169-195: the counter starts at size() *)
  | LCall b => Next (mkS (upd (calls s) (nextc s) (if Nat.ltb 0 n then Disp 0 First else Wait)) (S (nextc s)) (upd (brief s) (nextc s) b) (upd (cnt s) (nextc s) n)
                         (q s) (lp s) (epoch s) (share s) (subm s) (taken s) (hist s))
  | LDisp c =>
    match calls s c with
    | Disp i First => Next (enqueue c i (Disp i Prep) s)
    | Disp i Prep => Next (setcall c (Disp i (Again (epoch s i))) s)
    | Disp i (Again e) => Next (enqueue c i (Disp i (Sleep e)) s)
    | Disp i (Sleep e) => if Nat.eqb e (epoch s i) then Stuck else Next (setcall c (Disp i Prep) s)
    | _ => Stuck
    end
  | LPop i =>
    match q s i, lp s i with
    | c :: t, (Idle | InBatch) =>
      Next (mkS (calls s) (nextc s) (brief s) (cnt s) (upd (q s) i t) (upd (lp s) i (Running c)) (epoch s) (set2 (share s) c i Run)
                (subm s) (upd (taken s) i (taken s i ++ [c])) (hist s ++ if brief s c then [Begin c i] else []))
    | _, _ => Stuck
    end
  (* the task: func and Release, or MakeFiber (...).Detach() *)
  | LTaskEnd i =>
    match lp s i with
    | Running c =>
      if brief s c
      then Next (mkS (calls s) (nextc s) (brief s) (upd (cnt s) c (cnt s c - 1)) (q s) (upd (lp s) i InBatch) (epoch s) (set2 (share s) c i Done)
                     (subm s) (taken s) (hist s ++ [End c i]))
      else Next (mkS (calls s) (nextc s) (brief s) (cnt s) (q s) (upd (lp s) i InBatch) (epoch s) (set2 (share s) c i Spawned)
                     (subm s) (taken s) (hist s))
    | _ => Stuck
    end
  (* the budget is used up or the queue is empty: notifyAll *)
  | LBatchEnd i =>
    match lp s i with
    | InBatch => Next (mkS (calls s) (nextc s) (brief s) (cnt s) (q s) (upd (lp s) i Idle) (upd (epoch s) i (S (epoch s i))) (share s) (subm s) (taken s) (hist s))
    | _ => Stuck
    end
  | LFBegin c i =>
    match share s c i with
    | Spawned => Next (mkS (calls s) (nextc s) (brief s) (cnt s) (q s) (lp s) (epoch s) (set2 (share s) c i FRun) (subm s) (taken s) (hist s ++ [Begin c i]))
    | _ => Stuck
    end
  | LFEnd c i =>
    match share s c i with
    | FRun => Next (mkS (calls s) (nextc s) (brief s) (upd (cnt s) c (cnt s c - 1)) (q s) (lp s) (epoch s) (set2 (share s) c i Done) (subm s) (taken s) (hist s ++ [End c i]))
    | _ => Stuck
    end
  (* bc.Wait() returns *)
  | LRet c =>
    match calls s c with
    | Wait => if Nat.eqb (cnt s c) 0
              then Next (mkS (upd (calls s) c Returned) (nextc s) (brief s) (cnt s) (q s) (lp s) (epoch s) (share s) (subm s) (taken s) (hist s ++ [Ret c]))
              else Stuck
    | _ => Stuck
    end
  end.
End M.
