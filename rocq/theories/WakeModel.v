(** The sleep/wake protocol of a proactor thread: util/fibers/proactor_base.h (WakeupIfNeeded,
    EmplaceTaskQueue), util/fibers/uring_proactor.cc and util/fibers/epoll_proactor.cc (MainLoop,
    WakeRing, the wake-up descriptor).

    Any number of threads submit; one thread runs the loop; the kernel moves on its own. One
    transition makes at most one access to shared memory. [ur] selects UringProactor (true) or
    EpollProactor (false).

    Simplifications. A queue is the list of its cells in the order in which they were claimed, a
    cell being published or not: that is what the models of the MPMC queue (MpmcModel.v: task
    queue) and of the MPSC queue (MpscModel.v: remote ready queue) provide. What the loop does
    besides (running fibers, I/O completions, idle tasks, timers) is a free choice: it may go round
    for any such reason, and the kernel wait may end for any such reason, but no theorem relies on
    it. [is_stopped_] is false: the loop runs. *)
From Verif Require Import Util Conc.
Open Scope N_scope.

Definition two31 : N := 2147483648.
Definition two32 : N := 4294967296.

(** What a submitting thread is about to do. [b] = false: the task queue; true: the remote ready
    queue. [i]: what it submits.
    - [SPub]: store the cell's sequence number (base/mpmc_bounded_queue.h try_enqueue), resp. link
      the previous tail (base/mpsc_intrusive_queue.h:66);
    - [SAdd]: tq_seq_.fetch_add(2) in WakeupIfNeeded (proactor_base.h:363-380);
    - [SWrite]: WakeRing (uring_proactor.cc:1059-1078, epoll_proactor.cc:459-468). *)
Inductive subp := SIdle | SPub (b : bool) (i : nat) | SAdd (b : bool) (i : nat) | SWrite (b : bool) (i : nat).

(** Where the loop is (uring_proactor.cc:787-1034, epoll_proactor.cc:187-330).
    Both: [LLoad] tq_seq = tq_seq_.load; [LTask] task_queue_.try_dequeue; [LRem]
    ProcessRemoteReady; [LCas] the compare_exchange; [LWait] wait_for_cqe / epoll_wait(-1);
    [LStore] tq_seq_.store(0).
    Uring: [LSubmit] io_uring_submit; [LPeek] peek and reap completions; [LMid] everything up to
    the checks; [LChkT] task_queue_.empty(); [LChkR] RemoteEmpty().
    Epoll: [LDecide] the condition for blocking; [LPoll] epoll_wait(0); [LDisp] dispatch. *)
Inductive loopp :=
  LSubmit | LLoad | LTask | LRem | LPeek | LMid | LChkT | LChkR | LDecide | LCas | LWait | LPoll | LStore | LDisp.

(** The read of the wake-up descriptor (ArmWakeupEvent, uring_proactor.cc:669-686): not in the ring,
    queued but not submitted, or waiting in the kernel. *)
Inductive armed := ANone | AQueued | AArmed.

(** The kernel's side: [pend] the eventfd is nonzero; [cqe] the completion of that read is in the
    completion queue; [msg] a message from another ring is; [arm] as above. *)
Record kern := mk_k { pend : bool; cqe : bool; msg : bool; arm : armed }.

(** Ghosts: [subs b] what was claimed in queue b in order, [rans b] what the loop took out of it,
    [rets] the submissions whose call returned, [adds] increments of tq_seq_ since the loop loaded
    it, [peak] the largest value of [adds] so far between that load and the compare_exchange. *)
Record ghost := mk_g { subs : bool -> list nat; rans : bool -> list nat; rets : list nat; adds : N; peak : N }.

(** [q b] the queues, [seq] tq_seq_ (32 bits), [lseq] the loop's local tq_seq, [more] the budget ran
    out in this iteration (has_cpu_work / !task_queue_exhausted), [nid] the next fresh submission. *)
Record st := mk { q : bool -> list (nat * bool); seq : N; k : kern; lp : loopp; lseq : N; more : bool;
                  sp : nat -> subp; nid : nat; g : ghost }.

Definition upd {A} (f : nat -> A) (n : nat) (a : A) : nat -> A := fun m => if Nat.eqb m n then a else f m.
Definition updb {A} (f : bool -> A) (n : bool) (a : A) : bool -> A := fun m => if Bool.eqb m n then a else f m.

(** Who moves, and which of its possible moves. *)
Inductive lab := Sub (u c : nat) | Loop (c : nat) | Kern.

Section Step.
  Variable ur : bool.
  (** Capacity of the task queue (proactor_base.h:239, proactor_base.cc:118: 512). *)
  Variable cap : nat.

  (** try_enqueue / exchange of the tail: a cell is claimed. *)
  Definition claim (s : st) (u : nat) (b : bool) : st :=
    mk (updb (q s) b (q s b ++ [(nid s, false)])) (seq s) (k s) (lp s) (lseq s) (more s)
       (upd (sp s) u (SPub b (nid s))) (S (nid s))
       (mk_g (updb (subs (g s)) b (subs (g s) b ++ [nid s])) (rans (g s)) (rets (g s)) (adds (g s)) (peak (g s))).

  (** The cell becomes visible to the loop. *)
  Definition publish (s : st) (u : nat) (b : bool) (i : nat) : st :=
    mk (updb (q s) b (map (fun c => if Nat.eqb (fst c) i then (i, true) else c) (q s b))) (seq s) (k s)
       (lp s) (lseq s) (more s) (upd (sp s) u (SAdd b i)) (nid s) (g s).

  (** The submitting call is over. *)
  Definition returns (s : st) (kn : kern) (sq a pk : N) (u i : nat) : st :=
    mk (q s) sq kn (lp s) (lseq s) (more s) (upd (sp s) u SIdle) (nid s)
       (mk_g (subs (g s)) (rans (g s)) (i :: rets (g s)) a pk).

  (** Ghost: the loop has loaded the counter and not yet done the compare_exchange. *)
  Definition in_window (p : loopp) : bool :=
    match p with LTask | LRem | LPeek | LMid | LChkT | LChkR | LDecide | LCas => true | _ => false end.
  Definition peak_after (s : st) : N :=
    if in_window (lp s) then N.max (peak (g s)) (adds (g s) + 1) else peak (g s).

  (** proactor_base.h:363-380 WakeupIfNeeded: the 32-bit counter wraps; WakeRing only if the loop
      had announced that it is going to wait (WAIT_SECTION_STATE = 1 << 31, :225). *)
  Definition wakeup_if_needed (s : st) (u : nat) (b : bool) (i : nat) : st :=
    let sq := (seq s + 2) mod two32 in
    if seq s =? two31
    then mk (q s) sq (k s) (lp s) (lseq s) (more s) (upd (sp s) u (SWrite b i)) (nid s)
            (mk_g (subs (g s)) (rans (g s)) (rets (g s)) (adds (g s) + 1) (peak_after s))
    else returns s (k s) sq (adds (g s) + 1) (peak_after s) u i.

  (** WakeRing. c = 0: write to the eventfd. c = 1, uring only: a message through the caller's own
      ring; the transition is the moment the caller's ring submits it (its loop never waits with
      unsubmitted entries, uring_proactor.cc:929-945). *)
  Definition wake_ring (s : st) (u c i : nat) : outcome st :=
    match c with
    | O => Next (returns s (mk_k true (cqe (k s)) (msg (k s)) (arm (k s))) (seq s) (adds (g s)) (peak (g s)) u i)
    | _ => if ur then Next (returns s (mk_k (pend (k s)) (cqe (k s)) true (arm (k s))) (seq s) (adds (g s)) (peak (g s)) u i)
           else Stuck
    end.

  (** A submitting thread: EmplaceTaskQueue (proactor_base.h:332-340) with c = 0;
      Scheduler::ScheduleFromRemote + ProactorDispatcher::Notify (scheduler.cc:314-319,
      proactor_base.cc:440-442) with c = 1. A full task queue refuses. *)
  Definition sub_step (s : st) (u c : nat) : outcome st :=
    match sp s u with
    | SIdle => match c with
               | O => if (length (q s false) <? cap)%nat then Next (claim s u false) else Next s
               | _ => Next (claim s u true)
               end
    | SPub b i => Next (publish s u b i)
    | SAdd b i => Next (wakeup_if_needed s u b i)
    | SWrite b i => wake_ring s u c i
    end.

  Definition go (s : st) (p : loopp) : st := mk (q s) (seq s) (k s) p (lseq s) (more s) (sp s) (nid s) (g s).
  Definition with_kern (s : st) (kn : kern) (p : loopp) : st :=
    mk (q s) (seq s) kn p (lseq s) (more s) (sp s) (nid s) (g s).
  (** The loop takes the head of queue b and runs it (a task) or makes it ready (a fiber). *)
  Definition take_out (s : st) (b : bool) (i : nat) (r : list (nat * bool)) (m : bool) (p : loopp) : st :=
    mk (updb (q s) b r) (seq s) (k s) p (lseq s) m (sp s) (nid s)
       (mk_g (subs (g s)) (updb (rans (g s)) b (rans (g s) b ++ [i])) (rets (g s)) (adds (g s)) (peak (g s))).

  (** uring_proactor.cc:857, epoll_proactor.cc:203 *)
  Definition load (s : st) : st :=
    mk (q s) (seq s) (k s) LTask (seq s) false (sp s) (nid s)
       (mk_g (subs (g s)) (rans (g s)) (rets (g s)) 0 (peak (g s))).

  (** uring_proactor.cc:862-884, epoll_proactor.cc:205-233. c = 1: the time budget is used up. *)
  Definition drain (s : st) (c : nat) : st :=
    match q s false with
    | (i, true) :: r => match c with O => take_out s false i r (more s) LTask | _ => take_out s false i r true LRem end
    | _ => go s LRem
    end.

  (** Scheduler::ProcessRemoteReady (scheduler.cc:384-449): until PopWeak says "empty"; an item that
      is not linked yet makes it retry. *)
  Definition remote (s : st) : st :=
    match q s true with
    | [] => go s (if ur then LPeek else LDecide)
    | (i, true) :: r => take_out s true i r (more s) LRem
    | (_, false) :: _ => s
    end.

  (** uring_proactor.cc:888-899 and ProcessCqeBatch :331-341: the read of the wake-up descriptor is
      queued again when its completion is seen. c = 1: nothing visible yet. *)
  Definition peek (s : st) (c : nat) : st :=
    match c with
    | O => with_kern s (mk_k (pend (k s)) false false (if cqe (k s) then AQueued else arm (k s))) LMid
    | _ => go s LMid
    end.

  (** uring_proactor.cc:901-975: c = 1 is any of the reasons to go round again that are not modelled
      (active fibers, L2 tasks, idle tasks, spinning); :909, :921, :943: the remaining budget and
      the unsubmitted entries. *)
  Definition mid (s : st) (c : nat) : st :=
    match c with
    | O => if more s then go s LSubmit
           else match arm (k s) with AQueued => go s LSubmit | _ => go s LChkT end
    | _ => go s LSubmit
    end.

  Definition visible (l : list (nat * bool)) : bool := match l with (_, true) :: _ => true | _ => false end.

  (** epoll_proactor.cc:244-259: c = 1: ready fibers, or not enough spinning. *)
  Definition decide (s : st) (c : nat) : st :=
    match c with O => go s (if more s then LPoll else LCas) | _ => go s LPoll end.

  (** uring_proactor.cc:999-1002, epoll_proactor.cc:246: c = 1: compare_exchange_weak fails although
      the value is equal. *)
  Definition cas (s : st) (c : nat) : st :=
    match c with
    | O => if seq s =? lseq s
           then mk (q s) two31 (k s) LWait (lseq s) (more s) (sp s) (nid s) (g s)
           else mk (q s) (seq s) (k s) (if ur then LSubmit else LPoll) (lseq s) (more s) (sp s) (nid s) (g s)
    | _ => mk (q s) (seq s) (k s) (if ur then LSubmit else LPoll) (lseq s) (more s) (sp s) (nid s) (g s)
    end.

  (** The kernel wait. c = 0: it returns because of the wake-up event. c = 1: because of anything
      else. c = 2, epoll only: EINTR (epoll_proactor.cc:279-281: continue without the store). *)
  Definition kwait (s : st) (c : nat) : outcome st :=
    match c with
    | O => if (if ur then cqe (k s) || msg (k s) else pend (k s)) then Next (go s LStore) else Stuck
    | S O => Next (go s LStore)
    | _ => if ur then Stuck else Next (go s LLoad)
    end.

  Definition loop_step (s : st) (c : nat) : outcome st :=
    match lp s with
    | LSubmit => (* uring_proactor.cc:829-855; c = 1: EBUSY *)
        Next (match c with
              | O => with_kern s (mk_k (pend (k s)) (cqe (k s)) (msg (k s))
                                   (match arm (k s) with AQueued => AArmed | a => a end)) LLoad
              | _ => go s LLoad
              end)
    | LLoad => Next (load s)
    | LTask => Next (drain s c)
    | LRem => Next (remote s)
    | LPeek => Next (peek s c)
    | LMid => Next (mid s c)
    | LChkT => Next (go s (if visible (q s false) then LSubmit else LChkR))
    | LChkR => Next (go s (if visible (q s true) then LSubmit else LCas))
    | LDecide => Next (decide s c)
    | LCas => Next (cas s c)
    | LWait => kwait s c
    | LPoll => (* epoll_proactor.cc:276-281 with timeout 0 *)
        Next (go s (match c with O => LStore | _ => LLoad end))
    | LStore => (* uring_proactor.cc:1027, epoll_proactor.cc:284 *)
        Next (mk (q s) 0 (k s) (if ur then LSubmit else LDisp) (lseq s) (more s) (sp s) (nid s) (g s))
    | LDisp => (* epoll_proactor.cc:178-183 and :286-330: the wake-up callback reads the eventfd;
                  c = 1: it was not among the events *)
        Next (match c with
              | O => with_kern s (mk_k false (cqe (k s)) (msg (k s)) (arm (k s))) LLoad
              | _ => go s LLoad
              end)
    end.

  (** The kernel completes the armed read once the eventfd is nonzero (poll linked to a read). *)
  Definition kern_step (s : st) : outcome st :=
    match arm (k s) with
    | AArmed => if ur && pend (k s) then Next (with_kern s (mk_k false true (msg (k s)) ANone) (lp s)) else Stuck
    | _ => Stuck
    end.

  Definition step (s : st) (l : lab) : outcome st :=
    match l with
    | Sub u c => sub_step s u c
    | Loop c => loop_step s c
    | Kern => kern_step s
    end.
End Step.

(** A new proactor: the read of the wake-up descriptor was queued by Init (uring_proactor.cc:266). *)
Definition init (ur : bool) : st :=
  mk (fun _ => []) 0 (mk_k false false false AQueued) (if ur then LSubmit else LLoad) 0 false (fun _ => SIdle) 0
     (mk_g (fun _ => []) (fun _ => []) [] 0 0).
