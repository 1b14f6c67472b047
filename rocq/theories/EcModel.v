(** Model of [EventCount] (/repo/util/fibers/event_count.h, synchronization.h, synchronization.cc)
    and [WaitQueue] (/repo/util/fibers/detail/wait_queue.cc), for arbitrary client programs.

    A client is a shared state [C] and, for every fiber [t], a program: [code t l] is the
    instruction at the program point [l : L]. Instructions are either one atomic access to the
    client's own state ([Atom]) or a call into an EventCount. The EventCount calls are expanded by
    [step] into their individual shared accesses: the atomic operations on val_, the acquisition
    and the release of the spinlock lock_, and the accesses to wait_queue_ made while holding it.
    Several EventCounts, numbered by [nat], may be used by a client.

    Simplifications: memory orders are ignored (sequentially consistent interleavings); fibers are
    the scheduling unit, whatever thread they run on; suspending and activating a fiber
    (FiberInterface::Suspend / ActivateOther) is atomic; waiters are fibers (the callback and
    persistent waiters of subscribe*() are not in this file). *)
From Verif Require Import Util Conc.

(** Field layout of val_, event_count.h:154-164: the epoch in the upper 32 bits, the number of
    waiters in the lower 32 bits; arithmetic is modulo 2^64 (std::atomic_uint64_t). *)
Definition kAddEpoch : N := two32.
Definition epoch_of (v : N) : N := (v / two32)%N.          (* v >> kEpochShift *)
Definition waiters_of (v : N) : N := (v mod two32)%N.      (* v & kWaiterMask *)
Definition add64 (v d : N) : N := ((v + d) mod two64)%N.   (* fetch_add *)
Definition sub64 (v d : N) : N := ((v + (two64 - d)) mod two64)%N.  (* fetch_sub *)

(** EventCount, event_count.h:156-159. [ep] is a ghost field: how often kAddEpoch was added. *)
Record ecst := mk_ec { val : N; lk : option nat; wq : list nat; ep : nat }.
(** EventCount::EventCount, event_count.h:35 *)
Definition ec0 : ecst := mk_ec 0%N None [] 0.
(** EventCount::Key, event_count.h:41-64: the event count, the epoch word; [kg] (ghost) is the
    value of [ep] when the key was made. *)
Record keyt := mk_key { ke : nat; kw : N; kg : nat }.

Section Ec.
  Context {C L : Type}.

  (** Client instructions. [PrepareWait e k]: make a key for event count [e], go to [k].
      [DropKey k]: ~Key. [Wait k]: wait(key.epoch()). [WaitUntil kt ko]: wait_until(key.epoch(), tp),
      to [kt] when the status is timeout, else to [ko]. [Notify e all k]: notify()/notifyAll(). *)
  Inductive instr :=
  | Atom (f : C -> nat -> outcome (C * L))
  | PrepareWait (e : nat) (k : L)
  | DropKey (k : L)
  | Wait (k : L)
  | WaitUntil (kt ko : L)
  | Notify (e : nat) (all : bool) (k : L).

  (** Where a fiber is. [Run l]: at client point [l]. The others are inside the EventCount code;
      [l] is then the client point of the Wait / WaitUntil call. *)
  Inductive pct :=
  | Run (l : L)
  | NLock (e : nat) (all : bool) (k : L)    (* NotifyInternal: about to take lock_ *)
  | NWork (e : nat) (all : bool) (k : L)    (* holding lock_, in WaitQueue::NotifyOne/NotifyAll *)
  | NUnl (e : nat) (k : L)                  (* about to release lock_ *)
  | WLock (l : L)                           (* wait: about to take lock_ *)
  | WCheck (l : L)                          (* holding lock_, about to compare the epoch *)
  | WUnl (l : L) (linked : bool)            (* about to release lock_ *)
  | Parked (l : L)                          (* suspended *)
  | Woken (l : L)                           (* activated, not yet running *)
  | FLock (l : L) (timed_out : bool)        (* running again, about to take lock_ *)
  | FUnl (l : L) (timed_out : bool).        (* about to release lock_ *)

  Record thr := mk_thr { pc : pct; key : option keyt }.
  Record st := mk_st { cs : C; ec : nat -> ecst; th : nat -> thr; aba : bool }.

  (** [NT] fibers run [code]. *)
  Variable NT : nat.
  Variable code : nat -> L -> instr.

  Definition set_pc (s : st) (t : nat) (p : pct) : st :=
    mk_st (cs s) (ec s) (upd (th s) t (mk_thr p (key (th s t)))) (aba s).
  Definition set_key (s : st) (t : nat) (k : option keyt) : st :=
    mk_st (cs s) (ec s) (upd (th s) t (mk_thr (pc (th s t)) k)) (aba s).
  Definition set_ec (s : st) (e : nat) (x : ecst) : st :=
    mk_st (cs s) (upd (ec s) e x) (th s) (aba s).
  Definition set_cs (s : st) (c : C) : st := mk_st c (ec s) (th s) (aba s).
  Definition set_aba (s : st) (b : bool) : st := mk_st (cs s) (ec s) (th s) b.
  Definition with_val (x : ecst) (v : N) : ecst := mk_ec v (lk x) (wq x) (ep x).
  Definition with_lk (x : ecst) (o : option nat) : ecst := mk_ec (val x) o (wq x) (ep x).
  Definition with_wq (x : ecst) (q : list nat) : ecst := mk_ec (val x) (lk x) q (ep x).

  (** base::SpinLock::lock (the holder is remembered for the proofs): possible only when free. *)
  Definition acquire (s : st) (e t : nat) (p : pct) : outcome st :=
    match lk (ec s e) with
    | Some _ => Stuck
    | None => Next (set_pc (set_ec s e (with_lk (ec s e) (Some t))) t p)
    end.
  (** base::SpinLock::unlock *)
  Definition release (s : st) (e t : nat) (p : pct) : outcome st :=
    Next (set_pc (set_ec s e (with_lk (ec s e) None)) t p).

  (** FiberInterface::ActivateOther called by Waiter::Notify, wait_queue.cc:16-22: a suspended
      fiber becomes runnable. A timed waiter whose timer already fired is running: the activation
      is dropped (PullMyselfFromRemoteReadyQueue, synchronization.cc:46-48). Activating any other
      fiber would corrupt the scheduler: [Ub]. *)
  Definition activate (s : st) (t : nat) : outcome st :=
    match pc (th s t) with
    | Parked l => Next (set_pc s t (Woken l))
    | FLock l true => Next s
    | _ => Ub
    end.

  (** The continuation of a wait: synchronization.h:371-385 (Wait), synchronization.cc:14-54
      (WaitUntil). *)
  Definition cont (t : nat) (l : L) (timed_out : bool) : pct :=
    match code t l with
    | Wait k => Run k
    | WaitUntil kt ko => if timed_out then Run kt else Run ko
    | _ => Run l
    end.
  Definition timed (t : nat) (l : L) : bool :=
    match code t l with WaitUntil _ _ => true | _ => false end.

  (** One client instruction of fiber [t] at [l]; [c] is the scheduler's choice. *)
  Definition step_run (s : st) (t : nat) (l : L) (c : nat) : outcome st :=
    match code t l with
    | Atom f =>
      match f (cs s) c with
      | Next (c', l') => Next (set_pc (set_cs s c') t (Run l'))
      | Ub => Ub | Stuck => Stuck
      end
    | PrepareWait e k =>
      (* event_count.h:130-133 *)
      match key (th s t) with
      | Some _ => Ub
      | None =>
        let x := ec s e in
        Next (set_pc (set_key (set_ec s e (with_val x (add64 (val x) 1)))
                              t (Some (mk_key e (epoch_of (val x)) (ep x)))) t (Run k))
      end
    | DropKey k =>
      (* event_count.h:56-59 *)
      match key (th s t) with
      | None => Ub
      | Some ky =>
        let x := ec s (ke ky) in
        Next (set_pc (set_key (set_ec s (ke ky) (with_val x (sub64 (val x) 1))) t None) t (Run k))
      end
    | Wait _ | WaitUntil _ _ =>
      match key (th s t) with
      | None => Ub
      | Some ky => Next (set_pc s t (WLock l))
      end
    | Notify e all k =>
      (* synchronization.h:359-368: fetch_add(kAddEpoch); go on only if there are waiters *)
      let x := ec s e in
      let s1 := set_ec s e (mk_ec (add64 (val x) kAddEpoch) (lk x) (wq x) (S (ep x))) in
      Next (set_pc s1 t (if (waiters_of (val x) =? 0)%N then Run k else NLock e all k))
    end.

  (** One step of fiber [t]. *)
  Definition step (s : st) (lab : nat * nat) : outcome st :=
    let t := fst lab in let c := snd lab in
    if NT <=? t then Stuck else
    match pc (th s t) with
    | Run l => step_run s t l c
    | NLock e all k => acquire s e t (NWork e all k)
    | NWork e all k =>
      (* WaitQueue::NotifyOne, wait_queue.cc:34-57; NotifyAll, wait_queue.cc:59-79, one waiter per
         step *)
      match wq (ec s e) with
      | [] => Next (set_pc s t (NUnl e k))
      | w :: q =>
        activate (set_pc (set_ec s e (with_wq (ec s e) q)) t (if all then NWork e all k else NUnl e k)) w
      end
    | NUnl e k => release s e t (Run k)
    | WLock l =>
      match key (th s t) with None => Ub | Some ky => acquire s (ke ky) t (WCheck l) end
    | WCheck l =>
      (* synchronization.h:375-377, synchronization.cc:22-25: compare the epoch and Link.
         The ghost flag [aba] records an equal epoch word for a different number of notifications. *)
      match key (th s t) with
      | None => Ub
      | Some ky =>
        let x := ec s (ke ky) in
        if (epoch_of (val x) =? kw ky)%N then
          Next (set_aba (set_pc (set_ec s (ke ky) (with_wq x (wq x ++ [t]))) t (WUnl l true))
                        (aba s || negb (ep x =? kg ky)))
        else Next (set_pc s t (WUnl l false))
      end
    | WUnl l linked =>
      match key (th s t) with
      | None => Ub
      | Some ky => release s (ke ky) t (if linked then Parked l else cont t l false)
      end
    | Parked l =>
      (* FiberInterface::WaitUntil: the timer of a timed wait may fire *)
      if timed t l then Next (set_pc s t (FLock l true)) else Stuck
    | Woken l =>
      (* the fiber is scheduled; in a timed wait the timer may have fired as well *)
      Next (set_pc s t (FLock l (timed t l && (c =? 1))))
    | FLock l to =>
      (* finishWait, synchronization.h:402-409 (only lock and unlock); for a timed wait
         synchronization.cc:32-43 (unlink if linked; linked implies that the timer fired) *)
      match key (th s t) with
      | None => Ub
      | Some ky =>
        match acquire s (ke ky) t (FUnl l to) with
        | Next s1 =>
          let x := ec s1 (ke ky) in
          Next (if timed t l
                then set_ec s1 (ke ky) (with_wq x (filter (fun u => negb (Nat.eqb u t)) (wq x)))
                else s1)
        | o => o
        end
      end
    | FUnl l to =>
      match key (th s t) with
      | None => Ub
      | Some ky => release s (ke ky) t (cont t l to)
      end
    end.

  Definition init (c0 : C) (l0 : nat -> L) : st :=
    mk_st c0 (fun _ => ec0) (fun t => mk_thr (Run (l0 t)) None) false.
End Ec.
Arguments instr : clear implicits.
Arguments pct : clear implicits.
Arguments thr : clear implicits.
Arguments st : clear implicits.
