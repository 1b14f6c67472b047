(** Model of Mutex (/repo/util/fibers/synchronization.cc:56-98, synchronization.h:33-62) and of one
    CondVar used with it (CondVarAny::wait synchronization.h:520-536, notify_one/notify_all 80-92,
    CondVar 126-183), for fibers that run arbitrary client code.

    Not modelled: wait_until / wait_for of condition variables, and the scheduler: a fiber that
    released the spin lock in order to suspend counts as suspended at once (an activation that arrives
    between the two is kept by the scheduler, fiber_interface.cc ActivateOther). *)
From Verif Require Import Util Conc.

Section Mon.
  Context {C L : Type}.   (* client data, client program points *)
  Inductive minstr :=
  | MAtom (f : C -> nat -> outcome (C * L))  (* client computation; the argument is a choice *)
  | MLock (k : L)                            (* Mutex::lock(), then [k] *)
  | MTry (kt kf : L)                         (* Mutex::try_lock() *)
  | MUnlock (k : L)                          (* Mutex::unlock() *)
  | CvWait (k : L)                           (* CondVar::wait(lk) *)
  | CvNotify (all : bool) (k : L).           (* CondVar::notify_all() / notify_one() *)

  (** What follows an unlock: the client; suspension on the condition variable and then lock() again;
      lock() at once because the notification came first. *)
  Inductive aft := ARun (k : L) | APark (k : L) | AAwake (k : L).
  Inductive mpc :=
  | Run (l : L)
  | LSpin (k : L)            (* lock(): before wait_queue_splk_.lock() *)
  | LTest (k : L)            (* ... holding it *)
  | LRel (k : L) (linked : bool)   (* ... about to release it, having taken the mutex or linked *)
  | LParked (k : L)          (* ... suspended *)
  | TSpin (kt kf : L) | TTest (kt kf : L) | TRel (got : bool) (k : L)   (* try_lock() *)
  | USpin (a : aft) | UDo (a : aft) | URel (a : aft)                    (* unlock() *)
  | CvParked (k : L).        (* suspended on the condition variable *)

  Record mst := mk_m {
    cs : C;
    splk : option nat;    (* wait_queue_splk_: its holder *)
    owner : option nat;   (* owner_ *)
    mq : list nat;        (* Mutex::wait_queue_ *)
    cq : list nat;        (* CondVarAny::wait_queue_ *)
    pc : nat -> mpc
  }.

  Variable NT : nat.
  Variable code : nat -> L -> minstr.

  Definition set_pc (s : mst) t p := mk_m (cs s) (splk s) (owner s) (mq s) (cq s) (upd (pc s) t p).
  Definition set_splk (s : mst) o := mk_m (cs s) o (owner s) (mq s) (cq s) (pc s).
  Definition set_owner (s : mst) o := mk_m (cs s) (splk s) o (mq s) (cq s) (pc s).
  Definition set_mq (s : mst) q := mk_m (cs s) (splk s) (owner s) q (cq s) (pc s).
  Definition set_cq (s : mst) q := mk_m (cs s) (splk s) (owner s) (mq s) q (pc s).
  Definition set_cs (s : mst) c := mk_m c (splk s) (owner s) (mq s) (cq s) (pc s).

  (** base::SpinLock *)
  Definition spin (s : mst) t p : outcome mst :=
    match splk s with Some _ => Stuck | None => Next (set_pc (set_splk s (Some t)) t p) end.
  Definition unspin (s : mst) t p : outcome mst := Next (set_pc (set_splk s None) t p).

  (** ActivateOther on a fiber that suspends on the condition variable (wait_queue.cc:16-22). *)
  Definition wake_cv (s : mst) (w : nat) : outcome mst :=
    match pc s w with
    | CvParked k => Next (set_pc s w (LSpin k))
    | USpin (APark k) => Next (set_pc s w (USpin (AAwake k)))
    | UDo (APark k) => Next (set_pc s w (UDo (AAwake k)))
    | URel (APark k) => Next (set_pc s w (URel (AAwake k)))
    | _ => Ub
    end.
  Fixpoint wake_all (s : mst) (q : list nat) : outcome mst :=
    match q with
    | [] => Next s
    | w :: q' => match wake_cv s w with Next s' => wake_all s' q' | o => o end
    end.

  (** Is fiber [u] about to access the queue of the condition variable? *)
  Definition at_cv (s : mst) (u : nat) : bool :=
    match pc s u with
    | Run l => match code u l with CvWait _ | CvNotify _ _ => true | _ => false end
    | _ => false
    end.
  (** The queue is a plain list. An access by a fiber that does not own the mutex is a data race if
      the owner is about to access it as well. *)
  Definition races (s : mst) (t : nat) : bool :=
    match owner s with
    | Some u => negb (u =? t) && at_cv s u
    | None => false
    end.

  Definition step_run (s : mst) (t : nat) (l : L) (c : nat) : outcome mst :=
    match code t l with
    | MAtom f => match f (cs s) c with Next (c', l') => Next (set_pc (set_cs s c') t (Run l')) | Ub => Ub | Stuck => Stuck end
    | MLock k => Next (set_pc s t (LSpin k))
    | MTry kt kf => Next (set_pc s t (TSpin kt kf))
    | MUnlock k => Next (set_pc s t (USpin (ARun k)))
    | CvWait k =>
      (* synchronization.h:520-526: Link, then lt.unlock() *)
      if races s t then Ub else Next (set_pc (set_cq s (cq s ++ [t])) t (USpin (APark k)))
    | CvNotify all k =>
      (* synchronization.h:80-92; WaitQueue::NotifyOne / NotifyAll, wait_queue.cc:34-79, in one step *)
      if races s t then Ub else
      let s1 := set_pc s t (Run k) in
      match cq s with
      | [] => Next s1
      | w :: q => if all then wake_all (set_cq s1 []) (w :: q) else wake_cv (set_cq s1 q) w
      end
    end.

  Definition step (s : mst) (lab : nat * nat) : outcome mst :=
    let t := fst lab in let c := snd lab in
    if NT <=? t then Stuck else
    match pc s t with
    | Run l => step_run s t l c
    | LSpin k => spin s t (LTest k)                 (* synchronization.cc:60-61 *)
    | LTest k =>                                    (* :62-72 *)
      match owner s with
      | None => Next (set_pc (set_owner s (Some t)) t (LRel k false))
      | Some o => if o =? t then Ub else Next (set_pc (set_mq s (mq s ++ [t])) t (LRel k true))
      end
    | LRel k linked => unspin s t (if linked then LParked k else Run k)   (* :66-67, :72-73 *)
    | LParked _ => Stuck
    | TSpin kt kf => spin s t (TTest kt kf)         (* :77-87 *)
    | TTest kt kf =>
      match owner s with
      | None => Next (set_pc (set_owner s (Some t)) t (TRel true kt))
      | Some _ => Next (set_pc s t (TRel false kf))
      end
    | TRel _ k => unspin s t (Run k)
    | USpin a => spin s t (UDo a)                   (* :90-93 *)
    | UDo a =>                                      (* :94-97: CHECK(owner_ == active), NotifyOne *)
      match owner s with
      | Some o => if o =? t then
          let s1 := set_pc (set_owner s None) t (URel a) in
          match mq s with
          | [] => Next s1
          | w :: q =>
            match pc s1 w with
            | LParked k => Next (set_pc (set_mq s1 q) w (LSpin k))
            | _ => Ub
            end
          end
        else Ub
      | None => Ub
      end
    | URel a => unspin s t (match a with ARun k => Run k | APark k => CvParked k | AAwake k => LSpin k end)
    | CvParked _ => Stuck
    end.

  Definition minit (c0 : C) (l0 : nat -> L) : mst := mk_m c0 None None [] [] (fun t => Run (l0 t)).
End Mon.
Arguments minstr : clear implicits.
Arguments aft : clear implicits.
Arguments mpc : clear implicits.
Arguments mst : clear implicits.
