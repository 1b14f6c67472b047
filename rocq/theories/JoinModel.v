(** Fiber::Join and fiber termination: util/fibers/detail/fiber_interface.cc:264-296 (Terminate) and
    :363-397 (Join), util/fibers/detail/wait_queue.cc.

    One fiber terminates; any number of other fibers, in any threads, join it. One transition makes
    at most one access to shared memory. The bits kTerminatedBit and kBusyBit of flags_ are two
    booleans (kScheduleRemote, the third bit, is not touched here, and the atomic or/and operations
    leave it alone). The wait list is not thread safe: an access by one fiber while another one is
    in the middle of its own is undefined behaviour. *)
From Verif Require Import Util Conc.

(** A joining fiber. [JOut] has not called Join; [JTry] about to fetch_or; [JOwn] got the bit, about
    to link its waiter; [JLink] in the middle of Link; [JRel] about to release the bit and suspend;
    [JSusp] suspended (or about to be: nothing shared happens in between); [JRelT] got the bit but the
    fiber has terminated: about to release it; [JDone] Join returned. *)
Inductive jp := JOut | JTry | JOwn | JLink | JRel | JSusp | JRelT | JDone.
(** The terminating fiber. [TBody] its function has not returned; [TSpin] about to fetch_or;
    [TNot] in NotifyAll between two waiters; [TPop] in NotifyAll, having taken one waiter out of the list and about
    to activate it; [TRel] about to release the bit; [TEnd] gone. *)
Inductive tp := TBody | TSpin | TNot | TPop (j : nat) | TRel | TEnd.

(** [term], [busy]: the flags; [q]: join_q_; [acc]: an access to join_q_ is in progress; [act j]: the
    joiner has been activated (put in its scheduler's queue). *)
Record st := mk { term : bool; busy : bool; q : list nat; acc : bool; act : nat -> nat; jo : nat -> jp; te : tp }.

Definition upd {A} (f : nat -> A) (n : nat) (a : A) : nat -> A := fun m => if Nat.eqb m n then a else f m.

(** Who moves. *)
Inductive lab := Jo (j : nat) | Te.

Definition set_j (s : st) (b : bool) (j : nat) (p : jp) : st := mk (term s) b (q s) (acc s) (act s) (upd (jo s) j p) (te s).

(** fiber_interface.cc:363-397 *)
Definition join_step (s : st) (j : nat) : outcome st :=
  match jo s j with
  | JOut => Next (set_j s (busy s) j JTry)
  | JTry => (* :370-383 fprev = flags_.fetch_or(kBusyBit) *)
      if term s then Next (set_j s true j (if busy s then JDone else JRelT))
      else Next (set_j s true j (if busy s then JTry else JOwn))
  | JOwn => (* :386-387 Link begins *)
      if acc s then Ub else Next (mk (term s) (busy s) (q s) true (act s) (upd (jo s) j JLink) (te s))
  | JLink => Next (mk (term s) (busy s) (q s ++ [j]) false (act s) (upd (jo s) j JRel) (te s))
  | JRel => Next (set_j s false j JSusp)                          (* :388 fetch_and(~kBusyBit) *)
  | JSusp => (* :391 Suspend returns when the fiber has been activated *)
      if (0 <? act s j)%nat then Next (set_j s (busy s) j JDone) else Stuck
  | JRelT => Next (set_j s false j JDone)                         (* :373 *)
  | JDone => Stuck
  end.

(** fiber_interface.cc:264-296; NotifyAll: wait_queue.cc:57-77 (all waiters here are one-shot). *)
Definition term_step (s : st) : outcome st :=
  match te s with
  | TBody => Next (mk (term s) (busy s) (q s) (acc s) (act s) (jo s) TSpin)
  | TSpin => (* :276 fprev = flags_.fetch_or(kTerminatedBit | kBusyBit) *)
      if busy s then Next (mk true true (q s) (acc s) (act s) (jo s) TSpin)
      else Next (mk true true (q s) (acc s) (act s) (jo s) TNot)
  | TNot => (* erase(it) *)
      if acc s then Ub
      else match q s with
           | [] => Next (mk (term s) (busy s) [] (acc s) (act s) (jo s) TRel)
           | j :: r => Next (mk (term s) (busy s) r (acc s) (act s) (jo s) (TPop j))
           end
  | TPop j => (* waiter.Notify: ActivateOther *)
      Next (mk (term s) (busy s) (q s) (acc s) (upd (act s) j (S (act s j))) (jo s) TNot)
  | TRel => Next (mk (term s) false (q s) (acc s) (act s) (jo s) TEnd)  (* :286 *)
  | TEnd => Stuck
  end.

Definition step (s : st) (l : lab) : outcome st :=
  match l with Jo j => join_step s j | Te => term_step s end.

Definition init : st := mk false false [] false (fun _ => 0) (fun _ => JOut) TBody.
