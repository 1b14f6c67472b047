(** Model of [FiberQueue] (/repo/util/fibers/fiberqueue_threadpool.h and .cc) as a client of the
    EventCount model: pull_ec_ is event count 0, push_ec_ is event count 1.

    Fiber 0 executes Run(). Any number of other fibers call TryAdd, Add and Shutdown in any order.
    A callback is a number; running it is one step that appends it to [ran].

    The queue is base::mpmc_bounded_queue, abstracted to what its own model guarantees (C12): an
    element is claimed, later published by its producer, and its cell is free for a new element
    once the consumer has given it back. The blocked_submitters_ counter, exceptions thrown by
    callbacks and FiberQueue::Await (which is Add of a callback that notifies a Done) are not
    modelled. *)
From Verif Require Import Util Conc EcModel.

(** Who called TryAdd: the user, the first attempt of Add, the loop of Add. *)
Inductive how := Try | First | Loop.
(** Program points of a producer, and of Run ([lp]: inside the loop of await, holding a key). *)
Inductive floc :=
| PIdle | PTry (v : nat) (h : how) | PPub (h : how) | PNtf (h : how) | PPrep (v : nat) | PWait (v : nat)
| PAgain (v : nat) | PDrop | SClose | SNtf
| KLook (lp : bool) | KFree (lp : bool) | KClosed (lp : bool) | KPrep | KWait | KAgain | KDrop | KDropX
| KMore | KMoreFree | KNtf | KRun | KExit.

(** A cell in use: who pushed it, the callback, and whether it is published. *)
Record cell := mk_cell { by_ : nat; v_ : nat; ready : bool }.
(** queue_, Run's local batch, is_closed_; ghost: all callbacks accepted so far, all callbacks run
    so far, what was accepted when Run last found nothing to take (and the cells then in the
    queue), what was accepted when Shutdown marked the queue, all callbacks passed
    to TryAdd / Add, and those for which TryAdd returned false. *)
Record fq := mk_fq { q : list cell; batch : list (nat * nat); closed : bool;
  acc : list (nat * nat); done_ : list (nat * nat);
  seen : list (nat * nat) * list cell; at_close : option (list (nat * nat));
  asked : list (nat * nat); refused : list (nat * nat) }.
Definition fq0 : fq := mk_fq [] [] false [] [] ([], []) None [] [].

Definition pull_ec : nat := 0.
Definition push_ec : nat := 1.
(** kBatchSize, fiberqueue_threadpool.cc:23 *)
Definition kBatch : nat := 16.

Section Code.
  Variable cap : nat.     (* queue_size *)

  (** try_enqueue up to the claim of the cell, mpmc_bounded_queue.h:83-102 *)
  Definition claim (t v : nat) (x : fq) : option fq :=
    if cap <=? length (q x) then None
    else Some (mk_fq (q x ++ [mk_cell t v false]) (batch x) (closed x) (acc x ++ [(t, v)]) (done_ x) (seen x) (at_close x) (asked x) (refused x)).
  (** the store that publishes the cell, mpmc_bounded_queue.h:103 *)
  Definition publish (t : nat) (x : fq) : fq :=
    mk_fq (map (fun c => mk_cell (by_ c) (v_ c) (ready c || (by_ c =? t))) (q x))
          (batch x) (closed x) (acc x) (done_ x) (seen x) (at_close x) (asked x) (refused x).
  (** try_dequeue_sc: the load of the sequence number, mpmc_bounded_queue.h:138-144 *)
  Definition head_ready (x : fq) : bool := match q x with c :: _ => ready c | [] => false end.
  (** try_dequeue_sc: the element is moved out and the cell given back, mpmc_bounded_queue.h:146-153;
      moving from a cell that is not published would be undefined. *)
  Definition take_head (x : fq) (l : floc) : outcome (fq * floc) :=
    match q x with
    | c :: r => if ready c
                then Next (mk_fq r (batch x ++ [(by_ c, v_ c)]) (closed x) (acc x) (done_ x) (seen x) (at_close x) (asked x) (refused x), l)
                else Ub
    | [] => Ub
    end.
  Definition look (x : fq) : fq :=
    mk_fq (q x) (batch x) (closed x) (acc x) (done_ x) (acc x, q x) (at_close x) (asked x) (refused x).

  Definition ask (t v : nat) (x : fq) : fq :=
    mk_fq (q x) (batch x) (closed x) (acc x) (done_ x) (seen x) (at_close x) (asked x ++ [(t, v)]) (refused x).
  Definition refuse (t v : nat) (x : fq) : fq :=
    mk_fq (q x) (batch x) (closed x) (acc x) (done_ x) (seen x) (at_close x) (asked x) (refused x ++ [(t, v)]).

  (** TryAdd and Add, fiberqueue_threadpool.h:42-77; Shutdown, .cc:64-67 *)
  Definition pcode (t : nat) (l : floc) : instr fq floc :=
    match l with
    | PIdle => (* the next call: 0 Shutdown, odd TryAdd, even Add *)
      Atom (fun x c => match c with
                       | O => Next (x, SClose)
                       | S n => Next (ask t (Nat.div2 n) x, PTry (Nat.div2 n) (if Nat.odd n then Try else First))
                       end)
    | PTry v h =>
      Atom (fun x _ => match claim t v x with
                       | Some x' => Next (x', PPub h)
                       | None => match h with
                                 | Try => Next (refuse t v x, PIdle)
                                 | First => Next (x, PPrep v)
                                 | Loop => Next (x, PWait v)
                                 end
                       end)
    | PPub h => Atom (fun x _ => Next (publish t x, PNtf h))
    | PNtf h => Notify pull_ec false (match h with Loop => PDrop | _ => PIdle end)   (* .h:46-48 *)
    | PPrep v => PrepareWait push_ec (PTry v Loop)                                   (* .h:67-69 *)
    | PWait v => Wait (PAgain v)                                                     (* .h:75 *)
    | PAgain v => DropKey (PPrep v)
    | PDrop => DropKey PIdle
    | SClose => Atom (fun x _ => Next (mk_fq (q x) (batch x) true (acc x) (done_ x) (seen x)
                                        (match at_close x with None => Some (acc x) | o => o end) (asked x) (refused x), SNtf))
    | SNtf => Notify pull_ec true PIdle
    | _ => Atom (fun _ _ => Stuck)
    end.
  (** Run, fiberqueue_threadpool.cc:22-62; await, synchronization.h:412-431 *)
  Definition kcode (l : floc) : instr fq floc :=
    match l with
    | KLook lp => (* the condition: try_dequeue_sc, .cc:30-33 *)
      Atom (fun x _ => if head_ready x then Next (x, KFree lp) else Next (look x, KClosed lp))
    | KFree lp => Atom (fun x _ => take_head x (if lp then KDrop else KMore))
    | KClosed lp => (* the condition: is_closed_, .cc:34-38 *)
      Atom (fun x _ => Next (x, if closed x then (if lp then KDropX else KExit) else (if lp then KWait else KPrep)))
    | KPrep => PrepareWait pull_ec (KLook true)
    | KWait => Wait KAgain
    | KAgain => DropKey KPrep
    | KDrop => DropKey KMore
    | KDropX => DropKey KExit
    | KMore => (* .cc:48-50 *)
      Atom (fun x _ => Next (x, if (length (batch x) <? kBatch) && head_ready x then KMoreFree else KNtf))
    | KMoreFree => Atom (fun x _ => take_head x KMore)
    | KNtf => Notify push_ec true KRun                            (* .cc:52 *)
    | KRun => (* .cc:54-57 *)
      Atom (fun x _ => match batch x with
                       | b :: r => Next (mk_fq (q x) r (closed x) (acc x) (done_ x ++ [b]) (seen x) (at_close x) (asked x) (refused x), KRun)
                       | [] => Next (x, KLook false)
                       end)
    | _ => Atom (fun _ _ => Stuck)
    end.
  Definition fcode (t : nat) (l : floc) : instr fq floc := if t =? 0 then kcode l else pcode t l.
End Code.

Definition finit : st fq floc := init fq0 (fun t => if t =? 0 then KLook false else PIdle).
