(** Model of [SimpleChannel] (/repo/util/fibers/simple_channel.h) as a client of the EventCount
    model: push_ec_ is event count 0, pop_ec_ is event count 1.

    Any number of producer and consumer fibers make any sequence of calls. A producer calls TryPush
    and Push, then StartClosing at most once, as its last call; a consumer calls TryPop and Pop.

    The queue is abstracted to what its own model guarantees (C11, C12): a bounded FIFO. [mp] tells
    which queue: with [mp = false] (folly::ProducerConsumerQueue) writing and reading an element is
    one atomic step, with [mp = true] (base::mpmc_bounded_queue) an element is first claimed and
    later published by its producer, and its cell is given back some time after it was read. *)
From Verif Require Import Util Conc EcModel.

(** The caller of TryPush / TryPop: the user ([NB]), the fast path of Push / Pop ([Fast]), the loop
    ([Loop]), or the last TryPop after the closing check ([Last]). *)
Inductive ph := NB | Fast | Loop | Last.

(** Program points. The producer side:
    [PIdle] between calls; [PTry v p] about to try to enqueue [v]; [PPub p] about to publish the
    claimed cell; [PNtf p] about to call pop_ec_.notify(); [PPrep v] before prepareWait; [PWait v]
    before wait; [PAgain v] end of the loop body; [PDrop] leaving the loop; [PClose] in
    StartClosing; [PNAll] before its notifyAll; [PClosed] after it. The consumer side is similar;
    [KRet] is the return of false by Pop. *)
Inductive cloc :=
| PIdle | PTry (v : nat) (p : ph) | PPub (p : ph) | PNtf (p : ph) | PPrep (v : nat) | PWait (v : nat)
| PAgain (v : nat) | PDrop | PClose | PNAll | PClosed
| KIdle | KTry (p : ph) | KRel (p : ph) | KN (p : ph) | KPrep | KChk | KWait | KAgain | KDrop
| KDropF | KRet.

(** A cell of the queue: who pushed it, the value, and the fiber that has not yet published it. *)
Record cell := mk_cell { by_ : nat; v_ : nat; hold_ : option nat }.
(** The queue ([hd] is the number of elements removed so far; [busy] the positions of cells that
    were read and not yet given back), is_closing_, and, as ghost state, everything that was
    enqueued and dequeued so far, with the fiber that did it. *)
Record chan := mk_chan { q : list cell; hd : nat; busy : list (nat * nat); closing : nat;
  pushed : list (nat * nat); popped : list (nat * nat * nat) }.
Definition chan0 : chan := mk_chan [] 0 [] 0 [] [].

Definition push_ec : nat := 0.
Definition pop_ec : nat := 1.

Section Code.
  (** The kind of queue, its capacity, and num_producers_. *)
  Variable mp : bool.
  Variable cap : nat.
  Variable np : nat.

  (** QueueTraits::TryEnqueue, simple_channel.h:142-144 and :155-157. The MPMC queue refuses also
      when the cell of the next position is still in use by the reader of its previous element
      (mpmc_bounded_queue.h try_enqueue). *)
  Definition enq (t v : nat) (x : chan) : option chan :=
    if (cap <=? length (q x)) || existsb (fun b => fst b + cap =? hd x + length (q x)) (busy x) then None
    else Some (mk_chan (q x ++ [mk_cell t v (if mp then Some t else None)]) (hd x) (busy x) (closing x)
                       (pushed x ++ [(t, v)]) (popped x)).
  (** The store that publishes the cell (mpmc queue only). *)
  Definition publish (t : nat) (x : chan) : chan :=
    mk_chan (map (fun c => mk_cell (by_ c) (v_ c)
                    (match hold_ c with Some u => if u =? t then None else Some u | None => None end)) (q x))
            (hd x) (busy x) (closing x) (pushed x) (popped x).
  (** QueueTraits::TryDequeue, simple_channel.h:146-148 and :159-161. *)
  Definition deq (t : nat) (x : chan) : option chan :=
    match q x with
    | c :: r =>
      match hold_ c with
      | None => Some (mk_chan r (S (hd x)) (if mp then (hd x, t) :: busy x else busy x) (closing x)
                              (pushed x) (popped x ++ [(t, by_ c, v_ c)]))
      | Some _ => None
      end
    | [] => None
    end.
  (** The store that gives the cell back (mpmc queue only). *)
  Definition give_back (t : nat) (x : chan) : chan :=
    mk_chan (q x) (hd x) (filter (fun b => negb (snd b =? t)) (busy x)) (closing x) (pushed x) (popped x).

  Definition goto (l : cloc) : chan -> nat -> outcome (chan * cloc) := fun x _ => Next (x, l).

  (** Where TryPush returns true: Push returns (simple_channel.h:98-99, :103-105) after ~Key. *)
  Definition pdone (p : ph) : cloc := match p with NB | Fast => PIdle | _ => PDrop end.
  Definition kdone (p : ph) : cloc := match p with NB | Fast => KIdle | _ => KDrop end.

  Definition ccode (t : nat) (l : cloc) : instr chan cloc :=
    match l with
    | PIdle => (* the scheduler chooses the next call: 0 StartClosing, odd TryPush, even Push *)
      Atom (fun x c => match c with
                       | O => Next (x, PClose)
                       | S n => Next (x, PTry (Nat.div2 n) (if Nat.odd n then NB else Fast))
                       end)
    | PTry v p => (* TryPush, simple_channel.h:55-64 *)
      Atom (fun x _ => match enq t v x with
                       | Some x' => Next (x', if mp then PPub p else PNtf p)
                       | None => Next (x, match p with NB => PIdle | Fast => PPrep v | _ => PWait v end)
                       end)
    | PPub p => Atom (fun x _ => Next (publish t x, PNtf p))
    | PNtf p => Notify pop_ec false (pdone p)                (* simple_channel.h:58 *)
    | PPrep v => PrepareWait push_ec (PTry v Loop)           (* simple_channel.h:102 *)
    | PWait v => Wait (PAgain v)                             (* simple_channel.h:106 *)
    | PAgain v => DropKey (PPrep v)                          (* ~Key at the end of the loop body *)
    | PDrop => DropKey PIdle
    | PClose => (* StartClosing, simple_channel.h:131-134 *)
      Atom (fun x _ => Next (mk_chan (q x) (hd x) (busy x) (S (closing x)) (pushed x) (popped x), PNAll))
    | PNAll => Notify pop_ec true PClosed
    | PClosed => Atom (fun _ _ => Stuck)
    | KIdle => Atom (fun x c => Next (x, KTry (match c with O => NB | _ => Fast end)))
    | KTry p => (* TryPop, simple_channel.h:67-73 *)
      Atom (fun x _ => match deq t x with
                       | Some x' => Next (x', if mp then KRel p else kdone p)
                       | None => Next (x, KN p)
                       end)
    | KRel p => Atom (fun x _ => Next (give_back t x, kdone p))
    | KN p => Notify push_ec false                           (* simple_channel.h:71 *)
                (match p with NB => KIdle | Fast => KPrep | Loop => KChk | Last => KDropF end)
    | KPrep => PrepareWait pop_ec (KTry Loop)                (* simple_channel.h:115 *)
    | KChk => (* IsClosing, simple_channel.h:75-78, called at :120 *)
      Atom (fun x _ => Next (x, if np <=? closing x then KTry Last else KWait))
    | KWait => Wait KAgain                                   (* simple_channel.h:127 *)
    | KAgain => DropKey KPrep
    | KDrop => DropKey KIdle
    | KDropF => DropKey KRet
    | KRet => Atom (goto KIdle)
    end.
End Code.

(** Fiber [t] is a consumer when [cons t], else a producer. *)
Definition cinit (cons : nat -> bool) : st chan cloc := init chan0 (fun t => if cons t then KIdle else PIdle).
