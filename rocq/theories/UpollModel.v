(** Model of EpollAdd and EpollDel of UringProactor (util/fibers/uring_proactor.cc:580-656), with which
    UringSocket implements its recv hook (util/fibers/uring_socket.cc:532-545): one entry, its multishot poll
    requests, and the completions.

    The proactor thread runs the callbacks and fibers; the kernel runs concurrently. EpollDel is called by
    a fiber, which waits for the completion of its PollRemove. A request is named by its user_data, which is
    unique: epoll_add_id_ goes into the upper half (uring_proactor.cc:615). [Ub]: the entry is used after it
    was deleted. *)
From Verif Require Import Util Conc.
Open Scope N_scope.

(** A completion: of a poll request, with an event (and whether IORING_CQE_F_MORE is set) or with an error; of
    PollRemove. *)
Inductive rem := Removed | Enoent | Ealready.
Inductive cqe := Ev (uid : nat) (more : bool) | Err (uid : nat) | Rem (r : rem).
(** The entry, and the fiber that calls EpollDel. *)
Inductive obj := Absent | Live | Freed.
Inductive del := Before | Waiting (uid : nat) | Returned.
(** [Called]: the user's callback runs. *)
Inductive ev := Called | Deleting | Deleted.

Record st := mkS {
  ent : obj; idx : nat; next : nat;  (* the entry, entry->index, the next user_data *)
  polls : nat -> bool;               (* poll requests that the kernel has armed *)
  rmq : option nat;                  (* a PollRemove that the kernel has not executed *)
  cq : list cqe; dl : del;
  pending : Z;                       (* pending_epoll_removals_ *)
  hist : list ev }.
Definition init : st := mkS Absent 0 0 (fun _ => false) None [] Before 0 [].

Inductive lab :=
| LAdd                               (* EpollAdd *)
| LDel                               (* EpollDel is called *)
| LDispatch                          (* the proactor handles the first completion *)
| KEvent (uid : nat) (more : bool)   (* an event; [more = false]: the kernel ends the multishot *)
| KErr (uid : nat)                   (* the request fails *)
| KRemove (first : bool)             (* PollRemove is executed; [first]: its own completion comes first *)
| KBusy.                             (* it reports EALREADY *)

(** RearmEpoll (uring_proactor.cc:595-619). *)
Definition rearm (s : st) : st :=
  mkS (ent s) (next s) (S (next s)) (upd (polls s) (next s) true) (rmq s) (cq s) (dl s) (pending s) (hist s).
Definition post (l : list cqe) (s : st) : st :=
  mkS (ent s) (idx s) (next s) (polls s) (rmq s) (cq s ++ l) (dl s) (pending s) (hist s).
Definition disarm (u : nat) (s : st) : st :=
  mkS (ent s) (idx s) (next s) (upd (polls s) u false) (rmq s) (cq s) (dl s) (pending s) (hist s).

Definition step (s : st) (l : lab) : outcome st :=
  match l with
  (* uring_proactor.cc:580-593 *)
  | LAdd =>
    match ent s with
    | Absent => Next (rearm (mkS Live (idx s) (next s) (polls s) (rmq s) (cq s) (dl s) (pending s) (hist s)))
    | _ => Stuck
    end
  (* uring_proactor.cc:621-643 *)
  | LDel =>
    match dl s, ent s with
    | Before, Live =>
      Next (mkS Live (idx s) (next s) (polls s) (Some (idx s)) (cq s) (Waiting (idx s)) (pending s + 1) (hist s ++ [Deleting]))
    | Before, Freed => Ub
    | _, _ => Stuck
    end
  | LDispatch =>
    match cq s with
    | [] => Stuck
    | c :: t =>
      let s1 := mkS (ent s) (idx s) (next s) (polls s) (rmq s) t (dl s) (pending s) (hist s) in
      match c with
      (* uring_proactor.cc:600-606 *)
      | Ev _ more =>
        match ent s with
        | Live =>
          let s2 := mkS Live (idx s) (next s) (polls s) (rmq s) t (dl s) (pending s) (hist s ++ [Called]) in
          Next (if more then s2 else rearm s2)
        | _ => Ub
        end
      (* uring_proactor.cc:607-612 *)
      | Err _ =>
        match ent s with
        | Live => Next (mkS Freed (idx s) (next s) (polls s) (rmq s) t (dl s) (pending s - 1) (hist s))
        | _ => Ub
        end
      (* the fiber goes on: uring_proactor.cc:649-651 *)
      | Rem r =>
        match dl s with
        | Waiting u =>
          match r with
          | Ealready => Next (mkS (ent s) (idx s) (next s) (polls s) (Some u) t (Waiting u) (pending s) (hist s))
          | _ => Next (mkS (ent s) (idx s) (next s) (polls s) (rmq s) t Returned (pending s) (hist s ++ [Deleted]))
          end
        | _ => Ub
        end
      end
    end
  | KEvent u more =>
    if polls s u then Next (post [Ev u more] (if more then s else disarm u s)) else Stuck
  | KErr u => if polls s u then Next (post [Err u] (disarm u s)) else Stuck
  | KRemove first =>
    match rmq s with
    | Some u =>
      let s1 := mkS (ent s) (idx s) (next s) (polls s) None (cq s) (dl s) (pending s) (hist s) in
      if polls s u then Next (post (if first then [Rem Removed; Err u] else [Err u; Rem Removed]) (disarm u s1))
      else Next (post [Rem Enoent] s1)
    | None => Stuck
    end
  | KBusy =>
    match rmq s with
    | Some u =>
      if polls s u then Next (post [Rem Ealready] (mkS (ent s) (idx s) (next s) (polls s) None (cq s) (dl s) (pending s) (hist s))) else Stuck
    | None => Stuck
    end
  end.
