(** The callback table of EpollProactor, Linux: util/fibers/epoll_proactor.cc:155-166 (Init), :340-383
    (Arm), :385-401 (Disarm), :487-532 (DispatchCompletions), :534-543 (RegrowCentries).

    The kernel reports events of armed descriptors only, as many as it likes and in any order; what
    it has reported is fixed when epoll_wait returns. Callbacks are user code: while one runs it may
    arm and disarm. Simplifications: a descriptor is represented by its entry; event masks and the eventfd
    (WakeModel.v) are left out; -1 is [None]. *)
From Verif Require Import Util Conc.
From Verif Require RingCbModel.

(** epoll_proactor.h:54-67 CompletionEntry: the callback, if set (callbacks are numbered), and the index. *)
Notation entry := RingCbModel.entry.

(** Running callback [c] for an event that was reported for the descriptor armed with callback [e]. *)
Inductive md := Out | Run (c e : nat).

(** [ents] centries_, [nfree] next_free_ce_, [batch] the reported events not yet looked at: the
    entry, and (ghost) the callback its descriptor was armed with; [armed] (ghost) the entries and callbacks of the
    armed descriptors; [nid] the next callback's number. *)
Record st := mk { ents : list entry; nfree : option nat; batch : list (nat * nat); mode : md; armed : list (nat * nat); nid : nat }.

Inductive lab := Arm | Disarm (i : nat) | Wait (l : list (nat * nat)) | Dispatch | Return.

(** epoll_proactor.cc:534-543; the links are those of UringProactor's table. *)
Definition regrow (s : st) : st :=
  let n := length (ents s) in
  mk (ents s ++ RingCbModel.linked n n) (Some n) (batch s) (mode s) (armed s) (nid s).

(** epoll_proactor.cc:345-357 *)
Definition take_entry (s : st) : outcome st :=
  match nfree s with
  | None => Ub
  | Some i => match nth_error (ents s) i with
              | None => Ub
              | Some (_, nx) => Next (mk (set i (Some (nid s), None) (ents s)) nx (batch s) (mode s) ((i, nid s) :: armed s) (S (nid s)))
              end
  end.

(** epoll_proactor.cc:340-383. The callbacks move when the table grows: the one being run, if any,
    goes on in freed memory (:519 runs it where it is stored). *)
Definition arm (s : st) : outcome st :=
  match nfree s with
  | Some _ => take_entry s
  | None => match mode s with Run _ _ => Ub | Out => take_entry (regrow s) end
  end.
(** The handler id that Arm returns. *)
Definition arm_result (s : st) : nat := match nfree s with Some i => i | None => length (ents s) end.

(** epoll_proactor.cc:385-401. The caller passes an id it got from Arm and has not disarmed. *)
Definition disarm (s : st) (i : nat) : outcome st :=
  if existsb (fun p => fst p =? i) (armed s)
  then if i <? length (ents s)
       then Next (mk (set i (None, nfree s) (ents s)) (Some i) (batch s) (mode s) (filter (fun p => negb (fst p =? i)) (armed s)) (nid s))
       else Ub
  else Stuck.

(** epoll_proactor.cc:487-532, one event. *)
Definition dispatch (s : st) : outcome st :=
  match batch s with
  | [] => Stuck
  | (i, e) :: r =>
      match nth_error (ents s) i with
      | None => Ub
      | Some (Some c, None) => Next (mk (ents s) (nfree s) r (Run c e) (armed s) (nid s))
      | Some _ => Next (mk (ents s) (nfree s) r Out (armed s) (nid s))
      end
  end.

Definition pair_eqb (p q : nat * nat) : bool := (fst p =? fst q) && (snd p =? snd q).

Definition step (s : st) (l : lab) : outcome st :=
  match l, mode s, batch s with
  | Arm, _, _ => arm s
  | Disarm i, _, _ => disarm s i
  | Wait ev, Out, [] => if forallb (fun p => existsb (pair_eqb p) (armed s)) ev
                        then Next (mk (ents s) (nfree s) ev Out (armed s) (nid s)) else Stuck
  | Dispatch, Out, _ => dispatch s
  | Return, Run _ _, _ => Next (mk (ents s) (nfree s) (batch s) Out (armed s) (nid s))
  | _, _, _ => Stuck
  end.

(** epoll_proactor.cc:161-165; the code has [n] = 512. *)
Definition init (n : nat) : st := mk (RingCbModel.linked 0 n) (match n with O => None | _ => Some 0 end) [] Out [] 0.
