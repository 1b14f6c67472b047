(** The callback table of UringProactor: util/fibers/uring_proactor.cc:267-271 (Init), :278-322
    (ProcessCqeBatch), :368-402 (GetSubmitEntry), :658-667 (RegrowCentries), uring_proactor.h:213-222.

    The kernel chooses which submission completes next, and whether more completions of the same
    submission follow (IORING_CQE_F_MORE). A callback is user code: while it runs it may submit.
    Simplifications: the submission ring itself (a full ring is submitted and retried, :370-378) and
    the completions of kWakeIndex are left out (WakeModel.v has the latter); the index -1 is [None];
    the table has fewer than 2^31 entries ([limit]; next_free_ce_ is an int32_t). *)
From Verif Require Import Util Conc.

(** uring_proactor.cc:59-61 *)
Definition cb_base : N := 1024.
Definition ignore_index : N := 0.
Definition u64_max : N := two64 - 1.

(** A table entry: the callback, if set, and the link of the free list. Callbacks are numbered. *)
Definition entry : Type := option nat * option nat.

(** What the thread does: nothing of this, or running callback [c], which was given [tag]. [place]:
    the callback is run where it is stored, in the table. *)
Inductive md := Out | Run (c : nat) (tag : N) (place : bool).

(** A submission in flight: its user_data, its callback and the caller's tag. *)
Record sub := mk_s { ud : N; scb : option nat; stag : N }.

(** [ents] centries_, [nfree] next_free_ce_, [fl] the submissions in flight, [pending]
    pending_cb_cnt_, [nid] the next callback's number, [ended] (ghost) how many times a callback was
    called for a last completion. *)
Record st := mk { ents : list entry; nfree : option nat; fl : list sub; pending : nat; mode : md; nid : nat; ended : nat -> nat }.

Inductive lab := Submit (cb : bool) (tag : N) | Complete (k : nat) (more : bool) | Return.

Definition limit : N := 2147483648.

(** The entries [a], ..., [a + n - 1], each linked to the next and the last one to nothing. *)
Fixpoint linked (a n : nat) : list entry :=
  match n with O => [] | S O => [(None, None)] | S m => (None, Some (S a)) :: linked (S a) m end.

(** uring_proactor.cc:658-667 *)
Definition regrow (s : st) : st :=
  let n := length (ents s) in
  mk (ents s ++ linked n n) (Some n) (fl s) (pending s) (mode s) (nid s) (ended s).

(** uring_proactor.cc:388: (index + kUserDataCbIndex) | (uint64_t(submit_tag) << 32) *)
Definition encode (i : N) (tag : N) : N := N.lor (i + cb_base) (N.shiftl tag 32).

(** uring_proactor.cc:387-397 *)
Definition take_entry (s : st) (tag : N) : outcome st :=
  match nfree s with
  | None => Ub
  | Some i => match nth_error (ents s) i with
              | None => Ub
              | Some (_, nx) =>
                  Next (mk (set i (Some (nid s), nx) (ents s)) nx (fl s ++ [mk_s (encode (N.of_nat i) tag) (Some (nid s)) tag])
                           (S (pending s)) (mode s) (S (nid s)) (ended s))
              end
  end.

(** uring_proactor.cc:368-402. The table moves when it grows: the callback being run in place, if
    any, goes on in freed memory. *)
Definition submit (s : st) (cb : bool) (tag : N) : outcome st :=
  if negb (tag <? two32)%N then Stuck
  else if cb
  then match nfree s with
       | Some _ => take_entry s tag
       | None => match mode s with
                 | Run _ _ true => Ub
                 | _ => if (N.of_nat (length (ents s)) * 2 <? limit)%N then take_entry (regrow s) tag else Stuck
                 end
       end
  else Next (mk (ents s) (nfree s) (fl s ++ [mk_s (N.lor ignore_index (N.shiftl tag 32)) None tag]) (pending s) (mode s) (nid s) (ended s)).

Definition drop_at {A} (k : nat) (l : list A) : list A := firstn k l ++ skipn (S k) l.

(** uring_proactor.cc:278-322: one completion, of the submission at position [k] of [fl]. *)
Definition complete (s : st) (k : nat) (more : bool) : outcome st :=
  match nth_error (fl s) k with
  | None => Stuck
  | Some x =>
      let fl' := if more then fl s else drop_at k (fl s) in
      let low := N.land (ud x) (two32 - 1) in
      let utag := N.shiftr (ud x) 32 in
      if (cb_base <=? low)%N
      then if (ud x =? u64_max)%N then Ub (* :289-301 exit(1) *)
           else let i := N.to_nat (low - cb_base) in
                match nth_error (ents s) i with
                | Some (Some f, ix) =>
                    if more then Next (mk (ents s) (nfree s) fl' (pending s) (Run f utag true) (nid s) (ended s))
                    else Next (mk (set i (None, nfree s) (ents s)) (Some i) fl' (pending s - 1) (Run f utag false) (nid s)
                                  (upd (ended s) f (S (ended s f))))
                | _ => Ub
                end
      else Next (mk (ents s) (nfree s) fl' (pending s) Out (nid s) (ended s))
  end.

Definition step (s : st) (l : lab) : outcome st :=
  match l, mode s with
  | Submit cb tag, _ => submit s cb tag
  | Complete k more, Out => complete s k more
  | Return, Run _ _ _ => Next (mk (ents s) (nfree s) (fl s) (pending s) Out (nid s) (ended s))
  | _, _ => Stuck
  end.

(** uring_proactor.cc:267-271, with [n] = params.sq_entries. *)
Definition init (n : nat) : st := mk (linked 0 n) (match n with O => None | _ => Some 0 end) [] 0 Out 0 (fun _ => 0).
