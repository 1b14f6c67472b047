(** Model of base::mpmc_bounded_queue (base/mpmc_bounded_queue.h): any number of threads, one
    shared access per transition, sequential consistency.
    Simplifications: positions and sequence numbers are unbounded naturals (the code uses size_t,
    so the model is exact while fewer than 2^63 calls have been made); the signed difference of
    lines 95, 118, 142 is then an ordinary comparison. Cell payload: [None] is raw storage;
    constructing over a live object or moving from / destroying raw storage is undefined
    behaviour. [vals] and [tr] are ghost state (no transition depends on them). *)
From Verif Require Import Util Conc.

Section Mpmc.
Context {T : Type}.

(** try_enqueue (87-108), try_dequeue (110-134), try_dequeue_sc (138-156). *)
Inductive op := Enq (v : T) | Deq | DeqSC.
Inductive res := RBool (b : bool) | ROpt (v : option T).

Inductive pcs :=
| Idle
| ELoadPos (v : T)              (* line 92 *)
| ELoadSeq (v : T) (pos : nat)  (* lines 93-95 *)
| ECas (v : T) (pos : nat)      (* line 98 *)
| ECons (v : T) (pos : nat)     (* line 105 *)
| EStore (v : T) (pos : nat)    (* line 106 *)
| DLoadPos                      (* line 115 *)
| DLoadSeq (pos : nat)          (* lines 116-118 *)
| DCas (pos : nat)              (* line 120 *)
| DMove (pos : nat)             (* line 128 *)
| DDestroy (v : T) (pos : nat)  (* line 129 *)
| DStore (v : T) (pos : nat)    (* line 132 *)
| SLoadPos                      (* line 139 *)
| SLoadSeq (pos : nat)          (* lines 140-142 *)
| SMove (pos : nat)             (* line 148 *)
| SDestroy (v : T) (pos : nat)  (* line 149 *)
| SStorePos (v : T) (pos : nat) (* line 151 *)
| SStore (v : T) (pos : nat)    (* line 154 *)
| PRet (o : op) (r : res).

Record state := St {
  lg : nat;                       (* buffer size is 2^lg *)
  sole : option nat;              (* the only consumer thread, if there is only one *)
  enq : nat;                      (* enqueue_pos_ *)
  deq : nat;                      (* dequeue_pos_ *)
  seq : nat -> nat;               (* buffer_[i].sequence *)
  data : nat -> option T;         (* buffer_[i].storage *)
  pc : nat -> pcs;
  vals : list T;                  (* ghost: accepted values in ticket order *)
  tr : list (ev op res)           (* ghost *)
}.

(** Lines 45-56. *)
Definition init (k : nat) (c : option nat) : state :=
  St k c 0 0 (fun i => i) (fun _ => None) (fun _ => Idle) [] [].

Definition cap (k : nat) : nat := 2 ^ k.
(** pos & buffer_mask_ *)
Definition cell (k pos : nat) : nat := Nat.land pos (cap k - 1).

Definition goto (s : state) (t : nat) (p : pcs) (e : list (ev op res)) : state :=
  St (lg s) (sole s) (enq s) (deq s) (seq s) (data s) (upd (pc s) t p) (vals s) (tr s ++ e).

(** Labels: thread [t] starts a call; thread [t] takes its next step; [weak] lets a
    compare_exchange_weak fail spuriously. *)
Inductive label := Call (t : nat) (o : op) | Step (t : nat) (weak : bool).

(** Which threads may start which call: any thread may produce; if [sole = Some c] only thread c
    consumes, and only then is the single-consumer version allowed (lines 136-137). *)
Definition may_call (s : state) (t : nat) (o : op) : bool :=
  match o, sole s with
  | Enq _, _ => true
  | Deq, None => true
  | Deq, Some c | DeqSC, Some c => Nat.eqb t c
  | DeqSC, None => false
  end.

Definition call (s : state) (t : nat) (o : op) : outcome state :=
  match pc s t with
  | Idle =>
    if may_call s t o then
      Next (goto s t (match o with Enq v => ELoadPos v | Deq => DLoadPos | DeqSC => SLoadPos end) [Inv t o])
    else Stuck
  | _ => Stuck
  end.

Definition thread_step (s : state) (t : nat) (weak : bool) : outcome state :=
  let k := lg s in
  match pc s t with
  | Idle => Stuck
  | ELoadPos v => Next (goto s t (ELoadSeq v (enq s)) [])
  | ELoadSeq v pos =>
    let sq := seq s (cell k pos) in
    if Nat.eqb sq pos then Next (goto s t (ECas v pos) [])
    else if Nat.ltb sq pos then Next (goto s t (PRet (Enq v) (RBool false)) [Lin t (Enq v) (RBool false)])
    else Next (goto s t (ELoadPos v) [])
  | ECas v pos =>
    if negb weak && Nat.eqb (enq s) pos then
      Next (St k (sole s) (pos + 1) (deq s) (seq s) (data s) (upd (pc s) t (ECons v pos)) (vals s ++ [v])
               (tr s ++ [Lin t (Enq v) (RBool true)]))
    else Next (goto s t (ELoadPos v) [])
  | ECons v pos =>
    match data s (cell k pos) with
    | Some _ => Ub
    | None => Next (St k (sole s) (enq s) (deq s) (seq s) (upd (data s) (cell k pos) (Some v))
                       (upd (pc s) t (EStore v pos)) (vals s) (tr s))
    end
  | EStore v pos =>
    Next (St k (sole s) (enq s) (deq s) (upd (seq s) (cell k pos) (pos + 1)) (data s)
             (upd (pc s) t (PRet (Enq v) (RBool true))) (vals s) (tr s))
  | DLoadPos => Next (goto s t (DLoadSeq (deq s)) [])
  | DLoadSeq pos =>
    let sq := seq s (cell k pos) in
    if Nat.eqb sq (pos + 1) then Next (goto s t (DCas pos) [])
    else if Nat.ltb sq (pos + 1) then Next (goto s t (PRet Deq (ROpt None)) [Lin t Deq (ROpt None)])
    else Next (goto s t DLoadPos [])
  | DCas pos =>
    if negb weak && Nat.eqb (deq s) pos then
      Next (St k (sole s) (enq s) (pos + 1) (seq s) (data s) (upd (pc s) t (DMove pos)) (vals s)
               (tr s ++ [Lin t Deq (ROpt (nth_error (vals s) pos))]))
    else Next (goto s t DLoadPos [])
  | DMove pos =>
    match data s (cell k pos) with
    | None => Ub
    | Some v => Next (goto s t (DDestroy v pos) [])
    end
  | DDestroy v pos =>
    match data s (cell k pos) with
    | None => Ub
    | Some _ => Next (St k (sole s) (enq s) (deq s) (seq s) (upd (data s) (cell k pos) None)
                         (upd (pc s) t (DStore v pos)) (vals s) (tr s))
    end
  | DStore v pos =>
    Next (St k (sole s) (enq s) (deq s) (upd (seq s) (cell k pos) (pos + (cap k - 1) + 1)) (data s)
             (upd (pc s) t (PRet Deq (ROpt (Some v)))) (vals s) (tr s))
  | SLoadPos => Next (goto s t (SLoadSeq (deq s)) [])
  | SLoadSeq pos =>
    if Nat.ltb (seq s (cell k pos)) (pos + 1)
    then Next (goto s t (PRet DeqSC (ROpt None)) [Lin t DeqSC (ROpt None)])
    else Next (goto s t (SMove pos) [])
  | SMove pos =>
    match data s (cell k pos) with
    | None => Ub
    | Some v => Next (goto s t (SDestroy v pos) [])
    end
  | SDestroy v pos =>
    match data s (cell k pos) with
    | None => Ub
    | Some _ => Next (St k (sole s) (enq s) (deq s) (seq s) (upd (data s) (cell k pos) None)
                         (upd (pc s) t (SStorePos v pos)) (vals s) (tr s))
    end
  | SStorePos v pos =>
    Next (St k (sole s) (enq s) (pos + 1) (seq s) (data s) (upd (pc s) t (SStore v pos)) (vals s)
             (tr s ++ [Lin t DeqSC (ROpt (Some v))]))
  | SStore v pos =>
    Next (St k (sole s) (enq s) (deq s) (upd (seq s) (cell k pos) (pos + (cap k - 1) + 1)) (data s)
             (upd (pc s) t (PRet DeqSC (ROpt (Some v)))) (vals s) (tr s))
  | PRet o r => Next (goto s t Idle [Ret t o r])
  end.

Definition step (s : state) (l : label) : outcome state :=
  match l with Call t o => call s t o | Step t w => thread_step s t w end.

(** Lines 74-80 is_full() and 166-172 empty(), on an instantaneous state. *)
Definition is_full (s : state) : bool := Nat.ltb (seq s (cell (lg s) (enq s))) (enq s).
Definition empty (s : state) : bool := Nat.ltb (seq s (cell (lg s) (deq s))) (deq s + 1).

(** Lines 61-72, the destructor, run when no thread uses the queue: the remaining payloads are
    destroyed one by one ([fuel] bounds the loop; [None]: raw storage destroyed or no end). *)
Fixpoint destroy_loop (fuel k pos : nat) (sq : nat -> nat) (d : nat -> option T) : option (nat -> option T) :=
  if Nat.ltb (sq (cell k pos)) (pos + 1) then Some d
  else match fuel with
       | O => None
       | S f => match d (cell k pos) with
                | None => None
                | Some _ => destroy_loop f k (pos + 1) sq (upd d (cell k pos) None)
                end
       end.
Definition destroy (s : state) : option (nat -> option T) :=
  destroy_loop (cap (lg s) + 1) (lg s) (deq s) (seq s) (data s).

(** A thread owns the payload of ticket [pos]'s cell: it is between claiming the ticket and storing
    the sequence number. *)
Definition accesses (p : pcs) : option nat :=
  match p with
  | ECons _ pos | DMove pos | DDestroy _ pos | SMove pos | SDestroy _ pos => Some pos
  | _ => None
  end.
Definition enqueueing (p : pcs) : Prop := match p with ECons _ _ | EStore _ _ => True | _ => False end.
Definition dequeueing (p : pcs) : Prop :=
  match p with DMove _ | DDestroy _ _ | DStore _ _ | SStore _ _ => True | _ => False end.
End Mpmc.
Arguments op : clear implicits. Arguments res : clear implicits. Arguments state : clear implicits.
Arguments label : clear implicits. Arguments pcs : clear implicits.
