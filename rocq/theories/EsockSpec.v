(** What a user of an epoll socket relies on. *)
From Verif Require Import Util Conc EsockModel.
Open Scope N_scope.

(** A fiber is inside a reading (writing) call. *)
Definition calling (w : bool) (x : fiber) : Prop :=
  match x with Parked c _ | Ready c _ _ => is_write c = w | Idle => False end.
Definition no_call (w : bool) (s : st) : Prop := forall f, ~ calling w (fib s f).
(** An AsyncWriteSome whose callback was not called yet. *)
Definition no_async (s : st) : Prop := awp s = false /\ brief s = [].

(** The contract of the API: one reader and one writer at a time, buffers are not empty, calls are made on an
    open socket, the recv hook is not mixed with reading calls, and a socket with blocked calls is shut
    down before it is closed. *)
Definition polite (s : st) (l : lab) : Prop :=
  match l with
  | LCall _ (CRecv n) _ => 0 < n /\ (0 <= fd s)%Z /\ no_call false s /\ rhook s = false
  | LCall _ CAccept _ => no_call false s /\ rhook s = false
  | LCall _ (CWrite bs) _ => bs <> [] /\ (0 <= fd s)%Z /\ no_call true s /\ no_async s
  | LAsync _ bs _ => bs <> [] /\ no_call true s /\ no_async s
  | LTrySend bs _ => bs <> [] /\ no_async s
  | LTryRecv n _ => 0 < n
  | LClose => is_shut (fd s) = true \/ (no_call false s /\ no_call true s)
  | LHook => (0 <= fd s)%Z /\ rhook s = false /\ no_call false s
  | _ => True
  end.

(** Runs that respect it, of a socket with descriptor [n] and [room] bytes of space to send. *)
Inductive run_of (P : lab -> Prop) (n : Z) (room : N) : st -> Prop :=
| run_init : run_of P n room (init n room)
| run_step s l s' : run_of P n room s -> polite s l -> P l -> step s l = Next s' -> run_of P n room s'.
Definition run : Z -> N -> st -> Prop := run_of (fun _ => True).
(** Runs in which no fiber makes a blocking call. *)
Definition no_blocking (l : lab) : Prop := match l with LCall _ _ _ => False | _ => True end.

(** The bytes that reads returned; the bytes that writes reported as written. *)
Definition got1 (r : res) : list N := match r with Got b => b | _ => [] end.
Definition sent1 (bs : list N) (r : res) : list N := match r with Sent n => take n bs | _ => [] end.
Definition got (h : list ev) : list N :=
  flat_map (fun e => match e with Ret _ _ r | TriedR r => got1 r | _ => [] end) h.
Definition sent (h : list ev) : list N :=
  flat_map (fun e => match e with Ret _ (CWrite bs) r | Tried bs r | Cb _ bs r => sent1 bs r | _ => [] end) h.
Definition sent_brief (b : list (nat * list N * res)) : list N := flat_map (fun x => sent1 (snd (fst x)) (snd x)) b.

(** How often: [id] was given to AsyncWriteSome, its callback was called, and it is waiting. *)
Definition starts (id : nat) (h : list ev) : nat :=
  length (filter (fun e => match e with Start i => Nat.eqb i id | _ => false end) h).
Definition cbs (id : nat) (h : list ev) : nat :=
  length (filter (fun e => match e with Cb i _ _ => Nat.eqb i id | _ => false end) h).
Definition waiting (id : nat) (s : st) : nat :=
  (length (filter (fun x => Nat.eqb (fst (fst x)) id) (brief s)) +
   match wslot s with PAsync i _ => if Nat.eqb i id then 1 else 0 | _ => 0 end)%nat.

(** Input that arrived, and of which the hook was not told: since the beginning, or since it was
    registered. *)
Fixpoint news_from (reset : bool) (b : bool) (h : list ev) : bool :=
  match h with
  | [] => b
  | e :: t => news_from reset (match e with News | Fault => true | Notify _ => false | Hook => if reset then false else b | _ => b end) t
  end.
Definition untold (h : list ev) : bool := news_from false false h.
Definition untold_since (h : list ev) : bool := news_from true false h.
(** The connection ended, or was reset, after the error callback was registered and before it was called. *)
Fixpoint fault_from (b : bool) (h : list ev) : bool :=
  match h with
  | [] => b
  | e :: t => fault_from (match e with Fault => true | ErrCb | ErrReg => false | _ => b end) t
  end.
Definition fault_since (h : list ev) : bool := fault_from false h.
Definition count_reg (h : list ev) : nat := length (filter (fun e => match e with ErrReg => true | _ => false end) h).
Definition count_errcb (h : list ev) : nat := length (filter (fun e => match e with ErrCb => true | _ => false end) h).

(** There is something to read (an end or a reset too), there is space to write (or a reset). *)
Definition readable (s : st) : Prop := kin s <> [] \/ kfin s = true \/ krst s = true.
Definition writable (s : st) : Prop := kroom s <> 0 \/ krst s = true.
Definition ready_for (c : call) (s : st) : Prop := if is_write c then writable s else readable s.
