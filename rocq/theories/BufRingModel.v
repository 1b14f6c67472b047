(** Model of the provided-buffer rings of UringProactor (util/fibers/uring_proactor.cc:69-126, 465-555)
    and of the multishot recv hook of UringSocket that reads from them (util/fibers/uring_socket.cc:455-553).

    A ring holds [n] buffers of [es] bytes. The kernel fills the buffers from its head on, for all sockets that
    use the ring, and posts completions; the proactor hands the bytes to the hooks and gives the buffers back.
    Kernel and proactor run concurrently: every interleaving of their steps is a run. Offsets into the storage
    stand for pointers. [Ub]: a DCHECK of the code fails (in a release build: memory is misread). *)
From Verif Require Import Util Conc.
Open Scope N_scope.

(** io_uring_buf: an entry of the shared ring. *)
Record ent := mkE { e_addr : N; e_len : N; e_bid : N }.
(** A completion of a recv: [Data]: with IORING_CQE_F_BUFFER; the first buffer, the number of bytes, the flags
    IORING_CQE_F_BUF_MORE and IORING_CQE_F_MORE. [Fin]: the end of the stream (0) or an errno. *)
Inductive cqe := Data (sock : nat) (bid res : N) (buf_more more : bool) | Fin (sock : nat) (e : N).
(** What the hooks see: the bytes, the end of the stream, an error code; and when ResetOnRecvHook has returned. *)
Inductive ev := Got (sock : nat) (bs : list N) | Closed (sock : nat) | Error (sock : nat) (code : Z) | WasReset (sock : nat) | Fatal.
(** The completion that is handled: what is left of it (uring_socket.cc:468-485: res, bufid, incremental). *)
Record work := mkW { w_sock : nat; w_bid : N; w_res : N; w_incr : bool; w_more : bool }.

Record st := mkS {
  mem : N -> N;                    (* storage *)
  ents : N -> ent; tail : N;       (* the shared ring; its tail, which the proactor advances *)
  khead : N;                       (* the head of the kernel *)
  chead : N; ioff : N;             (* cached_head, incr_offset *)
  cq : list cqe;
  cur : option work;
  seg : option (N * N);            (* the pointer and length that a hook is working on *)
  armed : nat -> bool;             (* sockets whose multishot recv the kernel serves *)
  regms : nat -> bool;             (* register_recv_multishot_ *)
  dead : bool;                     (* the process has aborted *)
  karr : list (nat * list N);      (* what the kernel has received, by completion *)
  hist : list ev }.

Definition setN {A} (f : N -> A) (i : N) (v : A) : N -> A := fun j => if j =? i then v else f j.
Fixpoint write (m : N -> N) (a : N) (bs : list N) : N -> N :=
  match bs with [] => m | b :: t => write (setN m a b) (a + 1) t end.
Fixpoint read (m : N -> N) (a : N) (k : nat) : list N :=
  match k with O => [] | S k' => m a :: read m (a + 1) k' end.

Definition ENOBUFS : N := 105.

Section Ring.
  (** The number of entries, their size, and whether IOU_PBUF_RING_INC is used (incremental_buf_ring_f_). *)
  Variables (n es : N) (inc : bool).

  (** AddToRing (uring_proactor.cc:106-109): the product is computed in 32 bits. io_uring_buf_ring_add of liburing
      writes the entry at (tail + offset) & mask. The mask is nentries - 1 of a power of 2. *)
  Definition add_to_ring (bid off : N) (tl : N) (f : N -> ent) : N -> ent :=
    setN f ((tl + off) mod n) (mkE ((bid * es) mod two32) es bid).
  (** RegisterBufferRing (uring_proactor.cc:497-508). *)
  Fixpoint fill_ring (k : nat) : N -> ent :=
    match k with O => fun _ => mkE 0 0 0 | S i => add_to_ring (N.of_nat i) (N.of_nat i) 0 (fill_ring i) end.
  Definition init : st :=
    mkS (fun _ => 0) (fill_ring (N.to_nat n)) n 0 0 0 [] None None (fun _ => false) (fun _ => false) false [] [].

  (** current_buf (uring_proactor.cc:92-94). *)
  Definition current (s : st) : ent := ents s (chead s mod n).
  (** AdvanceHead (uring_proactor.cc:96-101). cached_head has 16 bits. *)
  Definition advance (s : st) : st :=
    mkS (mem s) (add_to_ring (e_bid (current s)) 0 (tail s) (ents s)) (tail s + 1) (khead s) ((chead s + 1) mod 65536) 0
        (cq s) (cur s) (seg s) (armed s) (regms s) (dead s) (karr s) (hist s).

  (** BufRingGetBufPtr and GetBufPtr (uring_proactor.cc:111-126, 514-527). [None]: a DCHECK fails. *)
  Definition get_buf (bid l : N) (s : st) : option (N * N * st) :=
    let s := if e_bid (current s) =? bid then s else advance s in
    if (e_bid (current s) =? bid) && (bid <? n) then
      let start := (bid * es) mod two32 + ioff s in
      let l := if es <? l + ioff s then es - ioff s else l in
      if start + l <=? es * n then Some (start, l, s) else None
    else None.

  (** BufRingTrackRecvCompletion (uring_proactor.cc:529-555). *)
  Definition track (size bid : N) (incremental : bool) (s : st) : option (N * st) :=
    if e_bid (current s) =? bid then
      if inc && incremental && (ioff s + size <? es) then
        Some (bid, mkS (mem s) (ents s) (tail s) (khead s) (chead s) (ioff s + size) (cq s) (cur s) (seg s) (armed s) (regms s) (dead s) (karr s) (hist s))
      else let s := advance s in Some (e_bid (current s), s)
    else None.

  (** The kernel fills buffers from its head on. Result: the storage, the buffer where it stopped, and
      how many bytes it put there (0: it stopped behind a full buffer). [None]: not enough buffers. *)
  Fixpoint kfill (f : nat) (m : N -> N) (h : N) (es : N -> ent) (tl : N) (bs : list N) : option ((N -> N) * N * N) :=
    match f with
    | O => None
    | S f =>
      if h =? tl then None else
      let e := es (h mod n) in
      if len bs <? e_len e then Some (write m (e_addr e) bs, h, len bs)
      else let m := write m (e_addr e) (take (e_len e) bs) in
           match drop (e_len e) bs with [] => Some (m, h + 1, 0) | r => kfill f m (h + 1) es tl r end
    end.

  Inductive lab :=
  | LReg (s : nat)          (* RegisterOnRecv *)
  | LReset (s : nat)        (* ResetOnRecvHook *)
  | LTake                   (* the proactor takes the next completion *)
  | LGet                    (* BufRingGetBufPtr; the hook is called *)
  | LDone                   (* the hook has read the bytes and returns; BufRingTrackRecvCompletion *)
  | KRecv (s : nat) (bs : list N) (keep buf_more more : bool)
  | KFin (s : nat) (e : N).

  Definition put (s : st) (a : nat -> bool) (q : list cqe) (c : option work) (g : option (N * N)) (d : bool) (h : list ev) : st :=
    mkS (mem s) (ents s) (tail s) (khead s) (chead s) (ioff s) q c g a (regms s) d (karr s) h.

  Definition step (s : st) (l : lab) : outcome st :=
    if dead s then Stuck else
    match l with
    (* uring_socket.cc:455-458, 512-530. Nothing sets register_recv_multishot_. *)
    | LReg k =>
      if regms s k then Stuck else if armed s k then Stuck
      else Next (put s (upd (armed s) k true) (cq s) (cur s) (seg s) false (hist s))
    (* uring_socket.cc:541-553 *)
    | LReset k =>
      Next (put s (if regms s k then upd (armed s) k false else armed s) (cq s) (cur s) (seg s) false (hist s ++ [WasReset k]))
    | LTake =>
      match cur s, cq s with
      | None, Data k bid res bm more :: q => Next (put s (armed s) q (Some (mkW k bid res bm more)) None false (hist s))
      (* uring_socket.cc:495-520 *)
      | None, Fin k e :: q =>
        if e =? ENOBUFS then Next (put s (armed s) q None None true (hist s ++ [Fatal]))
        else Next (put s (armed s) q None None false
                       (hist s ++ [if e =? 0 then Closed k else Error k (- Z.of_N e)]))
      | _, _ => Stuck
      end
    (* uring_socket.cc:474-477 *)
    | LGet =>
      match cur s, seg s with
      | Some w, None =>
        match get_buf (w_bid w) (w_res w) s with
        | Some (a, l, s) => Next (put s (armed s) (cq s) (cur s) (Some (a, l)) false (hist s))
        | None => Ub
        end
      | _, _ => Stuck
      end
    (* uring_socket.cc:477-493 *)
    | LDone =>
      match cur s, seg s with
      | Some w, Some (a, l) =>
        let bs := read (mem s) a (N.to_nat l) in
        match track l (w_bid w) (w_incr w) s with
        | Some (bid, s) =>
          let res := w_res w - l in
          if res =? 0 then
            Next (put s (if w_more w then armed s else upd (armed s) (w_sock w) true) (cq s) None None false (hist s ++ [Got (w_sock w) bs]))
          else
            Next (put s (armed s) (cq s) (Some (mkW (w_sock w) bid res true (w_more w))) None false (hist s ++ [Got (w_sock w) bs]))
        | None => Ub
        end
      | _, _ => Stuck
      end
    (* The kernel receives [bs] for socket [k]. If it stops inside a buffer of an incremental ring, it may go on using
       the rest ([keep]) or not; without IOU_PBUF_RING_INC the rest is not used. IORING_CQE_F_BUF_MORE says so if only
       one buffer was involved; with several buffers (a bundle) kernels differ and the flag is arbitrary. *)
    | KRecv k bs keep buf_more more =>
      if armed s k then
        match bs, kfill (length bs) (mem s) (khead s) (ents s) (tail s) bs with
        | _ :: _, Some (m, h, part) =>
          let kept := inc && keep && (0 <? part) in
          let used := if 0 <? part then h + 1 else h in
          if (used =? khead s + 1) && negb (Bool.eqb buf_more kept) then Stuck else
          let e := ents s (h mod n) in
          Next (mkS m (if kept then setN (ents s) (h mod n) (mkE (e_addr e + part) (e_len e - part) (e_bid e)) else ents s) (tail s)
                    (if kept then h else used) (chead s) (ioff s)
                    (cq s ++ [Data k (e_bid (ents s (khead s mod n))) (len bs) buf_more more]) (cur s) (seg s)
                    (if more then armed s else upd (armed s) k false) (regms s) false (karr s ++ [(k, bs)]) (hist s))
        | _, _ => Stuck
        end
      else Stuck
    (* The stream ends, the recv fails, or there are no buffers left. *)
    | KFin k e =>
      if armed s k && ((negb (e =? ENOBUFS)) || (khead s =? tail s))
      then Next (put s (upd (armed s) k false) (cq s ++ [Fin k e]) (cur s) (seg s) false (hist s)) else Stuck
    end.
End Ring.
