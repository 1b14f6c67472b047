(** Model of EpollSocket (util/fibers/epoll_socket.cc, epoll_socket.h; LinuxSocketBase in
    util/fiber_socket_base.h and util/fibers/fiber_socket_base.cc): Recv, WriteSome, Accept,
    AsyncWriteSome, TrySend, TryRecv, Shutdown, Close, the recv hook, the error callback, and what the
    proactor does with the events of the socket.

    One socket, armed on one proactor. Everything runs on one thread, fibers switch only where they
    suspend: a label runs from one switch to the next. The other labels are what happens in the kernel.
    Callbacks do not call the socket before they return: their calls come as labels of their own.
    Not here: Connect (its own model), SetProactor on a live socket, the BSD variants, flags of
    Recv, logging. [Ub] is undefined behaviour or a failed CHECK. *)
From Verif Require Import Util Conc.
Open Scope N_scope.

Inductive err := Eagain | Aborted | Canceled | Reset | Pipe | Inval | Badf.
(** [Got]: the bytes received (the accepted connections, of a listening socket); [Sent]: how many bytes
    were written. *)
Inductive res := Got (bs : list N) | Sent (n : N) | Fail (e : err).
Inductive call := CRecv (n : N) | CAccept | CWrite (bs : list N).

(** A fiber: outside of a call; suspended in one, with a timer or not; in the ready queue, with the [ec_]
    of its PendingReq and whether its timer has fired. *)
Inductive fiber := Idle | Parked (c : call) (timer : bool) | Ready (c : call) (ec : option err) (timed : bool).

(** The unions write_req_/async_write_req_ and read_req_/async_read_req_/on_recv_ (epoll_socket.h:74-88).
    async_read_req_ is left out: no code sets it (AsyncReadSome is a blocking Recv, epoll_socket.cc:361-364). *)
Inductive ptr := Null | PReq (f : nat) | PAsync (id : nat) (bs : list N) | PHook.

(** What can be observed, in order. [Ret]: a blocking call returns; [Tried]: TrySend of [bs]; [TriedR]:
    TryRecv; [Start], [Cb]: AsyncWriteSome and its callback; [Notify]: the recv hook is called; [ErrCb]:
    the error callback is called; [Hook], [ErrReg]: RegisterOnRecv, RegisterOnErrorCb; [News], [Fault]:
    input, or the end or a reset of the connection, reaches the kernel. *)
Inductive ev :=
| Ret (f : nat) (c : call) (r : res) | Tried (bs : list N) (r : res) | TriedR (r : res)
| Start (id : nat) | Cb (id : nat) (bs : list N) (r : res)
| Hook | Notify (data : bool) | ErrReg | ErrCb | News | Fault.

(** Kernel: [kin] received and not read; [kfin] the peer has closed its side; [krst] the connection was
    reset, [kerr] and this was not reported yet; [krd], [kwr] shut down by this side; [kroom] free
    space to send; [kout] accepted for sending, ever; [karr] received, ever; [ep] the descriptor is in the
    list of ready descriptors of the epoll instance, edge triggered; [armed] it is in its interest set.
    Socket: [fd] the member fd_, with its flag bits; [wslot], [rslot] the unions; [awp]
    async_write_pending_; [rhook] recv_hook_registered_; [rnotif] read_notified_; [errcb] error_cb_ is
    set; [tmo] a timeout is set. [fib]: the fibers; [brief]: callbacks given to
    DispatchLocalBrief; [hist]: history. *)
Record st := mkS {
  kin : list N; kfin : bool; krst : bool; kerr : bool; krd : bool; kwr : bool; kroom : N;
  kout : list N; karr : list N; ep : bool; armed : bool;
  fd : Z; wslot : ptr; rslot : ptr; awp : bool; rhook : bool; rnotif : bool; errcb : bool; tmo : bool;
  fib : nat -> fiber; brief : list (nat * list N * res); hist : list ev }.

Definition w_kin v s := mkS v (kfin s) (krst s) (kerr s) (krd s) (kwr s) (kroom s) (kout s) (karr s) (ep s) (armed s) (fd s) (wslot s) (rslot s) (awp s) (rhook s) (rnotif s) (errcb s) (tmo s) (fib s) (brief s) (hist s).
Definition w_kfin v s := mkS (kin s) v (krst s) (kerr s) (krd s) (kwr s) (kroom s) (kout s) (karr s) (ep s) (armed s) (fd s) (wslot s) (rslot s) (awp s) (rhook s) (rnotif s) (errcb s) (tmo s) (fib s) (brief s) (hist s).
Definition w_krst v s := mkS (kin s) (kfin s) v (kerr s) (krd s) (kwr s) (kroom s) (kout s) (karr s) (ep s) (armed s) (fd s) (wslot s) (rslot s) (awp s) (rhook s) (rnotif s) (errcb s) (tmo s) (fib s) (brief s) (hist s).
Definition w_kerr v s := mkS (kin s) (kfin s) (krst s) v (krd s) (kwr s) (kroom s) (kout s) (karr s) (ep s) (armed s) (fd s) (wslot s) (rslot s) (awp s) (rhook s) (rnotif s) (errcb s) (tmo s) (fib s) (brief s) (hist s).
Definition w_shut r w s := mkS (kin s) (kfin s) (krst s) (kerr s) r w (kroom s) (kout s) (karr s) (ep s) (armed s) (fd s) (wslot s) (rslot s) (awp s) (rhook s) (rnotif s) (errcb s) (tmo s) (fib s) (brief s) (hist s).
Definition w_kroom v s := mkS (kin s) (kfin s) (krst s) (kerr s) (krd s) (kwr s) v (kout s) (karr s) (ep s) (armed s) (fd s) (wslot s) (rslot s) (awp s) (rhook s) (rnotif s) (errcb s) (tmo s) (fib s) (brief s) (hist s).
Definition w_kout v s := mkS (kin s) (kfin s) (krst s) (kerr s) (krd s) (kwr s) (kroom s) v (karr s) (ep s) (armed s) (fd s) (wslot s) (rslot s) (awp s) (rhook s) (rnotif s) (errcb s) (tmo s) (fib s) (brief s) (hist s).
Definition w_karr v s := mkS (kin s) (kfin s) (krst s) (kerr s) (krd s) (kwr s) (kroom s) (kout s) v (ep s) (armed s) (fd s) (wslot s) (rslot s) (awp s) (rhook s) (rnotif s) (errcb s) (tmo s) (fib s) (brief s) (hist s).
Definition w_ep v s := mkS (kin s) (kfin s) (krst s) (kerr s) (krd s) (kwr s) (kroom s) (kout s) (karr s) v (armed s) (fd s) (wslot s) (rslot s) (awp s) (rhook s) (rnotif s) (errcb s) (tmo s) (fib s) (brief s) (hist s).
Definition w_armed v s := mkS (kin s) (kfin s) (krst s) (kerr s) (krd s) (kwr s) (kroom s) (kout s) (karr s) (ep s) v (fd s) (wslot s) (rslot s) (awp s) (rhook s) (rnotif s) (errcb s) (tmo s) (fib s) (brief s) (hist s).
Definition w_fd v s := mkS (kin s) (kfin s) (krst s) (kerr s) (krd s) (kwr s) (kroom s) (kout s) (karr s) (ep s) (armed s) v (wslot s) (rslot s) (awp s) (rhook s) (rnotif s) (errcb s) (tmo s) (fib s) (brief s) (hist s).
Definition w_wslot v s := mkS (kin s) (kfin s) (krst s) (kerr s) (krd s) (kwr s) (kroom s) (kout s) (karr s) (ep s) (armed s) (fd s) v (rslot s) (awp s) (rhook s) (rnotif s) (errcb s) (tmo s) (fib s) (brief s) (hist s).
Definition w_rslot v s := mkS (kin s) (kfin s) (krst s) (kerr s) (krd s) (kwr s) (kroom s) (kout s) (karr s) (ep s) (armed s) (fd s) (wslot s) v (awp s) (rhook s) (rnotif s) (errcb s) (tmo s) (fib s) (brief s) (hist s).
Definition w_awp v s := mkS (kin s) (kfin s) (krst s) (kerr s) (krd s) (kwr s) (kroom s) (kout s) (karr s) (ep s) (armed s) (fd s) (wslot s) (rslot s) v (rhook s) (rnotif s) (errcb s) (tmo s) (fib s) (brief s) (hist s).
Definition w_rhook v s := mkS (kin s) (kfin s) (krst s) (kerr s) (krd s) (kwr s) (kroom s) (kout s) (karr s) (ep s) (armed s) (fd s) (wslot s) (rslot s) (awp s) v (rnotif s) (errcb s) (tmo s) (fib s) (brief s) (hist s).
Definition w_rnotif v s := mkS (kin s) (kfin s) (krst s) (kerr s) (krd s) (kwr s) (kroom s) (kout s) (karr s) (ep s) (armed s) (fd s) (wslot s) (rslot s) (awp s) (rhook s) v (errcb s) (tmo s) (fib s) (brief s) (hist s).
Definition w_errcb v s := mkS (kin s) (kfin s) (krst s) (kerr s) (krd s) (kwr s) (kroom s) (kout s) (karr s) (ep s) (armed s) (fd s) (wslot s) (rslot s) (awp s) (rhook s) (rnotif s) v (tmo s) (fib s) (brief s) (hist s).
Definition w_tmo v s := mkS (kin s) (kfin s) (krst s) (kerr s) (krd s) (kwr s) (kroom s) (kout s) (karr s) (ep s) (armed s) (fd s) (wslot s) (rslot s) (awp s) (rhook s) (rnotif s) (errcb s) v (fib s) (brief s) (hist s).
Definition w_fib f v s := mkS (kin s) (kfin s) (krst s) (kerr s) (krd s) (kwr s) (kroom s) (kout s) (karr s) (ep s) (armed s) (fd s) (wslot s) (rslot s) (awp s) (rhook s) (rnotif s) (errcb s) (tmo s) (upd (fib s) f v) (brief s) (hist s).
Definition w_brief v s := mkS (kin s) (kfin s) (krst s) (kerr s) (krd s) (kwr s) (kroom s) (kout s) (karr s) (ep s) (armed s) (fd s) (wslot s) (rslot s) (awp s) (rhook s) (rnotif s) (errcb s) (tmo s) (fib s) v (hist s).
Definition log e s := mkS (kin s) (kfin s) (krst s) (kerr s) (krd s) (kwr s) (kroom s) (kout s) (karr s) (ep s) (armed s) (fd s) (wslot s) (rslot s) (awp s) (rhook s) (rnotif s) (errcb s) (tmo s) (fib s) (brief s) (hist s ++ [e]).

(** fd_: the descriptor shifted by kFdShift, IS_SHUTDOWN in bit 0 (fiber_socket_base.h:234-254); -1 if
    there is none, which has bit 0 set too. *)
Definition mkfd (n : Z) : Z := Z.shiftl n 4.
Definition is_shut (z : Z) : bool := Z.testbit z 0.

(** A connected (or listening) socket, after SetProactor (epoll_socket.cc:196-205): adding a descriptor to
    an epoll instance reports what is ready. *)
Definition init (n : Z) (room : N) : st :=
  mkS [] false false false false false room [] [] true true (mkfd n) Null Null false false false false false (fun _ => Idle) [] [].

(** ** System calls. The kernel transfers at most [k] bytes, and at least one if it can. *)

(** recvmsg on a TCP socket. *)
Definition sys_recv (n k : N) (s : st) : res * st :=
  if n =? 0 then (Got [], s) else
  match kin s with
  | _ :: _ =>
    let a := N.max 1 (N.min k (N.min n (len (kin s)))) in
    (Got (take a (kin s)), w_kin (drop a (kin s)) s)
  | [] =>
    if kfin s then (Got [], s)
    else if kerr s then (Fail Reset, w_kerr false s)
    else if krst s || krd s then (Got [], s)
    else (Fail Eagain, s)
  end.
(** accept4 on a listening socket. *)
Definition sys_accept (s : st) : res * st :=
  match kin s with
  | x :: t => (Got [x], w_kin t s)
  | [] =>
    if kerr s then (Fail Reset, w_kerr false s)
    else if kfin s || krst s || krd s then (Fail Inval, s)
    else (Fail Eagain, s)
  end.
(** sendmsg on a TCP socket. *)
Definition sys_send (bs : list N) (k : N) (s : st) : res * st :=
  if kerr s then (Fail Reset, w_kerr false s)
  else if kwr s || krst s then (Fail Pipe, s)
  else if len bs =? 0 then (Sent 0, s)
  else if kroom s =? 0 then (Fail Eagain, s)
  else
    let a := N.max 1 (N.min k (N.min (kroom s) (len bs))) in
    (Sent a, w_kroom (kroom s - a) (w_kout (kout s ++ take a bs) s)).

(** ** The socket. *)

(** TrySend (fiber_socket_base.cc:234-263), TryRecv (fiber_socket_base.cc:265-275). *)
Definition try_send (bs : list N) (k : N) (s : st) : res * st :=
  if is_shut (fd s) then (Fail Pipe, s) else sys_send bs k s.
Definition try_recv (n k : N) (s : st) : res * st :=
  if is_shut (fd s) then (Fail Aborted, s) else sys_recv n k s.

(** One iteration of the loops of Recv (epoll_socket.cc:376-388), Accept (epoll_socket.cc:224-241) and
    WriteSome (epoll_socket.cc:319-328), up to the result. *)
Definition attempt (c : call) (k : N) (s : st) : res * st :=
  match c with
  | CRecv n => if is_shut (fd s) then (Got [], s) else sys_recv n k s
  | CAccept => if is_shut (fd s) then (Fail Aborted, s) else sys_accept s
  | CWrite bs => try_send bs k s
  end.
Definition is_write (c : call) : bool := match c with CWrite _ => true | _ => false end.
Definition w_slot (c : call) (p : ptr) (s : st) : st := if is_write c then w_wslot p s else w_rslot p s.

(** Then: return the result, or on EAGAIN make a PendingReq and suspend. Accept has no timeout. *)
Definition iter (f : nat) (c : call) (k : N) (s : st) : st :=
  match attempt c k s with
  | (Fail Eagain, s1) =>
    w_fib f (Parked c (match c with CAccept => false | _ => tmo s end)) (w_slot c (PReq f) s1)
  | (r, s1) => log (Ret f c r) s1
  end.

(** The first iteration, with the CHECKs before it (epoll_socket.cc:217-222, 313-316, 367-371). The DCHECK of
    WriteSome is left out. *)
Definition start_call (f : nat) (c : call) (k : N) (s : st) : outcome st :=
  match c with
  | CRecv _ => if (fd s <? 0)%Z then Ub else match rslot s with Null => Next (iter f c k s) | _ => Ub end
  | CAccept => match rslot s with Null => Next (iter f c k s) | _ => Ub end
  | CWrite _ => if (fd s <? 0)%Z then Ub else Next (iter f c k s)
  end.

(** A fiber goes on after Suspend (epoll_socket.cc:109-121): the PendingReq ends, which clears the slot
    (epoll_socket.cc:92-94), the error ends the loop. *)
Definition resume (f : nat) (k : N) (s : st) : outcome st :=
  match fib s f with
  | Ready c ec timed =>
    let s1 := w_fib f Idle (w_slot c Null s) in
    match (if timed then Some Canceled else ec) with
    | Some e => Next (log (Ret f c (Fail e)) s1)
    | None => Next (iter f c k s1)
    end
  | _ => Stuck
  end.

(** AsyncWriteSome (epoll_socket.cc:346-358). *)
Definition async_write (id : nat) (bs : list N) (k : N) (s : st) : outcome st :=
  let s0 := log (Start id) s in
  match try_send bs k s0 with
  | (Fail Eagain, s1) =>
    match wslot s with
    | Null => Next (w_awp true (w_wslot (PAsync id bs) s1))
    | _ => Ub
    end
  | (r, s1) => Next (w_brief (brief s1 ++ [(id, bs, r)]) s1)
  end.

(** The events of a notification: POLLIN, POLLOUT, POLLERR, POLLHUP, EPOLLRDHUP. *)
Record mask := mkM { mi : bool; mo : bool; me : bool; mh : bool; mr : bool }.
Definition merr (m : mask) : bool := me m || mh m || mr m.

(** Activate (epoll_socket.cc:123-127). *)
Definition activate (f : nat) (ec : option err) (s : st) : st :=
  match fib s f with
  | Parked c _ => w_fib f (Ready c ec false) s
  | _ => s
  end.
Definition suspended (f : nat) (s : st) : bool := match fib s f with Parked _ _ => true | _ => false end.

(** The last branch of HandleAsyncRequest, for a blocking call (epoll_socket.cc:507-520). A slot that
    holds something else is read as a PendingReq. *)
Definition wake_sync (p : ptr) (m : mask) (s : st) : outcome st :=
  let other := if mi m then w_rnotif true s else s in
  match p with
  | Null => Next other
  | PReq f =>
    if suspended f s then Next (activate f (if me m || mh m then Some Aborted else None) (w_rnotif false s))
    else Next other
  | _ => Ub
  end.

(** HandleAsyncRequest (epoll_socket.cc:464-523), first for reading (i = 0), then for writing (i = 1). *)
Definition handle_in (m : mask) (s : st) : outcome st :=
  if negb (mi m || merr m) then Next s
  else if rhook s then
    match rslot s with
    | PHook => Next (log (Notify (negb (negb (me m) && mh m))) (w_rnotif false s))
    | _ => Ub
    end
  else wake_sync (rslot s) m s.
Definition handle_out (m : mask) (k : N) (s : st) : outcome st :=
  if negb (mo m || merr m) then Next s
  else if awp s then
    match wslot s with
    | PAsync id bs =>
      match sys_send bs k s with
      | (Fail Eagain, s1) => Next s1
      | (r, s1) => Next (log (Cb id bs r) (w_awp false (w_wslot Null s1)))
      end
    | _ => Ub
    end
  else wake_sync (wslot s) m s.

(** Wakey (epoll_socket.cc:525-536). *)
Definition wakey (m : mask) (k : N) (s : st) : outcome st :=
  match handle_in m s with
  | Next s1 =>
    match handle_out m k s1 with
    | Next s2 => Next (if errcb s2 && merr m then log ErrCb (w_errcb false s2) else s2)
    | o => o
    end
  | o => o
  end.

(** Shutdown (fiber_socket_base.cc:183-200, epoll_socket.cc:419-429). The kernel wakes the pollers. *)
Definition shutdown (rd wr : bool) (k : N) (s : st) : outcome st :=
  let s1 :=
    if (fd s <? 0)%Z then s
    else if is_shut (fd s) then s
    else w_fd (Z.lor (fd s) 1) (w_ep (armed s) (w_shut (krd s || rd) (kwr s || wr) s)) in
  wakey (mkM true true false false false) k s1.

(** Close (epoll_socket.cc:159-194). *)
Definition close (s : st) : outcome st :=
  if (fd s <? 0)%Z then Next s
  else
    let s1 := w_fd (-1)%Z (w_ep false (w_armed false s)) in
    match (if awp s1 then
             match wslot s1 with
             | PAsync id bs => Next (w_awp false (w_wslot Null (log (Cb id bs (Fail Canceled)) s1)))
             | _ => Ub
             end
           else Next s1) with
    | Next s2 =>
      if rhook s2 then match rslot s2 with PHook => Next (w_rhook false (w_rslot Null s2)) | _ => Ub end else Next s2
    | o => o
    end.

(** RegisterOnRecv (epoll_socket.cc:440-454), ResetOnRecvHook (epoll_socket.cc:456-462). *)
Definition register_hook (s : st) : outcome st :=
  if rhook s || (fd s <? 0)%Z then Ub
  else
    let s1 := log Hook (w_rslot PHook (w_rhook true s)) in
    Next (if rnotif s1 then log (Notify true) (w_rnotif false s1) else s1).
Definition reset_hook (s : st) : outcome st :=
  if rhook s then match rslot s with PHook => Next (w_rslot Null (w_rhook false s)) | _ => Ub end else Next s.

(** ** The kernel and the proactor. *)

(** tcp_poll: which events hold now. *)
Definition levels (s : st) : mask :=
  mkM (negb (len (kin s) =? 0) || kfin s || krst s || krd s)
      (negb (kroom s =? 0) || kwr s || krst s)
      (kerr s) (krst s || ((kfin s || krd s) && kwr s)) (kfin s || krst s || krd s).

(** epoll_wait reports a ready descriptor with the events that hold now, and not at all if none does; the
    proactor calls the callback of the descriptor (epoll_proactor.cc:284-312; see EpollCbModel). *)
Definition event (k : N) (s : st) : outcome st :=
  if ep s && armed s then
    let s1 := w_ep false s in
    let m := levels s in
    if mi m || mo m || merr m then wakey m k s1 else Next s1
  else Stuck.

Inductive lab :=
| LCall (f : nat) (c : call) (k : N) | LResume (f : nat) (k : N) | LTimer (f : nat)
| LTrySend (bs : list N) (k : N) | LTryRecv (n k : N) | LAsync (id : nat) (bs : list N) (k : N)
| LShutdown (rd wr : bool) (k : N) | LClose | LHook | LUnhook | LErrReg | LErrCancel | LTimeout (on : bool)
| LBrief | LEvent (k : N)
| KData (bs : list N) | KFin | KRst | KRoom (n : N) | KSpurious.

Definition step (s : st) (l : lab) : outcome st :=
  match l with
  | LCall f c k => match fib s f with Idle => start_call f c k s | _ => Stuck end
  | LResume f k => resume f k s
  (* Scheduler::ProcessSleep (detail/scheduler.cc:451-486): the timer fires, the fiber is ready. *)
  | LTimer f => match fib s f with Parked c true => Next (w_fib f (Ready c None true) s) | _ => Stuck end
  | LTrySend bs k => let (r, s1) := try_send bs k s in Next (log (Tried bs r) s1)
  | LTryRecv n k => let (r, s1) := try_recv n k s in Next (log (TriedR r) s1)
  | LAsync id bs k => async_write id bs k s
  | LShutdown rd wr k => shutdown rd wr k s
  | LClose => close s
  | LHook => register_hook s
  | LUnhook => reset_hook s
  (* RegisterOnErrorCb, CancelOnErrorCb (epoll_socket.cc:431-438) *)
  | LErrReg => Next (log ErrReg (w_errcb true s))
  | LErrCancel => Next (w_errcb false s)
  (* set_timeout (fiber_socket_base.h:203-205) *)
  | LTimeout on => Next (w_tmo on s)
  | LBrief => match brief s with (id, bs, r) :: t => Next (log (Cb id bs r) (w_brief t s)) | [] => Stuck end
  | LEvent k => event k s
  | KData bs =>
    if kfin s || krst s || (len bs =? 0) then Stuck
    else Next (log News (w_ep (armed s) (w_karr (karr s ++ bs) (w_kin (kin s ++ bs) s))))
  | KFin => if kfin s || krst s then Stuck else Next (log Fault (w_ep (armed s) (w_kfin true s)))
  | KRst => if krst s then Stuck else Next (log Fault (w_ep (armed s) (w_krst true (w_kerr true s))))
  | KRoom n => Next (w_ep (armed s) (w_kroom (kroom s + n) s))
  | KSpurious => Next (w_ep (armed s) s)
  end.
