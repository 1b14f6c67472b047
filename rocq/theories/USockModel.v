(** Model of sockets on io_uring: util/fibers/uring_socket.cc and the part of
    util/fibers/fiber_socket_base.cc they share with epoll sockets.

    One transition is one call of the user, one step of the kernel, or the code between two
    points where a fiber waits. The kernel's answers are in the labels.

    Simplifications:
    - kEnableDirect is false (uring_socket.cc:26), so is_direct_fd_ is always 0 and
      register_flag() adds nothing; direct descriptors are left out;
    - a fiber that is woken continues at the completion itself, and not when the scheduler gets to
      it: between the two its code only reads locals;
    - of the flags of a receive only MSG_DONTWAIT is kept (no MSG_PEEK);
    - the hooks of RegisterOnRecv and RegisterOnErrorCb are in UpollModel.v, BufRingModel.v and
      ErrCbModel.v; POLL_FIRST, time-outs of calls (to the kernel they are one more reason to
      answer -ECANCELED) and log messages are left out. *)
From Verif Require Import Util Conc.
Local Open Scope Z_scope.

Definition EBADF := 9.
Definition EAGAIN := 11.
Definition EPIPE := 32.
Definition ECONNABORTED := 103.
(** poll.h: POLLERR (8) | POLLHUP (16). *)
Definition POLL_BAD := 24.

(** fiber_socket_base.h:234-254: fd_ holds the descriptor above four flag bits, of which the
    first is IS_SHUTDOWN and the second IS_UDS. *)
Definition kFdShift := 4.
Definition IS_SHUTDOWN := 1.
Definition IS_UDS := 2.
Definition kInheritedFlags := IS_UDS.
(** fiber_socket_base.cc:93 (Create), uring_socket.cc:164 (Connect): fd << kFdShift. *)
Definition pack (fd flags : Z) : Z := Z.lor (Z.shiftl fd kFdShift) flags.
(** fiber_socket_base.h:240-242, ShiftedFd. *)
Definition shifted (w : Z) : Z := Z.shiftr w kFdShift.
(** fd_ & IS_SHUTDOWN; IsOpen (fiber_socket_base.h:218-220) is its negation. *)
Definition is_shut (w : Z) : bool := negb (Z.land w IS_SHUTDOWN =? 0).
(** fiber_socket_base.h:225-227, IsUDS. *)
Definition is_uds (w : Z) : bool := negb (Z.land w IS_UDS =? 0).
(** int32_t fd_: a descriptor of 2^27 or more does not fit (the comment there says 256M). *)
Definition fd_limit : Z := 2 ^ 27.

(** The calls. *)
Inductive kind :=
| KWrite               (* WriteSome *)
| KAsyncWrite          (* AsyncWriteSome *)
| KRecvMsg (dw : bool) (* RecvMsg, with MSG_DONTWAIT or not; ReadSome of several buffers *)
| KRecv (dw : bool)    (* Recv; ReadSome of one buffer *)
| KAsyncRead           (* AsyncReadSome *)
| KTrySend | KTryRecv  (* TrySend, TryRecv *)
| KConnect | KAccept.

Inductive res :=
| RSent (n : nat)          (* a write: how many bytes *)
| RGot (l : list N)        (* a read: the bytes put in the caller's buffers *)
| RErr (e : Z)             (* std::error_code *)
| RConnected
| RSock (s : nat).         (* Accept: the new socket *)

(** Where a pending call stands: its submission entry is filled but not yet submitted; the kernel
    has it, with the file behind the descriptor at the time of submission; or Accept is about to
    call accept4. *)
Inductive stage := Filled | Flight (f : option nat) | Acc.

Record req := { q_op : nat; q_sock : nat; q_kind : kind; q_fd : Z; q_sub : Z;
                q_data : list N; q_cap : nat; q_stage : stage }.

(** What was called, for the specification: [c_file] is the file behind the socket at the call. *)
Record callrec := { c_sock : nat; c_kind : kind; c_file : option nat; c_data : list N }.

Record st := {
  fdt : Z -> option nat;        (* the process's descriptor table: descriptor -> file *)
  ext : Z -> bool;              (* descriptors opened by other code, or detached *)
  nfile : nat;
  sent : nat -> list N;         (* bytes the kernel took for sending, per file *)
  inq : nat -> list N;          (* bytes waiting to be read, per file *)
  arrived : nat -> list N;      (* all bytes that ever came in, per file *)
  socks : nat -> option Z;      (* socket objects: their fd_ *)
  pend : list req;
  calls : list callrec;
  log : list (nat * res) }.     (* results returned or passed to callbacks *)

Definition zupd {A} (m : Z -> A) (k : Z) (v : A) : Z -> A := fun x => if x =? k then v else m x.
Definition nupd {A} (m : nat -> A) (k : nat) (v : A) : nat -> A := fun x => if Nat.eqb x k then v else m x.

Definition init : st :=
  {| fdt := fun _ => None; ext := fun _ => false; nfile := 0; sent := fun _ => []; inq := fun _ => [];
     arrived := fun _ => []; socks := fun _ => None; pend := []; calls := []; log := [] |}.

Definition set_sock (x : st) (s : nat) (w : option Z) : st :=
  {| fdt := fdt x; ext := ext x; nfile := nfile x; sent := sent x; inq := inq x; arrived := arrived x;
     socks := nupd (socks x) s w; pend := pend x; calls := calls x; log := log x |}.
Definition set_fdt (x : st) (m : Z -> option nat) : st :=
  {| fdt := m; ext := ext x; nfile := nfile x; sent := sent x; inq := inq x; arrived := arrived x;
     socks := socks x; pend := pend x; calls := calls x; log := log x |}.
Definition set_ext (x : st) (m : Z -> bool) : st :=
  {| fdt := fdt x; ext := m; nfile := nfile x; sent := sent x; inq := inq x; arrived := arrived x;
     socks := socks x; pend := pend x; calls := calls x; log := log x |}.
Definition set_pend (x : st) (p : list req) : st :=
  {| fdt := fdt x; ext := ext x; nfile := nfile x; sent := sent x; inq := inq x; arrived := arrived x;
     socks := socks x; pend := p; calls := calls x; log := log x |}.
Definition set_bytes (x : st) (o i a : nat -> list N) : st :=
  {| fdt := fdt x; ext := ext x; nfile := nfile x; sent := o; inq := i; arrived := a;
     socks := socks x; pend := pend x; calls := calls x; log := log x |}.

(** The kernel opens descriptor [fd] for a new file. *)
Definition kopen (x : st) (fd : Z) : st :=
  {| fdt := zupd (fdt x) fd (Some (nfile x)); ext := ext x; nfile := S (nfile x); sent := sent x;
     inq := inq x; arrived := arrived x; socks := socks x; pend := pend x; calls := calls x;
     log := log x |}.
Definition kfree (x : st) (fd : Z) : bool :=
  (0 <=? fd) && (fd <? fd_limit) && match fdt x fd with None => true | Some _ => false end.
(** close(2): the descriptor is gone whatever it returns. *)
Definition kclose (x : st) (fd : Z) : st := set_fdt x (zupd (fdt x) fd None).

Definition file_of (x : st) (w : Z) : option nat := fdt x (shifted w).

(** A call begins: it gets the next number. *)
Definition add_call (x : st) (s : nat) (k : kind) (w : Z) (d : list N) : st :=
  {| fdt := fdt x; ext := ext x; nfile := nfile x; sent := sent x; inq := inq x; arrived := arrived x;
     socks := socks x; pend := pend x;
     calls := calls x ++ [{| c_sock := s; c_kind := k; c_file := file_of x w; c_data := d |}];
     log := log x |}.
(** A call ends: its result is returned, or its callback called. *)
Definition report (x : st) (i : nat) (r : res) : st :=
  {| fdt := fdt x; ext := ext x; nfile := nfile x; sent := sent x; inq := inq x; arrived := arrived x;
     socks := socks x; pend := filter (fun q => negb (Nat.eqb (q_op q) i)) (pend x); calls := calls x;
     log := log x ++ [(i, r)] |}.

Definition find_req (x : st) (i : nat) : option req := find (fun q => Nat.eqb (q_op q) i) (pend x).
Definition put_req (x : st) (q : req) : st :=
  set_pend x (map (fun p => if Nat.eqb (q_op p) (q_op q) then q else p) (pend x)).
Definition at_stage (q : req) (g : stage) : req :=
  {| q_op := q_op q; q_sock := q_sock q; q_kind := q_kind q; q_fd := q_fd q; q_sub := q_sub q;
     q_data := q_data q; q_cap := q_cap q; q_stage := g |}.

(** Which calls test IS_SHUTDOWN first, and the error they return: uring_socket.cc:184-186
    (WriteSome), 243-246 (AsyncWriteSome), 277-280 (AsyncReadSome), 311-313 (RecvMsg);
    fiber_socket_base.cc:235-236 and 249-250 (TrySend), 266-267 (TryRecv). Recv
    (uring_socket.cc:353-390) does not. *)
Definition shut_error (k : kind) : option Z :=
  match k with
  | KWrite | KAsyncWrite | KAsyncRead | KRecvMsg _ | KTryRecv => Some ECONNABORTED
  | KTrySend => Some EPIPE
  | KRecv _ | KConnect | KAccept => None
  end.

(** Which errors make a call try again: uring_socket.cc:207-208 and 229-230 (WriteSome), 340-342
    (RecvMsg), 379-381 (Recv). The callbacks of 259-269 and 291-301 and Connect (174-176) pass
    every error on. *)
Definition again (k : kind) (e : Z) : bool :=
  (e =? EAGAIN) && match k with KWrite => true | KRecvMsg dw | KRecv dw => negb dw | _ => false end.

(** Calls whose code goes on in the calling fiber, and uses the socket. *)
Definition blocking (k : kind) : bool := match k with KAsyncWrite | KAsyncRead => false | _ => true end.

(** uring_socket.cc:180-240 (WriteSome), 242-274 (AsyncWriteSome), 276-306 (AsyncReadSome),
    308-329 (RecvMsg), 353-366 (Recv): up to the point where the request is filled in. [d] is the
    content of the caller's buffers one after the other, [cap] their size. *)
Definition start (x : st) (s : nat) (k : kind) (d : list N) (cap : nat) : outcome st :=
  match k, socks x s with
  | (KTrySend | KTryRecv | KConnect | KAccept), _ => Stuck
  | _, None => Stuck
  | _, Some w =>
    let i := length (calls x) in
    let x1 := add_call x s k w d in
    match shut_error k, is_shut w with
    | Some e, true => Next (report x1 i (RErr e))
    | _, _ => Next (set_pend x1 (pend x1 ++
        [{| q_op := i; q_sock := s; q_kind := k; q_fd := shifted w; q_sub := shifted w; q_data := d;
            q_cap := cap; q_stage := Filled |}]))
    end
  end.

(** The effect of a send or receive of [n] bytes on file [f]; None: the kernel would not answer
    this. *)
Definition transfer (x : st) (k : kind) (f : nat) (d : list N) (cap n : nat) : option (st * res) :=
  match k with
  | KWrite | KAsyncWrite | KTrySend =>
    if (n <=? length d)%nat
    then Some (set_bytes x (nupd (sent x) f (sent x f ++ firstn n d)) (inq x) (arrived x), RSent n)
    else None
  | KRecvMsg _ | KRecv _ | KAsyncRead | KTryRecv =>
    if (n <=? Nat.min cap (length (inq x f)))%nat
    then Some (set_bytes x (sent x) (nupd (inq x) f (skipn n (inq x f))) (arrived x),
               RGot (firstn n (inq x f)))
    else None
  | KConnect => if (n =? 0)%nat then Some (x, RConnected) else None
  | KAccept => None
  end.

(** fiber_socket_base.cc:234-275, TrySend and TryRecv: one system call. *)
Definition try_io (x : st) (s : nat) (k : kind) (d : list N) (cap : nat) (r : Z) : outcome st :=
  match k, socks x s with
  | (KTrySend | KTryRecv), Some w =>
    let i := length (calls x) in
    let x1 := add_call x s k w d in
    match shut_error k, is_shut w with
    | Some e, true => Next (report x1 i (RErr e))
    | _, _ =>
      if r <? 0 then Next (report x1 i (RErr (- r)))
      else match file_of x w with
           | Some f => match transfer x1 k f d cap (Z.to_nat r) with
                       | Some (x2, v) => Next (report x2 i v)
                       | None => Stuck
                       end
           | None => Stuck
           end
    end
  | _, _ => Stuck
  end.

(** The kernel takes the submission entry of call [i] and looks up its descriptor. *)
Definition submit (x : st) (i : nat) : outcome st :=
  match find_req x i with
  | Some q => match q_stage q with
              | Filled => Next (put_req x (at_stage q (Flight (fdt x (q_sub q)))))
              | _ => Stuck
              end
  | None => Stuck
  end.

(** The request of call [i] completes with [r], and the code goes on: uring_socket.cc:200-211 and
    222-239 (WriteSome), 259-269 and 291-301 (the callbacks), 330-350 (RecvMsg), 366-389 (Recv),
    172-177 (Connect), 128-135 (Accept: the poll). A socket destroyed under a blocked call is
    undefined behaviour (a simplification: on some paths the code does not look at the socket any
    more). *)
Definition done (x : st) (i : nat) (r : Z) : outcome st :=
  match find_req x i with
  | Some q =>
    match q_stage q with
    | Flight fo =>
      if blocking (q_kind q) && match socks x (q_sock q) with None => true | _ => false end then Ub
      else match q_kind q with
      | KAccept =>
        if match fo with None => negb (r =? - EBADF) | _ => false end then Stuck
        else if negb (Z.land r POLL_BAD =? 0) then Next (report x i (RErr ECONNABORTED))
        else Next (put_req x (at_stage q Acc))
      | k =>
        if r <? 0 then
          if match fo with None => negb (r =? - EBADF) | _ => false end then Stuck
          else if again k (- r) then Next (put_req x (at_stage q Filled))
          else Next (report x i (RErr (- r)))
        else match fo with
             | Some f => match transfer x k f (q_data q) (q_cap q) (Z.to_nat r) with
                         | Some (x1, v) => Next (report x1 i v)
                         | None => Stuck
                         end
             | None => Stuck
             end
      end
    | _ => Stuck
    end
  | None => Stuck
  end.

(** uring_socket.cc:68-104, Close (hooks left out). *)
Definition close (x : st) (s : nat) (w : Z) : st :=
  if w <? 0 then x else set_sock (kclose x (shifted w)) s (Some (-1)).

(** fiber_socket_base.cc:75-98 and uring_socket.cc:46-66, Create; [r]: what socket(2) returns. It
    does not look at the old fd_ in release builds. *)
Definition create (x : st) (s : nat) (uds : bool) (r : Z) : outcome st :=
  match socks x s with
  | None => Stuck
  | Some _ => if r <? 0 then Next x
              else if kfree x r then Next (set_sock (kopen x r) s (Some (pack r (if uds then IS_UDS else 0))))
              else Stuck
  end.

(** uring_socket.cc:149-172, Connect: CHECK_EQ(fd_, -1) kills the process (Ub here). *)
Definition connect (x : st) (s : nat) (r : Z) : outcome st :=
  match socks x s with
  | None => Stuck
  | Some w =>
    if negb (w =? -1) then Ub else
    let i := length (calls x) in
    if r <? 0 then Next (report (add_call x s KConnect w []) i (RErr (- r)))
    else if kfree x r then
      let w1 := pack r 0 in
      let x1 := add_call (set_sock (kopen x r) s (Some w1)) s KConnect w1 [] in
      Next (set_pend x1 (pend x1 ++
        [{| q_op := i; q_sock := s; q_kind := KConnect; q_fd := r; q_sub := r; q_data := []; q_cap := 0;
            q_stage := Filled |}]))
    else Stuck
  end.

(** fiber_socket_base.cc:150-166, Bind; [r1]: socket(2), if the socket is not open; [r2]: bind(2). *)
Definition bind (x : st) (s : nat) (r1 r2 : Z) : outcome st :=
  match socks x s with
  | None => Stuck
  | Some w =>
    let o := if w =? -1 then create x s false r1 else Next x in
    match o with
    | Next x1 => if (w =? -1) && (r1 <? 0) then Next x1
                 else if r2 <? 0 then match socks x1 s with Some w1 => Next (close x1 s w1) | None => Stuck end
                 else Next x1
    | o => o
    end
  end.

(** fiber_socket_base.cc:168-181, Listen, and 140-145, chmod in ListenUDS: failure closes. *)
Definition listen (x : st) (s : nat) (r : Z) : outcome st :=
  match socks x s with
  | None => Stuck
  | Some w => if r <? 0 then Next (close x s w) else Next x
  end.

(** uring_socket.cc:106-114, Accept: up to the first accept4. *)
Definition accept (x : st) (s : nat) : outcome st :=
  match socks x s with
  | None => Stuck
  | Some w =>
    let i := length (calls x) in
    let x1 := add_call x s KAccept w [] in
    Next (set_pend x1 (pend x1 ++
      [{| q_op := i; q_sock := s; q_kind := KAccept; q_fd := shifted w; q_sub := shifted w; q_data := [];
          q_cap := 0; q_stage := Acc |}]))
  end.

(** uring_socket.cc:115-146: accept4 returns [r]; the new socket is called [s']. The descriptor to
    poll is read from the socket again. *)
Definition accept4 (x : st) (i : nat) (r : Z) (s' : nat) : outcome st :=
  match find_req x i with
  | Some q =>
    match q_stage q with
    | Acc =>
      match socks x (q_sock q) with
      | None => Ub
      | Some w =>
        if r <? 0 then
          if - r =? EAGAIN
          then Next (put_req x {| q_op := q_op q; q_sock := q_sock q; q_kind := q_kind q; q_fd := q_fd q;
                                  q_sub := shifted w; q_data := q_data q; q_cap := q_cap q;
                                  q_stage := Filled |})
          else Next (report x i (RErr (- r)))
        else match fdt x (q_fd q), socks x s' with
             | Some _, None =>
               if kfree x r
               then Next (report (set_sock (kopen x r) s' (Some (pack r (Z.land w kInheritedFlags)))) i
                                 (RSock s'))
               else Stuck
             | _, _ => Stuck
             end
      end
    | _ => Stuck
    end
  | None => Stuck
  end.

(** fiber_socket_base.cc:183-200, Shutdown. *)
Definition shutdown (x : st) (s : nat) : outcome st :=
  match socks x s with
  | None => Stuck
  | Some w => if w <? 0 then Next x
              else if is_shut w then Next x
              else Next (set_sock x s (Some (Z.lor w IS_SHUTDOWN)))
  end.

Inductive label :=
| LNew (s : nat) | LCreate (s : nat) (uds : bool) (r : Z) | LConnect (s : nat) (r : Z)
| LBind (s : nat) (r1 r2 : Z) | LListen (s : nat) (r : Z)
| LAccept (s : nat) | LAccept4 (i : nat) (r : Z) (s' : nat)
| LShutdown (s : nat) | LClose (s : nat) | LDetach (s : nat) | LDestroy (s : nat)
| LStart (s : nat) (k : kind) (d : list N) (cap : nat)
| LTry (s : nat) (k : kind) (d : list N) (cap : nat) (r : Z)
| LSubmit (i : nat) | LDone (i : nat) (r : Z)
| LPeer (f : nat) (d : list N)
| LExtOpen (fd : Z) | LExtClose (fd : Z).

Definition step (x : st) (l : label) : outcome st :=
  match l with
  (* uring_socket.h:24-26: a socket object without a descriptor *)
  | LNew s => match socks x s with None => Next (set_sock x s (Some (-1))) | Some _ => Stuck end
  | LCreate s uds r => create x s uds r
  | LConnect s r => connect x s r
  | LBind s r1 r2 => bind x s r1 r2
  | LListen s r => listen x s r
  | LAccept s => accept x s
  | LAccept4 i r s' => accept4 x i r s'
  | LShutdown s => shutdown x s
  | LClose s => match socks x s with Some w => Next (close x s w) | None => Stuck end
  (* fiber_socket_base.h:211-214 *)
  | LDetach s => match socks x s with
                 | Some w => if w <? 0 then Next x
                             else Next (set_sock (set_ext x (zupd (ext x) (shifted w) true)) s (Some (-1)))
                 | None => Stuck
                 end
  (* uring_socket.cc:39-44, then fiber_socket_base.cc:63-73, which finds fd_ = -1 *)
  | LDestroy s => match socks x s with Some w => Next (set_sock (close x s w) s None) | None => Stuck end
  | LStart s k d cap => start x s k d cap
  | LTry s k d cap r => try_io x s k d cap r
  | LSubmit i => submit x i
  | LDone i r => done x i r
  (* the network *)
  | LPeer f d => Next (set_bytes x (sent x) (nupd (inq x) f (inq x f ++ d)) (nupd (arrived x) f (arrived x f ++ d)))
  (* other code of the process *)
  | LExtOpen fd => if kfree x fd then Next (set_ext (kopen x fd) (zupd (ext x) fd true)) else Stuck
  | LExtClose fd => if ext x fd then Next (set_ext (kclose x fd) (zupd (ext x) fd false)) else Stuck
  end.

(** What a user has to keep to: a socket is opened once at a time; calls are made on an open
    socket; and while a call is pending the socket is not closed, detached or destroyed (Bind and
    Listen close it when they fail). uring_socket.h:32-33; the DCHECKs of WriteSome and RecvMsg. *)
Definition idle (x : st) (s : nat) : bool := negb (existsb (fun q => Nat.eqb (q_sock q) s) (pend x)).
Definition opened (x : st) (s : nat) : bool :=
  match socks x s with Some w => 0 <=? w | None => false end.
Definition calm (x : st) (l : label) : bool :=
  match l with
  | LCreate s _ _ | LConnect s _ => negb (opened x s)
  | LBind s _ _ | LListen s _ | LClose s | LDetach s | LDestroy s => idle x s
  | LAccept s => opened x s
  | LStart s k _ _ => opened x s || match shut_error k with Some _ => true | None => false end
  | _ => true
  end.
Definition cstep (x : st) (l : label) : outcome st := if calm x l then step x l else Stuck.
