(** Model of the callback API of TlsSocket, AsyncReadSome and AsyncWriteSome
    (util/tls/tls_socket_async.cc, tls_async_req.h, tls_async_io.h), over the engine of TlsModel.

    Only this API is used on the socket here, so that WRITE_IN_PROGRESS and READ_IN_PROGRESS are set
    exactly while an upstream write or read of a request is in flight ([a_uw], [a_ur]). Callbacks do not
    call the API again before they return: the next call comes as a label of its own. *)
From Verif Require Import Util Conc TlsModel.
Open Scope N_scope.

Inductive role := Reader | Writer.

(** TlsAsyncReq (tls_async_req.h:21-72): the buffers of a write, the length of the (first) buffer of a read,
    [engine_written_], [should_read_]. *)
Record req := mkQ { q_iov : list (list N); q_n : N; q_written : N; q_read : bool }.
Definition set_read (b : bool) (q : req) : req := mkQ (q_iov q) (q_n q) (q_written q) b.
Definition set_written (w : N) (q : req) : req := mkQ (q_iov q) (q_n q) w (q_read q).

(** What the callbacks get. *)
Inductive ares := AW (n : N) | AWErr | AR (n : N) (l : list N) | ARErr.

(** [a_rd], [a_wr]: async_read_req_, async_write_req_; [a_blk]: blocked_async_req_; [a_uw]: the request in an
    upstream write, with the length of its buffer; [a_ur]: the request in an upstream read, with the position
    of its buffer, that is the number of bytes committed before (PeekInputBuf); [a_com]: committed so far;
    [a_bad]: input was committed that is not what was received. The other fields are as in TlsModel. *)
Record ast := mkA {
  a_e : eng; a_rd : option req; a_wr : option req; a_blk : option role;
  a_uw : option (role * N); a_ur : option (role * N); a_com : N;
  a_wire : list tok; a_rx : list itok; a_pos : N; a_werr : bool; a_bad : bool;
  a_log : list ares }.

Definition ainit (rx : list itok) : ast :=
  mkA (mkE [] [] [] false) None None None None None 0 [] rx 0 false false [].

Definition aw_e (e : eng) (s : ast) : ast :=
  mkA e (a_rd s) (a_wr s) (a_blk s) (a_uw s) (a_ur s) (a_com s) (a_wire s) (a_rx s) (a_pos s) (a_werr s) (a_bad s) (a_log s).
Definition aw_req (r : role) (q : option req) (s : ast) : ast :=
  mkA (a_e s) (match r with Reader => q | _ => a_rd s end) (match r with Writer => q | _ => a_wr s end)
    (a_blk s) (a_uw s) (a_ur s) (a_com s) (a_wire s) (a_rx s) (a_pos s) (a_werr s) (a_bad s) (a_log s).
Definition aw_blk (b : option role) (s : ast) : ast :=
  mkA (a_e s) (a_rd s) (a_wr s) b (a_uw s) (a_ur s) (a_com s) (a_wire s) (a_rx s) (a_pos s) (a_werr s) (a_bad s) (a_log s).
Definition aw_uw (b : option (role * N)) (s : ast) : ast :=
  mkA (a_e s) (a_rd s) (a_wr s) (a_blk s) b (a_ur s) (a_com s) (a_wire s) (a_rx s) (a_pos s) (a_werr s) (a_bad s) (a_log s).
Definition aw_ur (b : option (role * N)) (s : ast) : ast :=
  mkA (a_e s) (a_rd s) (a_wr s) (a_blk s) (a_uw s) b (a_com s) (a_wire s) (a_rx s) (a_pos s) (a_werr s) (a_bad s) (a_log s).
Definition aw_wire (l : list tok) (s : ast) : ast :=
  mkA (a_e s) (a_rd s) (a_wr s) (a_blk s) (a_uw s) (a_ur s) (a_com s) l (a_rx s) (a_pos s) (a_werr s) (a_bad s) (a_log s).
(** CommitInput of [l], which counts for the first [m] of what is received. *)
Definition aw_commit (l : list itok) (m : N) (bad : bool) (s : ast) : ast :=
  mkA (set_in (e_in (a_e s) ++ l) (a_e s)) (a_rd s) (a_wr s) (a_blk s) (a_uw s) (a_ur s) (a_com s + m) (a_wire s) (drop m (a_rx s))
    (a_pos s) (a_werr s) (a_bad s || bad) (a_log s).
(** A callback is called. After an error, or 0 bytes, the writer stops. *)
Definition alog (r : ares) (s : ast) : ast :=
  mkA (a_e s) (a_rd s) (a_wr s) (a_blk s) (a_uw s) (a_ur s) (a_com s) (a_wire s) (a_rx s)
    (match r with AW n => a_pos s + n | _ => a_pos s end)
    (match r with AWErr => true | AW n => a_werr s || (n =? 0) | _ => a_werr s end)
    (a_bad s) (a_log s ++ [r]).

Definition req_of (r : role) (s : ast) : option req := match r with Reader => a_rd s | Writer => a_wr s end.
Definition aout (s : ast) : list tok := e_out (a_e s).

(** CompleteAsyncReq (tls_socket_async.cc:91-100). [Ub]: CHECK(current.get() == this). *)
Definition complete_req (r : role) (res : ares) (s : ast) : outcome ast :=
  match req_of r s with
  | None => Ub
  | Some _ => Next (alog res (aw_req r None s))
  end.
Definition err_of (r : role) : ares := match r with Reader => ARErr | Writer => AWErr end.

(** blocked_async_req_ = this, with its CHECK. *)
Definition block (r : role) (s : ast) : outcome ast :=
  match a_blk s with None => Next (aw_blk (Some r) s) | Some _ => Ub end.

(** StartUpstreamWrite (tls_socket_async.cc:244-266). An empty buffer: the upstream socket writes nothing, which
    fails CHECK_GT on the result. *)
Definition start_write (r : role) (s : ast) : outcome ast :=
  match a_uw s with
  | Some _ => block r s
  | None => if len (aout s) =? 0 then Ub else Next (aw_uw (Some (r, len (aout s))) s)
  end.

(** StartUpstreamRead (tls_socket_async.cc:69-89). *)
Definition start_read (r : role) (s : ast) : outcome ast :=
  match req_of r s with
  | None => Ub
  | Some q =>
    let s1 := aw_req r (Some (set_read false q)) s in
    match a_ur s with
    | Some _ => block r s1
    | None => Next (aw_ur (Some (r, a_com s)) s1)
    end
  end.

(** MaybeSendOutputAsyncWithRead (tls_socket_async.cc:38-48). *)
Definition send_with_read (r : role) (s : ast) : outcome ast :=
  if negb (len (aout s) =? 0) then
    match req_of r s with
    | None => Ub
    | Some q => start_write r (aw_req r (Some (set_read true q)) s)
    end
  else start_read r s.

(** MaybeSendOutputAsync (tls_socket_async.cc:268-279). *)
Definition maybe_send_async (r : role) (s : ast) : outcome ast :=
  if len (aout s) =? 0 then Next s else start_write r s.

(** HandleOpAsync for opcodes (tls_socket_async.cc:102-125). *)
Definition handle_op (r : role) (o : op) (s : ast) : outcome ast :=
  match o with
  | NeedR => send_with_read r s
  | NeedW => maybe_send_async r s
  | Abrupt => complete_req r (err_of r) s
  | Graceful => complete_req r (match r with Reader => AR (match a_rd s with Some q => q_n q | None => 0 end) [] | Writer => AW 0 end) s
  end.

(** AsyncReadSome (tls_socket_async.cc:127-153). A length of 0 is an unsupported opcode of HandleOpAsync: the
    request stays forever. *)
Definition async_read (n : N) (ch : rch) (s : ast) : outcome ast :=
  match a_rd s with
  | Some _ => Ub
  | None =>
    let '(r, b, e) := eng_read n ch (a_e s) in
    let s1 := aw_e e s in
    match r with
    | Got k => if k =? 0 then Next (aw_req Reader (Some (mkQ [] n 0 false)) s1) else Next (alog (AR n b) s1)
    | Op Abrupt => Next (alog ARErr s1)
    | Op Graceful => Next (alog (AR n []) s1)
    | Op o => handle_op Reader o (aw_req Reader (Some (mkQ [] n 0 false)) s1)
    end
  end.

(** AsyncWriteSome (tls_socket_async.cc:294-315). *)
Definition async_write (iov : list (list N)) (chs : list wch) (s : ast) : outcome ast :=
  match a_wr s with
  | Some _ => Ub
  | None =>
    match push iov chs (a_e s) with
    | None => Ub
    | Some (w, o, e) =>
      let s1 := aw_req Writer (Some (mkQ iov 0 w false)) (aw_e e s) in
      match o with
      | Some o => handle_op Writer o s1
      | None => start_write Writer s1
      end
    end
  end.

(** The decisions at one call of the engine. *)
Record ech := mkX { x_w : list wch; x_r : rch }.

(** AsyncRoleBasedAction (tls_socket_async.cc:209-242). *)
Definition role_action (r : role) (c : ech) (s : ast) : outcome ast :=
  match req_of r s with
  | None => Ub
  | Some q =>
    match r with
    | Reader =>
      let '(res, b, e) := eng_read (q_n q) (x_r c) (a_e s) in
      let s1 := aw_e e s in
      match res with
      | Got k => if k =? 0 then Next s1 else complete_req Reader (AR (q_n q) b) s1
      | Op o => handle_op Reader o s1
      end
    | Writer =>
      if 0 <? q_written q then complete_req Writer (AW (q_written q)) s
      else
        match push (q_iov q) (x_w c) (a_e s) with
        | None => Ub
        | Some (w, o, e) =>
          let s1 := aw_req Writer (Some (set_written w q)) (aw_e e s) in
          match o with
          | Some o => handle_op Writer o s1
          | None => start_write Writer s1
          end
        end
    end
  end.

(** RunPending (tls_socket_async.cc:317-336). *)
Definition run_pending (c : ech) (s : ast) : outcome ast :=
  match a_blk s with
  | None => Next s
  | Some r =>
    let s1 := aw_blk None s in
    match req_of r s1 with
    | None => Ub
    | Some q =>
      if q_read q then start_read r s1
      else
        match r with
        | Writer => async_write (q_iov q) (x_w c) (aw_req Writer None s1)
        | Reader => async_read (q_n q) (x_r c) (aw_req Reader None s1)
        end
    end
  end.

(** The decisions at the end of an upstream operation: [y_p] for a pending request, [y_o] for the own one;
    [y_junk]: what is in the input buffer where nothing was received. *)
Record ych := mkY { y_p : ech; y_o : ech; y_n : net; y_junk : list itok }.

Definition bind {X} (o : outcome X) (f : X -> outcome X) : outcome X := match o with Next x => f x | o => o end.

(** AsyncWriteProgressCb (tls_socket_async.cc:155-207); CHECK_EQ of ConsumeOutputBuf. *)
Definition write_cb (c : ych) (s : ast) : outcome ast :=
  match a_uw s with
  | None => Stuck
  | Some (r, n) =>
    match y_n c with
    | NOk k0 =>
      let m := clamp k0 n in
      if len (aout s) <? m then Ub
      else
        let s1 := aw_wire (a_wire s ++ take m (aout s)) (aw_e (consume m (a_e s)) s) in
        if negb (len (aout s1) =? 0) then Next (aw_uw (Some (r, len (aout s1))) s1)
        else
          bind (run_pending (y_p c) (aw_uw None s1)) (fun s2 =>
            match req_of r s2 with
            | None => Ub
            | Some q => if q_read q then start_read r s2 else role_action r (y_o c) s2
            end)
    | NErr => bind (run_pending (y_p c) (aw_uw None s)) (complete_req r (err_of r))
    | _ => Stuck
    end
  end.

(** AsyncReadProgressCb (tls_socket_async.cc:50-67). The buffer was found by PeekInputBuf when the read
    started, CommitInput takes the bytes that follow the ones committed now. *)
Definition read_cb (c : ych) (s : ast) : outcome ast :=
  match a_ur s with
  | None => Stuck
  | Some (r, base) =>
    match y_n c with
    | NOk k0 =>
      let m := clamp k0 (len (a_rx s)) in
      if m =? 0 then Stuck
      else
        bind (run_pending (y_p c) (aw_ur None s)) (fun s1 =>
          let ok := base =? a_com s1 in
          role_action r (y_o c) (aw_commit (if ok then take m (a_rx s1) else take m (y_junk c)) m (negb ok) s1))
    | NErr | NEof => bind (run_pending (y_p c) (aw_ur None s)) (complete_req r (err_of r))
    | NAgain => Stuck
    end
  end.

Inductive alab :=
| AWrite (lens : list N) (chs : list wch)
| ARead (n : N) (ch : rch)
| UpWrite (c : ych)
| UpRead (c : ych).

Section System.
  Variable U : list N.
  (** The user starts a write only if none is outstanding and none has failed. *)
  Definition acan_write (lens : list N) (s : ast) : bool :=
    match a_wr s with None => negb (a_werr s) && (a_pos s + total lens <=? len U) && (0 <? total lens) | _ => false end.
  Definition astep (s : ast) (l : alab) : outcome ast :=
    match l with
    | AWrite lens chs => if acan_write lens s then async_write (split lens (drop (a_pos s) U)) chs s else Stuck
    | ARead n ch => match a_rd s with None => async_read n ch s | Some _ => Stuck end
    | UpWrite c => write_cb c s
    | UpRead c => read_cb c s
    end.
End System.
