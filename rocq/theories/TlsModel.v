(** Model of TlsSocket (util/tls/tls_socket.cc), as used by one fiber that writes (WriteSome,
    TrySend), one that reads (RecvMsg, TryRecv), and the background writes that TrySend and TryRecv
    start (util/tls/tls_socket_async.cc:25-36). The callback API (AsyncReadSome, AsyncWriteSome) is in
    TlsAsyncModel. Handshake, Shutdown and Close are not modelled: they show up only as failures of
    the upstream socket.

    A fiber is preempted only in calls of the upstream socket and while it waits for a flag; the
    model allows it in some more places. [Ub]: a CHECK fails. Statistics and logging are left out. *)
From Verif Require Import Util Conc.
Open Scope N_scope.

(** ** The engine (util/tls/tls_engine.cc), that is OpenSSL with a pair of memory BIOs.
    Ciphertext is a sequence of tokens: an application byte or something of the protocol ([C], [IC]);
    [IZ]: close_notify. *)
Inductive tok := A (b : N) | C.
Inductive itok := IA (b : N) | IC | IZ.

(** [e_out]: output that was not consumed yet, [e_in]: committed input that was not processed;
    [e_pend]: a record that SSL_write has built, but not stored, when it returned WANT_WRITE;
    [e_dead]: a fatal error has occurred. *)
Record eng := mkE { e_out : list tok; e_in : list itok; e_pend : list N; e_dead : bool }.

(** The result of an operation (tls_engine.h:20-44): a number of bytes or an OpCode. *)
Inductive op := NeedR | NeedW | Graceful | Abrupt.
Inductive eres := Got (n : N) | Op (o : op).

(** What OpenSSL decides at a write: to accept [k] bytes; to ask for the output to be flushed, with a
    record of [k] bytes built; or one of the other opcodes. [c]: tokens of the protocol it emits. *)
Inductive wdec := WAccept (k : N) | WWant (k : N) | WOp (o : op).
Record wch := mkW { w_ctl : nat; w_dec : wdec }.

Definition clamp (k n : N) : N := N.min (N.max 1 k) n.

Definition emit (l : list tok) (e : eng) : eng := mkE (e_out e ++ l) (e_in e) (e_pend e) (e_dead e).
Definition set_pend (l : list N) (e : eng) : eng := mkE (e_out e) (e_in e) l (e_dead e).
Definition set_in (l : list itok) (e : eng) : eng := mkE (e_out e) l (e_pend e) (e_dead e).
Definition kill (e : eng) : eng := mkE (e_out e) (e_in e) (e_pend e) true.
Definition consume (n : N) (e : eng) : eng := mkE (drop n (e_out e)) (e_in e) (e_pend e) (e_dead e).

(** Engine::Write (tls_engine.cc:157-166) of a nonempty buffer. The modes of the engine are partial
    writes and moving buffers (:43-44). A pending record is stored first and its length returned,
    whatever the buffer holds; a shorter buffer is a "bad write retry". The BIO holds a record if it is
    empty, so WANT_WRITE needs output. *)
Definition eng_write (buf : list N) (ch : wch) (e0 : eng) : eres * eng :=
  let e := emit (repeat C (w_ctl ch)) e0 in
  if e_dead e then (Op Abrupt, e)
  else if negb (len (e_pend e) =? 0) && (len buf <? len (e_pend e)) then (Op Abrupt, kill e)
  else
    match w_dec ch with
    | WOp NeedR => (Op NeedR, e)
    | WOp Graceful => (Op Graceful, e)
    | WOp Abrupt => (Op Abrupt, kill e)
    | d =>
      let k := match d with WAccept k | WWant k => clamp k (len buf) | _ => len buf end in
      let want := match d with WAccept _ => false | _ => negb (len (e_out e) =? 0) end in
      let p := if len (e_pend e) =? 0 then take k buf else e_pend e in
      if want then (Op NeedW, set_pend p e)
      else (Got (len p), set_pend [] (emit (List.map A p) e))
    end.

(** What it decides at a read. [r_want]: it wants to write first. *)
Record rch := mkR { r_ctl : nat; r_k : N; r_want : bool; r_bad : bool }.

Fixpoint strip (l : list itok) : list itok := match l with IC :: r => strip r | _ => l end.
(** The application bytes at the front. *)
Fixpoint run_of (l : list itok) : list N := match l with IA b :: r => b :: run_of r | _ => [] end.

(** Engine::Read (tls_engine.cc:168-185) of at most [n] bytes; the bytes are returned as well. *)
Definition eng_read (n : N) (ch : rch) (e0 : eng) : eres * list N * eng :=
  if n =? 0 then (Got 0, [], e0)
  else
    let e := emit (repeat C (r_ctl ch)) e0 in
    if e_dead e then (Op Abrupt, [], e)
    else if r_bad ch then (Op Abrupt, [], kill e)
    else if r_want ch && negb (len (e_out e) =? 0) then (Op NeedW, [], e)
    else
      let l := strip (e_in e) in
      match l with
      | [] => (Op NeedR, [], set_in l e)
      | IZ :: _ => (Op Graceful, [], set_in l e)
      | _ =>
        let k := N.min (N.max 1 (r_k ch)) (N.min n (len (run_of l))) in
        (Got k, take k (run_of l), set_in (drop k l) e)
      end.

(** ** PushUserDataToEngine (tls_socket.cc:327-376) *)
Definition kBatch : N := 1392.

(** The do-loop (:347-352). *)
Fixpoint gather (acc : list N) (iov : list (list N)) : list N * list (list N) :=
  match iov with
  | [] => (acc, [])
  | b :: r => if len acc + len b <=? kBatch then gather (acc ++ b) r else (acc, iov)
  end.

(** The next buffer to write (:338-354). *)
Definition batch (b : list N) (r : list (list N)) : list N * list (list N) :=
  match r with
  | [] => (b, [])
  | _ => if kBatch <=? len b then (b, r) else gather b r
  end.

(** One round per buffer is enough ([fuel]). [None]: CHECK(!buf.empty()) of Engine::Write fails. The
    result: bytes written, the opcode if any. *)
Fixpoint push_loop (fuel : nat) (iov : list (list N)) (chs : list wch) (w : N) (e : eng)
  : option (N * option op * eng) :=
  match fuel, iov with
  | O, _ | _, [] => Some (w, None, e)
  | S f, b :: r =>
    let '(buf, rest) := batch b r in
    if len buf =? 0 then None
    else
      let '(ch, chs') := match chs with [] => (mkW 0 (WAccept (len buf)), []) | c :: t => (c, t) end in
      match eng_write buf ch e with
      | (Op o, e1) => Some (w, Some o, e1)
      | (Got k, e1) =>
        if k =? len buf then push_loop f rest chs' (w + k) e1 else Some (w + k, None, e1)
      end
  end.
Definition push (iov : list (list N)) (chs : list wch) (e : eng) : option (N * option op * eng) :=
  push_loop (length iov) iov chs 0 e.

(** ** The socket *)

(** Where a call goes on. [KAfter iov w]: WriteSome after the engine has taken [w] bytes and its
    opcode was handled; [KRet w]: it returns [w]; [KRead n rest got]: the loop of RecvMsg with [n] bytes
    left in the current buffer; [KUp k]: HandleUpstreamRead after the flush; [KDrain]: the end of a
    background write. *)
Inductive cont :=
| KAfter (iov : list (list N)) (w : N)
| KRet (w : N)
| KRead (n : N) (rest : list N) (got : list N)
| KUp (k : cont)
| KDrain.

(** [Send n k]: in WriteSome of the upstream socket with the first [n] tokens of the output;
    [Recv k]: in its Recv. *)
Inductive pc := Idle | Run (k : cont) | WaitW (k : cont) | WaitR (k : cont) | Send (n : N) (k : cont) | Recv (k : cont).

Inductive th := W | R | D.

(** Results of the calls, and invocations of the receive callback by the end of a background
    write. *)
Inductive err := Again | Busy | Broken.
Inductive ret :=
| Wrote (n : N) | WroteErr
| TrySent (want n : N) | TrySentErr (e : err)
| ReadOk (l : list N) | ReadErr
| TryRead (n : N) (l : list N) | TryReadErr (e : err)
| Wake.

(** [s_wfl], [s_rfl]: WRITE_IN_PROGRESS, READ_IN_PROGRESS; [s_drain]: RECV_DRAIN_ENGINE_IN_FLIGHT; [s_wire]:
    what the upstream socket took; [s_rx]: what it will still receive.
    The writer sends the bytes of [U], [s_pos] of them were reported as written; after a failed WriteSome
    ([s_werr]) it stops, as it cannot know how many were. [s_dl]: the bytes that reads returned.
    [s_fail]: an upstream write has failed; [s_owed]: the last TrySend took less than all. *)
Record st := mkS {
  s_e : eng; s_wfl : bool; s_rfl : bool; s_drain : bool;
  s_w : pc; s_r : pc; s_d : pc;
  s_wire : list tok; s_rx : list itok;
  s_pos : N; s_werr : bool; s_dl : list N; s_fail : bool; s_owed : bool; s_log : list ret }.

Definition init (rx : list itok) : st :=
  mkS (mkE [] [] [] false) false false false Idle Idle Idle [] rx 0 false [] false false [].

Definition with_e (e : eng) (s : st) : st :=
  mkS e (s_wfl s) (s_rfl s) (s_drain s) (s_w s) (s_r s) (s_d s) (s_wire s) (s_rx s) (s_pos s) (s_werr s) (s_dl s) (s_fail s) (s_owed s) (s_log s).
Definition with_wfl (b : bool) (s : st) : st :=
  mkS (s_e s) b (s_rfl s) (s_drain s) (s_w s) (s_r s) (s_d s) (s_wire s) (s_rx s) (s_pos s) (s_werr s) (s_dl s) (s_fail s) (s_owed s) (s_log s).
Definition with_rfl (b : bool) (s : st) : st :=
  mkS (s_e s) (s_wfl s) b (s_drain s) (s_w s) (s_r s) (s_d s) (s_wire s) (s_rx s) (s_pos s) (s_werr s) (s_dl s) (s_fail s) (s_owed s) (s_log s).
Definition with_drain (b : bool) (s : st) : st :=
  mkS (s_e s) (s_wfl s) (s_rfl s) b (s_w s) (s_r s) (s_d s) (s_wire s) (s_rx s) (s_pos s) (s_werr s) (s_dl s) (s_fail s) (s_owed s) (s_log s).
Definition with_pc (t : th) (p : pc) (s : st) : st :=
  mkS (s_e s) (s_wfl s) (s_rfl s) (s_drain s)
    (match t with W => p | _ => s_w s end) (match t with R => p | _ => s_r s end) (match t with D => p | _ => s_d s end)
    (s_wire s) (s_rx s) (s_pos s) (s_werr s) (s_dl s) (s_fail s) (s_owed s) (s_log s).
Definition with_wire (l : list tok) (s : st) : st :=
  mkS (s_e s) (s_wfl s) (s_rfl s) (s_drain s) (s_w s) (s_r s) (s_d s) l (s_rx s) (s_pos s) (s_werr s) (s_dl s) (s_fail s) (s_owed s) (s_log s).
Definition with_rx (l : list itok) (s : st) : st :=
  mkS (s_e s) (s_wfl s) (s_rfl s) (s_drain s) (s_w s) (s_r s) (s_d s) (s_wire s) l (s_pos s) (s_werr s) (s_dl s) (s_fail s) (s_owed s) (s_log s).
Definition with_pos (n : N) (owed : bool) (s : st) : st :=
  mkS (s_e s) (s_wfl s) (s_rfl s) (s_drain s) (s_w s) (s_r s) (s_d s) (s_wire s) (s_rx s) n (s_werr s) (s_dl s) (s_fail s) owed (s_log s).
Definition with_werr (s : st) : st :=
  mkS (s_e s) (s_wfl s) (s_rfl s) (s_drain s) (s_w s) (s_r s) (s_d s) (s_wire s) (s_rx s) (s_pos s) true (s_dl s) (s_fail s) (s_owed s) (s_log s).
Definition with_dl (l : list N) (s : st) : st :=
  mkS (s_e s) (s_wfl s) (s_rfl s) (s_drain s) (s_w s) (s_r s) (s_d s) (s_wire s) (s_rx s) (s_pos s) (s_werr s) l (s_fail s) (s_owed s) (s_log s).
Definition with_fail (s : st) : st :=
  mkS (s_e s) (s_wfl s) (s_rfl s) (s_drain s) (s_w s) (s_r s) (s_d s) (s_wire s) (s_rx s) (s_pos s) (s_werr s) (s_dl s) true (s_owed s) (s_log s).
Definition note (r : ret) (s : st) : st :=
  mkS (s_e s) (s_wfl s) (s_rfl s) (s_drain s) (s_w s) (s_r s) (s_d s) (s_wire s) (s_rx s) (s_pos s) (s_werr s) (s_dl s) (s_fail s) (s_owed s) (s_log s ++ [r]).

Definition pc_of (t : th) (s : st) : pc := match t with W => s_w s | R => s_r s | D => s_d s end.
Definition out (s : st) : list tok := e_out (s_e s).

(** RecvMsg returns [got] (tls_socket.cc:256-297). *)
Definition ret_read (t : th) (got : list N) (s : st) : st :=
  note (ReadOk got) (with_dl (s_dl s ++ got) (with_pc t Idle s)).

(** The end of a background write: CompleteAsyncReq with the callbacks of TrySend (tls_socket.cc:712) and
    StartAsyncWriteForTryRecv (:566-579). *)
Definition end_drain (s : st) : st :=
  if s_drain s then note Wake (with_drain false (with_pc D Idle s)) else with_pc D Idle s.

(** An error code reaches the caller (:288-296, :308-322). *)
Fixpoint fail (t : th) (k : cont) (s : st) : st :=
  match k with
  | KAfter _ _ | KRet _ => note WroteErr (with_werr (with_pc t Idle s))
  | KRead _ _ got => if len got =? 0 then note ReadErr (with_pc t Idle s) else ret_read t got s
  | KUp k' => fail t k' s
  | KDrain => end_drain s
  end.

Definition resume (t : th) (k : cont) (s : st) : st :=
  match k with KDrain => end_drain s | _ => with_pc t (Run k) s end.

(** MaybeSendEngineOutput (tls_socket.cc:382-405) and the start of HandleUpstreamWrite (:453-467). *)
Definition maybe_send (t : th) (k : cont) (s : st) : st :=
  if len (out s) =? 0 then resume t k s
  else if s_wfl s then with_pc t (WaitW k) s
  else with_pc t (Send (len (out s)) k) (with_wfl true s).

(** HandleUpstreamRead from the test of READ_IN_PROGRESS (tls_socket.cc:420-435). *)
Definition up_read2 (t : th) (k : cont) (s : st) : st :=
  if s_rfl s then with_pc t (WaitR k) s
  else with_pc t (Recv k) (with_rfl true s).
(** Its first part (:407-419). *)
Definition up_read (t : th) (k : cont) (s : st) : st :=
  if negb (len (out s) =? 0) && negb (s_wfl s) then maybe_send t (KUp k) s else up_read2 t k s.

(** What the upstream socket answers: a write or a read of [k] tokens; [NAgain], [NErr]: an error;
    [NEof]: end of the stream. *)
Inductive net := NOk (k : N) | NAgain | NErr | NEof.

(** The decisions of a step. *)
Record ch := mkCh { c_w : list wch; c_r : rch; c_n : net }.

(** The loop of WriteSome (tls_socket.cc:304-325). *)
Definition write_round (t : th) (iov : list (list N)) (c : ch) (s : st) : outcome st :=
  match push iov (c_w c) (s_e s) with
  | None => Ub
  | Some (w, o, e) =>
    let s1 := with_e e s in
    Next match o with
         | Some Graceful | Some Abrupt => fail t (KAfter iov w) s1
         | Some NeedR => up_read t (KAfter iov w) s1
         | Some NeedW => maybe_send t (KAfter iov w) s1
         | None => with_pc t (Run (KAfter iov w)) s1
         end
  end.

(** The loop of RecvMsg (tls_socket.cc:242-300). A buffer of length 0 makes the engine return 0, which
    HandleEngineOp ignores, so that the loop goes on (:506-508). *)
Definition read_round (t : th) (n : N) (rest got : list N) (c : ch) (s : st) : st :=
  let '(r, b, e) := eng_read n (c_r c) (s_e s) in
  let s1 := with_e e s in
  match r with
  | Got k =>
    if k =? 0 then s1
    else if k <? n then with_pc t (Run (KRead (n - k) rest (got ++ b))) s1
    else match rest with
         | [] => ret_read t (got ++ b) s1
         | m :: rest' => with_pc t (Run (KRead m rest' (got ++ b))) s1
         end
  | Op NeedR => if negb (len got =? 0) then ret_read t got s1 else up_read t (KRead n rest got) s1
  | Op Graceful => ret_read t got s1
  | Op Abrupt => fail t (KRead n rest got) s1
  | Op NeedW => maybe_send t (KRead n rest got) s1
  end.

(** One step of a fiber or of a background write. *)
Definition advance (t : th) (c : ch) (s : st) : outcome st :=
  match pc_of t s with
  | Idle => Stuck
  | Run k =>
    match k with
    | KAfter iov w =>
      if 0 <? w then Next (maybe_send t (KRet w) s)
      else write_round t iov c s
    | KRet w => Next (note (Wrote w) (with_pos (s_pos s + w) false (with_pc t Idle s)))
    | KRead n rest got => Next (read_round t n rest got c s)
    | KUp k' => Next (up_read2 t k' s)
    | KDrain => Next (end_drain s)
    end
  | WaitW k => if s_wfl s then Stuck else Next (with_pc t (Run k) s)
  | WaitR k => if s_rfl s then Stuck else Next (with_pc t (Run k) s)
  | Send n k =>
    (* tls_socket.cc:468-491, tls_socket_async.cc:155-207; CHECK_EQ of ConsumeOutputBuf *)
    match c_n c with
    | NOk k0 =>
      let m := clamp k0 n in
      if len (out s) <? m then Ub
      else
        let s1 := with_wire (s_wire s ++ take m (out s)) (with_e (consume m (s_e s)) s) in
        if len (out s1) =? 0 then Next (resume t k (with_wfl false s1))
        else Next (with_pc t (Send (len (out s1)) k) s1)
    | NErr => Next (fail t k (with_fail (with_wfl false s)))
    | _ => Stuck
    end
  | Recv k =>
    (* tls_socket.cc:436-450 *)
    match c_n c with
    | NOk k0 =>
      let m := clamp k0 (len (s_rx s)) in
      if m =? 0 then Stuck
      else Next (with_pc t (Run k) (with_rfl false
             (with_rx (drop m (s_rx s)) (with_e (set_in (e_in (s_e s) ++ take m (s_rx s)) (s_e s)) s))))
    | NErr | NEof => Next (fail t k (with_rfl false s))
    | NAgain => Stuck
    end
  end.

(** StartAsyncWrite (tls_socket_async.cc:25-36); [wake]: for TryRecv (tls_socket.cc:560-579). *)
Definition start_drain (wake : bool) (s : st) : outcome st :=
  match s_d s with
  | Idle => Next (with_pc D (Send (len (out s)) KDrain) (with_wfl true (with_drain wake s)))
  | _ => Ub
  end.

(** AdvanceIovec (iovec_utils.cc; C41), for at most the total length. *)
Fixpoint adv (w : N) (iov : list (list N)) : list (list N) :=
  if w =? 0 then iov
  else match iov with
       | [] => []
       | b :: r => if len b <=? w then adv (w - len b) r else drop w b :: r
       end.
Fixpoint skip_empty (iov : list (list N)) : list (list N) :=
  match iov with b :: r => if len b =? 0 then skip_empty r else iov | [] => [] end.

(** The decisions of one round of TrySend or TryRecv. *)
Record tch := mkT { t_send : net; t_w : list wch; t_r : rch; t_recv : net }.

(** The end of TrySend (tls_socket.cc:693-722). *)
Definition try_send_end (total sent : N) (status : option err) (s : st) : outcome st :=
  if 0 <? sent then
    let s1 := note (TrySent total sent) (with_pos (s_pos s + sent) (negb (sent =? total)) s) in
    if (sent =? total) && negb (len (out s) =? 0) then start_drain false s1 else Next s1
  else match status with
       | None => Next (note (TrySent total 0) (with_pos (s_pos s) true s))
       | Some er => Next (note (TrySentErr er) (with_pos (s_pos s) true s))
       end.

(** The flush of TrySend (tls_socket.cc:613-634). [Some er]: break. *)
Definition flush (n : net) (s : st) : st * option err :=
  if len (out s) =? 0 then (s, None)
  else
    match n with
    | NOk k0 =>
      let m := clamp k0 (len (out s)) in
      let s1 := with_wire (s_wire s ++ take m (out s)) (with_e (consume m (s_e s)) s) in
      (s1, if m <? len (out s) then Some Again else None)
    | NAgain => (s, Some Again)
    | _ => (with_fail s, Some Broken)
    end.

(** The loop of TrySend (tls_socket.cc:610-691), one element of [its] per round. *)
Fixpoint try_send (its : list tch) (iov : list (list N)) (total sent : N) (s : st) : outcome st :=
  match its with
  | [] => Stuck
  | it :: its' =>
    if match iov with [] => len (out s) =? 0 | _ => false end then try_send_end total sent None s
    else
      let '(s1, status) := flush (t_send it) s in
      match status with
      | Some er => try_send_end total sent (Some er) s1
      | None =>
        let iov1 := skip_empty iov in
        match iov1 with
        | [] => try_send_end total sent None s1
        | _ =>
          match push iov1 (t_w it) (s_e s1) with
          | None => Ub
          | Some (w, o, e) =>
            let s2 := with_e e s1 in
            let iov2 := adv w iov1 in
            match o with
            | None | Some NeedW => try_send its' iov2 total (sent + w) s2
            | Some NeedR =>
              if s_rfl s then try_send_end total (sent + w) (Some Again) s2
              else
                match t_recv it with
                | NOk k0 =>
                  let m := clamp k0 (len (s_rx s2)) in
                  if m =? 0 then Stuck
                  else try_send its' iov2 total (sent + w)
                         (with_rx (drop m (s_rx s2)) (with_e (set_in (e_in (s_e s2) ++ take m (s_rx s2)) (s_e s2)) s2))
                | NAgain => try_send_end total (sent + w) (Some Again) s2
                | _ => try_send_end total (sent + w) (Some Broken) s2
                end
            | Some _ => try_send_end total (sent + w) (Some Broken) s2
            end
          end
        end
      end
  end.

(** The end of TryRecv (tls_socket.cc:925-932); [n]: what was asked for. *)
Definition try_recv_end (n : N) (got : list N) (status : option err) (s : st) : outcome st :=
  if negb (len got =? 0) then Next (note (TryRead n got) (with_dl (s_dl s ++ got) s))
  else match status with
       | None => Next (note (TryRead n []) s)
       | Some er => Next (note (TryReadErr er) s)
       end.

(** A background write is started and EAGAIN reported (tls_socket.cc:836-867). *)
Definition try_recv_drain (n0 : N) (got : list N) (s : st) : outcome st :=
  match start_drain true s with
  | Next s1 => try_recv_end n0 got (Some Again) s1
  | o => o
  end.

(** The second part of a round of TryRecv: the upstream read (tls_socket.cc:873-911). *)
Definition try_fill (n : net) (s : st) : option (st * option err) :=
  if s_rfl s then Some (s, Some Busy)
  else
    match n with
    | NOk k0 =>
      let m := clamp k0 (len (s_rx s)) in
      if m =? 0 then None
      else Some (with_rx (drop m (s_rx s)) (with_e (set_in (e_in (s_e s) ++ take m (s_rx s)) (s_e s)) s), None)
    | NAgain => Some (s, Some Again)
    | _ => Some (s, Some Broken)
    end.

(** TryRecv (tls_socket.cc:746-932), one element of [its] per round; [n]: the room left. *)
Fixpoint try_recv (its : list tch) (n0 n : N) (got : list N) (s : st) : outcome st :=
  match its with
  | [] => Stuck
  | it :: its' =>
    if n =? 0 then try_recv_end n0 got None s
    else
      let '(r, b, e) := eng_read n (t_r it) (s_e s) in
      let s1 := with_e e s in
      let fill s2 :=
        match try_fill (t_recv it) s2 with
        | None => Stuck
        | Some (s3, None) => try_recv its' n0 n got s3
        | Some (s3, status) => try_recv_end n0 got status s3
        end in
      match r with
      | Got k => try_recv its' n0 (n - k) (got ++ b) s1
      | Op Abrupt => try_recv_end n0 got (Some Broken) s1
      | Op Graceful => try_recv_end n0 got None s1
      | Op o =>
        if s_wfl s then try_recv_end n0 got (Some (if s_drain s then Again else Busy)) s1
        else if len (out s1) =? 0 then fill s1
        else
          match t_send it with
          | NOk k0 =>
            let m := clamp k0 (len (out s1)) in
            let s2 := with_wire (s_wire s1 ++ take m (out s1)) (with_e (consume m (s_e s1)) s1) in
            if m <? len (out s1) then try_recv_drain n0 got s2
            else match o with
                 | NeedW => try_recv its' n0 n got s2
                 | _ => fill s2
                 end
          | NAgain => try_recv_drain n0 got s1
          | _ => try_recv_end n0 got (Some Broken) (with_fail s1)
          end
      end
  end.

(** ** The system *)

(** The buffers of the next write: consecutive pieces of the stream. *)
Fixpoint split (lens : list N) (l : list N) : list (list N) :=
  match lens with [] => [] | n :: r => take n l :: split r (drop n l) end.
Fixpoint total (lens : list N) : N := match lens with [] => 0 | n :: r => n + total r end.

Inductive lab :=
| CallWrite (lens : list N)
| CallRead (n : N) (rest : list N)
| CallTrySend (lens : list N) (its : list tch)
| CallTryRecv (n : N) (its : list tch)
| Step (t : th) (c : ch).

Section System.
  (** The stream to be written. *)
  Variable U : list N.

  (** A new write needs an idle writer that has met no error and has the bytes; TrySend also returns if
      WRITE_IN_PROGRESS is set (tls_socket.cc:594-598) and with no bytes at all (:590-593, a DFATAL). *)
  Definition can_write (lens : list N) (s : st) : bool :=
    match s_w s with Idle => negb (s_werr s) && (s_pos s + total lens <=? len U) && (0 <? total lens) | _ => false end.

  Definition step (s : st) (l : lab) : outcome st :=
    match l with
    | CallWrite lens =>
      if can_write lens s then Next (with_pc W (Run (KAfter (split lens (drop (s_pos s) U)) 0)) s) else Stuck
    | CallRead n rest =>
      match s_r s with
      | Idle => Next (with_pc R (Run (KRead n rest [])) s)
      | _ => Stuck
      end
    | CallTrySend lens its =>
      if can_write lens s then
        if s_wfl s then Next (note (TrySentErr Again) (with_pos (s_pos s) true s))
        else try_send its (split lens (drop (s_pos s) U)) (total lens) 0 s
      else Stuck
    | CallTryRecv n its =>
      match s_r s with
      | Idle => try_recv its n n [] s
      | _ => Stuck
      end
    | Step t c => advance t c s
    end.
End System.
