(** Model of the HTTP side of the cloud clients:
    - http::Client::Send, ReadHeader, Recv, Shutdown (util/http/http_client.{h,cc});
    - http::ClientPool (util/http/https_client_pool.{h,cc});
    - cloud::RobustSender::Send and SenderResult (util/cloud/utils.{h,cc}).

    The pool and its users run on one thread: users are fibers, and a transition is one iteration of
    the loop of RobustSender::Send, one read of the body, or the end of a SenderResult. Between the
    blocking calls of one iteration other fibers may run, but all they share with it is the pool,
    which the iteration touches once, at its beginning: interleaving whole iterations loses nothing
    but the order in which two fibers that wait for a new connection get it.

    The server is the environment: it answers the requests of one connection in order, with answers
    chosen by the schedule, and may close a connection at any time. What the socket, the HTTP parser
    and the credentials provider report is chosen by the schedule as well.
    Simplifications: a body is known by its number of bytes; a request is known by a number and by
    the version of the access token it was signed with; LOG(DFATAL) only logs (release build);
    connecting and TLS are one oracle; the 100 ms pause is not modelled. *)
From Verif Require Import Util Conc.
Open Scope N_scope.

(** ** Connections *)

(** The answer of the server to a request. [r_auth]: the answer has a WWW-Authenticate header;
    [r_bearer]: which mentions "bearer"; [r_keep]: the server keeps the connection open. *)
Record resp := mkResp { r_code : N; r_auth : bool; r_bearer : bool; r_len : N; r_keep : bool }.

(** [c_open]: Client::IsConnected, that is, the local socket is open (http_client.cc:132-134,
    fiber_socket_base.h:216-220). [c_alive]: the server has not closed the connection. [c_wire]:
    answers that were not read yet, with the request they answer. [c_left]: bytes of the body of
    the answer whose header was read last that are still to be read. [c_del]: the Client was
    deleted. *)
Record conn := mkConn { c_open : bool; c_alive : bool; c_wire : list (N * resp); c_left : N;
                        c_del : bool }.

(** A connection just made by Client::Connect (http_client.cc:54-94, :164-194). *)
Definition fresh : conn := mkConn true true [] 0 false.

Definition close (c : conn) : conn := mkConn false (c_alive c) (c_wire c) (c_left c) (c_del c).
Definition del (c : conn) : conn := mkConn false (c_alive c) (c_wire c) (c_left c) true.
Definition with_left (c : conn) (n : N) : conn :=
  mkConn (c_open c) (c_alive c) (c_wire c) n (c_del c).

(** The server receives a request; once it has closed the connection, it does not. *)
Definition deliver (req : N) (r : resp) (c : conn) : conn :=
  if c_alive c then mkConn (c_open c) (r_keep r) (c_wire c ++ [(req, r)]) (c_left c) (c_del c)
  else c.

(** What http::write reports. [WFail closed]: the error is one of FiberSocketBase::IsConnClosed. *)
Inductive wres := WOk | WFail (closed : bool).

(** How a step of the client ended. *)
Inductive io_err := Fine | Closed | Broken.

(** Client::Send(req) (http_client.h:136-150): [k] is the number of iterations left, [i] the current
    one, [w] what the writes report. The third component counts the requests the server got. *)
Fixpoint client_send (k i : nat) (w : nat -> wres) (req : N) (r : resp) (c : conn) (got : nat)
  : io_err * conn * nat :=
  match k with
  | O => (Fine, c, got)
  | S k' =>
    match w i with
    | WOk => client_send k' (S i) w req r (deliver req r c) (if c_alive c then S got else got)
    | WFail cl => (if cl then Closed else Broken, close c, got)
    end
  end.

(** What the socket reports while a header is read. *)
Inductive hres := HOk | HFail (closed : bool).

(** Client::ReadHeader (http_client.h:161-167). [None]: it waits. If the body of an earlier answer
    was not read to its end, its bytes are parsed as the header: the result is then [junk] (chosen by
    the schedule) and answers no request. A connection that the server has closed yields
    end_of_stream. *)
Definition read_header (h : hres) (junk : resp) (c : conn)
  : option (io_err * option N * resp * conn) :=
  match h with
  | HFail cl => Some (if cl then Closed else Broken, None, junk, close c)
  | HOk =>
    if 0 <? c_left c then Some (Fine, None, junk, with_left c (r_len junk))
    else match c_wire c with
         | (q, r) :: w => Some (Fine, Some q, r, mkConn (c_open c) (c_alive c) w (r_len r) (c_del c))
         | [] => if c_alive c then None else Some (Closed, None, junk, close c)
         end
  end.

(** Boost.Beast's default limit for the body of a response. *)
Definition kBodyLimit : N := 8388608.

(** Client::Recv with a string_body parser (http_client.h:152-159), which drains the body. An answer
    above the limit fails with body_limit, which does not close the socket (http_client.h:91-101). *)
Inductive dres := DOk | DLimit | DFail.
Definition drain (ok : bool) (c : conn) : dres * conn :=
  if kBodyLimit <? c_left c then (DLimit, c)
  else if ok then (DOk, with_left c 0) else (DFail, close c).

(** ** Classes of status codes *)

(** IsUnauthorized (cloud/utils.cc:24-42), the default of ShouldRefreshToken (:145-147). *)
Definition IsUnauthorized (r : resp) : bool :=
  if negb (r_code r =? 401) && negb (r_code r =? 403) then false
  else if negb (r_auth r) then false
  else if r_code r =? 401 then true
  else r_bearer r.
(** DoesServerPushback (cloud/utils.cc:44-47). *)
Definition DoesServerPushback (code : N) : bool := (code =? 429) || (code / 100 =? 5).
(** IsResponseOK (cloud/utils.cc:49-54). *)
Definition IsResponseOK (code : N) : bool :=
  (code =? 200) || (code =? 206) || (code =? 308) || (code =? 201).

(** ** Users of the pool *)

Inductive err :=
| EConnect | EClosed | EIo | ELimit | ECred
| EAgain | EDenied | ENotPermitted | ENoEntry | ERefused | EBadMessage.

(** A call of RobustSender::Send with its SenderResult. [k_left]: iterations left; [k_h],
    [k_reuse]: the result's client_handle and reuse_connection; [k_ec]: the local variable [ec].
    For the statements only: [k_n] is num_iterations, [k_got] how often the server received the
    request, [k_hist] the token and the answer of every iteration that read a header, latest first. *)
Record call := mkCall { k_req : N; k_tok : N; k_left : nat; k_h : option nat; k_reuse : bool;
                        k_ec : option err; k_n : nat; k_got : nat; k_hist : list (N * resp) }.

(** [Got]: Send returned success; with the request its parser holds the answer of. [Ended]: Send
    returned this error code ([None] is the empty code, success). *)
Inductive user := Idle | Run (k : call) | Got (k : call) (q : option N) (r : resp)
               | Ended (k : call) (e : option err).

(** [p_avail]: available_handles_; [p_existing]: existing_handles_; [p_tok]: the version of the
    token of the credentials provider. *)
Record st := mkSt { p_conns : list conn; p_avail : list nat; p_existing : Z;
                    p_users : nat -> user; p_tok : N }.
Definition st0 : st := mkSt [] [] 0%Z (fun _ => Idle) 0.

Definition conn_at (s : st) (i : nat) : conn := nth i (p_conns s) (del fresh).
Definition set_conn (s : st) (i : nat) (c : conn) : st :=
  mkSt (set i c (p_conns s)) (p_avail s) (p_existing s) (p_users s) (p_tok s).
Definition set_user (s : st) (u : nat) (x : user) : st :=
  mkSt (p_conns s) (p_avail s) (p_existing s) (upd (p_users s) u x) (p_tok s).
Definition set_pool (s : st) (l : list nat) (n : Z) : st :=
  mkSt (p_conns s) l n (p_users s) (p_tok s).
Definition set_tok (s : st) (t : N) : st :=
  mkSt (p_conns s) (p_avail s) (p_existing s) (p_users s) t.

(** ** ClientPool *)

(** The loop of ClientPool::GetHandle (https_client_pool.cc:43-58): the oldest handle that is
    connected; the others are deleted. *)
Fixpoint pick (avail : list nat) (s : st) : option nat * st :=
  match avail with
  | [] => (None, set_pool s [] (p_existing s))
  | i :: r =>
    if c_open (conn_at s i) then (Some i, set_pool s r (p_existing s))
    else pick r (set_conn s i (del (conn_at s i)))
  end.

(** ClientPool::GetHandle (https_client_pool.cc:43-97). [ok]: connecting succeeds. *)
Definition get_handle (ok : bool) (s : st) : option nat * st :=
  match pick (p_avail s) s with
  | (Some i, s1) => (Some i, s1)
  | (None, s1) =>
    if ok then (Some (length (p_conns s1)),
                mkSt (p_conns s1 ++ [fresh]) (p_avail s1) (p_existing s1 + 1)%Z (p_users s1) (p_tok s1))
    else (None, s1)
  end.

(** HandleGuard::operator() (https_client_pool.cc:14-28); [None]: the CHECK fails. *)
Definition release (i : nat) (s : st) : option st :=
  if (p_existing s <=? 0)%Z then None
  else if c_open (conn_at s i) then Some (set_pool s (p_avail s ++ [i]) (p_existing s))
  else Some (set_pool (set_conn s i (del (conn_at s i))) (p_avail s) (p_existing s - 1)%Z).

Definition release_opt (h : option nat) (s : st) : option st :=
  match h with Some i => release i s | None => Some s end.

(** ** RobustSender::Send *)

(** The choices of the schedule in one iteration. *)
Record att := mkAtt { a_connect : bool; a_write : nat -> wres; a_resp : resp; a_hdr : hres;
                      a_junk : resp; a_drain : bool; a_refresh : bool }.

Definition again (k : call) (e : err) : call :=
  mkCall (k_req k) (k_tok k) (k_left k) (k_h k) (k_reuse k) (Some e) (k_n k) (k_got k) (k_hist k).
Definition with_tok (k : call) (t : N) : call :=
  mkCall (k_req k) t (k_left k) (k_h k) (k_reuse k) (k_ec k) (k_n k) (k_got k) (k_hist k).
(** A header was read: it is noted for the statements, and reuse_connection is updated
    (cloud/utils.cc:230-232). *)
Definition heard (k : call) (r : resp) : call :=
  mkCall (k_req k) (k_tok k) (k_left k) (k_h k) (k_reuse k && r_keep r) (k_ec k) (k_n k) (k_got k)
         ((k_tok k, r) :: k_hist k).

(** The part of an iteration behind the drained error response (cloud/utils.cc:242-274). *)
Definition judge (a : att) (k : call) (r : resp) (s : st) : user * st :=
  if DoesServerPushback (r_code r) then (Run (again k EAgain), s)
  else if IsUnauthorized r then
    if a_refresh a then
      (Run (again (with_tok k (p_tok s + 1)) EDenied), set_tok s (p_tok s + 1))
    else (Ended k (Some ECred), s)
  else if r_code r =? 403 then (Ended k (Some ENotPermitted), s)
  else if r_code r =? 404 then (Ended k (Some ENoEntry), s)
  else if r_code r / 100 =? 3 then (Ended k (Some ERefused), s)
  else (Run (again k EBadMessage), s).

(** The part behind ReadHeader (cloud/utils.cc:225-240). *)
Definition answer (a : att) (i : nat) (k : call) (q : option N) (r : resp) (s : st) : user * st :=
  let k := heard k r in
  if IsResponseOK (r_code r) then (Got k q r, s)
  else match drain (a_drain a) (conn_at s i) with
       | (DOk, c) => judge a k r (set_conn s i c)
       | (DLimit, c) => (Ended k (Some ELimit), set_conn s i c)
       | (DFail, c) => (Ended k (Some EIo), set_conn s i c)
       end.

(** The part behind GetHandle (cloud/utils.cc:200-225) on connection [i]. [None]: it waits. *)
Definition talk (rc : nat) (a : att) (i : nat) (k : call) (s : st) : option (user * st) :=
  let '(e, c, got) := client_send rc 0 (a_write a) (k_req k) (a_resp a) (conn_at s i) 0 in
  let k := mkCall (k_req k) (k_tok k) (k_left k) (k_h k) (k_reuse k) (k_ec k) (k_n k)
                  (k_got k + got) (k_hist k) in
  match e with
  | Closed => Some (Run (again k EClosed), set_conn s i c)
  | Broken => Some (Ended k (Some EIo), set_conn s i c)
  | Fine =>
    match read_header (a_hdr a) (a_junk a) c with
    | None => None
    | Some (Closed, _, _, c1) => Some (Run (again k EClosed), set_conn s i c1)
    | Some (Broken, _, _, c1) => Some (Ended k (Some EIo), set_conn s i c1)
    | Some (Fine, q, r, c1) => Some (answer a i k q r (set_conn s i c1))
    end
  end.

Definition put_user (u : nat) (o : option (user * st)) : outcome st :=
  match o with None => Stuck | Some (x, s) => Next (set_user s u x) end.

(** One iteration of the loop, or its end (cloud/utils.cc:190-277). The new handle is obtained
    before the assignment gives the one of the previous iteration back (:191-195). *)
Definition attempt (rc : nat) (u : nat) (a : att) (k : call) (s : st) : outcome st :=
  match k_left k with
  | O => Next (set_user s u (Ended k (k_ec k)))
  | S n =>
    match get_handle (a_connect a) s with
    | (None, s1) => Next (set_user s1 u (Ended k (Some EConnect)))
    | (Some i, s1) =>
      match release_opt (k_h k) s1 with
      | None => Ub
      | Some s2 =>
        put_user u (talk rc a i (mkCall (k_req k) (k_tok k) n (Some i) (k_reuse k) (k_ec k) (k_n k)
                                        (k_got k) (k_hist k)) s2)
      end
    end
  end.

(** ** Transitions *)

(** RefreshIfExpiring at the start of Send (cloud/utils.cc:179-188). *)
Inductive expiry := Valid | Renewed | RenewFails.

(** - [Begin u req n t x]: user [u] calls Send(n, req) with a request signed with token [t];
    - [Attempt u a]: the next iteration of the call of [u];
    - [Read u n]: [u] reads [n] bytes of the body; [ReadFail u]: reading fails, which closes the
      socket (http_client.h:152-159);
    - [Drop u]: the SenderResult of [u] ends (cloud/utils.cc:149-153);
    - [DropHandle u]: [u] has moved the handle out of its SenderResult, as the ReadFile classes do
      (gcp/gcs_file.cc:263, azure/storage.cc, aws/s3_storage.cc), and the handle ends;
    - [ServerClose i]: the server closes connection [i]. *)
Inductive op :=
| Begin (u : nat) (req : N) (n : nat) (t : N) (x : expiry)
| Attempt (u : nat) (a : att)
| Read (u : nat) (n : N)
| ReadFail (u : nat)
| Drop (u : nat)
| DropHandle (u : nat)
| ServerClose (i : nat).

Definition user_call (x : user) : option call :=
  match x with Idle => None | Run k | Got k _ _ | Ended k _ => Some k end.

Definition finish (u : nat) (o : option st) : outcome st :=
  match o with None => Ub | Some s => Next (set_user s u Idle) end.

(** [rc]: ClientPool::set_retry_count (https_client_pool.h:61-63). *)
Definition step (rc : nat) (s : st) (o : op) : outcome st :=
  match o with
  | Begin u req n t x =>
    match p_users s u with
    | Idle =>
      if p_tok s <? t then Stuck else
      let k t := mkCall req t n None true None n 0 [] in
      match x with
      | Valid => Next (set_user s u (Run (k t)))
      | Renewed => Next (set_user (set_tok s (p_tok s + 1)) u (Run (k (p_tok s + 1))))
      | RenewFails => Next (set_user s u (Ended (k t) (Some ECred)))
      end
    | _ => Stuck
    end
  | Attempt u a => match p_users s u with Run k => attempt rc u a k s | _ => Stuck end
  | Read u n =>
    match p_users s u with
    | Got k _ _ =>
      match k_h k with
      | Some i => if c_open (conn_at s i) && (n <=? c_left (conn_at s i))
                  then Next (set_conn s i (with_left (conn_at s i) (c_left (conn_at s i) - n)))
                  else Stuck
      | None => Stuck
      end
    | _ => Stuck
    end
  | ReadFail u =>
    match p_users s u with
    | Got k _ _ => match k_h k with
                   | Some i => Next (set_conn s i (close (conn_at s i)))
                   | None => Stuck
                   end
    | _ => Stuck
    end
  | Drop u =>
    match p_users s u with
    | Got k _ _ | Ended k _ =>
      match k_h k with
      | None => Next (set_user s u Idle)
      | Some i => finish u (release i (if k_reuse k then s else set_conn s i (close (conn_at s i))))
      end
    | _ => Stuck
    end
  | DropHandle u =>
    match p_users s u with
    | Got k _ _ => match k_h k with
                   | None => Stuck
                   | Some i => finish u (release i s)
                   end
    | _ => Stuck
    end
  | ServerClose i =>
    if (i <? length (p_conns s))%nat then
      let c := conn_at s i in
      Next (set_conn s i (mkConn (c_open c) false (c_wire c) (c_left c) (c_del c)))
    else Stuck
  end.
