(** Model of the files that read an object from cloud storage:
    - S3ReadFile (util/aws/s3_read_file.cc), which downloads chunks with the AWS library;
    - the ReadFile classes of S3, Azure and Google Cloud Storage (util/cloud/aws/s3_storage.cc,
      util/cloud/azure/storage.cc, util/cloud/gcp/gcs_file.cc), which stream one response.

    Only their data flow is modelled. The object does not change while it is read. A read request
    is the list of the lengths of its buffers; its result is the bytes stored in them, in order, or
    [None] for an error. The service and the network are lists of fates, one per request or receive;
    when the list runs out, the caller is still waiting ([Wait]). [Ub]: undefined behaviour;
    [Abort]: a CHECK fails. The offset argument is not used by the code (s3_storage.cc has a
    DCHECK that reads are sequential) and is left out. *)
From Verif Require Import Util.
Open Scope N_scope.

Inductive out (S F : Type) := Wait | Ub | Abort | Ret (r : option (list N)) (s : S) (net : list F).
Arguments Wait {S F}. Arguments Ub {S F}. Arguments Abort {S F}. Arguments Ret {S F}.

(** ** S3ReadFile *)

(** What GetObject of a byte range yields. [GWhole]: a service that ignores ranges sends the whole
    object, without a Content-Range header. *)
Inductive get_fate := GOk | GErr | GWhole.

(** [d_buf]: the input of [buf_] (IoBuf is the subject of C13-C14); [d_read], [d_size]: file_read_,
    file_size_ (s3_read_file.h:50-56). *)
Record dl := mkDl { d_buf : list N; d_read : N; d_size : N }.
(** s3_read_file.cc:16-19. *)
Definition dl0 : dl := mkDl [] 0 0.

Section S3ReadFile.
  (** The object, and buf_.Capacity(): the chunk size rounded up to a power of two. *)
  Variables (obj : list N) (c : N).

  (** "If we're read the whole file we're done" (s3_read_file.cc:56-59, :87-90). *)
  Definition at_end (s : dl) : bool := (0 <? d_size s) && (d_read s =? d_size s).

  (** A successful download (s3_read_file.cc:101-117): the CHECK, the copy into the append buffer,
      which holds [c] bytes, and the file size on the first one (:147-165). *)
  Inductive dres := DUb | DAbort | DOk (s : dl).
  Definition store (body : list N) (s : dl) : dres :=
    if negb (len (d_buf s) =? 0) then DAbort
    else if c <? len body then DUb
    else DOk (mkDl body (d_read s) (if d_size s =? 0 then len obj else d_size s)).

  (** S3ReadFile::Read(iovec) (s3_read_file.cc:53-84) with DownloadChunk (:86-141). [got]: what was
      copied so far. A round that copies the last byte asked for, or of the file, returns at the top of
      the next one; the model returns at once. *)
  Fixpoint read_buf (net : list get_fate) (got : list N) (want : N) (s : dl) : out dl get_fate :=
    if at_end s then Ret (Some got) s net
    else if want - len got =? 0 then Ret (Some got) s net
    else
      let n := N.min (want - len got) (len (d_buf s)) in
      let got1 := got ++ take n (d_buf s) in
      let s1 := mkDl (drop n (d_buf s)) (d_read s + n) (d_size s) in
      if len got1 <? want then
        if at_end s1 then Ret (Some got1) s1 net
        else
          match net with
          | [] => Wait
          | GErr :: net' => Ret None s1 net'
          | GOk :: net' =>
            (* the range starts behind the object: InvalidRange *)
            if len obj <=? d_read s1 then Ret None s1 net'
            else match store (take c (drop (d_read s1) obj)) s1 with
                 | DUb => Ub
                 | DAbort => Abort
                 | DOk s2 => read_buf net' got1 want s2
                 end
          | GWhole :: net' =>
            match store obj s1 with
            | DUb => Ub
            | DAbort => Abort
            | DOk s2 => read_buf net' got1 want s2
            end
          end
      else Ret (Some got1) s1 net.

  (** S3ReadFile::Read (s3_read_file.cc:21-39). *)
  Fixpoint read_bufs (lens : list N) (acc : list N) (s : dl) (net : list get_fate) : out dl get_fate :=
    match lens with
    | [] => Ret (Some acc) s net
    | n :: r =>
      match read_buf net [] n s with
      | Ret (Some b) s1 net1 => read_bufs r (acc ++ b) s1 net1
      | o => o
      end
    end.
End S3ReadFile.

(** ** The streaming readers *)

Inductive kind := S3 | Azure | Gcs.

(** [t_sess]: a response is being received (client_handle_ and parser_); [t_left]: the part of its
    body not handed out yet; [t_open]: the socket is open; [t_offs], [t_size]: offs_, size_. *)
Record stream := mkStream { t_sess : bool; t_left : list N; t_open : bool; t_offs : N; t_size : N }.
Definition stream0 : stream := mkStream false [] false 0 0.

(** The fate of a request: [NOpen]: it is answered with a header that has the content length;
    [NOpenNoLen]: with a header without it; [NErr]: RobustSender::Send fails. The fate of a receive:
    [NMore]: the buffer is filled, or the body ends; [NFail k]: an error, such as partial_message
    when the peer closes the connection, after at most [k] more bytes. *)
Inductive fate := NOpen | NOpenNoLen | NErr | NMore | NFail (k : N).

Section Stream.
  Variables (kd : kind) (obj : list N).

  (** InitRead (s3_storage.cc:230-250, azure/storage.cc:267-288) and its counterpart in GcsReadFile::Read
      (gcp/gcs_file.cc:254-270), which keeps the connection although the length is missing. *)
  Definition init (f : fate) (s : stream) : bool * stream :=
    match f with
    | NOpen => (true, mkStream true obj true (t_offs s) (len obj))
    | NOpenNoLen =>
      match kd with
      | Gcs => (false, mkStream true obj true (t_offs s) (t_size s))
      | _ => (false, s)
      end
    | _ => (false, s)
    end.

  (** Client::Recv (http_client.h:152-159) with a buffer_body parser and a buffer of [n] bytes: the
      bytes stored and whether it ended without an error or with need_buffer. A parser that is done
      reads nothing; any other error closes the socket. *)
  Definition recv (n : N) (s : stream) (net : list fate) : option (list N * bool * stream * list fate) :=
    if len (t_left s) =? 0 then Some ([], true, s, net)
    else if negb (t_open s) then Some ([], false, s, net)
    else
      match net with
      | [] => None
      | f :: net' =>
        let m := match f with
                 | NFail k => N.min k (N.min n (len (t_left s)))
                 | _ => N.min n (len (t_left s))
                 end in
        let ok := match f with NFail _ => m =? len (t_left s) | _ => true end in
        Some (take m (t_left s), ok,
              mkStream true (drop m (t_left s)) ok (t_offs s + m) (t_size s), net')
      end.

  (** The loop of Read over the buffers (s3_storage.cc:252-278, azure/storage.cc:303-334,
      gcp/gcs_file.cc:273-298): Azure and GCS verify at a short receive that all was read. *)
  Fixpoint recv_bufs (lens : list N) (acc : list N) (s : stream) (net : list fate) : out stream fate :=
    match lens with
    | [] => Ret (Some acc) s net
    | n :: r =>
      match recv n s net with
      | None => Wait
      | Some (b, ok, s1, net') =>
        if negb ok then Ret None s1 net'
        else
          let short := negb (n - len b =? 0) && negb (t_offs s1 =? t_size s1) in
          match kd with
          | S3 => recv_bufs r (acc ++ b) s1 net'
          | Azure => if short then Ret None s1 net' else recv_bufs r (acc ++ b) s1 net'
          | Gcs => if short then Abort else recv_bufs r (acc ++ b) s1 net'
          end
      end
    end.

  (** Read (azure/storage.cc:290-301, gcp/gcs_file.cc:249-254). An S3 file is opened by OpenReadFile
      (s3_storage.cc:508-518), which is modelled as part of the first read; a failed open as a failed
      read. *)
  Definition stream_read (lens : list N) (s : stream) (net : list fate) : out stream fate :=
    if t_sess s then recv_bufs lens [] s net
    else
      match net with
      | [] => Wait
      | f :: net' =>
        let '(ok, s1) := init f s in
        if ok then recv_bufs lens [] s1 net' else Ret None s1 net'
      end.
End Stream.

(** ** Sequences of reads *)

Section Sessions.
  Context {S F : Type}.
  Variable read : list N -> S -> list F -> out S F.
  Fixpoint session (calls : list (list N)) (s : S) (net : list F)
    : out S F * list (option (list N)) :=
    match calls with
    | [] => (Ret None s net, [])
    | lens :: r =>
      match read lens s net with
      | Ret o s1 net1 => let '(e, l) := session r s1 net1 in (e, o :: l)
      | o => (o, [])
      end
    end.
End Sessions.

Definition s3_session (obj : list N) (c : N) (calls : list (list N)) (net : list get_fate) :=
  session (fun lens s net => read_bufs obj c lens [] s net) calls dl0 net.
Definition stream_session (kd : kind) (obj : list N) (calls : list (list N)) (net : list fate) :=
  session (stream_read kd obj) calls stream0 net.
