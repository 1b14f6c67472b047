(** Model of io::Sink / io::Source helpers (io/io.h, io/io.cc) and of util/tls/iovec_utils.cc.

    A buffer described by an iovec entry is the list of its bytes (for writes) or its capacity
    (for reads). The object behind the interface (WriteSome, AsyncWriteSome, ReadSome,
    AsyncReadSome) is arbitrary: it is the list of the answers it gives, one per call. The list is
    universally quantified in the theorems. When it runs out the operation is still waiting
    ([Pending]). An answer that violates the interface contract (io.h:52-53, io.h:118: a count
    larger than the buffers offered) gives the outcome [Bad].
    Not modelled: iov_base pointers (contents instead), overflow of the sum of the lengths, the
    DCHECKs (they are compiled out in release builds). *)
From Verif Require Import Util IoBufModel.
Open Scope N_scope.

(** Error codes of std::errc used by name in the code. *)
Definition EINTR : N := 4.
Definition EIO : N := 5.

(** Answer of one WriteSome/AsyncWriteSome: number of bytes accepted, or an error. *)
Inductive wresp := WOk (n : N) | WErr (e : N).

(** Outcome of a composite write. [acc]: the bytes the sink has accepted, in order. *)
Inductive wout :=
| WDone (acc : list N)              (* returned success *)
| WFail (e : N) (acc : list N)      (* returned error e *)
| WPending (acc : list N)           (* still waiting for the sink *)
| WBad                              (* the sink broke its contract *)
| WUB.                              (* undefined behaviour: reads an entry past the array *)

(** io/io.h:290-293 (the inner while of ApplyExactly): skip the entries fully covered by [done].
    Returns the remaining entries and the remaining count. *)
Fixpoint skip_done (done : N) (vs : list (list N)) : N * list (list N) :=
  match vs with
  | [] => (done, [])
  | v :: vs' => if len v <=? done then skip_done (done - len v) vs' else (done, vs)
  end.

(** io/io.h:279-312 ApplyExactly. [Outer vs]: at the head of the outer loop with entries [vs].
    [Inner rest vs]: in the do-while with [next, base_end) = [rest] (io.h:301-308) and [vs] the
    entries after it. One answer of [func] is consumed per call. *)
Inductive apos := Outer (vs : list (list N)) | Inner (rest : list N) (vs : list (list N)).

Definition offered (p : apos) : list N :=
  match p with Outer vs => concat vs | Inner rest _ => rest end.

(** io/io.h:282 and io.h:308-310: control state after leaving the do-while or going round. *)
Definition advance (done : N) (p : apos) : option apos :=
  match p with
  | Outer vs =>
    match skip_done done vs with
    | (d, rest) => if d =? 0 then Some (Outer rest)              (* io.h:295-296 *)
                   else match rest with
                        | [] => None                             (* io.h:299 past the end *)
                        | v :: vs' => Some (Inner (drop d v) vs')
                        end
    end
  | Inner rest vs =>
    let r := drop done rest in
    if len r =? 0 then Some (Outer vs) else Some (Inner r vs)
  end.

Fixpoint apply_exactly (p : apos) (acc : list N) (rs : list wresp) : wout :=
  match p with
  | Outer [] => WDone acc
  | _ =>
    match rs with
    | [] => WPending acc
    | WErr e :: _ => WFail e acc
    | WOk n :: rs' =>
      if len (offered p) <? n then WBad
      else match advance n p with
           | None => WUB
           | Some p' => apply_exactly p' (acc ++ take n (offered p)) rs'
           end
    end
  end.
Definition ApplyExactly (vs : list (list N)) (rs : list wresp) : wout := apply_exactly (Outer vs) [] rs.

(** io/io.cc:19-33 WriteSomeBytes: the answers the loop of WriteSomeBytes passes on: interrupted
    answers are retried, a count of 0 becomes io_error. *)
Fixpoint WriteSomeBytes (rs : list wresp) : list wresp :=
  match rs with
  | [] => []
  | WErr e :: rs' => if e =? EINTR then WriteSomeBytes rs' else WErr e :: WriteSomeBytes rs'
  | WOk n :: rs' => (if n =? 0 then WErr EIO else WOk n) :: WriteSomeBytes rs'
  end.

(** io/io.cc:186-189 Sink::Write *)
Definition SinkWrite (vs : list (list N)) (rs : list wresp) : wout := ApplyExactly vs (WriteSomeBytes rs).

(** io/io.cc:71-88 (and 101-118), the while loop of OnCb: entries [cur..end) have lengths given by
    [vs]; [None]: all entries finished (io.cc:76-82). The current entry must exist. *)
Fixpoint oncb_skip (sz : N) (vs : list (list N)) : option (list (list N)) :=
  match vs with
  | [] => None
  | v :: vs' => if len v <=? sz then oncb_skip (sz - len v) vs' else Some (drop sz v :: vs')
  end.

(** io/io.cc:64-92 and 217-221 AsyncWrite: the chain of completions. [WDone]/[WFail] is the single
    invocation of the user's callback, after which the state is deleted. *)
Fixpoint async_write (vs : list (list N)) (acc : list N) (rs : list wresp) : wout :=
  match rs with
  | [] => WPending acc
  | WErr e :: _ => WFail e acc
  | WOk n :: rs' =>
    match vs with
    | [] => WUB                                  (* cur->iov_len of an empty array, io.cc:72 *)
    | _ => if len (concat vs) <? n then WBad
           else match oncb_skip n vs with
                | None => WDone (acc ++ take n (concat vs))
                | Some vs' => async_write vs' (acc ++ take n (concat vs)) rs'
                end
    end
  end.
Definition AsyncWrite (vs : list (list N)) (rs : list wresp) : wout := async_write vs [] rs.

(** Answer of one ReadSome/AsyncReadSome: the bytes stored (from the start of the buffers offered),
    none meaning end of stream (io.h:55-56), or an error. *)
Inductive rresp := RData (bs : list N) | RErr (e : N).

Inductive rout :=
| RDone (got : list N)              (* success; the bytes stored, in order *)
| RFail (e : N) (got : list N)      (* error e; [got] were stored before it *)
| RPending (got : list N)
| RBad
| RUB.

(** io/io.cc:101-118 as [oncb_skip], on capacities. *)
Fixpoint oncb_skip_caps (sz : N) (caps : list N) : option (list N) :=
  match caps with
  | [] => None
  | c :: cs => if c <=? sz then oncb_skip_caps (sz - c) cs else Some (c - sz :: cs)
  end.
Definition total (caps : list N) : N := fold_right N.add 0 caps.

(** io/io.cc:94-122 and 223-227 AsyncRead *)
Fixpoint async_read (caps : list N) (got : list N) (rs : list rresp) : rout :=
  match rs with
  | [] => RPending got
  | RErr e :: _ => RFail e got
  | RData bs :: rs' =>
    match caps with
    | [] => RUB
    | _ => if total caps <? len bs then RBad
           else match oncb_skip_caps (len bs) caps with
                | None => RDone (got ++ bs)
                | Some caps' => async_read caps' (got ++ bs) rs'
                end
    end
  end.
Definition AsyncRead (caps : list N) (rs : list rresp) : rout := async_read caps [] rs.

(** io/io.cc:142-160 Source::ReadAtLeast. [cap] = cur.size(), [got] = what dest holds so far
    (to_read = its length). Source::Read (io.h:98-100) is the case min = dest.size(). Also
    returned: the sizes of the buffers passed to the ReadSome calls. *)
Fixpoint read_at_least (cap min : N) (got : list N) (calls : list N) (rs : list rresp)
  : rout * list N :=
  if len got <? min then
    match rs with
    | [] => (RPending got, calls)
    | RErr e :: _ => (RFail e got, calls ++ [cap])
    | RData bs :: rs' =>
      if cap <? len bs then (RBad, calls ++ [cap])
      else if len bs =? 0 then (RDone got, calls ++ [cap])
      else read_at_least (cap - len bs) min (got ++ bs) (calls ++ [cap]) rs'
    end
  else (RDone got, calls).
Definition ReadAtLeast (size min : N) (rs : list rresp) := read_at_least size min [] [] rs.
Definition SourceRead (size : N) (rs : list rresp) := ReadAtLeast size size rs.

(** io/io.cc:125-138 ReadSomeBytes: contents stored into each entry visited, and the new offset. *)
Fixpoint ReadSomeBytes {A} (caps : list N) (src : list A) (offs : N) : list (list A) * N :=
  match caps with
  | [] => ([], offs)
  | c :: cs =>
    if offs <? len src then
      let rd := N.min (len src - offs) c in
      let (l, o) := ReadSomeBytes cs src (offs + rd) in (take rd (drop offs src) :: l, o)
    else ([], offs)
  end.

(** io/io.cc:162-164 BytesSource::ReadSome on the state (buf_, offs_). *)
Definition BytesSource_ReadSome (buf : list N) (offs : N) (caps : list N) : list (list N) * N :=
  ReadSomeBytes caps buf offs.

(** io/io.cc:166-171 BufSource::ReadSome. *)
Definition BufSource_ReadSome (caps : list N) (b : iobuf) : option (list (list cell) * iobuf) :=
  let (l, o) := ReadSomeBytes caps (InputBuffer b) 0 in
  match ConsumeInput o b with Some b' => Some (l, b') | None => None end.

(** io/io.cc:199-206 BufSink::WriteSome; the count returned is the total length. *)
Fixpoint BufSink_WriteSome (vs : list (list N)) (b : iobuf) : option (N * iobuf) :=
  match vs with
  | [] => Some (0, b)
  | v :: vs' => match WriteAndCommit v b with
                | None => None
                | Some b' => match BufSink_WriteSome vs' b' with
                             | None => None
                             | Some (n, b'') => Some (len v + n, b'')
                             end
                end
  end.

(** io/io.cc:208-215 StringSink::WriteSome *)
Fixpoint StringSink_WriteSome (vs : list (list N)) (s : list N) : N * list N :=
  match vs with
  | [] => (0, s)
  | v :: vs' => let (n, s') := StringSink_WriteSome vs' (s ++ v) in (len v + n, s')
  end.

(** io/io.cc:191-197 NullSink::WriteSome *)
Fixpoint NullSink_WriteSome (vs : list (list N)) : N :=
  match vs with [] => 0 | v :: vs' => len v + NullSink_WriteSome vs' end.

(** PrefixSource: io/io.cc:173-184 over an arbitrary upstream object with state [U]. *)
Section Prefix.
  Context {U R : Type}.
  (** Result of a ReadSome: the bytes stored, or whatever error the upstream reports. *)
  Inductive sres := SBytes (bs : list N) | SErr (r : R).
  Variable up : U -> list N -> U * sres.
  Record pstate := PS { poffs : N; pup : U }.
  (** [None]: the CHECK(len > 0) aborts. *)
  Definition Prefix_ReadSome (prefix : list N) (s : pstate) (caps : list N) : option (pstate * sres) :=
    match caps with
    | [] => None
    | c :: _ =>
      if poffs s <? len prefix then
        let sz := N.min (len prefix - poffs s) c in
        Some (PS (poffs s + sz) (pup s), SBytes (take sz (drop (poffs s) prefix)))
      else let (u, r) := up (pup s) caps in Some (PS (poffs s) u, r)
    end.
  (** io/io.h:205-207 *)
  Definition UnusedPrefix (prefix : list N) (s : pstate) : list N :=
    if len prefix <=? poffs s then [] else drop (poffs s) prefix.
End Prefix.
Arguments sres : clear implicits.

(** util/tls/iovec_utils.cc:11-29 AdvanceIovec; [None] is the CHECK failure (abort). *)
Fixpoint AdvanceIovec (vs : list (list N)) (n : N) : option (list (list N)) :=
  match vs with
  | [] => if n =? 0 then Some [] else None
  | v :: vs' =>
    if 0 <? n then
      if len v <=? n then AdvanceIovec vs' (n - len v) else Some (drop n v :: vs')
    else Some vs
  end.
(** util/tls/iovec_utils.cc:31-39 *)
Fixpoint IsEmptyIovec (vs : list (list N)) : bool :=
  match vs with [] => true | v :: vs' => if negb (len v =? 0) then false else IsEmptyIovec vs' end.
(** util/tls/iovec_utils.cc:41-50, on lengths (they need not be backed by memory here);
    [None] is the overflow CHECK. *)
Fixpoint GetIovecTotalBytes (tot : N) (lens : list N) : option N :=
  match lens with
  | [] => Some tot
  | l :: ls => let t := (tot + l) mod two64 in if tot <=? t then GetIovecTotalBytes t ls else None
  end.
