(** C21, C22, C23, C41 - the io::Sink / io::Source composite operations and AdvanceIovec.
    Vocabulary in IoStreamSpec.v; outcomes [WDone], [WFail], ... in IoStreamModel.v. *)
From Verif Require Import Util IoBufModel IoBufSpec IoBufProof IoStreamModel IoStreamSpec IoStreamProof.
Open Scope N_scope.

(** ---- C21 Sink::Write ---- *)

(** Success means that the sink accepted exactly the concatenation of the buffers, in order. *)
Theorem sink_write_ok : forall vs rs acc, SinkWrite vs rs = WDone acc -> acc = concat vs.
Proof. exact sink_write_ok_pf. Qed.
Print Assumptions sink_write_ok.

(** Failure: the accepted bytes are a prefix; the error is that of the first WriteSome call that
    failed with something else than "interrupted", or io_error if a call accepted nothing. Before
    it there were only interruptions and non-empty partial writes. *)
Theorem sink_write_error : forall vs rs e acc, SinkWrite vs rs = WFail e acc ->
  is_prefix acc (concat vs) /\
  exists before answer after, rs = before ++ answer :: after /\
    (answer = WErr e /\ e <> EINTR \/ answer = WOk 0 /\ e = EIO) /\
    (forall r, In r before -> r = WErr EINTR \/ exists n, 0 < n /\ r = WOk n).
Proof. exact sink_write_error_pf. Qed.
Print Assumptions sink_write_error.

(** No undefined behaviour, and in every intermediate state the accepted bytes are a prefix. *)
Theorem sink_write_pending : forall vs rs,
  match SinkWrite vs rs with
  | WPending acc => is_prefix acc (concat vs)
  | WUB => False
  | _ => True
  end.
Proof.
  intros vs rs. pose proof (apply_exactly_ok (WriteSomeBytes rs) (Outer vs) []) as H.
  unfold SinkWrite, ApplyExactly. destruct (apply_exactly _ _ _); simpl in H; auto.
Qed.
Print Assumptions sink_write_pending.

(** Write returns after at most total+1 calls that are not interrupted (unless the sink breaks its
    contract). *)
Theorem sink_write_progress : forall vs rs,
  len (concat vs) < real_answers rs -> exists acc, SinkWrite vs rs = WDone acc \/
     (exists e, SinkWrite vs rs = WFail e acc) \/ SinkWrite vs rs = WBad.
Proof. exact sink_write_progress_pf. Qed.
Print Assumptions sink_write_progress.

(** Non-vacuity: zero-length entries, a split inside an entry, interruptions. *)
Example sink_write_demo : SinkWrite [[1;2;3];[];[4;5;6;7];[8]]
  [WErr EINTR; WOk 4; WOk 1; WErr EINTR; WOk 2; WOk 1] = WDone [1;2;3;4;5;6;7;8].
Proof. reflexivity. Qed.
Example sink_write_demo_err : SinkWrite [[1;2;3];[4;5]] [WOk 4; WErr 32] = WFail 32 [1;2;3;4].
Proof. reflexivity. Qed.
Example sink_write_demo_zero : SinkWrite [[1;2;3];[4;5]] [WOk 4; WOk 0] = WFail EIO [1;2;3;4].
Proof. reflexivity. Qed.

(** Corner case: when all the buffers are empty, a conforming sink can only answer 0, and Write
    reports io_error although there was nothing to write. *)
Theorem sink_write_empty_reports_error : forall n,
  SinkWrite (repeat [] (S n)) [WOk 0] = WFail EIO [].
Proof. reflexivity. Qed.
Print Assumptions sink_write_empty_reports_error.

(** AsyncSink::AsyncWrite: the callback gets success only when everything was accepted in order;
    an error is the sink's own, with a prefix accepted. *)
Theorem async_write_correct : forall vs rs, vs <> [] ->
  match AsyncWrite vs rs with
  | WDone acc => acc = concat vs
  | WFail e acc => is_prefix acc (concat vs) /\ In (WErr e) rs
  | WPending acc => is_prefix acc (concat vs)
  | WBad => True
  | WUB => False
  end.
Proof. intros. exact (async_write_ok rs vs [] H). Qed.
Print Assumptions async_write_correct.
Example async_write_demo : AsyncWrite [[1;2;3];[];[4;5];[]] [WOk 2; WOk 0; WOk 2; WOk 1] = WDone [1;2;3;4;5].
Proof. reflexivity. Qed.

(** AsyncSource::AsyncRead: success exactly fills the buffers with consecutive bytes. *)
Theorem async_read_correct : forall caps rs, caps <> [] ->
  match AsyncRead caps rs with
  | RDone g => len g = total caps /\ is_prefix g (all_data rs)
  | RFail e g => is_prefix g (all_data rs) /\ In (RErr e) rs
  | RPending g => g = all_data rs
  | RBad => True
  | RUB => False
  end.
Proof. intros. exact (async_read_ok rs caps [] H). Qed.
Print Assumptions async_read_correct.
Example async_read_demo : AsyncRead [3;0;2] [RData [1;2]; RData [3;4]; RData [5]] = RDone [1;2;3;4;5].
Proof. reflexivity. Qed.
(** At end of stream the callback never fires: the same read is reissued for ever. *)
Theorem async_read_eof_never_completes : forall n caps, caps <> [] -> 0 < total caps ->
  AsyncRead caps (repeat eof n) = RPending [].
Proof. intros. apply async_read_eof_never; auto. Qed.
Print Assumptions async_read_eof_never_completes.

(** ---- C22 Source::ReadAtLeast / Read ---- *)

(** On success with result [g]: [used] are the answers of the ReadSome calls made; [g] is their
    data in order; it fits; fewer than [min] bytes only if the last answer was end-of-stream; no
    call was made once [min] bytes were there; each call offered a non-empty buffer. *)
Theorem read_at_least_done : forall size min rs g calls,
  ReadAtLeast size min rs = (RDone g, calls) ->
  exists used rest, rs = used ++ rest /\ g = all_data used /\ len used = len calls /\
    len g <= size /\
    (len g < min -> exists used', used = used' ++ [eof]) /\
    (forall u1 u2, used = u1 ++ u2 -> u2 <> [] -> len (all_data u1) < min) /\
    (min <= size -> Forall (fun c => 0 < c) calls).
Proof.
  intros size min rs g calls E. unfold ReadAtLeast in E.
  destruct (read_at_least_ok rs size min [] []) as (cs & E1 & E2 & E3). rewrite E in *. simpl in *. subst calls.
  destruct E3 as ((used & rest & H1 & H2 & H3 & H4 & H5 & H6) & H7).
  exists used, rest. repeat split; auto.
Qed.
Print Assumptions read_at_least_done.

(** Failure and waiting; an error hides the count of the bytes already stored (returned as [g]
    here only for the statement). *)
Theorem read_at_least_other : forall size min rs,
  match fst (ReadAtLeast size min rs) with
  | RFail e g => exists used rest, rs = used ++ RErr e :: rest /\ g = all_data used
  | RPending g => g = all_data rs /\ len g < min
  | RUB => False
  | _ => True
  end.
Proof.
  intros. destruct (read_at_least_ok rs size min [] []) as (cs & _ & _ & E3).
  unfold ReadAtLeast. destruct (fst _); auto.
Qed.
Print Assumptions read_at_least_other.

(** Source::Read fills the buffer unless end-of-stream. *)
Theorem source_read_full : forall size rs g calls,
  SourceRead size rs = (RDone g, calls) ->
  len g = size \/ exists used' rest, rs = used' ++ eof :: rest /\ g = all_data used'.
Proof.
  intros size rs g calls E. destruct (read_at_least_done _ _ _ _ _ E) as (used & rest & H1 & H2 & _ & H3 & H4 & _).
  destruct (N.eq_dec (len g) size) as [|Hn]; auto. right.
  destruct H4 as [u' ->]; [lia|]. exists u', rest. rewrite <- app_assoc in H1. split; auto.
  rewrite H2. unfold all_data. rewrite map_app, concat_app. simpl. now rewrite app_nil_r.
Qed.
Print Assumptions source_read_full.
Example read_demo : ReadAtLeast 6 4 [RData [1;2]; RData [3]; RData [4;5;6]; RData [7]] = (RDone [1;2;3;4;5;6], [6;4;3]).
Proof. reflexivity. Qed.
Example read_demo_eof : SourceRead 6 [RData [1;2]; RData [3]; RData []; RData [7]] = (RDone [1;2;3], [6;4;3]).
Proof. reflexivity. Qed.
(** min_size > dest.size() (a violated DCHECK) would offer an empty buffer. *)
Example read_demo_bad_min : ReadAtLeast 2 4 [RData [1;2]; RData []] = (RDone [1;2], [2;0]).
Proof. reflexivity. Qed.

(** ---- C23 BytesSource, BufSource, PrefixSource ---- *)

(** Any sequence of reads on a BytesSource gives the ideal stream of its bytes: every read is as
    long as the buffers or the remaining bytes allow. *)
Theorem bytes_source_stream : forall buf reads, bytes_reads buf 0 reads = ideal_reads buf reads.
Proof. intros. rewrite bytes_reads_ok, drop_0; auto. apply N.le_0_l. Qed.
Print Assumptions bytes_source_stream.
(** No entry receives more than its capacity. *)
Theorem bytes_source_fits : forall buf offs caps,
  Forall2 (fun c chunk => len chunk <= c) (firstn (length (fst (BytesSource_ReadSome buf offs caps))) caps)
          (fst (BytesSource_ReadSome buf offs caps)).
Proof. intros. apply ReadSomeBytes_fill. Qed.
Print Assumptions bytes_source_fits.
Example bytes_demo : bytes_reads [1;2;3;4;5;6;7] 0 [[2;0;1]; []; [3]; [9;9]; [4]] = [[1;2;3];[];[4;5;6];[7];[]].
Proof. reflexivity. Qed.

(** BufSink and BufSource on one IoBuf behave as a byte pipe (no UB, FIFO), for all interleavings
    of vectored writes and reads that write at most 2^63 bytes in total. *)
Theorem buf_pipe : forall c h b0, c <= 2 ^ 63 -> NewIoBuf c = Some b0 -> pipe_written h <= 2 ^ 63 ->
  exists b, pipe_run b0 h = Some (b, map Some (snd (pipe_spec [] h))) /\
    InputBuffer b = map Some (fst (pipe_spec [] h)).
Proof.
  intros c h b0 Hc Hn Hw. destruct (New_ok c Hc) as (b & E & R & _). rewrite Hn in E. injection E as <-.
  destruct (pipe_ok h b0 [] R) as (b' & E' & R').
  - assert (size b0 = 0). { unfold NewIoBuf, Reserve in Hn. destruct (_ <? _); [injection Hn as <-; auto|].
      destruct (bit_ceil c); [|discriminate]. injection Hn as <-. auto. } lia.
  - exists b'. split; auto. apply R'.
Qed.
Print Assumptions buf_pipe.
Example buf_pipe_demo : exists b0 b, NewIoBuf 4 = Some b0 /\
  pipe_run b0 [PWrite [[1;2;3];[];[4;5]]; PRead [1;2]; PWrite [[6]]; PRead [8]; PRead [1]] =
    Some (b, map Some [1;2;3;4;5;6]).
Proof. do 2 eexists; split; [reflexivity|]. vm_compute. reflexivity. Qed.

Theorem string_sink_correct : forall vs s, StringSink_WriteSome vs s = (len (concat vs), s ++ concat vs).
Proof. intros. apply StringSink_ok. Qed.
Print Assumptions string_sink_correct.
Theorem null_sink_correct : forall vs, NullSink_WriteSome vs = len (concat vs).
Proof. exact NullSink_ok. Qed.
Print Assumptions null_sink_correct.

(** PrefixSource over an arbitrary upstream: the reads split into those served from the prefix
    ([mine]) and the later ones passed verbatim to the upstream ([theirs]); the former give the
    prefix in order, completely before the first of the latter; a read into a non-empty first
    buffer that is served from the prefix is not mistaken for end-of-stream. *)
Theorem prefix_source_stream : forall (U R : Type) (up : U -> list N -> U * sres R) prefix u0 reads,
  Forall (fun c => c <> []) reads ->
  exists s' rs mine theirs served,
    prefix_reads up prefix (PS 0 u0) reads = Some (s', rs) /\
    reads = mine ++ theirs /\
    rs = map SBytes served ++ snd (direct_reads up u0 theirs) /\
    pup s' = fst (direct_reads up u0 theirs) /\
    length served = length mine /\
    concat served ++ UnusedPrefix prefix s' = prefix /\
    (theirs <> [] -> concat served = prefix) /\
    (forall i c cs, nth_error mine i = Some (c :: cs) -> 0 < c -> exists x xs, nth_error served i = Some (x :: xs)).
Proof.
  intros U R up prefix u0 reads H.
  destruct (prefix_ok up reads prefix (PS 0 u0) (N.le_0_l _) H) as
    (s' & rs & mine & theirs & served & E1 & E2 & E3 & E4 & E5 & E6 & E7 & E8 & _).
  assert (EU : UnusedPrefix prefix (PS 0 u0) = prefix).
  { unfold UnusedPrefix. simpl. destruct (N.leb_spec (len prefix) 0); auto.
    symmetry. apply len_zero. lia. }
  rewrite EU in *. exists s', rs, mine, theirs, served. repeat split; auto.
Qed.
Print Assumptions prefix_source_stream.
(** Non-vacuity: upstream is itself a BytesSource. *)
Definition demo_up (o : N) (caps : list N) : N * sres unit :=
  let (l, o') := BytesSource_ReadSome [11;12;13] o caps in (o', SBytes (concat l)).
Example prefix_demo : option_map snd (prefix_reads demo_up [1;2;3] (PS 0 0) [[2;5];[4];[1;1];[9];[1]]) =
  Some [SBytes [1;2]; SBytes [3]; SBytes [11;12]; SBytes [13]; SBytes []].
Proof. reflexivity. Qed.
(** A zero-length first buffer makes a read of an unfinished prefix return 0, which the interface
    defines as end-of-stream, although the second buffer has room. *)
Theorem prefix_source_false_eof : forall (U R : Type) (up : U -> list N -> U * sres R) p ps u c,
  exists s', Prefix_ReadSome up (p :: ps) (PS 0 u) [0; c] = Some (s', SBytes []) /\
    UnusedPrefix (p :: ps) s' = p :: ps.
Proof.
  intros. eexists. split; [unfold Prefix_ReadSome; simpl poffs|].
  - destruct (N.ltb_spec 0 (len (p :: ps))) as [H|H]; [|rewrite len_cons in H; lia].
    rewrite N.min_0_r. reflexivity.
  - unfold UnusedPrefix. cbn [poffs]. destruct (N.leb_spec (len (p :: ps)) (0 + 0)) as [H|H]; [|reflexivity].
    rewrite len_cons in H. lia.
Qed.
Print Assumptions prefix_source_false_eof.

(** ---- C41 AdvanceIovec ---- *)
Theorem advance_iovec : forall vs n, n <= len (concat vs) ->
  exists vs', AdvanceIovec vs n = Some vs' /\ concat vs' = drop n (concat vs).
Proof. intros. now apply advance_iovec_ok. Qed.
Print Assumptions advance_iovec.
Theorem advance_iovec_too_far : forall vs n, len (concat vs) < n -> AdvanceIovec vs n = None.
Proof. intros. now apply advance_iovec_abort. Qed.
Print Assumptions advance_iovec_too_far.
Theorem is_empty_iovec : forall vs, IsEmptyIovec vs = true <-> concat vs = [].
Proof. exact is_empty_ok. Qed.
Print Assumptions is_empty_iovec.
(** The sum, or an abort exactly when it does not fit size_t. *)
Theorem iovec_total_bytes : forall lens, Forall (fun l => l < two64) lens ->
  GetIovecTotalBytes 0 lens = if total lens <? two64 then Some (total lens) else None.
Proof. intros. now rewrite total_bytes_ok. Qed.
Print Assumptions iovec_total_bytes.
Example advance_demo : AdvanceIovec [[1;2];[];[3;4;5];[6]] 3 = Some [[4;5];[6]].
Proof. reflexivity. Qed.
