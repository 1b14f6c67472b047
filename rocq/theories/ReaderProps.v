(** C60, C61: files that read objects from cloud storage. *)
From Verif Require Import Util ReaderModel ReaderSpec ReaderProof.
Open Scope N_scope.

(** ** C60: S3ReadFile *)

(** With a service that honours ranges: no undefined behaviour; every successful read yields the bytes
    that follow the current position, as many as asked for or up to the end; without failures these are
    the bytes of the object in order. The gap after a failure is what is missing from the property. *)
Theorem s3_reads_partial obj c calls net e outs :
  ~ In GWhole net -> s3_session obj c calls net = (e, outs) ->
  e <> Ub /\ e <> Abort
  /\ slices obj 0 calls outs
  /\ (all_ok outs -> outs = map Some (firstn (length outs) (expected obj calls))).
Proof. exact (s3_reads_pf obj c calls net e outs). Qed.
Print Assumptions s3_reads_partial.

Example s3_reads_met :
  s3_session [1;2;3;4;5;6;7] 4 [[2]; [1;2]; [9]] [GOk; GOk]
    = (Ret None (mkDl [] 7 7) [], [Some [1;2]; Some [3;4;5]; Some [6;7]]).
Proof. reflexivity. Qed.

(** The size is known once a byte was read. *)
Theorem s3_size obj c calls net r s net' outs :
  ~ In GWhole net -> s3_session obj c calls net = (Ret r s net', outs) ->
  bytes_of outs <> [] -> d_size s = len obj.
Proof. exact (s3_size_pf obj c calls net r s net' outs). Qed.
Print Assumptions s3_size.

(** Without failures every read of a nonempty object ends, with one request per chunk. *)
Theorem s3_complete obj c calls net :
  obj <> [] -> 0 < c -> Forall (fun f => f = GOk) net -> len obj <= c * len net ->
  exists s net', s3_session obj c calls net = (Ret None s net', map Some (expected obj calls)).
Proof. exact (s3_complete_pf obj c calls net). Qed.
Print Assumptions s3_complete.

Example s3_complete_met :
  [1;2;3;4;5] <> @nil N /\ Forall (fun f => f = GOk) [GOk; GOk] /\ len [1;2;3;4;5] <= 4 * len [GOk; GOk]
  /\ expected [1;2;3;4;5] [[3]; []; [1;4]; [2]] = [[1;2;3]; []; [4;5]; []].
Proof. split; [discriminate|]. split; [repeat constructor|]. split; [discriminate|reflexivity]. Qed.

(** REFUTED: a read that fails in a later chunk has consumed bytes that no read yields. *)
Theorem s3_hole_refuted : exists obj c calls net e outs,
  ~ In GWhole net /\ s3_session obj c calls net = (e, outs)
  /\ (exists s net', e = Ret None s net')
  /\ ~ exists tl, obj = bytes_of outs ++ tl.
Proof.
  exists [1;2;3;4;5;6;7;8], 4, [[3]; [3]; [3]], [GOk; GErr; GOk]. do 2 eexists.
  split; [intros [X|[X|[X|[]]]]; discriminate|]. split; [reflexivity|].
  split; [do 2 eexists; reflexivity|].
  intros [tl E]. cbn in E. discriminate.
Qed.
Print Assumptions s3_hole_refuted.

(** REFUTED: a read of an empty object never yields end of file: it fails, or does not return. *)
Theorem s3_empty_refuted c calls net e outs i lens :
  s3_session [] c calls net = (e, outs) -> nth_error calls i = Some lens -> 0 < total lens ->
  nth_error outs i = Some None \/ nth_error outs i = None.
Proof. exact (s3_empty_pf c calls net e outs i lens). Qed.
Print Assumptions s3_empty_refuted.

Example s3_empty_met :
  s3_session [] 4 [[0]; [3]; [2]] [GOk; GOk] = (Ret None dl0 [], [Some []; None; None])
  /\ s3_session [] 4 [[3]] [GWhole; GWhole; GWhole] = (Wait, []).
Proof. split; reflexivity. Qed.

(** REFUTED: a response that ignores the range overflows the buffer. *)
Theorem s3_whole_refuted obj c n calls net :
  c < len obj -> 0 < n -> s3_session obj c ([n] :: calls) (GWhole :: net) = (Ub, []).
Proof.
  intros Hc Hn. unfold s3_session. cbn [session read_bufs]. rewrite read_buf_eq.
  unfold at_end, dl0; cbn [d_size d_read d_buf]. change (0 <? 0) with false. cbn [andb].
  change (len (@nil N)) with 0. rewrite N.sub_0_r, N.min_0_r, take_0, drop_0. cbn [app].
  change (len (@nil N)) with 0.
  destruct (N.eqb_spec n 0); [lia|]. destruct (N.ltb_spec 0 n); [|lia].
  unfold store. cbn [d_buf]. change (len (@nil N) =? 0) with true. cbn [negb].
  destruct (N.ltb_spec c (len obj)); [reflexivity | lia].
Qed.
Print Assumptions s3_whole_refuted.

(** ** C61: streaming readers *)

(** For every reader, except a GCS response without length: no abort; calls yield the bytes of the object
    in order until one fails, after which all fail; so what was read is a prefix of the object, a short
    read means that all of it was read, and Size() is right after a successful read. *)
Theorem stream_reads_partial kd obj calls net e outs :
  kd <> Gcs \/ ~ In NOpenNoLen net ->
  stream_session kd obj calls net = (e, outs) ->
  e <> Ub /\ e <> Abort
  /\ opened obj calls outs
  /\ (exists tl, obj = bytes_of outs ++ tl)
  /\ (forall i lens b, nth_error calls i = Some lens -> nth_error outs i = Some (Some b) ->
       len b < total lens -> bytes_of (firstn (S i) outs) = obj)
  /\ (forall r s net' o, e = Ret r s net' -> In o outs -> o <> None -> t_size s = len obj).
Proof. exact (stream_reads_pf kd obj calls net e outs). Qed.
Print Assumptions stream_reads_partial.

Example stream_reads_met :
  exists s, stream_session Gcs [1;2;3;4;5] [[2]; [2]; [2;2]; [1]; []] [NErr; NOpen; NMore; NFail 1; NMore]
    = (Ret None s [NMore], [None; Some [1;2]; None; None; Some []]) /\ t_size s = 5.
Proof. eexists. split; reflexivity. Qed.

(** Without failures every read ends and yields what is expected. *)
Theorem stream_complete kd obj calls net :
  Forall (fun f => f = NMore) net -> (length (concat calls) <= length net)%nat ->
  exists s net', stream_session kd obj calls (NOpen :: net)
                 = (Ret None s net', map Some (expected obj calls)).
Proof. exact (stream_complete_pf kd obj calls net). Qed.
Print Assumptions stream_complete.

Example stream_complete_met :
  (length (concat [[2]; [3;4]; [1]]) <= length [NMore; NMore; NMore; NMore])%nat
  /\ expected [1;2;3;4;5;6] [[2]; [3;4]; [1]] = [[1;2]; [3;4;5;6]; []].
Proof. split; [cbn; lia | reflexivity]. Qed.

(** REFUTED for GCS: the response to an object that is sent without length (compressed on the fly) fails
    the first read, and the next one aborts the process. *)
Theorem gcs_no_length_refuted obj n net :
  obj <> [] -> len obj < n ->
  stream_session Gcs obj [[n]; [n]] (NOpenNoLen :: NMore :: net) = (Abort, [None]).
Proof.
  intros Ho Hn. unfold stream_session. cbn [session]. unfold stream_read.
  cbn [stream0 t_sess init t_left t_open t_offs t_size recv_bufs].
  unfold recv; cbn [t_left t_open t_offs t_size].
  destruct (N.eqb_spec (len obj) 0) as [E|E]; [apply len_zero in E; contradiction|].
  cbn [negb t_offs t_size]. rewrite N.min_r by lia. rewrite (take_all _ obj) by lia.
  destruct (N.eqb_spec (n - len obj) 0); [lia|]. cbn [negb andb].
  destruct (N.eqb_spec (0 + len obj) 0); [lia|]. reflexivity.
Qed.
Print Assumptions gcs_no_length_refuted.
