(** Specification vocabulary for C21, C22, C23, C41. *)
From Verif Require Import Util IoBufModel IoStreamModel.
Open Scope N_scope.

Definition is_prefix {A} (a b : list A) : Prop := exists c, b = a ++ c.

(** What a sink promises: never to accept more than offered is captured by the outcome [WBad];
    the answers that are not "interrupted" errors: *)
Definition not_interrupted (r : wresp) : bool := match r with WErr e => negb (e =? EINTR) | _ => true end.
(** [n] answers of [rs] are not interruptions. *)
Definition real_answers (rs : list wresp) : N := len (filter not_interrupted rs).

(** The bytes a list of read answers carries. *)
Definition data_of (r : rresp) : list N := match r with RData bs => bs | RErr _ => [] end.
Definition all_data (rs : list rresp) : list N := concat (map data_of rs).
Definition eof : rresp := RData [].

(** The ideal stream: a read with buffers of capacities [caps] takes total(caps) bytes or all that
    is left. *)
Fixpoint ideal_reads (stream : list N) (reads : list (list N)) : list (list N) :=
  match reads with
  | [] => []
  | caps :: rs => take (total caps) stream :: ideal_reads (drop (total caps) stream) rs
  end.

(** A sequence of BytesSource::ReadSome calls; one list of bytes per call. *)
Fixpoint bytes_reads (buf : list N) (offs : N) (reads : list (list N)) : list (list N) :=
  match reads with
  | [] => []
  | caps :: rs => let (l, o) := BytesSource_ReadSome buf offs caps in
                  concat l :: bytes_reads buf o rs
  end.

(** BufSink and BufSource on one IoBuf: a byte pipe. *)
Inductive pipe_op := PWrite (vs : list (list N)) | PRead (caps : list N).
Fixpoint pipe_run (b : iobuf) (h : list pipe_op) : option (iobuf * list cell) :=
  match h with
  | [] => Some (b, [])
  | PWrite vs :: h' => match BufSink_WriteSome vs b with
                       | Some (_, b') => pipe_run b' h' | None => None end
  | PRead caps :: h' => match BufSource_ReadSome caps b with
                        | Some (l, b') => match pipe_run b' h' with
                                          | Some (b2, out) => Some (b2, concat l ++ out)
                                          | None => None end
                        | None => None end
  end.
Fixpoint pipe_spec (q : list N) (h : list pipe_op) : list N * list N :=
  match h with
  | [] => (q, [])
  | PWrite vs :: h' => pipe_spec (q ++ concat vs) h'
  | PRead caps :: h' => let (q', o) := pipe_spec (drop (total caps) q) h' in (q', take (total caps) q ++ o)
  end.
Fixpoint pipe_written (h : list pipe_op) : N :=
  match h with
  | [] => 0 | PWrite vs :: h' => len (concat vs) + pipe_written h' | PRead _ :: h' => pipe_written h'
  end.
(** A sequence of PrefixSource::ReadSome calls: the results, and the final state. *)
Section Prefix.
  Context {U R : Type}.
  Variable up : U -> list N -> U * sres R.
  Fixpoint prefix_reads (prefix : list N) (s : @pstate U) (reads : list (list N))
    : option (@pstate U * list (sres R)) :=
    match reads with
    | [] => Some (s, [])
    | caps :: rs => match Prefix_ReadSome up prefix s caps with
                    | None => None
                    | Some (s', r) => match prefix_reads prefix s' rs with
                                      | None => None
                                      | Some (s'', l) => Some (s'', r :: l)
                                      end
                    end
    end.
  (** Reading the upstream directly. *)
  Fixpoint direct_reads (u : U) (reads : list (list N)) : U * list (sres R) :=
    match reads with
    | [] => (u, [])
    | caps :: rs => let (u', r) := up u caps in
                    let (u'', l) := direct_reads u' rs in (u'', r :: l)
    end.
End Prefix.
Definition bytes_of {R} (r : sres R) : list N := match r with SBytes bs => bs | SErr _ => [] end.
