(** C24 - LineReader. Specification in LineSpec.v. *)
From Verif Require Import Util IoStreamModel LineModel LineSpec LineProof.
Open Scope N_scope.

(** Whatever the content: when every read but the last fills the buffer and no CR LF pair is split between
    two reads, successive calls of Next return the lines of the text, in order, and then end of stream
    forever. No other assumption is needed than that no LF-free stretch reaches line_len_limit (2^64-1 by
    default). *)
Theorem linereader_lines_partial : forall page limit n chunks,
  proper page chunks -> full_reads page chunks -> no_split_crlf chunks -> short_lines limit (concat chunks) ->
  calls page limit n (lr_init (source chunks)) = map (answer (lines (concat chunks))) (seq 0 n).
Proof. exact linereader_lines_pf. Qed.
Print Assumptions linereader_lines_partial.

(** For any pattern of reads: the text is cut at every read that does not fill the buffer, and the lines of
    the pieces are returned. *)
Theorem linereader_runs : forall page limit n chunks,
  proper page chunks -> no_split_crlf chunks -> short_lines limit (concat chunks) ->
  calls page limit n (lr_init (source chunks)) = map (answer (flat_map lines (runs page chunks))) (seq 0 n).
Proof. exact linereader_runs_pf. Qed.
Print Assumptions linereader_runs.

(** The full property does not hold: a source that returns fewer bytes than asked for (a socket, a pipe, a
    decompressor) makes the reader return two lines for one ... *)
Theorem linereader_short_read_refuted : exists chunks, proper 2047 chunks /\ no_split_crlf chunks /\
  lines (concat chunks) = [[97; 98; 99; 100]] /\
  calls 2047 (2 ^ 64 - 1) 3 (lr_init (source chunks)) = [NLine [97; 98]; NLine [99; 100]; NEnd].
Proof. exact linereader_short_read_refuted_pf. Qed.
Print Assumptions linereader_short_read_refuted.

(** ... and a CR LF that straddles two full reads leaves the CR in the line: the same text gives different
    lines with different buffer sizes. *)
Theorem linereader_crlf_refuted : exists chunks chunks', proper 2047 chunks /\ full_reads 2047 chunks /\
  proper 4095 chunks' /\ full_reads 4095 chunks' /\ concat chunks = concat chunks' /\
  calls 4095 (2 ^ 64 - 1) 2 (lr_init (source chunks')) = [NLine (repeat 97 2046); NEnd] /\
  calls 2047 (2 ^ 64 - 1) 2 (lr_init (source chunks)) = [NLine (repeat 97 2046 ++ [CR]); NEnd].
Proof. exact linereader_crlf_refuted_pf. Qed.
Print Assumptions linereader_crlf_refuted.

(** A failed read ends the sequence with that error, after the lines that were complete before. *)
Theorem linereader_error : forall page limit c e rs, 0 < len c < page -> ~ In LF c -> len c < limit ->
  calls page limit 3 (lr_init (RData c :: RErr e :: rs)) = [NLine c; NErr e] ++ calls page limit 1 (lr_init rs).
Proof. exact linereader_error_pf. Qed.
Print Assumptions linereader_error.

(** Non-vacuity: an empty line, CR LF, a last line without LF; three reads. *)
Example linereader_demo : let chunks := [[97; 10; 10; 98]; [99; 13; 10; 100]; [13; 101]] in
  proper 4 chunks /\ full_reads 4 chunks /\ no_split_crlf chunks /\ short_lines 100 (concat chunks) /\
  calls 4 100 6 (lr_init (source chunks)) = [NLine [97]; NLine []; NLine [98; 99]; NLine [100; 13; 101]; NEnd; NEnd].
Proof. exact linereader_demo_pf. Qed.
