(** C26 - reading files. Vocabulary in FileSpec.v. *)
From Verif Require Import Util FileModel FileSpec FileProof.
Open Scope N_scope.

(** ReadonlyFile::Read into any array of buffers, for every sequence of kernel answers in which no short read
    directly follows a short read: it delivers exactly the bytes of the range (fewer only at the end of the
    file), and never stores outside the buffers; an error is reported only when the kernel reported one; it
    needs at most one more answer (EINTR aside) than bytes delivered. *)
Theorem file_read_partial : forall fsize file rs off v, spaced false rs -> off <= fsize -> v <> [] ->
  match fst (FileRead fsize file rs off v) with
  | FOk n bs => bs = range file off v /\ n = len bs
  | FErr e => In (PFail e) rs
  | FUb => False
  | FMore => effective rs <= len (range file off v)
  end.
Proof. exact file_read_partial_pf. Qed.
Print Assumptions file_read_partial.

(** Two short reads in a row make it store behind the caller's buffer: a buffer of 10 bytes, a file of 20. *)
Theorem file_overflow_refuted : exists file v rs,
  fst (FileRead (len file) file rs 0 v) = FUb /\ len file = 20 /\ v = [10] /\ Forall (fun a => a = PShort 3 \/ a = PFull) rs.
Proof. exact file_overflow_refuted_pf. Qed.
Print Assumptions file_overflow_refuted.

(** Successive reads through a FileSource return consecutive parts of the file. *)
Theorem file_source_partial : forall file vs rs off, spaced false rs -> Forall (fun v => v <> []) vs -> off <= len file ->
  match source_run (len file) file rs off vs with
  | Some (outs, end_) => Forall2 (fun v bs => len bs <= sum v) vs outs /\
      concat outs = take (sum (map sum vs)) (drop off file) /\ end_ = off + len (concat outs)
  | None => (exists e, In (PFail e) rs) \/ effective rs < sum (map sum vs) + len vs
  end.
Proof. exact source_run_pf. Qed.
Print Assumptions file_source_partial.

(** ReadFileToString returns the content, for a regular file ... *)
Theorem read_file_to_string_partial : forall file rs, spaced false rs ->
  match ReadFileToString (len file) file rs with
  | FOk n bs => bs = file /\ n = len file
  | FErr e => In (PFail e) rs
  | FUb => False
  | FMore => effective rs <= 2 * len file + 1
  end.
Proof. exact read_file_partial_pf. Qed.
Print Assumptions read_file_to_string_partial.

(** ... but fails for every file of at least 4096 bytes whose st_size is 0, as in /proc. *)
Theorem read_proc_file_refuted : forall file rs, 4096 <= len file -> ReadFileToString 0 file (PFull :: rs) = FErr EDOM.
Proof. exact read_proc_file_refuted_pf. Qed.
Print Assumptions read_proc_file_refuted.

(** Non-vacuity: two buffers, a short read, EINTR, the end of the file inside the second buffer. *)
Example file_demo : spaced false [PShort 2; PIntr; PFull; PFull; PFull] /\
  FileRead 7 [1; 2; 3; 4; 5; 6; 7] [PShort 2; PIntr; PFull; PFull; PFull] 1 [3; 9] = (FOk 6 [2; 3; 4; 5; 6; 7], []) /\
  ReadFileToString 7 [1; 2; 3; 4; 5; 6; 7] [PShort 2; PIntr; PFull; PFull] = FOk 7 [1; 2; 3; 4; 5; 6; 7].
Proof. vm_compute. auto. Qed.
