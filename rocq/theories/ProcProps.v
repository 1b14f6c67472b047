(** C27 - ReadProcFile. Specification in ProcSpec.v. *)
From Verif Require Import Util IoBufModel IniSpec IniProof ProcModel ProcSpec ProcProof.
Open Scope N_scope.

(** When every terminated line contains the separator, the callback gets every such line, in order, as key and
    value, however the reads are cut and however long the lines are. *)
Theorem proc_lines_partial : forall c rs file ls tail kvs, reads rs -> len file <= 2 ^ 57 -> (length file < length rs)%nat ->
  lines_of file ls tail -> Forall2 (entry c) ls kvs ->
  ReadProcFile c false rs file = PDone kvs.
Proof. exact proc_lines_pf. Qed.
Print Assumptions proc_lines_partial.

(** The same with the first line skipped, whatever is in it. *)
Theorem proc_header_partial : forall c rs file h ls tail kvs, reads rs -> len file <= 2 ^ 57 -> (length file < length rs)%nat ->
  lines_of file (h :: ls) tail -> Forall2 (entry c) ls kvs ->
  ReadProcFile c true rs file = PDone kvs.
Proof. exact proc_header_pf. Qed.
Print Assumptions proc_header_partial.

(** A line without the separator ends the reports: nothing after it is delivered. *)
Theorem proc_stops : forall c rs file ls l more tail kvs, reads rs -> len file <= 2 ^ 57 -> (length file < length rs)%nat ->
  lines_of file (ls ++ l :: more) tail -> Forall2 (entry c) ls kvs -> ~ In c l ->
  ReadProcFile c false rs file = PDone kvs.
Proof. exact proc_stops_pf. Qed.
Print Assumptions proc_stops.

(** So the property fails in full: of "a=1", an empty line, "b=2" only the first entry is delivered ... *)
Theorem proc_blank_line_refuted : forall rs, reads rs -> (9 < length rs)%nat ->
  exists file ls, lines_of file ls [] /\ In [98; 61; 50] ls /\ entry 61 [98; 61; 50] ([98], [50]) /\
    ReadProcFile 61 false rs file = PDone [([97], [49])].
Proof. exact proc_blank_line_refuted_pf. Qed.
Print Assumptions proc_blank_line_refuted.
(** ... and a last line that the file does not terminate is dropped. *)
Theorem proc_last_line_refuted : forall rs, reads rs -> (9 < length rs)%nat ->
  exists file ls tail, lines_of file ls tail /\ entry 61 tail ([98], [50]) /\
    ReadProcFile 61 false rs file = PDone [([97], [49])].
Proof. exact proc_last_line_refuted_pf. Qed.
Print Assumptions proc_last_line_refuted.

(** Non-vacuity: "k: v" LF "m::" LF, reads of 3 bytes; also executed. *)
Example proc_demo : let file := [107; 58; 32; 118; 10; 109; 58; 58; 10] in
  reads (repeat (RdMax 3) 10) /\ lines_of file [[107; 58; 32; 118]; [109; 58; 58]] [] /\
  Forall2 (entry 58) [[107; 58; 32; 118]; [109; 58; 58]] [([107], [118]); ([109], [58])] /\
  ReadProcFile 58 false (repeat (RdMax 3) 4) file = PDone [([107], [118]); ([109], [58])].
Proof. exact proc_demo_pf. Qed.

(** A failed read, when the file is not finished, is reported. *)
Theorem proc_error : forall c skip rs e rs' file, ReadProcFile c skip rs file = PMore ->
  exists cbs, ReadProcFile c skip (rs ++ RdErr e :: rs') file = PErr e cbs.
Proof. exact proc_error_pf. Qed.
Print Assumptions proc_error.
Example proc_error_demo : ReadProcFile 58 false [RdMax 3; RdMax 3] [107; 58; 32; 118; 10; 109; 58; 58; 10] = PMore.
Proof. vm_compute. reflexivity. Qed.
