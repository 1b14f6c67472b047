(** The properties of the log files (C84). *)
From Verif Require Import Util Conc LogSpec LogModel LogProof.
Local Open Scope Z_scope.

(** No schedule of the threads, and nothing that stdio, the file system and the clock answer, makes the sink use a stream that is not open. *)
Theorem log_safe e d m l c : safe step (init e d m l c).
Proof. exact (log_safe_pf e d m l c). Qed.
Print Assumptions log_safe.

(** As long as no fclose of a good stream fails: each file holds, with what is still in its buffer, exactly the messages handed to it, whole and in order, unless an error was reported on stderr; and after an error, a file is still the beginning of that text or begins with it. *)
Theorem log_contents e d m l c ls s i q : exec step (init e d m l c) ls = Next s -> closes_ok i ls ->
  (f_said (s_files s i) = 0%nat -> f_disk (s_files s i) q ++ held (s_files s i) q = body q (f_wrote (s_files s i))) /\
  (begins (f_disk (s_files s i) q) (body q (f_wrote (s_files s i))) \/ begins (body q (f_wrote (s_files s i))) (f_disk (s_files s i) q)).
Proof. exact (log_contents_pf e d m l c ls s i q). Qed.
Print Assumptions log_contents.

(** A crash loses less than 1000000 bytes of each log. *)
Theorem log_buffer e d m l c ls s i q : exec step (init e d m l c) ls = Next s -> size (held (s_files s i) q) < 1000000.
Proof. exact (log_buffer_pf e d m l c ls s i q). Qed.
Print Assumptions log_buffer.

(** The messages of a thread reach every log they belong to, all of them, once and in order; after a reported error, a first part of them. *)
Theorem log_order d m l c ls s t i : d <> [] -> exec step (init false d m l c) ls = Next s -> (i < 3)%nat ->
  exists rs, sent t i ls = of_thread t (f_wrote (s_files s i)) ++ rs /\
    (f_said (s_files s i) = 0%nat -> s_ops s t = None -> rs = []).
Proof. exact (log_order_pf d m l c ls s t i). Qed.
Print Assumptions log_order.

(** With --logtostderr, or without a directory to log to, no file is opened. *)
Theorem log_off e d m l c ls s i : exec step (init e d m l c) ls = Next s -> e = true \/ d = [] ->
  f_opened (s_files s i) = [] /\ f_wrote (s_files s i) = [].
Proof. exact (log_off_pf e d m l c ls s i). Qed.
Print Assumptions log_off.

(** When the call for a message above --logbuflevel has returned, the message is on disk in every log it belongs to, unless that log reported an error. *)
Theorem log_urgent d m l c ls1 t sev data ls2 s i : d <> [] ->
  exec step (init false d m l c) (ls1 ++ LSend t sev data :: ls2) = Next s -> quiet t ls2 -> s_ops s t = None ->
  flags_kept (ls1 ++ LSend t sev data :: ls2) -> l < Z.min sev 2 -> (i < 3)%nat -> belongs sev i = true ->
  closes_ok i (ls1 ++ LSend t sev data :: ls2) -> f_said (s_files s i) = 0%nat ->
  exists w1 e w2, f_wrote (s_files s i) = w1 ++ e :: w2 /\ en_who e = t /\ en_text e = data /\
    begins (body (en_file e) (w1 ++ [e])) (f_disk (s_files s i) (en_file e)).
Proof. exact (log_urgent_pf d m l c ls1 t sev data ls2 s i). Qed.
Print Assumptions log_urgent.

(** When Flush returns, what was handed to the logs before the call is on disk. *)
Theorem log_flush d m l c ls1 s1 t ls2 s i q : d <> [] ->
  exec step (init false d m l c) ls1 = Next s1 -> exec step s1 (LFlush t :: ls2) = Next s -> quiet t ls2 -> s_ops s t = None ->
  (i < 3)%nat -> closes_ok i (ls1 ++ LFlush t :: ls2) -> f_said (s_files s i) = 0%nat ->
  begins (body q (f_wrote (s_files s1 i))) (f_disk (s_files s i) q).
Proof. exact (log_flush_pf d m l c ls1 s1 t ls2 s i q). Qed.
Print Assumptions log_flush.

(** After the destructor everything is on disk. *)
Theorem log_destroy e d m l c ls s i q : exec step (init e d m l c) ls = Next s -> s_gone s = true -> (i < 3)%nat ->
  closes_ok i ls -> f_said (s_files s i) = 0%nat -> f_disk (s_files s i) q = body q (f_wrote (s_files s i)).
Proof. exact (log_destroy_pf e d m l c ls s i q). Qed.
Print Assumptions log_destroy.

(** A message that was handed to a log --logbufsecs or more before another message of this log is on disk. *)
Theorem log_age e d m l c ls s i w1 e1 w2 e2 : exec step (init e d m l c) ls = Next s -> closes_ok i ls -> flags_kept ls ->
  ascending (clock i ls) -> f_said (s_files s i) = 0%nat ->
  f_wrote (s_files s i) = w1 ++ e1 :: w2 ++ [e2] -> en_time e1 + c * 1000000000 <= en_time e2 ->
  begins (body (en_file e1) (w1 ++ [e1])) (f_disk (s_files s i) (en_file e1)).
Proof. exact (log_age_pf e d m l c ls s i w1 e1 w2 e2). Qed.
Print Assumptions log_age.

(** But only messages of the same log start a flush: "buffer log messages for at most this many seconds" does not hold. A warning is not on disk when another message is logged an hour later. *)
Theorem log_age_refuted : exists ls s e1 e2,
  exec step (init false dir1 200 1 30) ls = Next s /\ flags_kept ls /\
  (forall i, (i < 3)%nat -> closes_ok i ls /\ ascending (clock i ls) /\ f_said (s_files s i) = 0%nat) /\
  f_wrote (s_files s 1%nat) = [e1] /\ In e2 (f_wrote (s_files s 0%nat)) /\
  en_time e1 + 30 * 1000000000 <= en_time e2 /\ en_text e1 <> [] /\
  f_disk (s_files s 1%nat) (en_file e1) = [].
Proof. exact (log_age_refuted_pf). Qed.
Print Assumptions log_age_refuted.

(** If the files of a log are opened in different seconds, every file stays below the limit until its last message. *)
Theorem log_size d m l c ls s i q : exec step (init false d m l c) ls = Next s -> d <> [] -> NoDup (f_opened (s_files s i)) ->
  lines_of q (f_wrote (s_files s i)) <> [] ->
  size (concat (removelast (lines_of q (f_wrote (s_files s i))))) < Z.max 1 m * 1048576.
Proof. exact (log_size_pf d m l c ls s i q). Qed.
Print Assumptions log_size.

(** Without that, a file may grow without bound: it is rotated onto itself. *)
Theorem log_size_refuted : forall n, exists ls s q,
  exec step (init false dir1 1 0 30) ls = Next s /\ closes_ok 0 ls /\ f_said (s_files s 0%nat) = 0%nat /\
  (length (lines_of q (f_wrote (s_files s 0%nat))) > n)%nat /\
  Z.of_nat n * 1048576 <= size (f_disk (s_files s 0%nat) q).
Proof. exact (log_size_refuted_pf). Qed.
Print Assumptions log_size_refuted.

(** If fclose fails for a stream in good order, messages are lost without a word. *)
Theorem log_close_refuted : exists ls s,
  exec step (init false dir1 200 0 30) ls = Next s /\ s_gone s = true /\
  (forall i, (i < 3)%nat -> f_said (s_files s i) = 0%nat) /\
  body 1 (f_wrote (s_files s 0%nat)) = [73%N] /\ f_disk (s_files s 0%nat) 1 = [].
Proof. exact (log_close_refuted_pf). Qed.
Print Assumptions log_close_refuted.

(** The link names the newest file. *)
Theorem log_link e d m l c ls s i : exec step (init e d m l c) ls = Next s -> links_ok i ls ->
  f_link (s_files s i) = match f_opened (s_files s i) with [] => None | o => Some (last o 0) end.
Proof. exact (log_link_pf e d m l c ls s i). Qed.
Print Assumptions log_link.

(** The directory is the first usable candidate, with a slash at its end. *)
Theorem log_dir ok flag tmpdir tmp :
  let r := find_dir ok flag tmpdir tmp in
  (r = [] /\ Forall (fun d => ~ usable ok d) (candidates flag tmpdir tmp)) \/
  exists b d a, candidates flag tmpdir tmp = b ++ d :: a /\ Forall (fun d => ~ usable ok d) b /\ usable ok d /\ with_slash d r.
Proof. exact (log_dir_pf ok flag tmpdir tmp). Qed.
Print Assumptions log_dir.

(** ** The hypotheses are met *)
(** An error message of thread 1 crosses an information message of thread 0; both are in the logs
    they belong to, the error on disk, before the destructor runs. *)
Definition run1 : list label :=
  [LSend 0 0 [105%N; 10%N]; LSend 1 2 [101%N; 10%N]; LFile 1 2 (A second); LFile 0 0 (A second); LFile 1 1 (A (2 * second)); LFile 1 0 (A (3 * second))].
Example log_urgent_met :
  obs (fun s => (s_ops s 1%nat, map f_said [s_files s 0%nat; s_files s 1%nat; s_files s 2%nat],
                 f_disk (s_files s 0%nat) 1, f_disk (s_files s 1%nat) 2, f_disk (s_files s 2%nat) 1))
    (exec step (init false dir1 1 0 30) run1) = Some (None, [0; 0; 0]%nat, [105; 10; 101; 10]%N, [101; 10]%N, [101; 10]%N)
  /\ quiet 1 [LFile 1 2 (A second); LFile 0 0 (A second)] /\ flags_kept run1 /\ 0 < Z.min 2 2 /\ belongs 2 0 = true
  /\ closes_ok 0 run1 /\ ascending (clock 0 run1).
Proof. repeat split; try (vm_compute; reflexivity); try (repeat constructor; discriminate); try (apply ascending_dec; reflexivity). Qed.
Definition run2 : list label :=
  [LSend 0 0 [105%N]; LFile 0 0 (A second); LFlush 1; LFile 1 0 (A second); LFile 1 1 (A second); LFile 1 2 (A second);
   LSend 0 0 [106%N]; LFile 0 0 (A (2 * second)); LSend 0 0 [107%N]; LFile 0 0 (A (40 * second)); LDestroy (A hour) (A hour) (A hour)].
Example log_flush_met : obs (fun s => (s_ops s 1%nat, f_disk (s_files s 0%nat) 1)) (exec step (init false dir1 1 0 30) (firstn 6 run2)) = Some (None, [105%N]).
Proof. vm_compute. reflexivity. Qed.
(** The second message waits for the third one. *)
Example log_age_met :
  map (fun k => obs (fun s => f_disk (s_files s 0%nat) 1) (exec step (init false dir1 1 0 30) (firstn k run2))) [8; 10]%nat = [Some [105%N]; Some [105; 106; 107]%N]
  /\ ascending (clock 0 run2) /\ closes_ok 0 run2 /\ flags_kept run2.
Proof. repeat split; try (vm_compute; reflexivity); try (repeat constructor; discriminate); try (apply ascending_dec; reflexivity). Qed.
Example log_destroy_met : obs (fun s => (s_gone s, f_disk (s_files s 0%nat) 1, f_opened (s_files s 0%nat), f_link (s_files s 0%nat)))
  (exec step (init false dir1 1 0 30) run2) = Some (true, [105; 106; 107]%N, [1], Some 1).
Proof. vm_compute. reflexivity. Qed.
(** A failing fwrite: the log stops with a complaint, the others go on. *)
Definition run3 : list label :=
  [LSend 0 1 [105%N]; LFile 0 1 (Ans 0 0 0 0 true true (Some 0%nat) 0 None None None); LFile 0 0 (A second);
   LSend 0 1 [106%N]; LFile 0 1 (A second); LFile 0 0 (A second)].
Example log_order_met : obs (fun s => (f_said (s_files s 1%nat), of_thread 0 (f_wrote (s_files s 1%nat)), of_thread 0 (f_wrote (s_files s 0%nat))))
  (exec step (init false dir1 1 0 30) run3) = Some (1%nat, [], [[105%N]; [106%N]]).
Proof. vm_compute. reflexivity. Qed.
Example log_dir_met : find_dir (fun d => match d with [120%N] => true | _ => false end) [] (Some [121%N]) (Some [120%N]) = [120%N; 47%N].
Proof. reflexivity. Qed.
