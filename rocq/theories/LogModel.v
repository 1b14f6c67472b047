(** FileLogSink (base/file_log_sink.cc, base/file_log_sink.h).

    The critical section that a thread runs for one log file is one step, since it holds the mutex of
    that file; steps of different threads, and of one thread on different files, interleave freely.
    What stdio, the file system and the clock answer is in the label. The stream's buffer is in the
    state: bytes that fwrite has taken and that have not reached the file are lost if the process
    dies. Not modelled: log lines are built by absl; the files are not removed or written by others;
    the names of different severities never coincide; program, user and pid are fixed. *)
From Verif Require Import Util Conc LogSpec.
Local Open Scope Z_scope.

(** FILE* fp_: nullptr, the mark 1, or an open stream (file_log_sink.h:43-51). *)
Inductive fptr := FNull | FDead | FLive (p : Z).

(** struct LogFile (file_log_sink.h:40-68). [f_buf], [f_disk] and [f_link] are the buffer of the
    stream, the contents of the files and where the symlink points; [f_opened] and [f_wrote] record
    the successful calls of fopen and the complete calls of fwrite; [f_said] counts complaints on
    stderr about lost data. [f_next] starts at 0 for InfinitePast; it is set before it is read. *)
Record lfile := LF {
  f_fp : fptr; f_len : Z; f_since : Z; f_next : Z;
  f_buf : bytes; f_disk : Z -> bytes; f_link : option Z;
  f_opened : list Z; f_wrote : list entry; f_said : nat }.
(** file_log_sink.h:65-68. *)
Definition file0 : lfile := LF FNull 0 0 0 [] (fun _ => []) None [] [] 0.

(** constexpr size_t kFlushBytes (file_log_sink.cc:36). *)
Definition kFlushBytes : Z := 1000000.

(** The bytes that reach the disk when a stream is flushed or closed. *)
Definition upto (n : option nat) (b : bytes) : bytes := match n with None => b | Some k => firstn k b end.
Definition onto (d : Z -> bytes) (p : Z) (b : bytes) : Z -> bytes := fun q => if q =? p then d q ++ b else d q.

(** LogFile::Close (file_log_sink.cc:187-192). fclose of a stream that is not open is undefined. Its
    result is not looked at. *)
Definition close (mark : bool) (n : option nat) (f : lfile) : option lfile :=
  match f_fp f with
  | FLive p => Some (LF (if mark then FDead else FNull) 0 0 (f_next f)
                        [] (onto (f_disk f) p (upto n (f_buf f))) (f_link f) (f_opened f) (f_wrote f) (f_said f))
  | _ => None
  end.

(** LogFile::ResetFlushThresholds (file_log_sink.cc:194-197). *)
Definition reset (now secs : Z) (f : lfile) : lfile :=
  LF (f_fp f) (f_len f) 0 (now + secs * second) (f_buf f) (f_disk f) (f_link f) (f_opened f) (f_wrote f) (f_said f).

(** fprintf(stderr, ...). *)
Definition say (f : lfile) : lfile :=
  LF (f_fp f) (f_len f) (f_since f) (f_next f) (f_buf f) (f_disk f) (f_link f) (f_opened f) (f_wrote f) (S (f_said f)).
(** fp_ = reinterpret_cast<FILE*>(1) (file_log_sink.cc:129, 140). *)
Definition die (f : lfile) : lfile :=
  LF FDead (f_len f) (f_since f) (f_next f) (f_buf f) (f_disk f) (f_link f) (f_opened f) (f_wrote f) (f_said f).

(** LogFile::Open (file_log_sink.cc:122-157). [base] says that base_path is not empty. fopen appends to
    a file that exists. The answer of unlink is not modelled: a failure shows in symlink. *)
Definition openf (base : bool) (secs : Z) (a : ans) (f : lfile) : option (lfile * bool) :=
  match (match f_fp f with FNull => Some f | _ => close false (a_rot a) f end) with
  | None => None
  | Some f =>
    if negb base then Some (die f, false)
    else if negb (a_open a) then Some (die (say f), false)
    else
      let p := a_name a / second in
      let f := LF (FLive p) 0 (f_since f) (f_next f) [] (f_disk f) (f_link f) (f_opened f ++ [p]) (f_wrote f) (f_said f) in
      let f := reset (a_reset a) secs f in
      Some (LF (f_fp f) (f_len f) (f_since f) (f_next f) (f_buf f) (f_disk f)
               (if a_link a then Some p else None) (f_opened f) (f_wrote f) (f_said f), true)
  end.

(** LogFile::FlushLocked (file_log_sink.cc:176-185). *)
Definition flush_locked (secs : Z) (a : ans) (f : lfile) : option lfile :=
  match f_fp f with
  | FLive p =>
    match a_flush a with
    | Some n =>
      close true (a_close a)
        (say (LF (f_fp f) (f_len f) (f_since f) (f_next f) (skipn n (f_buf f))
                 (onto (f_disk f) p (firstn n (f_buf f))) (f_link f) (f_opened f) (f_wrote f) (f_said f)))
    | None =>
      Some (reset (a_after a) secs
              (LF (f_fp f) (f_len f) (f_since f) (f_next f) []
                  (onto (f_disk f) p (f_buf f)) (f_link f) (f_opened f) (f_wrote f) (f_said f)))
    end
  | _ => None
  end.

(** LogFile::WriteAndMaybeFlush (file_log_sink.cc:159-174). fwrite takes all of the data or fails after
    some of it; [a_spill] bytes leave the buffer for the file. *)
Definition write (t : nat) (data : bytes) (sev level secs : Z) (a : ans) (f : lfile) : option lfile :=
  match f_fp f with
  | FLive p =>
    let took := match a_take a with None => data | Some n => firstn n data end in
    let all := f_buf f ++ took in
    let disk := onto (f_disk f) p (firstn (a_spill a) all) in
    let buf := skipn (a_spill a) all in
    if negb (size took =? size data) then
      close true (a_close a) (say (LF (f_fp f) (f_len f) (f_since f) (f_next f) buf disk (f_link f)
                                      (f_opened f) (f_wrote f) (f_said f)))
    else
      let f := LF (f_fp f) (f_len f + size took) (f_since f + size took) (f_next f) buf disk (f_link f)
                  (f_opened f) (f_wrote f ++ [Entry t p (a_now a) data]) (f_said f) in
      if (level <? sev) || (kFlushBytes <=? f_since f) || (f_next f <=? a_now a)
      then flush_locked secs a f else Some f
  | _ => None
  end.

(** LogFile::needs_open (file_log_sink.h:43-45). *)
Definition needs_open (limit : Z) (f : lfile) : bool :=
  match f_fp f with FNull => true | _ => limit <=? f_len f end.

(** The body of the loop of FileLogSink::Send (file_log_sink.cc:240-253). *)
Definition send_file (t : nat) (data : bytes) (sev level secs limit : Z) (base : bool) (a : ans) (f : lfile) : option lfile :=
  match f_fp f with
  | FDead => Some f
  | _ =>
    if needs_open limit f then
      match openf base secs a f with
      | None => None
      | Some (f, true) => write t data sev level secs a f
      | Some (f, false) => Some f
      end
    else write t data sev level secs a f
  end.

(** The body of the loop of FileLogSink::Flush (file_log_sink.cc:256-263). *)
Definition flush_file (secs : Z) (a : ans) (f : lfile) : option lfile :=
  match f_fp f with FLive _ => flush_locked secs a f | _ => Some f end.

(** The body of the loop of ~FileLogSink (file_log_sink.cc:223-228). *)
Definition destroy_file (a : ans) (f : lfile) : option lfile :=
  match f_fp f with FLive _ => close false (a_rot a) f | _ => Some f end.

(** Bytes of file [q] that a crash of the process loses. *)
Definition held (f : lfile) (q : Z) : bytes :=
  match f_fp f with FLive p => if q =? p then f_buf f else [] | _ => [] end.

(** What a thread is in the middle of: the file it goes to next. *)
Inductive op := OSend (sev : Z) (data : bytes) (i : nat) | OFlush (i : nat).

(** FileLogSink (file_log_sink.h:70-75) with the cached flags (file_log_sink.cc:38-41) and the
    threads that use it. *)
Record sink := Sink {
  s_mb : Z; s_base : bool; s_level : Z; s_secs : Z;
  s_files : nat -> lfile; s_ops : nat -> option op; s_gone : bool }.

Definition updf {A} (m : nat -> A) (i : nat) (x : A) : nat -> A := fun j => if Nat.eqb j i then x else m j.

(** std::clamp(severity, 0, 2) (file_log_sink.cc:235). *)
Definition clamp (sev : Z) : nat := Z.to_nat (Z.min (Z.max sev 0) 2).

Definition set_op (s : sink) (t : nat) (o : option op) : sink :=
  Sink (s_mb s) (s_base s) (s_level s) (s_secs s) (s_files s) (updf (s_ops s) t o) (s_gone s).
Definition set_file (s : sink) (i : nat) (f : lfile) : sink :=
  Sink (s_mb s) (s_base s) (s_level s) (s_secs s) (updf (s_files s) i f) (s_ops s) (s_gone s).

(** FileLogSink::Send, Flush and the destructor (file_log_sink.cc:223-263). Send gives the clamped
    severity to WriteAndMaybeFlush; it goes from the file of that severity down to 0, Flush goes up.
    The destructor takes no lock: the user must not call it while a thread is inside the sink. After it
    nothing moves. *)
Definition step (s : sink) (l : label) : outcome sink :=
  if s_gone s then Stuck else
  match l with
  | LSend t sev data =>
    match s_ops s t with
    | None => if s_mb s =? 0 then Next s
              else Next (set_op s t (Some (OSend (Z.of_nat (clamp sev)) data (clamp sev))))
    | _ => Stuck
    end
  | LFlush t => match s_ops s t with None => Next (set_op s t (Some (OFlush 0))) | _ => Stuck end
  | LFile t i a =>
    match s_ops s t with
    | Some (OSend sev data j) =>
      if negb (Nat.eqb i j) then Stuck else
      match send_file t data sev (s_level s) (s_secs s) (Z.shiftl (s_mb s) 20) (s_base s) a (s_files s i) with
      | None => Ub
      | Some f => Next (set_op (set_file s i f) t (match i with O => None | S i' => Some (OSend sev data i') end))
      end
    | Some (OFlush j) =>
      if negb (Nat.eqb i j) then Stuck else
      match flush_file (s_secs s) a (s_files s i) with
      | None => Ub
      | Some f => Next (set_op (set_file s i f) t (if Nat.ltb i 2 then Some (OFlush (S i)) else None))
      end
    | None => Stuck
    end
  | LFlags level secs => Next (Sink (s_mb s) (s_base s) level secs (s_files s) (s_ops s) (s_gone s))
  | LDestroy a0 a1 a2 =>
    match destroy_file a0 (s_files s 0), destroy_file a1 (s_files s 1), destroy_file a2 (s_files s 2) with
    | Some f0, Some f1, Some f2 =>
      Next (Sink (s_mb s) (s_base s) (s_level s) (s_secs s)
                 (updf (updf (updf (s_files s) 0 f0) 1 f1) 2 f2) (s_ops s) true)
    | _, _, _ => Ub
    end
  end.

(** ProbeWritableDir and FindLoggingDir (file_log_sink.cc:45-98). [ok d] is what stat, access and
    mkstemp together say about the directory named [d]. An unset variable is [None]. *)
Definition slash : N := 47.
Definition probe (ok : list N -> bool) (d : option (list N)) : option (list N) :=
  match d with
  | None => None
  | Some d =>
    match d with
    | [] => None
    | _ => let s := if N.eqb (last d 0%N) slash then d else d ++ [slash] in
           if ok d then Some s else None
    end
  end.
Definition tmp_dir : list N := [47; 116; 109; 112]%N.
Definition dot_dir : list N := [46; 47]%N.
Definition find_dir (ok : list N -> bool) (flag : list N) (tmpdir tmp : option (list N)) : list N :=
  match flag with
  | _ :: _ => match probe ok (Some flag) with Some d => d | None => [] end
  | [] =>
    match probe ok tmpdir with Some d => d | None =>
    match probe ok tmp with Some d => d | None =>
    match probe ok (Some tmp_dir) with Some d => d | None =>
    match probe ok (Some dot_dir) with Some d => d | None => [] end end end end
  end.

(** FileLogSink::Init (file_log_sink.cc:199-221) on a new sink; [level] and [secs] are the flags. *)
Definition init (logtostderr : bool) (dir : list N) (max_log_size level secs : Z) : sink :=
  if logtostderr then Sink 0 false level secs (fun _ => file0) (fun _ => None) false
  else match dir with
       | [] => Sink 0 false level secs (fun _ => file0) (fun _ => None) false
       | _ => Sink (Z.max 1 max_log_size) true level secs (fun _ => file0) (fun _ => None) false
       end.
