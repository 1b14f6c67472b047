(** What someone who reads the log files of a program sees, and what they may rely on.

    The sink keeps one log per severity (0 INFO, 1 WARNING, 2 ERROR). A log is a sequence of files;
    the name of a file holds the second in which it was opened, so that a file of a log is
    identified by that second. Times are in nanoseconds. *)
From Verif Require Import Util.
Local Open Scope Z_scope.

Definition bytes := list N.
Definition size (b : bytes) : Z := Z.of_nat (length b).
Definition second : Z := 1000000000.

(** A message handed to the file [en_file] of a log by thread [en_who] at time [en_time]. *)
Record entry := Entry { en_who : nat; en_file : Z; en_time : Z; en_text : bytes }.

(** What the file [p] should hold: the messages handed to it, whole, in order. *)
Definition lines_of (p : Z) (es : list entry) : list bytes := map en_text (filter (fun e => en_file e =? p) es).
Definition body (p : Z) (es : list entry) : bytes := concat (lines_of p es).
(** The messages of one thread. *)
Definition of_thread (t : nat) (es : list entry) : list bytes := map en_text (filter (fun e => Nat.eqb (en_who e) t) es).

(** A message of severity [sev] (0 INFO, 1 WARNING, 2 ERROR, 3 FATAL) belongs to the logs of its own
    and of all lower severities; there is no log for FATAL. *)
Definition belongs (sev : Z) (i : nat) : bool := (Z.of_nat i <=? sev) || (Nat.eqb i 0).

(** [a] is the beginning of [b]. *)
Definition begins (a b : bytes) : Prop := exists c, b = a ++ c.

(** Readings of a clock that never goes back. *)
Fixpoint ascending (l : list Z) : Prop :=
  match l with
  | [] => True
  | x :: l' => Forall (fun y => x <= y) l' /\ ascending l'
  end.

(** What the environment answers in one critical section: the clock at each of the four possible
    calls of absl::Now, fopen, symlink, the bytes fwrite takes and how many it passes on to the file,
    fflush ([None]: success; [Some n]: failure after [n] bytes), and fclose, [a_rot] for a stream in good
    order and [a_close] for one that is given up after an error ([None]: all of the buffer reached the
    file; [Some n]: only [n] bytes did). *)
Record ans := Ans {
  a_name : Z; a_reset : Z; a_now : Z; a_after : Z;
  a_open : bool; a_link : bool; a_take : option nat; a_spill : nat;
  a_flush : option nat; a_rot : option nat; a_close : option nat }.

(** What can happen: a thread calls Send or Flush; it runs its critical section on file [i]; a flag is
    changed; the sink is destroyed. *)
Inductive label :=
| LSend (t : nat) (sev : Z) (data : bytes)
| LFlush (t : nat)
| LFile (t : nat) (i : nat) (a : ans)
| LFlags (level secs : Z)
| LDestroy (a0 a1 a2 : ans).

(** The messages that thread [t] has sent and that belong to log [i]. *)
Definition sent (t i : nat) (ls : list label) : list bytes :=
  flat_map (fun l => match l with
                     | LSend u sev data => if Nat.eqb u t && belongs sev i then [data] else []
                     | _ => [] end) ls.

(** The messages of [t] are complete: it calls nothing. *)
Definition quiet (t : nat) (ls : list label) : Prop :=
  Forall (fun l => match l with LSend u _ _ | LFlush u => u <> t | _ => True end) ls.
(** What the environment answers in the critical sections of log [i]. *)
Definition answers (i : nat) (ls : list label) : list ans :=
  flat_map (fun l => match l with
                     | LFile _ j a => if Nat.eqb j i then [a] else []
                     | LDestroy a0 a1 a2 => nth i [[a0]; [a1]; [a2]] []
                     | _ => [] end) ls.
(** No fclose of a stream in good order loses data. *)
Definition closes_ok (i : nat) (ls : list label) : Prop := Forall (fun a => a_rot a = None) (answers i ls).
Definition links_ok (i : nat) (ls : list label) : Prop := Forall (fun a => a_link a = true) (answers i ls).
Definition flags_kept (ls : list label) : Prop := Forall (fun l => match l with LFlags _ _ => False | _ => True end) ls.
(** What the clock says in the critical sections of log [i], in order. *)
Definition clock (i : nat) (ls : list label) : list Z := flat_map (fun a => [a_name a; a_reset a; a_now a; a_after a]) (answers i ls).

(** Where log files go: --log_dir if it is given, else the first of $TMPDIR, $TMP, /tmp and ./ that is
    a directory one can create files in. [ok] says which are. *)
Definition usable (ok : list N -> bool) (d : list N) : Prop := d <> [] /\ ok d = true.
Definition opt (d : option (list N)) : list (list N) := match d with Some d => [d] | None => [] end.
Definition candidates (flag : list N) (tmpdir tmp : option (list N)) : list (list N) :=
  match flag with [] => opt tmpdir ++ opt tmp ++ [[47; 116; 109; 112]; [46; 47]]%N | _ => [flag] end.
(** [r] names the directory [d] and ends with a slash. *)
Definition with_slash (d r : list N) : Prop := last r 0%N = 47%N /\ (r = d \/ r = d ++ [47%N]).
