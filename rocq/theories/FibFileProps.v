(** C75: the files of OpenFiberReadFile. *)
From Verif Require Import Util Conc FibFileModel FibFileSpec FibFileProof.

(** [calm] (FibFileProof): no prefetch fails and the file is not destroyed without Close. *)
Section S.
Variable file : list nat.
Variable B : nat.
Hypothesis Bpos : 0 < B.
Notation ok := (Forall (fun l => nofail l = true /\ polite l = true)).

(** No access outside the buffer, no data race with the thread pool, no failing CHECK. *)
Theorem ffile_safe_partial ls : ok ls -> exec (step file B) init ls <> Ub.
Proof. exact (ffile_safe_pf file B Bpos ls). Qed.
(** Every answer is right, whatever was read before and at whatever offsets ... *)
Theorem ffile_right_partial ls s o l d : ok ls -> exec (step file B) init ls = Next s -> In (o, l, ROk d) (hist s) -> right file o l d.
Proof. exact (ffile_right_pf file B Bpos ls s o l d). Qed.
(** ... and, except for a prefetch buffer of one byte, it is short only at the end of the file. *)
Theorem ffile_exact_partial ls s o l d : 2 <= B -> ok ls -> exec (step file B) init ls = Next s -> In (o, l, ROk d) (hist s) -> d = slice file o l.
Proof. exact (ffile_exact_pf file B Bpos ls s o l d). Qed.
(** Read reports an error only if a read fails for which the caller waits: a failed prefetch is not reported. *)
Theorem ffile_error ls s o l : Forall (fun x => nodisk x = true) ls -> exec (step file B) init ls = Next s -> ~ In (o, l, RErr) (hist s).
Proof. exact (ffile_error_pf file B ls s o l). Qed.
(** Sequential reads return: the first one, one that begins where the last one ended, one after an error. *)
Theorem ffile_returns_partial ls s off len e : ok ls -> exec (step file B) init ls = Next s -> fib s = Idle -> 0 < len ->
  match hist s with (o, _, ROk d) :: _ => off = o + length d | _ => True end ->
  exists ls' s' x, ok ls' /\ exec (step file B) s (LRead off len e :: ls') = Next s' /\ fib s' = Idle /\ hist s' = (off, len, x) :: hist s.
Proof. exact (ffile_returns_pf file B Bpos ls s off len e). Qed.
(** Close returns, and then the pool does not use the file any more: it may be destroyed. *)
Theorem ffile_closes ls s : ok ls -> exec (step file B) init ls = Next s -> fib s = Idle -> exists ls' s', ok ls' /\ exec (step file B) s (LClose :: ls') = Next s' /\ fib s' = Closed.
Proof. exact (ffile_closes_pf file B Bpos ls s). Qed.
Theorem ffile_close ls s ls' : ok ls -> exec (step file B) init ls = Next s -> fib s = Closed -> task s = None /\ exec (step file B) s (LDestroy :: ls') <> Ub.
Proof. exact (ffile_close_pf file B Bpos ls s ls'). Qed.

(** REFUTED "every Read returns": after any first read that does not reach the end of the file, a read at any place other than
    where that one ended never returns: it waits for a prefetch that does not exist. *)
Theorem ffile_seek_refuted off len off2 len2 e : 0 < len -> off + len < length file -> off2 <> off + len -> 0 < len2 ->
  exists s, exec (step file B) init [LRead off len false; LRead off2 len2 e] = Next s /\ fib s = InWait off2 len2 /\ forall l, step file B s l = Stuck.
Proof. exact (ffile_seek_refuted_pf file B Bpos off len off2 len2 e). Qed.
End S.

Definition f12 : list nat := [10; 11; 12; 13; 14; 15; 16; 17; 18; 19; 20; 21].
(** REFUTED "an answer is right or an error": the prefetch fails, and the read after it returns old bytes as success ... *)
Definition stale : list lab := [LRead 0 2 false; LRead 2 4 false; LTask true; LRead 6 2 false; LWake false].
Theorem ffile_stale_refuted : exists s d, exec (step f12 4) init stale = Next s /\ In (6, 2, ROk d) (hist s) /\ d = slice f12 2 2 /\ ~ right f12 6 2 d.
Proof.
  eexists. exists [12; 13]. split; [cbv; reflexivity|]. split; [left; reflexivity|]. split; [reflexivity|]. intros [(n & Hn & X) _]. destruct n as [|[|[|n]]]; discriminate.
Qed.
(** ... or bytes from behind the buffer. *)
Theorem ffile_overrun_refuted : exec (step f12 4) init [LRead 0 2 false; LRead 2 4 false; LTask true; LRead 6 5 false; LWake false] = Ub.
Proof. reflexivity. Qed.
(** REFUTED "the file may be destroyed at any time": the pool's task uses it ("because of the shutdown flow", fiber_file.cc:190). *)
Theorem ffile_destroy_refuted : exec (step f12 4) init [LRead 0 2 false; LRead 2 4 false; LDestroy; LTask false] = Ub.
Proof. reflexivity. Qed.

(** Sequential reads with a prefetch that is consumed while it is made, one that is waited for, a seek that a prefetch saves, and the end. *)
Definition walk : list lab :=
  [LRead 0 2 false; LRead 2 3 false; LRead 5 1 false; LTask false; LRead 6 2 false; LWake false; LRead 0 3 false; LTask false; LWake false; LRead 3 20 false; LRead 12 1 false; LClose; LDestroy].
Example ffile_walk_met : exists s, exec (step f12 4) init walk = Next s /\
  rev (hist s) = [(0, 2, ROk [10; 11]); (2, 3, ROk [12; 13; 14]); (5, 1, ROk [15]); (6, 2, ROk [16; 17]); (0, 3, ROk [10; 11; 12]); (3, 20, ROk [13; 14; 15; 16; 17; 18; 19; 20; 21]); (12, 1, ROk [])].
Proof. eexists. split; [cbv; reflexivity|]. reflexivity. Qed.

Print Assumptions ffile_safe_partial.
Print Assumptions ffile_right_partial.
Print Assumptions ffile_exact_partial.
Print Assumptions ffile_error.
Print Assumptions ffile_returns_partial.
Print Assumptions ffile_closes.
Print Assumptions ffile_close.
Print Assumptions ffile_seek_refuted.
Print Assumptions ffile_stale_refuted.
Print Assumptions ffile_overrun_refuted.
Print Assumptions ffile_destroy_refuted.
