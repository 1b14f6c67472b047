(** C17: SharedMutex. Any number of fibers below 2^30, any calls, any schedule. *)
From Verif Require Import Util Conc EcModel EcProof EcLoc AwaitSpec SharedModel SharedSpec SharedProof.

(** A writer never holds the mutex together with another writer or a reader. *)
Theorem shared_exclusion menu NT s t u : (N.of_nat NT < 2 ^ 30)%N -> reachable (step NT (scode menu)) sinit s ->
  t < NT -> u < NT -> t <> u -> writing s t -> ~ writing s u /\ ~ reading s u.
Proof. intros H. exact (shared_exclusion_pf menu NT H s t u). Qed.
Print Assumptions shared_exclusion.

Theorem shared_safe menu NT : (N.of_nat NT < 2 ^ 30)%N -> safe (step NT (scode menu)) sinit.
Proof. exact (shared_safe_pf menu NT). Qed.
Print Assumptions shared_safe.

(** The second half of the property is false: a failing try_lock_shared() undoes its increment
    without notifying. A writer whose attempts fell into that window stays suspended although
    nobody holds the mutex (the state word is 0) and no call is in progress. *)
Definition ref_menu (t c : nat) : option scall :=
  match t with 0 | 2 => Some (CLock true) | 1 => Some (CTry false) | _ => None end.
Definition ref_sched : list (nat * nat) :=
  [(0,0); (0,0); (1,0); (1,0); (0,0); (0,0)] ++ repeat (2,0) 8 ++ [(1,0)].
Theorem shared_released_refuted : exists s, reachable (step 3 (scode ref_menu)) sinit s /\
  cs s = 0%N /\ suspended_in s 2 true /\ forall u, u < 2 -> pc (th s u) = Run SIdle.
Proof.
  destruct (reach_obs (step 3 (scode ref_menu)) (fun s => (pc (th s 0), pc (th s 1), pc (th s 2), cs s)) sinit ref_sched
    (Run SIdle, Run SIdle, Parked (Wt true), 0%N)) as (s & R & E).
  { vm_compute. reflexivity. }
  injection E as E0 E1 E2 E3. exists s. repeat split; auto.
  intros [|[|]] Hu; auto. lia.
Qed.
Print Assumptions shared_released_refuted.

(** Readers are always released: a fiber suspended in lock_shared() means that a writer has the
    mutex ([isw]: it holds it or its lock() call is about to return) or that a notification is on its
    way. *)
Theorem shared_reader_released menu NT ls s t : (N.of_nat NT < 2 ^ 30)%N ->
  exec (step NT (scode menu)) sinit ls = Next s -> timely (step NT (scode menu)) sinit ls -> suspended_in s t false ->
  (exists u, u < NT /\ isw (at_ s u) = 1) \/
  exists u, match pc (th s u) with Run Ntf | NLock _ _ _ | NWork _ _ _ => True | _ => False end.
Proof.
  intros H E T. apply (shared_reader_pf menu NT H). now exists ls.
  apply (s_window menu NT H ls s E). intros n s1 u l ky E1 P K. apply N.nle_gt. intros B. apply (T n s1 u E1). exists l, ky. auto.
Qed.
Print Assumptions shared_reader_released.

(** If try_lock_shared() is not called, then when nobody holds the mutex and no call is in progress,
    nobody is suspended: neither in lock() nor in lock_shared(). *)
Theorem shared_released_partial menu NT ls s t w : (N.of_nat NT < 2 ^ 30)%N ->
  (forall u c, menu u c <> Some (CTry false)) ->
  exec (step NT (scode menu)) sinit ls = Next s -> timely (step NT (scode menu)) sinit ls ->
  all_quiet s -> ~ suspended_in s t w.
Proof.
  intros H Hm E T. apply (shared_quiet_pf menu NT H Hm). now exists ls.
  apply (s_window menu NT H ls s E). intros n s1 u l ky E1 P K. apply N.nle_gt. intros B. apply (T n s1 u E1). exists l, ky. auto.
Qed.
Print Assumptions shared_released_partial.

(** Non-vacuity: two readers share the mutex, a writer is suspended behind them, both unlock and the
    writer gets in. *)
Definition demo_menu (t c : nat) : option scall := Some (CLock (t =? 2)).
Definition demo_sched n := firstn n ([(0,0); (0,0); (1,0); (1,0)] ++ repeat (2,0) 8 ++ repeat (0,0) 6 ++
  repeat (2,0) 10 ++ repeat (1,0) 6 ++ repeat (2,0) 7).
Definition sview (s : st N sloc) := (pc (th s 0), pc (th s 1), pc (th s 2), cs s).
Example shared_demo_read : obs sview (exec (step 3 (scode demo_menu)) sinit (demo_sched 12)) =
  Some (Run (Hold false), Run (Hold false), Parked (Wt true), 8%N).
Proof. vm_compute. reflexivity. Qed.
Example shared_demo_write : obs sview (exec (step 3 (scode demo_menu)) sinit (demo_sched 41)) =
  Some (Run SIdle, Run SIdle, Run (Hold true), 1%N).
Proof. vm_compute. reflexivity. Qed.
