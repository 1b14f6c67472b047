(** Theorems about EpollAdd and EpollDel of the io_uring proactor (C69). *)
From Verif Require Import Util Conc UpollModel UpollSpec UpollProof.
Open Scope N_scope.

(** C69: whatever events the kernel reports, in whatever order its completions come, and even if it ends
    multishot requests: the entry is not used after it was deleted and is not deleted twice, as long as the
    poll request does not fail by itself. *)
Theorem upoll_safe_partial ls : Forall no_failure ls -> exec step init ls <> Ub.
Proof. exact (upoll_safe_pf ls). Qed.
Print Assumptions upoll_safe_partial.

(** C69: until EpollDel is called, the kernel watches the descriptor whenever all completions have been handled. *)
Theorem upoll_armed_partial ls s : Forall no_failure ls -> exec step init ls = Next s ->
  ent s = Live -> dl s = Before -> cq s = [] -> exists u, polls s u = true.
Proof. exact (upoll_armed_pf ls s). Qed.
Print Assumptions upoll_armed_partial.

(** C69: the callback is not called after EpollDel has returned. Missing: kernels that end a multishot. *)
Theorem upoll_quiet_partial ls s : Forall no_failure ls -> Forall no_end ls -> exec step init ls = Next s -> quiet false (hist s).
Proof. exact (upoll_quiet_pf ls s). Qed.
Print Assumptions upoll_quiet_partial.

(** C69: once EpollDel has returned and the completions are handled, the entry is deleted, the count of
    pending removals is back at 0 and the kernel watches nothing. *)
Theorem upoll_freed_partial ls s : Forall no_failure ls -> Forall no_end ls -> exec step init ls = Next s ->
  dl s = Returned -> cq s = [] -> ent s = Freed /\ pending s = 0%Z /\ forall u, polls s u = false.
Proof. exact (upoll_freed_pf ls s). Qed.
Print Assumptions upoll_freed_partial.

(** The kernel ends the multishot while EpollDel removes it: PollRemove finds nothing, and the pending
    completion arms the poll again. EpollDel returns, and afterwards the callback runs, again and again. *)
Definition ended : list lab := [LAdd; LDel; KEvent 0 false; KRemove true; LDispatch; LDispatch].
Lemma again s : polls s 1%nat = true -> cq s = [] -> ent s = Live -> exec step s [KEvent 1 true; LDispatch] =
  Next (mkS Live (idx s) (next s) (polls s) (rmq s) [] (dl s) (pending s) (hist s ++ [Called])).
Proof. intros A Q L. cbn [exec step]. rewrite A. unfold post. cbn [cq]. rewrite Q. cbn [app ent]. rewrite L. reflexivity. Qed.
Fixpoint loop (n : nat) : list lab := match n with O => [] | S k => loop k ++ [KEvent 1 true; LDispatch] end.
Lemma ended_run n : exists s, exec step init (ended ++ loop n) = Next s /\
  dl s = Returned /\ ent s = Live /\ cq s = [] /\ polls s 1%nat = true /\
  hist s = [Deleting; Called; Deleted] ++ repeat Called n.
Proof.
  induction n as [|n (s & E & D & L & Q & A & H)].
  - eexists. split; [cbv; reflexivity|]. repeat split.
  - exists (mkS Live (idx s) (next s) (polls s) (rmq s) [] (dl s) (pending s) (hist s ++ [Called])). cbn [loop dl ent cq polls hist]. split.
    + rewrite app_assoc, exec_app, E. apply again; assumption.
    + change (repeat Called (S n)) with (Called :: repeat Called n). rewrite H, repeat_cons, app_assoc. auto.
Qed.
Theorem upoll_late_refuted : exists ls, Forall no_failure ls /\ forall n, exists more s,
  exec step init (ls ++ more) = Next s /\ dl s = Returned /\ ~ quiet false (hist s) /\
  exists h, hist s = h ++ [Deleted] ++ repeat Called (S n).
Proof.
  exists ended. split; [repeat constructor|]. intros n. destruct (ended_run (S n)) as (s & E & D & _ & _ & _ & H).
  exists (loop (S n)), s. rewrite H. repeat split; auto.
  - cbn. intros [_ [X _]]. discriminate.
  - exists [Deleting; Called]. reflexivity.
Qed.
Print Assumptions upoll_late_refuted.

(** If the poll request fails by itself (a descriptor that cannot be polled), the entry is deleted at once:
    the count of pending removals drops below 0, and EpollDel uses a deleted entry. *)
Theorem upoll_failed_refuted : exists s, exec step init [LAdd; KErr 0; LDispatch] = Next s /\
  pending s = (-1)%Z /\ step s LDel = Ub.
Proof. eexists. split; [cbv; reflexivity|]. repeat split. Qed.
Print Assumptions upoll_failed_refuted.

(** Non-vacuity: events, one of them the last of its multishot, before EpollDel; PollRemove reports EALREADY once. *)
Definition sample : list lab :=
  [LAdd; KEvent 0 true; KEvent 0 false; LDispatch; LDispatch; KEvent 1 true; LDel; KBusy; LDispatch; LDispatch].
Example upoll_met1 : Forall no_failure sample /\
  exists s, exec step init sample = Next s /\ hist s = [Called; Called; Deleting; Called].
Proof. split; [repeat constructor|]. eexists. split; [cbv; reflexivity|]. repeat split. Qed.
Definition sample2 : list lab :=
  [LAdd; KEvent 0 true; LDispatch; KEvent 0 true; LDel; KBusy; LDispatch; KEvent 0 true; LDispatch; KRemove true; LDispatch; LDispatch; LDispatch].
Example upoll_met2 : Forall no_failure sample2 /\ Forall no_end sample2 /\
  exists s, exec step init sample2 = Next s /\ dl s = Returned /\ cq s = [] /\ hist s = [Called; Deleting; Called; Called; Deleted].
Proof. split; [repeat constructor|]. split; [repeat constructor|]. eexists. split; [cbv; reflexivity|]. repeat split. Qed.
Example upoll_met3 : exists s, exec step init [LAdd; KEvent 0 false; LDispatch] = Next s /\ ent s = Live /\ dl s = Before /\ cq s = [].
Proof. eexists. split; [cbv; reflexivity|]. repeat split. Qed.
