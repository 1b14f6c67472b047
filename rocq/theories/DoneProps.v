(** C19: Done and Future. *)
From Verif Require Import Util Conc EcModel AwaitModel AwaitSpec DoneModel DoneProof.

(** The property as stated (any number of waiting fibers) is false of both classes: their
    notification wakes one fiber. Two fibers wait for a Done, a third calls Notify; everybody else is
    finished, ready_ is set, and fiber 1 stays suspended. *)
Definition two_wait (k t c : nat) : option call := Some (if t <? 2 then CAwait k false else COp 7).
Definition two_sched : list (nat * nat) :=
  repeat (0,0) 8 ++ repeat (1,0) 8 ++ repeat (2,0) 5 ++ repeat (0,0) 7.
Theorem done_all_released_refuted : exists s,
  reachable (step 3 (done_code (fun t c => Some (if t <? 2 then CAwait 0 false else COp 0)) (fun _ => true))) done_init s /\
  suspended_on s 1 0 /\ cs s = true /\ forall u, u < 3 -> ~ notifying s u.
Proof.
  destruct (reach_obs (step 3 (done_code (fun t c => Some (if t <? 2 then CAwait 0 false else COp 0)) (fun _ => true)))
    (fun s => (pc (th s 0), pc (th s 1), pc (th s 2), cs s)) done_init two_sched
    (Run Idle, Parked (Wt 0 false), Run Idle, true)) as (s & R & E).
  { vm_compute. reflexivity. }
  injection E as E0 E1 E2 E3. exists s. split; auto. split. now exists false. split; auto.
  intros [|[|[|]]] Hu; unfold notifying; rewrite ?E0, ?E1, ?E2; auto. lia.
Qed.
Print Assumptions done_all_released_refuted.

(** The same for Future::GetRef, documented as safe for multiple consumers. *)
Theorem future_getref_released_refuted : exists s,
  reachable (step 3 (fut_code (two_wait 1) (fun _ => true))) fut_init s /\
  suspended_on s 1 1 /\ resolved (cs s) = Some 7 /\ has_value (cs s) = true /\ forall u, u < 3 -> ~ notifying s u.
Proof.
  destruct (reach_obs (step 3 (fut_code (two_wait 1) (fun _ => true)))
    (fun s => (pc (th s 0), pc (th s 1), pc (th s 2), (resolved (cs s), has_value (cs s)))) fut_init two_sched
    (Run Idle, Parked (Wt 1 false), Run Idle, (Some 7, true))) as (s & R & E).
  { vm_compute. reflexivity. }
  injection E as E0 E1 E2 E3. exists s. split; auto. split. now exists false. split; auto. split; auto.
  intros [|[|[|]]] Hu; unfold notifying; rewrite ?E0, ?E1, ?E2; auto. lia.
Qed.
Print Assumptions future_getref_released_refuted.

(** What holds: with a single fiber that waits (any number of waits, timed or not, any number of
    notifying and resetting fibers) nobody stays suspended on a Done that is ready. *)
Theorem done_released_partial NT menu waiter w0 ls s t k :
  (N.of_nat NT < two32)%N -> (forall t, waiter t = true -> t = w0) ->
  exec (step NT (done_code menu waiter)) done_init ls = Next s -> timely (step NT (done_code menu waiter)) done_init ls ->
  suspended_on s t k -> cs s = true -> exists u, notifying s u.
Proof. exact (done_single_pf NT menu waiter w0 ls s t k). Qed.
Print Assumptions done_released_partial.

(** The same for Future: with a single consumer, if the future was resolved and the consumer is
    suspended then a notification is on the way, or the consumer has already taken the value. *)
Theorem future_released_partial NT menu waiter w0 ls s t k v :
  (N.of_nat NT < two32)%N -> (forall t, waiter t = true -> t = w0) ->
  exec (step NT (fut_code menu waiter)) fut_init ls = Next s -> timely (step NT (fut_code menu waiter)) fut_init ls ->
  suspended_on s t k -> resolved (cs s) = Some v -> (exists u, notifying s u) \/ In (true, v) (got (cs s)).
Proof. exact (fut_single_pf NT menu waiter w0 ls s t k v). Qed.
Print Assumptions future_released_partial.

(** For any number of consumers: every value returned by Get/GetFor/GetRef is the resolved one, ... *)
Theorem future_value NT menu waiter s b v : reachable (step NT (fut_code menu waiter)) fut_init s ->
  In (b, v) (got (cs s)) -> resolved (cs s) = Some v.
Proof. exact (fut_value_pf NT menu waiter s b v). Qed.
Print Assumptions future_value.
(** ... and at most one Get/GetFor call receives it. *)
Theorem future_get_once NT menu waiter s : reachable (step NT (fut_code menu waiter)) fut_init s ->
  length (filter fst (got (cs s))) <= 1.
Proof. exact (fut_once_pf NT menu waiter s). Qed.
Print Assumptions future_get_once.

(** Non-vacuity of the positive theorems: fiber 0 is the only waiter. *)
Definition one_wait (t c : nat) : option call := Some (if t =? 0 then CAwait 0 false else COp 7).
Definition only0 (t : nat) : bool := t =? 0.
Definition dsched n := firstn n (repeat (0,0) 8 ++ repeat (1,0) 5 ++ repeat (0,0) 7).
Example future_demo_mid : obs (fun s => (pc (th s 0), pc (th s 1), cs s)) (exec (step 2 (fut_code one_wait only0)) fut_init (dsched 9)) =
  Some (Parked (Wt 0 false), Run Ntf, mk_fut true 7 [] (Some 7)).
Proof. vm_compute. reflexivity. Qed.
Example future_demo : obs (fun s => (pc (th s 0), pc (th s 1), cs s)) (exec (step 2 (fut_code one_wait only0)) fut_init (dsched 20)) =
  Some (Run Idle, Run Idle, mk_fut false 7 [(true, 7)] (Some 7)).
Proof. vm_compute. reflexivity. Qed.
Example only0_single : forall t, only0 t = true -> t = 0.
Proof. intros t H. now apply Nat.eqb_eq. Qed.
