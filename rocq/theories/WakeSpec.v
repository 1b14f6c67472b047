(** What a user of a proactor can see of the sleep/wake protocol. *)
From Verif Require Import Util Conc WakeModel.
Open Scope N_scope.

(** The loop thread is inside the kernel wait and nothing that was sent to wake it up can end that
    wait: no completion is there, and no signal the kernel is going to turn into one. *)
Definition blocked (ur : bool) (s : st) : Prop :=
  lp s = LWait /\
  if ur then cqe (k s) = false /\ msg (k s) = false /\ ~ (pend (k s) = true /\ arm (k s) = AArmed)
  else pend (k s) = false.

(** Submission [i] was accepted and has not been run. *)
Definition queued (s : st) (i : nat) : Prop := In i (subs (g s) false ++ subs (g s) true) /\ ~ In i (rans (g s) false ++ rans (g s) true).
Definition was_run (s : st) (i : nat) : Prop := In i (rans (g s) false ++ rans (g s) true).
(** The call that submitted [i] has returned. *)
Definition returned (s : st) (i : nat) : Prop := In i (rets (g s)).
(** Thread [u] is inside a submitting call. *)
Definition submitting (s : st) (u : nat) : Prop := sp s u <> SIdle.

(** Thread [u], running alone for at most [n] more steps of its call, wakes the loop up. *)
Definition rouses (ur : bool) (cap : nat) (n : nat) (s : st) (u : nat) : Prop :=
  exists m s', (m <= n)%nat /\ submitting s u /\
    exec (step ur cap) s (repeat (Sub u 0) m) = Next s' /\ lp s' = LWait /\ ~ blocked ur s'.

(** Asked of UringProactor only: in no iteration of the loop so far did 2^31 submissions or more
    arrive between its reading the counter and its announcing to wait. *)
Definition timely (ur : bool) (s : st) : Prop := ur = true -> peak (g s) < two31.

(** A run in which only the loop and the kernel move, and nothing but wake-up signals ends a wait. *)
Definition unaided (l : lab) : Prop := l = Loop 0 \/ l = Kern.
