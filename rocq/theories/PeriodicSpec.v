(** What a user of AddPeriodic and CancelPeriodic relies on. *)
From Verif Require Import Util Conc PeriodicModel.

(** Item [p] was added and its CancelPeriodic has not been called. *)
Definition registered (s : st) (p : nat) : Prop := im s p = true.
(** Item [p] was added and its CancelPeriodic has been called. *)
Definition cancelled (s : st) (p : nat) : Prop := p < nit s /\ im s p = false.
(** CancelPeriodic of [p] has returned. *)
Definition returned (s : st) (p : nat) : Prop := dn s p = true.
Definition deleted (s : st) (p : nat) : Prop := fr s p = true.
(** The task of [p] is running. *)
Definition runs (s : st) (p : nat) : Prop := mode s = Task p.
(** Fibers run, the kernel has taken all submissions and the thread has seen all completions. *)
Definition quiet (s : st) : Prop := mode s = Fib /\ sq s = [] /\ cq s = [].
(** A timer for [p] runs in the kernel. *)
Definition ticking (s : st) (p : nat) : Prop := exists ud, In (ud, p) (kt s).
