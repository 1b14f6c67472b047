(** What a user sees of a SharedMutex. *)
From Verif Require Import Util Conc EcModel SharedModel.
(** Fiber [t] is between lock() and unlock() (between lock_shared() and unlock_shared()). *)
Definition writing (s : st N sloc) (t : nat) : Prop := pc (th s t) = Run (Hold true).
Definition reading (s : st N sloc) (t : nat) : Prop := pc (th s t) = Run (Hold false).
Definition suspended_in (s : st N sloc) (t : nat) (w : bool) : Prop := pc (th s t) = Parked (Wt w).
(** No call is in progress, except for suspended ones, and nobody holds the mutex. *)
Definition all_quiet (s : st N sloc) : Prop :=
  forall t, pc (th s t) = Run SIdle \/ exists w, suspended_in s t w.
