(** What a user of EventCount sees of a fiber. *)
From Verif Require Import Util Conc EcModel AwaitModel.

Section Spec.
  Context {X : Type}.
  (** Fiber [t] is suspended inside await / await_until on condition [k]. *)
  Definition suspended_on (s : st X aloc) (t k : nat) : Prop :=
    exists tm, pc (th s t) = Parked (Wt k tm).
  (** Fiber [u] changed the shared state by an operation that has to notify, and that
      notify()/notifyAll() call has not yet gone through the wait queue. *)
  Definition notifying (s : st X aloc) (u : nat) : Prop :=
    match pc (th s u) with Run Ntf | NLock _ _ _ | NWork _ _ _ => True | _ => False end.
  (** Total number of notifications so far. *)
  Definition notifications (s : st X aloc) : N := N.of_nat (ep (ec s 0)).
End Spec.

Section Timely.
  Context {X L : Type}.
  (** Fiber [t] is about to compare the epoch with the one in its key although 2^32 notifications
      happened since it made that key ([kg] counts the notifications up to prepareWait). *)
  Definition overslept (s : st X L) (t : nat) : Prop :=
    exists l ky, pc (th s t) = WCheck l /\ key (th s t) = Some ky /\
      (N.of_nat (kg ky) + two32 <= N.of_nat (ep (ec s (ke ky))))%N.
  (** Nobody oversleeps at any moment of the run [ls] from [s0]. *)
  Definition timely (step : st X L -> nat * nat -> outcome (st X L)) s0 ls : Prop :=
    forall n s t, exec step s0 (firstn n ls) = Next s -> ~ overslept s t.
End Timely.
