(** What a user of FiberQueue sees. *)
From Verif Require Import Util Conc EcModel FqModel.

Section Spec.
  Context (s : st fq floc).
  (** The callbacks accepted by TryAdd / Add so far, in order, and those that were run, in order. *)
  Definition accepted : list (nat * nat) := acc (cs s).
  Definition ran : list (nat * nat) := done_ (cs s).
  (** The callbacks accepted before Shutdown was called. *)
  Definition accepted_at_shutdown : list (nat * nat) := match at_close (cs s) with Some l => l | None => [] end.
  (** The callbacks accepted before Run looked at the queue for the last time and found nothing;
      [overtaken]: those of them that it could not see, as the first of them was still being added. *)
  Definition accepted_at_last_look : list (nat * nat) := fst (seen (cs s)).
  Definition overtaken : list (nat * nat) := map (fun c => (by_ c, v_ c)) (snd (seen (cs s))).
  (** How often fiber [t] passed callback [v] to TryAdd / Add, how often it was accepted, and how often
      TryAdd returned false. *)
  Definition eqb2 (a b : nat * nat) : bool := (fst a =? fst b) && (snd a =? snd b).
  Definition times (a : nat * nat) (l : list (nat * nat)) : nat := length (filter (eqb2 a) l).
  Definition size : nat := length (q (cs s)).

  Definition run_returned : Prop := pc (th s 0) = Run KExit.
  Definition run_suspended : Prop := pc (th s 0) = Parked KWait.
  Definition add_suspended (t : nat) : Prop := exists v, pc (th s t) = Parked (PWait v).
  (** Between two calls. *)
  Definition outside (t : nat) : Prop := pc (th s t) = Run PIdle.
  (** Inside a call and not suspended. *)
  Definition working (t : nat) : Prop := ~ outside t /\ ~ add_suspended t.
  (** Run took elements out of the queue, did not start to run them, and did not yet complete the
      notification of the fibers in Add. *)
  Definition run_taking : Prop :=
    match pc (th s 0) with
    | Run (KDrop | KMore | KMoreFree | KNtf) | NLock _ true KRun | NWork _ true KRun => True
    | _ => False
    end.
  (** Fiber [u] published a callback or marked the queue as closed and did not yet complete the
      notification of Run. *)
  Definition telling_run (u : nat) : Prop :=
    match pc (th s u) with
    | Run (PNtf _ | SNtf) | NLock _ _ (PIdle | PDrop) | NWork _ _ (PIdle | PDrop) => True
    | _ => False
    end.
End Spec.
