(** What a user of SimpleChannel sees. *)
From Verif Require Import Util Conc EcModel EcProof ChannelModel.

Section Spec.
  Context (s : st chan cloc).
  (** Everything pushed so far, in order, and everything popped so far, in order: producer, value. *)
  Definition sent : list (nat * nat) := pushed (cs s).
  Definition received : list (nat * nat) := map (fun x => (snd (fst x), snd x)) (popped (cs s)).
  (** How many elements are in the channel. *)
  Definition size : nat := length (q (cs s)).

  (** The fiber is suspended inside Push / Pop. *)
  Definition push_suspended (t : nat) : Prop := exists v, pc (th s t) = Parked (PWait v).
  Definition pop_suspended (t : nat) : Prop := pc (th s t) = Parked KWait.
  (** The fiber is between two calls on the channel. *)
  Definition outside (t : nat) : Prop :=
    pc (th s t) = Run PIdle \/ pc (th s t) = Run PClosed \/ pc (th s t) = Run KIdle \/ pc (th s t) = Run KRet.
  (** The fiber is inside a call and not suspended: it will take further steps of that call. *)
  Definition working (t : nat) : Prop :=
    ~ outside t /\ ~ push_suspended t /\ ~ pop_suspended t.
  (** Pop returned false to fiber [t]. *)
  Definition pop_failed (t : nat) : Prop := pc (th s t) = Run KRet.
  (** Fiber [t] has called StartClosing and is past marking the channel. *)
  Definition has_closed (t : nat) : Prop := loc (pc (th s t)) = PNAll \/ loc (pc (th s t)) = PClosed.

  (** For counting: fibers that are awake inside Pop or TryPop, fibers that pushed an element and
      did not yet complete the notification for it. *)
  Definition popping (t : nat) : bool :=
    match pc (th s t) with
    | Run (KTry _ | KPrep | KAgain)
    | Woken KWait | FLock KWait _ | FUnl KWait _ | WUnl KWait false => true
    | _ => false
    end.
  Definition announcing (t : nat) : bool :=
    match pc (th s t) with
    | Run (PNtf _) => true
    | NLock _ false (PIdle | PDrop) | NWork _ false (PIdle | PDrop) => true
    | _ => false
    end.
  Definition in_pop (t : nat) : bool := match pc (th s t) with Parked KWait => true | _ => false end.
  Fixpoint count (f : nat -> bool) (n : nat) : nat :=
    match n with O => 0 | S m => count f m + (if f m then 1 else 0) end.
End Spec.
(** The number of producers among the fibers 0 .. n-1. *)
Fixpoint producers (cons : nat -> bool) (n : nat) : nat :=
  match n with O => 0 | S m => producers cons m + (if cons m then 0 else 1) end.
