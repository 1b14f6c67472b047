(** C72: RWSpinLock. *)
From Verif Require Import Util Conc RwSpinModel RwSpinSpec RwSpinProof.
From Coq Require Import ZArith.

Section S.
Variable n : nat.
Hypothesis small : (Z.of_nat n < 536870911)%Z.   (* threads: the count of readers takes 29 bits *)

(** Two threads have compatible rights in every reachable state. *)
Theorem rwspin_exclusion s t t' a b : reachable (step n) init s -> t <> t' -> right_of (th s t) = Some a -> right_of (th s t') = Some b -> compatible a b.
Proof. exact (rwspin_exclusion_pf n small s t t' a b). Qed.
(** What a thread saw when it got the lock is so until it lets go of it, apart from what it stores itself: also when it promotes
    an upgradable lock or gives up a part of its rights on the way. *)
Theorem rwspin_stable s t : reachable (step n) init s -> right_of (th s t) <> None -> seen s t = data s.
Proof. exact (rwspin_stable_pf n small s t). Qed.
(** When nobody uses the lock it is as new: no failed attempt leaves a trace. *)
Theorem rwspin_clean s : reachable (step n) init s -> (forall t, th s t = Out) -> bits s = bits init.
Proof. exact (rwspin_clean_pf n small s). Qed.
(** An attempt fails only because of another thread that has, or is about to ask for, a right that is in the way. *)
Theorem rwspin_lock s s' t : reachable (step n) init s -> step n s (t, TryLock) = Next s' -> th s' t = Wr \/ exists u, u <> t /\ th s u <> Out.
Proof. exact (rwspin_lock_pf n small s s' t). Qed.
Theorem rwspin_shared s s' t : reachable (step n) init s -> step n s (t, TryShared) = Next s' ->
  th s' t = Rd \/ (th s' t = Back /\ exists u, u <> t /\ (right_of (th s u) = Some Writer \/ right_of (th s u) = Some Upgrader)).
Proof. exact (rwspin_shared_pf n small s s' t). Qed.
Theorem rwspin_upgrade s s' t : reachable (step n) init s -> step n s (t, TryUpgrade) = Next s' ->
  th s' t = Up \/ (exists u, u <> t /\ (right_of (th s u) = Some Writer \/ right_of (th s u) = Some Upgrader)).
Proof. exact (rwspin_upgrade_pf n small s s' t). Qed.
Theorem rwspin_promote s s' t : reachable (step n) init s -> step n s (t, TryPromote) = Next s' ->
  th s' t = Wr \/ (th s' t = Up /\ exists u, u <> t /\ (th s u = Rd \/ th s u = Back)).
Proof. exact (rwspin_promote_pf n small s s' t). Qed.
(** "Block any new readers": while there is an upgrader, nobody becomes a reader. *)
Theorem rwspin_upgrader_blocks s s' t u : reachable (step n) init s -> right_of (th s u) = Some Upgrader -> step n s (t, TryShared) = Next s' -> th s' t = Back.
Proof. exact (rwspin_upgrader_blocks_pf n small s s' t u). Qed.
Theorem rwspin_no_overflow s : reachable (step n) init s -> (0 <= bits s < 2147483648)%Z.
Proof. exact (rwspin_no_overflow_pf n small s). Qed.
End S.

(** Readers, an upgrader that waits for one of them, a reader that is turned away, promotion, a store, an upgrade attempt during the
    write, and the way down. *)
Definition tour : list (nat * op) :=
  [(0, TryShared); (1, TryUpgrade); (2, TryShared); (1, TryPromote); (2, BackOff); (0, UnlockShared); (1, TryPromote); (1, Store 7); (2, TryUpgrade);
   (1, ToUp1); (1, ToUp2); (1, TryPromote); (1, ToShared1); (1, ToShared2); (2, TryShared)].
Example rwspin_tour_met : exists s, exec (step 3) init tour = Next s /\ th s 1 = Rd /\ th s 2 = Rd /\ seen s 1 = 7 /\ seen s 2 = 7 /\ data s = 7.
Proof. eexists. split; [cbv; reflexivity|]. cbn. auto. Qed.
Example rwspin_turned_away_met : exists s, exec (step 3) init (firstn 3 tour) = Next s /\ right_of (th s 1) = Some Upgrader /\ right_of (th s 0) = Some Reader /\ th s 2 = Back.
Proof. eexists. split; [cbv; reflexivity|]. cbn. auto. Qed.
Example rwspin_clean_met : exists s, exec (step 3) init (tour ++ [(1, UnlockShared); (2, UnlockShared)]) = Next s /\ forall t, th s t = Out.
Proof. eexists. split; [cbv; reflexivity|]. intros [|[|[|t]]]; reflexivity. Qed.

Print Assumptions rwspin_exclusion.
Print Assumptions rwspin_stable.
Print Assumptions rwspin_clean.
Print Assumptions rwspin_lock.
Print Assumptions rwspin_shared.
Print Assumptions rwspin_upgrade.
Print Assumptions rwspin_promote.
Print Assumptions rwspin_upgrader_blocks.
Print Assumptions rwspin_no_overflow.
