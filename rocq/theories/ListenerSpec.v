(** What users of a listener rely on. *)
From Verif Require Import Util Conc ListenerModel.

(** Connection [c] is being served: it was accepted and is not over. *)
Definition serving (x : cpc) : bool := match x with Free => false | _ => true end.
Definition served (s : st) : nat := length (filter serving (conns s)).
(** Connection [c] is changing threads: no list, or the wrong one, has it. *)
Definition relinking (s : st) (c : nat) : Prop :=
  exists t d, nth_error (conns s) c = Some (Hold t d) \/ nth_error (conns s) c = Some (Gone d) \/ nth_error (conns s) c = Some (Done d).
(** A traversal is going over its list. *)
Definition traversing (s : st) (i : nat) : Prop := exists t, nth_error (travs s) i = Some (TRun t).
(** A connection is served on a thread from the moment it is linked there until it is unlinked, whatever
    Migrate is about to do or has just done. *)
Definition on_thread (x : cpc) (t : nat) : Prop :=
  match x with Serve u => u = t | Back u _ => u = t | Hold u _ => u = t | Done u => u = t | Free | Start _ | Gone _ | Closed => False end.
(** The thread whose list connection [c] is in. *)
Definition listed (s : st) (c t : nat) : Prop := exists x, nth_error (conns s) c = Some x /\ on_thread x t.
(** Nobody is waiting for a lock or has one. *)
Definition idle (s : st) : Prop :=
  (forall c x, nth_error (conns s) c = Some x -> match x with Free | Start _ | Serve _ | Closed => True | _ => False end) /\
  (forall i x, nth_error (travs s) i = Some x -> x = TOut).

(** ** TraverseConnections as a whole: traversal number [t] runs on thread [t], for each of the [k] threads. *)
Definition of_trav (i : nat) (l : lab) : bool :=
  match l with Trav j _ | Visit j | Leave j => i =? j | _ => false end.
Definition whole_call (k : nat) (s : st) (ls : list lab) : Prop :=
  forall t, t < k -> nth_error (travs s) t = Some TOut /\ filter (of_trav t) ls = [Trav t t; Visit t; Leave t].
(** Connection [c] is being served from [s] on, until the end of [ls]. *)
Fixpoint open_thru (s : st) (ls : list lab) (c : nat) : Prop :=
  match nth_error (conns s) c with Some x => serving x = true | None => False end /\
  match ls with
  | [] => True
  | l :: r => match step s l with Next s' => open_thru s' r c | _ => False end
  end.
(** Calls of the callback for [c]. *)
Definition calls (s : st) (c : nat) : nat := length (filter (fun p => snd p =? c) (vlog s)).
(** A connection open for the whole call is visited exactly once. *)
Definition visits_once : Prop := forall n m mx k s ls s' c t,
  (N.of_nat n + 1 < two32)%N -> (N.of_nat m < two32)%N -> (mx < two32)%N -> reachable step (init n m mx) s ->
  m = k -> whole_call k s ls -> exec step s ls = Next s' -> listed s c t -> t < k -> open_thru s ls c ->
  (forall c' d, In (Migrate c' d) ls -> d < k) -> calls s' c = calls s c + 1.
(** No connection is migrated or closed meanwhile. *)
Definition still (c : nat) (l : lab) : bool :=
  match l with Migrate c' _ => negb (c =? c') | Close c' => negb (c =? c') | _ => true end.
