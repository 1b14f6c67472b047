(** ListenerInterface: util/fibers/listener_interface.cc:91-183 (RunAcceptLoop, up to the break), :255-301
    (RunSingleConnection), :309-348 (traversals), :350-413 (Migrate), listener_interface.h:122-149.

    One accept loop, any number of connections, of traversals and of threads. Simplifications: shutting down (:185-244)
    is left out, and so is what connections do other than opening, migrating and closing; a connection is linked in the
    list of at most one thread ([linked]); the lists of a thread are only touched by that thread, and a traversal
    does not preempt once it goes over its list, so that this is one step. *)
From Verif Require Import Util Conc.

(** A connection (its fiber): no connection; accepted, not yet linked; serving on thread [t]; in Migrate: must roll back; has
    the lock; unlinked and on its way; linked again, has the lock; closing: unlinked. *)
Inductive cpc := Free | Start (t : nat) | Serve (t : nat) | Back (t d : nat) | Hold (t d : nat) | Gone (d : nat) | Done (d : nat) | Closed.

(** A fiber in TraverseConnectionsOnThread on thread [t], or not. *)
Inductive tpc := TOut | TSpin (t : nat) | TRun (t : nat) | TRel (t : nat).

(** The accept loop: accepting, or closing a connection that is over the limit. *)
Inductive apc := AWait | AReject.

(** [gate] migrate_traversal_state_, [oc] open_connections_, [maxc] max_clients_. Ghosts: [hi] the largest value
    max_clients_ has had, [vlog] what callbacks were called for: traversal and connection. *)
Record st := mk { conns : list cpc; travs : list tpc; acc : apc; gate : N; oc : N; maxc : N; hi : N; vlog : list (nat * nat) }.

Definition kMigrateVal : N := 4294967296.
Definition mask : N := 4294967295.

(** fetch_add and fetch_sub on 64 and 32 bits *)
Definition add64 (a b : N) : N := ((a + b) mod two64)%N.
Definition sub64 (a b : N) : N := ((a + (two64 - b)) mod two64)%N.
Definition add32 (a b : N) : N := ((a + b) mod two32)%N.
Definition sub32 (a b : N) : N := ((a + (two32 - b)) mod two32)%N.

Inductive lab :=
  | Accept (c t : nat)   (* a connection arrives; if it is served, it is number [c], on thread [t] *)
  | Reject               (* the accept loop has closed the connection *)
  | Link (c : nat)       (* RunSingleConnection links *)
  | Close (c : nat)      (* ... unlinks *)
  | Over (c : nat)       (* ... is done *)
  | Migrate (c d : nat)  (* Migrate takes the lock, or tries to *)
  | Move (c : nat)       (* the next step of Migrate *)
  | Trav (i t : nat)     (* TraverseConnectionsOnThread starts *)
  | Spin (i : nat)       (* ... looks again *)
  | Visit (i : nat)      (* ... calls the callbacks *)
  | Leave (i : nat)      (* ... ends *)
  | SetMax (m : N).

(** The thread in whose list the connection is. *)
Definition linked (c : cpc) : option nat :=
  match c with Serve t | Back t _ | Hold t _ => Some t | Done d => Some d | Free | Start _ | Gone _ | Closed => None end.
Definition on (t : nat) (c : cpc) : bool := match linked c with Some u => u =? t | None => false end.
(** Positions of the connections in thread [t]'s list. *)
Fixpoint in_list (t k : nat) (l : list cpc) : list nat :=
  match l with [] => [] | c :: r => if on t c then k :: in_list t (S k) r else in_list t (S k) r end.

Definition put (s : st) (c : nat) (x : cpc) (g : N) : st := mk (set c x (conns s)) (travs s) (acc s) g (oc s) (maxc s) (hi s) (vlog s).
Definition putt (s : st) (i : nat) (x : tpc) (g : N) : st := mk (conns s) (set i x (travs s)) (acc s) g (oc s) (maxc s) (hi s) (vlog s).

(** listener_interface.cc:117-183 *)
Definition accept (s : st) (c t : nat) : outcome st :=
  match acc s, nth_error (conns s) c with
  | AWait, Some Free =>
      if (maxc s <=? oc s)%N
      then Next (mk (conns s) (travs s) AReject (gate s) (add32 (oc s) 1) (maxc s) (hi s) (vlog s))
      else Next (mk (set c (Start t) (conns s)) (travs s) AWait (gate s) (add32 (oc s) 1) (maxc s) (hi s) (vlog s))
  | _, _ => Stuck
  end.
(** :163-167 *)
Definition reject (s : st) : outcome st :=
  match acc s with
  | AReject => Next (mk (conns s) (travs s) AWait (gate s) (sub32 (oc s) 1) (maxc s) (hi s) (vlog s))
  | AWait => Stuck
  end.

(** :255-301 *)
Definition link (s : st) (c : nat) : outcome st :=
  match nth_error (conns s) c with Some (Start t) => Next (put s c (Serve t) (gate s)) | _ => Stuck end.
Definition close (s : st) (c : nat) : outcome st :=
  match nth_error (conns s) c with Some (Serve t) => Next (put s c Closed (gate s)) | _ => Stuck end.
Definition over (s : st) (c : nat) : outcome st :=
  match nth_error (conns s) c with
  | Some Closed => Next (mk (set c Free (conns s)) (travs s) (acc s) (gate s) (sub32 (oc s) 1) (maxc s) (hi s) (vlog s))
  | _ => Stuck
  end.

(** :350-380. Migrating to the thread one is on does nothing. *)
Definition migrate (s : st) (c d : nat) : outcome st :=
  match nth_error (conns s) c with
  | Some (Serve t) =>
      if t =? d then Next s
      else if (N.land (gate s) mask =? 0)%N then Next (put s c (Hold t d) (add64 (gate s) kMigrateVal))
      else Next (put s c (Back t d) (add64 (gate s) kMigrateVal))
  | _ => Stuck
  end.
(** :377-378 roll back (the next try is a new [Migrate]); :382-384 unlink; :389-409 link; :412 release *)
Definition move (s : st) (c : nat) : outcome st :=
  match nth_error (conns s) c with
  | Some (Back t d) => Next (put s c (Serve t) (sub64 (gate s) kMigrateVal))
  | Some (Hold t d) => Next (put s c (Gone d) (gate s))
  | Some (Gone d) => Next (put s c (Done d) (gate s))
  | Some (Done d) => Next (put s c (Serve d) (sub64 (gate s) kMigrateVal))
  | _ => Stuck
  end.

(** :316-348 *)
Definition trav (s : st) (i t : nat) : outcome st :=
  match nth_error (travs s) i with
  | Some TOut => Next (putt s i (if (N.shiftr (gate s) 32 =? 0)%N then TRun t else TSpin t) (add64 (gate s) 1))
  | _ => Stuck
  end.
Definition spin (s : st) (i : nat) : outcome st :=
  match nth_error (travs s) i with
  | Some (TSpin t) => Next (putt s i (if (N.shiftr (gate s) 32 =? 0)%N then TRun t else TSpin t) (gate s))
  | _ => Stuck
  end.
Definition visit (s : st) (i : nat) : outcome st :=
  match nth_error (travs s) i with
  | Some (TRun t) => Next (mk (conns s) (set i (TRel t) (travs s)) (acc s) (gate s) (oc s) (maxc s) (hi s)
                              (vlog s ++ map (fun c => (i, c)) (in_list t 0 (conns s))))
  | _ => Stuck
  end.
Definition leave (s : st) (i : nat) : outcome st :=
  match nth_error (travs s) i with Some (TRel t) => Next (putt s i TOut (sub64 (gate s) 1)) | _ => Stuck end.

Definition step (s : st) (l : lab) : outcome st :=
  match l with
  | Accept c t => accept s c t
  | Reject => reject s
  | Link c => link s c
  | Close c => close s c
  | Over c => over s c
  | Migrate c d => migrate s c d
  | Move c => move s c
  | Trav i t => trav s i t
  | Spin i => spin s i
  | Visit i => visit s i
  | Leave i => leave s i
  | SetMax m => if (m <? two32)%N then Next (mk (conns s) (travs s) (acc s) (gate s) (oc s) m (N.max m (hi s)) (vlog s)) else Stuck
  end.

(** At most [n] connections and [m] traversals at a time, client limit [mx]. *)
Definition init (n m : nat) (mx : N) : st := mk (repeat Free n) (repeat TOut m) AWait 0 0 mx mx [].
