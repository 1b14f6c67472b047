(** What C87 says: where a listener gets bound, and what shutting it down means for its connections. *)
From Verif Require Import Util Conc SrvModel.

(** Every call for the address succeeds. *)
Definition works (a : addr) : Prop := e_create a = 0%N /\ e_conf a = 0%N /\ e_bind a = 0%N /\ e_listen a = 0%N.
(** [a] is the first address of the family for which a socket can be created. *)
Definition first_of (f : family) (l : list addr) (a : addr) : Prop :=
  exists l1 l2, l = l1 ++ a :: l2 /\ a_fam a = f /\ e_create a = 0%N /\
    forall b, In b l1 -> a_fam b = f -> e_create b <> 0%N.
(** The address a listener is to be bound to: IPv4 before IPv6. *)
Definition binds (l : list addr) (a : addr) : Prop :=
  (first_of F4 l a /\ works a) \/
  ((forall b, first_of F4 l b -> ~ works b) /\ first_of F6 l a /\ works a).
(** [e] is an error that one of the calls gave. *)
Definition an_error (l : list addr) (e : N) : Prop :=
  e <> 0%N /\ exists a, In a l /\ (e = e_conf a \/ e = e_bind a \/ e = e_listen a).
(** For some address a socket can be created. *)
Definition creatable (l : list addr) : Prop :=
  exists a, In a l /\ (a_fam a = F4 \/ a_fam a = F6) /\ e_create a = 0%N.

(** A schedule in which no connection migrates once the accept loop has ended. *)
Fixpoint settled (stopped : bool) (ls : list lab) : Prop :=
  match ls with
  | [] => True
  | Break :: r => settled true r
  | Migrate _ _ :: r => stopped = false /\ settled stopped r
  | _ :: r => settled stopped r
  end.
(** The connection was accepted and is not over. *)
Definition open (s : st) (c : nat) : Prop := conn s c <> Absent /\ conn s c <> Gone.
(** The connection is being served, and is told to stop. *)
Definition told (s : st) (c : nat) : Prop := (exists t, conn s c = On t) /\ shut s c = true.
(** The listener is past asking its connections to stop; it is past waiting for them. *)
Definition swept (s : st) : Prop := ph s = Emptying \/ ph s = Returned \/ ph s = Destroyed.
Definition waited (s : st) : Prop := ph s = Returned \/ ph s = Destroyed.
(** A step of the listener or of the pool, not of a connection. *)
Definition own (l : lab) : Prop := match l with Run _ | Back _ | Await | Drop _ | End => True | _ => False end.
