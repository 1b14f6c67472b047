(** Vocabulary of the statements about the scheduler of a thread. *)
From Verif Require Import Util Conc SchedModel.

(** How often [f] occurs in a list. *)
Definition times (f : nat) (l : list nat) : nat := count_occ Nat.eq_dec l f.

(** Where a fiber can be: it runs, it is in one of the two ready queues, it sleeps, it has ended and waits to be destroyed. *)
Definition places (s : st) : list nat := act s :: q0 s ++ q1 s ++ map snd (slp s) ++ term s.
Definition ready (s : st) : list nat := q0 s ++ q1 s.

(** The fibers of priority [p] in a list, in the same order; the dispatcher (fiber 0) is left out. *)
Definition of_prio (pr : nat -> prio) (p : prio) (l : list nat) : list nat :=
  filter (fun f => negb (f =? 0) && match pr f, p with Normal, Normal | Back, Back | High, High => true | _, _ => false end) l.

(** Launch::dispatch is used only between fibers that share a queue. *)
Definition same_queue (a b : prio) : bool :=
  match a, b with Back, Back => true | Back, _ => false | _, Back => false | _, _ => true end.
Definition calm (pr : nat -> prio) (s : st) (l : lab) : bool :=
  match l with Start f true => same_queue (pr f) (pr (act s)) | _ => true end.
Definition cstep (pr : nat -> prio) (s : st) (l : lab) : outcome st := if calm pr s l then step pr s l else Stuck.

(** No timed wait is asked to last forever. *)
Definition finite (l : lab) : bool :=
  match l with Wait t => (t <? tmax)%Z | Yield (YSleep t) => (t <? tmax)%Z | _ => true end.
Definition fstep (pr : nat -> prio) (s : st) (l : lab) : outcome st := if finite l then step pr s l else Stuck.
