(** Specification of C10: a log of (slot, delta); time is the largest clock value read so far. *)
From Verif Require Import Util SlidingModel.
Open Scope N_scope.

(** Sum of the deltas of the log entries whose slot satisfies [p]. *)
Fixpoint sum_if (p : N -> bool) (log : list (N * Z)) : Z :=
  match log with
  | [] => 0%Z
  | (s, d) :: t => ((if p s then d else 0) + sum_if p t)%Z
  end.

(** State: current time and the log since the last Reset. *)
Definition logstep (NUM : N) (st : N * list (N * Z)) (o : scop) : (N * list (N * Z)) * option Z :=
  let (now, log) := st in
  match o with
  | SInc t d => let n := N.max now t in ((n, (n, d) :: log), None)
  | SSum t => let n := N.max now t in ((n, log), Some (sum_if (fun s => n <? s + NUM) log))
  | STail t => let n := N.max now t in
               ((n, log), Some (sum_if (fun s => (n <? s + NUM) && negb (s =? n)) log))
  | SReset => ((now, []), None)
  end.
Fixpoint logrun (NUM : N) (st : N * list (N * Z)) (h : list scop) : (N * list (N * Z)) * list (option Z) :=
  match h with
  | [] => (st, [])
  | o :: h' => let (st1, r) := logstep NUM st o in let (st2, rs) := logrun NUM st1 h' in (st2, r :: rs)
  end.
(** Clock values are below 2^64 - 1. *)
Definition clock_ok (o : scop) : Prop :=
  match o with SInc t _ | SSum t | STail t => t < two64 - 1 | SReset => True end.
