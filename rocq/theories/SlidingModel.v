(** Model of util::SlidingCounter<NUM, T, Clock> (util/sliding_counter.h:50-113, 156-179).
    Simplification: T is the integers (the code's T must not overflow on the window's own sum).
    The clock is external: each call receives the slot index it reads. *)
From Verif Require Import Util.

(** util/sliding_counter.h:54, 111-112 *)
Record sc := SC { count : list Z; total : Z; last_ts : N }.

Section Sliding.
Variable NUM : N.
Open Scope N_scope.

(** util/sliding_counter.h:98-101 (last_ts_ is not touched). *)
Definition Reset (c : sc) : sc := SC (repeat 0%Z (N.to_nat NUM)) 0%Z (last_ts c).
(** util/sliding_counter.h:57-59 *)
Definition NewCounter : sc := Reset (SC [] 0%Z 0).

(** One iteration of util/sliding_counter.h:170-171 for slot [i]. *)
Definition clear_bin (i : N) (c : sc) : sc :=
  let b := N.to_nat (i mod NUM) in
  SC (set b 0%Z (count c)) (total c - nth b (count c) 0)%Z (last_ts c).
(** The loop: [n] iterations from slot [i]. *)
Fixpoint clear_bins (n : nat) (i : N) (c : sc) : sc :=
  match n with O => c | S n' => clear_bins n' (i + 1) (clear_bin i c) end.

(** util/sliding_counter.h:156-179. [None]: the loop of line 170 never ends when the clock reads
    2^64 - 1. *)
Definition MoveTsIfNeeded (current : N) (c : sc) : option (N * sc) :=
  if last_ts c <? current then
    if NUM <=? current - last_ts c then
      Some (current mod NUM, SC (repeat 0%Z (N.to_nat NUM)) 0%Z current)
    else if two64 - 1 <=? current then None
    else let c' := clear_bins (N.to_nat (current - last_ts c)) (last_ts c + 1) c in
         Some (current mod NUM, SC (count c') (total c') current)
  else Some (last_ts c mod NUM, c).

(** util/sliding_counter.h:80-84 *)
Definition IncBy (now : N) (delta : Z) (c : sc) : option sc :=
  match MoveTsIfNeeded now c with
  | Some (bin, c') =>
    let b := N.to_nat bin in
    Some (SC (set b (nth b (count c') 0 + delta)%Z (count c')) (total c' + delta)%Z (last_ts c'))
  | None => None
  end.
(** util/sliding_counter.h:87-90 *)
Definition SumTail (now : N) (c : sc) : option (Z * sc) :=
  match MoveTsIfNeeded now c with
  | Some (head, c') => Some ((total c' - nth (N.to_nat head) (count c') 0)%Z, c')
  | None => None
  end.
(** util/sliding_counter.h:92-95 *)
Definition Sum (now : N) (c : sc) : option (Z * sc) :=
  match MoveTsIfNeeded now c with Some (_, c') => Some (total c', c') | None => None end.

(** The calls: increment, the two reads, reset; each with the clock value read. *)
Inductive scop := SInc (now : N) (delta : Z) | SSum (now : N) | STail (now : N) | SReset.
Definition scstep (c : sc) (o : scop) : option (sc * option Z) :=
  match o with
  | SInc t d => match IncBy t d c with Some c' => Some (c', None) | None => None end
  | SSum t => match Sum t c with Some (z, c') => Some (c', Some z) | None => None end
  | STail t => match SumTail t c with Some (z, c') => Some (c', Some z) | None => None end
  | SReset => Some (Reset c, None)
  end.
Fixpoint scrun (c : sc) (h : list scop) : option (sc * list (option Z)) :=
  match h with
  | [] => Some (c, [])
  | o :: h' => match scstep c o with
               | Some (c1, r) => match scrun c1 h' with Some (c2, rs) => Some (c2, r :: rs) | None => None end
               | None => None
               end
  end.
End Sliding.
