(** What has happened to a blocking counter, in terms of its calls. *)
From Verif Require Import Util.

Record calls := mk_calls {
  added : N;          (* the start count plus everything added since *)
  decs : N;           (* number of Dec calls since *)
  cancelled : bool;   (* Cancel was called since *)
  returns : list (bool * (N * N * bool)) (* Wait calls that returned: the result, and the above at that time *)
}.
Definition fresh_calls (n : N) := mk_calls n 0 false [].
Definition did_dec h := mk_calls (added h) (decs h + 1) (cancelled h) (returns h).
Definition did_cancel h := mk_calls (added h) (decs h) true (returns h).
Definition did_add h n := mk_calls (added h + n) (decs h) (cancelled h) (returns h).
Definition did_start h n := mk_calls n 0 false (returns h).
Definition did_return h r := mk_calls (added h) (decs h) (cancelled h) (returns h ++ [(r, (added h, decs h, cancelled h))]).

(** The round is over. *)
Definition finished (h : calls) : Prop := added h = decs h \/ cancelled h = true.
