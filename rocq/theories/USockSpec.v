(** What a user of io_uring sockets relies on. *)
From Verif Require Import Util Conc USockModel.
Local Open Scope Z_scope.

(** The bytes that the results of writes on file [f] say were sent, in the order of the results. *)
Definition sent_by (cs : list callrec) (f : nat) (lg : list (nat * res)) : list N :=
  flat_map (fun e => match nth_error cs (fst e), snd e with
                     | Some c, RSent n =>
                       match c_file c with
                       | Some g => if Nat.eqb g f then firstn n (c_data c) else []
                       | None => []
                       end
                     | _, _ => []
                     end) lg.
(** The bytes that the results of reads on file [f] delivered. *)
Definition got_by (cs : list callrec) (f : nat) (lg : list (nat * res)) : list N :=
  flat_map (fun e => match nth_error cs (fst e), snd e with
                     | Some c, RGot l =>
                       match c_file c with
                       | Some g => if Nat.eqb g f then l else []
                       | None => []
                       end
                     | _, _ => []
                     end) lg.

(** Descriptor [fd] belongs to socket [s]. *)
Definition owns (x : st) (s : nat) (fd : Z) : Prop :=
  exists w, socks x s = Some w /\ 0 <= w /\ shifted w = fd.

(** Call [i] is still waiting. *)
Definition waiting (x : st) (i : nat) : Prop := exists q, In q (pend x) /\ q_op q = i.
(** Results given for call [i]. *)
Definition answers (x : st) (i : nat) : list res :=
  map snd (filter (fun e => Nat.eqb (fst e) i) (log x)).
