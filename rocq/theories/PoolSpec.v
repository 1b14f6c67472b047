(** What a user of AwaitBrief and AwaitFiberOnAll relies on. *)
From Verif Require Import Util Conc PoolModel.

Definition ev_dec (a b : ev) : {a = b} + {a <> b}.
Proof. decide equality; apply Nat.eq_dec. Defined.
(** How often an event happened. *)
Definition times (e : ev) (h : list ev) : nat := count_occ ev_dec h e.
(** In history [h], call [c] has been made on each of [n] proactors, once, from beginning to end. *)
Definition all_once (n c : nat) (h : list ev) : Prop := forall i, i < n -> times (Begin c i) h = 1 /\ times (End c i) h = 1.
Definition is_call (l : lab) : bool := match l with LCall _ => true | _ => false end.
