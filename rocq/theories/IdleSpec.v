(** What users of on-idle tasks see. *)
From Verif Require Import Util Conc IdleModel.

(** Task [t] is registered under [id]. *)
Definition registered (s : st) (id t : nat) : Prop := exists ts, nth_error (arr s) id = Some (Some t, ts).
(** Nothing is registered under [id]. *)
Definition free_id (s : st) (id : nat) : Prop := forall t, ~ registered s id t.
(** Task [t], registered under [id] when it was called, is running. *)
Definition running (s : st) (id t : nat) : Prop := exists r start cur nm sp, mode s = Call r t start cur nm sp /\ ridx r = id.
(** The registrations other than that of [id] are the same in both states. *)
Definition same_but (id : nat) (s s' : st) : Prop := forall i t, i <> id -> registered s' i t <-> registered s i t.

(** The clock as RunOnIdleTasks last read it. *)
Definition clock (s : st) : N := match mode s with Out => 0%N | Loop _ cur _ _ | Call _ _ _ cur _ _ => cur end.

(** The use that the code supports: RemoveOnIdleTask is not given the id of the task that was
    registered last among those present, and a task does not register so many others that the vector
    reallocates while it runs. *)
Definition calm (s : st) (l : lab) : bool :=
  match l with
  | Remove id => negb (S id =? length (arr s))%nat
  | Add => match mode s with Call _ _ _ _ _ _ => (length (arr s) <? cap s)%nat | _ => true end
  | _ => true
  end.
Definition cstep (budget slow kmax : N) (s : st) (l : lab) : outcome st := if calm s l then step budget slow kmax s l else Stuck.

Definition is_iter (l : lab) : bool := match l with Iter => true | _ => false end.
Definition is_change (l : lab) : bool := match l with Add | Remove _ => true | _ => false end.
