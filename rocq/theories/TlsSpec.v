(** What TLS streams carry. *)
From Verif Require Import Util TlsModel.
Open Scope N_scope.

(** The application bytes in what is sent and in what is received. *)
Definition apps (l : list tok) : list N := flat_map (fun t => match t with A b => [b] | C => [] end) l.
Definition iapps (l : list itok) : list N := flat_map (fun t => match t with IA b => [b] | _ => [] end) l.

(** What the reader has copied in a call that has not returned. *)
Fixpoint k_got (k : cont) : list N := match k with KRead _ _ got => got | KUp k => k_got k | _ => [] end.
Definition p_cont (p : pc) : option cont :=
  match p with Idle => None | Run k | WaitW k | WaitR k | Send _ k | Recv k => Some k end.
Definition got_of (p : pc) : list N := match p_cont p with Some k => k_got k | None => [] end.
(** What the engine has taken of a write that has not returned. *)
Fixpoint k_taken (k : cont) : N := match k with KAfter _ w | KRet w => w | KUp k => k_taken k | _ => 0 end.
Definition taken (p : pc) : N := match p_cont p with Some k => k_taken k | None => 0 end.

Definition sending (p : pc) : bool := match p with Send _ _ => true | _ => false end.
Definition receiving (p : pc) : bool := match p with Recv _ => true | _ => false end.

(** Calls without empty buffers. *)
Definition good (l : lab) : Prop :=
  match l with CallWrite lens | CallTrySend lens _ => Forall (fun n => 0 < n) lens | _ => True end.

(** What the results of the calls say: the number of bytes written, the bytes read, whether the last
    write was complete, and whether a read has reported the end of the stream. *)
Definition wrote1 (r : ret) : N := match r with Wrote n | TrySent _ n => n | _ => 0 end.
Fixpoint wrote (l : list ret) : N := match l with [] => 0 | r :: t => wrote1 r + wrote t end.
Definition reads (l : list ret) : list N :=
  flat_map (fun r => match r with ReadOk b | TryRead _ b => b | _ => [] end) l.
Definition complete1 (b : bool) (r : ret) : bool :=
  match r with
  | Wrote _ => true | TrySent want n => n =? want
  | WroteErr | TrySentErr _ => false
  | _ => b
  end.
Definition complete (l : list ret) : bool := fold_left complete1 l true.
Definition eof_seen (l : list ret) : Prop := In (ReadOk []) l \/ exists n, 0 < n /\ In (TryRead n []) l.

(** In a call of the upstream socket. *)
Definition busy (p : pc) : bool := sending p || receiving p.
