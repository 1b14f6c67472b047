(** What the callback API of TLS sockets promises. *)
From Verif Require Import Util TlsModel TlsSpec TlsAsyncModel.
Open Scope N_scope.

Definition awrote1 (r : ares) : N := match r with AW n => n | _ => 0 end.
Fixpoint awrote (l : list ares) : N := match l with [] => 0 | r :: t => awrote1 r + awrote t end.
Definition areads (l : list ares) : list N := flat_map (fun r => match r with AR _ b => b | _ => [] end) l.
Definition aeof (l : list ares) : Prop := exists n, 0 < n /\ In (AR n []) l.
(** The writer has been told to stop. *)
Definition astopped (l : list ares) : Prop := In AWErr l \/ In (AW 0) l.

(** Calls without empty buffers. *)
Definition agood (l : alab) : Prop :=
  match l with AWrite lens _ => Forall (fun n => 0 < n) lens | ARead n _ => 0 < n | _ => True end.

(** Connections on which writing needs no reading (no renegotiation), and on which reading needs no
    writing (no key update). *)
Definition calm_w (c : wch) : Prop := w_dec c <> WOp NeedR.
Definition calm_r (c : rch) : Prop := r_ctl c = 0%nat /\ r_want c = false.
Definition calm_writes (l : alab) : Prop :=
  match l with
  | AWrite _ chs => Forall calm_w chs
  | ARead _ _ => True
  | UpWrite c | UpRead c => Forall calm_w (x_w (y_p c)) /\ Forall calm_w (x_w (y_o c))
  end.
Definition calm_reads (l : alab) : Prop :=
  match l with
  | AWrite _ _ => True
  | ARead _ ch => calm_r ch
  | UpWrite c | UpRead c => calm_r (x_r (y_p c)) /\ calm_r (x_r (y_o c))
  end.

(** What the engine has taken of an outstanding write. *)
Definition ataken (s : ast) : N := match a_wr s with Some q => q_written q | None => 0 end.

(** A request is in an operation of the upstream socket, or it waits for the other one. *)
Definition owner (o : option (role * N)) : option role := match o with Some (r, _) => Some r | None => None end.
Definition in_flight (r : role) (s : ast) : Prop := owner (a_uw s) = Some r \/ owner (a_ur s) = Some r.
Definition peer (r : role) : role := match r with Reader => Writer | Writer => Reader end.
