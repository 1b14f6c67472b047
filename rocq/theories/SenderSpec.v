(** What is expected of the HTTP clients; independent of how they work. *)
From Verif Require Import Util Conc SenderModel.
Open Scope N_scope.

(** [Drop]s and [DropHandle]s after which the connection can be used again: the body was read to its
    end, or the connection is not kept. *)
Definition reads_body (s : st) (o : op) : Prop :=
  match o with
  | Drop u =>
    match p_users s u with
    | Got k _ _ => match k_h k with
                   | Some i => c_open (conn_at s i) = true -> k_reuse k = true ->
                               c_left (conn_at s i) = 0
                   | None => True
                   end
    | _ => True
    end
  | DropHandle u =>
    match p_users s u with
    | Got k _ _ => match k_h k with
                   | Some i => c_open (conn_at s i) = true -> c_left (conn_at s i) = 0
                   | None => True
                   end
    | _ => True
    end
  | _ => True
  end.

(** The server keeps the bodies of its error messages below 8 megabytes. *)
Definition short_errors (o : op) : Prop :=
  match o with
  | Attempt _ a => ~ In (r_code (a_resp a)) [200; 201; 206; 308] -> r_len (a_resp a) <= 8388608
  | _ => True
  end.

(** Executions all of whose transitions satisfy [P]. *)
Inductive runs (P : st -> op -> Prop) (rc : nat) : st -> st -> Prop :=
| runs_nil s : runs P rc s s
| runs_snoc s s1 o s2 : runs P rc s s1 -> P s1 o -> step rc s1 o = Next s2 -> runs P rc s s2.

Definition polite (s : st) (o : op) : Prop := reads_body s o /\ short_errors o.

(** User [u] has connection [i]. *)
Definition holds (s : st) (u i : nat) : Prop :=
  match user_call (p_users s u) with Some k => k_h k = Some i | None => False end.

(** Connections that exist. *)
Definition live (s : st) : list conn := filter (fun c => negb (c_del c)) (p_conns s).

(** A network and a server without faults: connecting succeeds, writing succeeds, and the server
    answers what it receives with 200 and keeps the connection. *)
Definition healthy (r : resp) : att := mkAtt true (fun _ => WOk) r HOk r true true.
Definition ok_resp (n : N) : resp := mkResp 200 false false n true.

(** Idle connections that the server has closed in the meantime. *)
Definition stale (s : st) : nat :=
  length (filter (fun i => negb (c_alive (conn_at s i))) (p_avail s)).

(** ** Answers *)

Definition ok_code (c : N) : Prop := In c [200; 201; 206; 308].
(** The server asks for (new) credentials. *)
Definition challenge (r : resp) : Prop :=
  r_auth r = true /\ (r_code r = 401 \/ r_code r = 403 /\ r_bearer r = true).
Definition pushback (r : resp) : Prop := r_code r = 429 \/ 500 <= r_code r < 600.
Definition redirection (r : resp) : Prop := 300 <= r_code r < 400.
(** Answers that settle the matter: success, missing, forbidden, moved. *)
Definition final (r : resp) : Prop :=
  ok_code (r_code r) \/ r_code r = 404 \/ redirection r \/ r_code r = 403 /\ ~ challenge r.

(** What an error code tells about the last answer. *)
Definition tells (e : err) (r : resp) : Prop :=
  match e with
  | EAgain => pushback r
  | EDenied => challenge r
  | ENotPermitted => r_code r = 403 /\ ~ challenge r
  | ENoEntry => r_code r = 404
  | ERefused => redirection r
  | EBadMessage => ~ final r /\ ~ challenge r /\ ~ pushback r
  | EConnect | EClosed | EIo | ELimit | ECred => True
  end.
Definition from_answer (e : err) : Prop :=
  match e with EConnect | EClosed | EIo | ELimit | ECred => False | _ => True end.
