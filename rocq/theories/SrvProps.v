(** C87: adding listeners to an AcceptServer, and stopping them. *)
From Verif Require Import Util Conc SrvModel SrvSpec SrvProof.

(** ** Adding *)

(** The listener is bound to the first IPv4 address for which a socket can be created, if that works, else to the first such
    IPv6 address; if neither works the caller gets an error that one of the calls gave, provided a socket can be created. *)
Theorem srv_add : forall l, l <> [] ->
  (forall a, binds l a -> AddListener (Some l) = Returns 0 (Some (a_id a))) /\
  ((forall a, ~ binds l a) -> creatable l -> exists e, AddListener (Some l) = Returns e None /\ an_error l e).
Proof. exact srv_add_pf. Qed.
Print Assumptions srv_add.
Example srv_add_met : let l := [Addr 0 F6 0 0 0 0; Addr 1 F4 97 0 0 0; Addr 2 F4 0 0 0 0] in
  binds l (Addr 2 F4 0 0 0 0) /\ AddListener (Some l) = Returns 0 (Some 2).
Proof.
  cbn zeta. split; [|reflexivity]. left. split; [|repeat split].
  exists [Addr 0 F6 0 0 0 0; Addr 1 F4 97 0 0 0], []. repeat split. intros b [<-|[<-|[]]]; discriminate.
Qed.
Example srv_add_met2 : creatable [Addr 0 F6 0 0 98 0] /\ AddListener (Some [Addr 0 F6 0 0 98 0]) = Returns 98 None.
Proof. split; [|reflexivity]. eexists. split; [now left|]. cbn. auto. Qed.

(** The variant that takes a port either binds or ends the process. *)
Theorem srv_port : forall l, l <> [] -> creatable l ->
  (forall a, binds l a -> AddListenerPort (Some l) = Returns 0 (Some (a_id a))) /\
  ((forall a, ~ binds l a) -> AddListenerPort (Some l) = Aborts).
Proof. exact srv_port_pf. Qed.
Print Assumptions srv_port.

(** If no socket can be created, success is reported although there is no listener; the variant that takes a port then
    dereferences a null pointer. *)
Theorem srv_silent_refuted : exists l, l <> [] /\ (forall a, ~ binds l a) /\
  AddListener (Some l) = Returns 0 None /\ AddListenerPort (Some l) = AddUb.
Proof. exact srv_silent_refuted_pf. Qed.
Print Assumptions srv_silent_refuted.

(** An address that would work is not tried if an earlier one of its family is in use. *)
Theorem srv_other_refuted : exists l a e, In a l /\ a_fam a = F4 /\ works a /\ e <> 0%N /\ AddListener (Some l) = Returns e None.
Proof. exact srv_other_refuted_pf. Qed.
Print Assumptions srv_other_refuted.

(** A UNIX socket: bound, or the error of the call that failed. *)
Theorem srv_uds : forall a,
  ((e_create a = 0 /\ e_conf a = 0 /\ e_listen a = 0)%N -> AddUDSListener a = Returns 0 (Some (a_id a))) /\
  (~ (e_create a = 0 /\ e_conf a = 0 /\ e_listen a = 0)%N ->
   exists e, e <> 0%N /\ (e = e_create a \/ e = e_conf a \/ e = e_listen a) /\ AddUDSListener a = Returns e None).
Proof. exact srv_uds_pf. Qed.
Print Assumptions srv_uds.

(** ** Stopping *)

(** While no connection migrates after the accept loop has ended, nothing undefined happens, whatever the pool's size and the
    schedule: no fiber looks up a list that is gone, no iterator leaves its list, nobody uses a destroyed listener. *)
Theorem srv_safe : forall n ls, settled false ls -> exec (step n) init ls <> Ub.
Proof. exact srv_safe_pf. Qed.
Print Assumptions srv_safe.

(** Then, when the accept loop returns, every connection that was accepted is over ... *)
Theorem srv_wait : forall n ls s c, settled false ls -> exec (step n) init ls = Next s -> waited s -> ~ open s c.
Proof. exact srv_wait_pf. Qed.
Print Assumptions srv_wait.
(** ... once it waits for its connections, all of them have been told to stop, also those that were accepted last ... *)
Theorem srv_told : forall n ls s c, settled false ls -> exec (step n) init ls = Next s -> swept s -> open s c -> told s c.
Proof. exact srv_told_pf. Qed.
Print Assumptions srv_told.
(** ... and it never waits for anything but connections that have been told to stop. *)
Theorem srv_progress : forall n ls s, settled false ls -> exec (step n) init ls = Next s -> ph s = Sweeping \/ ph s = Emptying ->
  (exists l s', own l /\ step n s l = Next s') \/ (ph s = Emptying /\ exists c, told s c).
Proof. exact srv_progress_pf. Qed.
Print Assumptions srv_progress.
(** No connection is told to stop while the listener accepts; here connections may migrate. *)
Theorem srv_early : forall n ls s c, exec (step n) init ls = Next s -> ph s = Accepting -> shut s c = false.
Proof. exact srv_early_pf. Qed.
Print Assumptions srv_early.

(** Two threads; one connection migrates before the loop ends, another is accepted at the last moment, a third closes while it
    is being shut down. *)
Definition run : list lab :=
  [Accept 0 0; Accept 1 0; Run 0; Run 0; Migrate 0 1; Accept 2 1; Break; Run 0; Close 1; Run 1; Run 1; Run 1; Back 1; Back 0; Back 1; Await;
   Run 0; Drop 0; Run 1].
Example srv_told_met : settled false run /\
  obs (fun s => (ph s, map (conn s) (seq 0 3), map (shut s) (seq 0 3))) (exec (step 2) init run) =
    Some (Emptying, [On 1; Gone; On 1], [true; true; true]).
Proof. split. cbn. auto. vm_compute. reflexivity. Qed.
Example srv_wait_met : settled false (run ++ [Close 2; Close 0; Drop 1; End; Destroy]) /\
  obs (fun s => (ph s, map (conn s) (seq 0 3))) (exec (step 2) init (run ++ [Close 2; Close 0; Drop 1; End; Destroy])) =
    Some (Destroyed, [Gone; Gone; Gone]).
Proof. split. cbn. auto. vm_compute. reflexivity. Qed.

(** A connection that migrates while its listener stops can miss being told: Wait then waits until its peer hangs up. *)
Theorem srv_missed_refuted : exists s, exec (step 2) init miss = Next s /\ swept s /\ open s 0 /\ shut s 0 = false.
Proof. exact srv_missed_refuted_pf. Qed.
Print Assumptions srv_missed_refuted.
(** The accept loop can return, and with it Wait, while a connection is on its way; the connection then uses the destroyed listener when
    it arrives or when it closes, and a connection left unlinked that migrates once more is undefined behaviour anyway. *)
Theorem srv_wait_refuted : exists s, exec (step 2) init flee = Next s /\ waited s /\ open s 0 /\
  exec (step 2) init (flee ++ [Destroy; Run 0]) = Ub /\
  exec (step 2) init (flee ++ [Run 0; Destroy; Close 0]) = Ub /\ exec (step 2) init (flee ++ [Run 0; Migrate 0 1]) = Ub.
Proof. exact srv_wait_refuted_pf. Qed.
Print Assumptions srv_wait_refuted.
(** If it migrates while the listener is in Shutdown for it, the listener goes on in the list of another thread. *)
Theorem srv_iter_refuted : exec (step 2) init swap = Ub.
Proof. exact srv_iter_refuted_pf. Qed.
Print Assumptions srv_iter_refuted.
