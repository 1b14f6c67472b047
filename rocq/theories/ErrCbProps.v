(** C71: the error callback of an io_uring socket. *)
From Verif Require Import Util Conc ErrCbModel ErrCbSpec ErrCbProof.

(** In every run in which each registration is cancelled before the next one, whatever the kernel and the other requests of
    the proactor do, no wrapper is used after it was deleted and no CHECK fails. *)
Theorem errcb_safe ls : polite false ls -> exec step init ls <> Ub.
Proof. exact (errcb_safe_pf ls). Qed.
(** The callback of every registration is called at most once, and never after CancelOnErrorCb or Close was called. *)
Theorem errcb_once ls s w : polite false ls -> exec step init ls = Next s -> once w true (hist s).
Proof. exact (errcb_once_pf ls s w). Qed.
(** The removal sent by CancelOnErrorCb never removes another request, although the slot it names may be in use again. *)
Theorem errcb_remove_own ls s w o : polite false ls -> exec step init ls = Next s -> In (Hit w o) (hist s) -> o = ForErr w.
Proof. exact (errcb_remove_own_pf ls s w o). Qed.
(** With no registration and nothing under way every wrapper has been deleted and every slot is free. *)
Theorem errcb_no_leak ls s w : polite false ls -> exec step init ls = Next s -> sock s = None -> idle s ->
  ws s w = None /\ forall i, slots s i = Free.
Proof. exact (errcb_no_leak_pf ls s w). Qed.
(** Until its callback is called, a registration is watched: its poll is about to be submitted, is in the kernel, or has fired. *)
Theorem errcb_watched ls s w : polite false ls -> exec step init ls = Next s -> sock s = Some w -> ~ In (Called w) (hist s) ->
  exists i, slots s i = ForErr w /\ (In (Add i) (sq s) \/ kreq s i = Some (ForErr w) \/ In (i, true) (cq s)).
Proof. exact (errcb_watched_pf ls s w). Qed.
(** And when the poll has fired, the callback is called as soon as the proactor handles the completion. *)
Theorem errcb_reported ls s s' w i q : polite false ls -> exec step init ls = Next s -> sock s = Some w -> ~ In (Called w) (hist s) ->
  slots s i = ForErr w -> cq s = (i, true) :: q -> step s LDispatch = Next s' -> In (Called w) (hist s').
Proof. exact (errcb_reported_pf ls s s' w i q). Qed.

(** Once the queues have been worked off, the kernel watches for no registration but the current one: CancelOnErrorCb removes
    the poll (Close without it, which logs at level DFATAL, does not). *)
Theorem errcb_cancel_removes ls s i w : polite false ls -> exec step init ls = Next s -> ~ In Dfatal (hist s) -> sq s = [] -> cq s = [] ->
  kreq s i = Some (ForErr w) -> sock s = Some w.
Proof. exact (errcb_cancel_removes_pf ls s i w). Qed.

(** The call does not end the registration: CancelOnErrorCb is still needed before the next RegisterOnErrorCb (a CHECK) and
    before Close (DFATAL). *)
Example errcb_still_registered_met :
  exists s, exec step init [LReg 0; KSubmit; KFire 0; LDispatch] = Next s /\ hist s = [Called 0] /\
  step s (LReg 0) = Ub /\ (exists s', step s LClose = Next s' /\ In Dfatal (hist s')) /\ (exists s', step s LCancel = Next s' /\ ws s' 0 = None).
Proof.
  eexists. split; [cbv; reflexivity|]. split; [reflexivity|]. split; [reflexivity|]. split; eexists; (split; [cbv; reflexivity|]); [right; now left|reflexivity].
Qed.

(** The poll fires, the user cancels before the completion is handled; a second registration gets the same slot; the first
    one's removal is still in the queue. *)
Definition race : list lab := [LReg 0; KSubmit; KFire 0; LCancel; LDispatch; LReg 0; LOther 1; KSubmit; KSubmit; KSubmit; KFire 0; LDispatch; LCancel].
Example errcb_race_met : polite false race /\ exists s, exec step init race = Next s /\ hist s = [Cancelled 0; Called 1; Cancelled 1] /\ slots s 1 = Other /\ ws s 0 = None /\ ws s 1 = None.
Proof. split; [cbn; auto|]. eexists. split; [cbv; reflexivity|]. cbn. auto. Qed.
(** A removal that finds its poll. *)
Definition removed : list lab := [LReg 0; KSubmit; LCancel; KSubmit; LDispatch].
Example errcb_removed_met : polite false removed /\ exists s, exec step init removed = Next s /\ hist s = [Cancelled 0; Hit 0 (ForErr 0)] /\ sock s = None /\ idle s.
Proof. split; [cbn; auto|]. eexists. split; [cbv; reflexivity|]. cbn. repeat split. intros [|i]; reflexivity. Qed.
Example errcb_cancel_removes_met : let ls := removed ++ [LReg 4; KSubmit] in polite false ls /\ exists s, exec step init ls = Next s /\
  hist s = [Cancelled 0; Hit 0 (ForErr 0)] /\ sq s = [] /\ cq s = [] /\ kreq s 4 = Some (ForErr 1).
Proof. split; [cbn; auto|]. eexists. split; [cbv; reflexivity|]. cbn. auto. Qed.
Example errcb_fired_met : polite false [LReg 3; KSubmit; KFire 3] /\ exists s, exec step init [LReg 3; KSubmit; KFire 3] = Next s /\ sock s = Some 0 /\
  hist s = [] /\ slots s 3 = ForErr 0 /\ cq s = [(3, true)].
Proof. split; [cbn; auto|]. eexists. split; [cbv; reflexivity|]. cbn. auto. Qed.

Print Assumptions errcb_safe.
Print Assumptions errcb_once.
Print Assumptions errcb_remove_own.
Print Assumptions errcb_no_leak.
Print Assumptions errcb_watched.
Print Assumptions errcb_reported.
Print Assumptions errcb_cancel_removes.
