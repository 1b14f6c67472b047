(** C82: the refresh of AWS credentials. *)
From Verif Require Import Util Conc CredSpec CredModel CredProof.
Local Open Scope N_scope.

(** Whatever the schedule, requests for new credentials never overlap. *)
Theorem cred_serial : forall c0 s0 ms w s, begun c0 s0 -> reachable step (start c0 s0 ms w) s ->
  exists o, asking (s_log s) o.
Proof. intros c0 s0 ms w s H. exact (cred_serial_pf c0 s0 H ms w s). Qed.
(** They go to the source that the first credentials came from; credentials from the environment or
    a file are never asked for again. *)
Theorem cred_asks : forall c0 s0 ms w s t x h, begun c0 s0 -> reachable step (start c0 s0 ms w) s ->
  happened (EAsk t x) h (s_log s) -> x = s0 /\ dynamic x.
Proof. intros c0 s0 ms w s t x h H. exact (cred_asks_pf c0 s0 H ms w s t x h). Qed.
(** A request is signed with one whole set of credentials, the newest one received (or, while that
    one arrives, the one before): failed requests change nothing, and sets are not mixed. *)
Theorem cred_sign : forall c0 s0 ms w s t c h, begun c0 s0 -> reachable step (start c0 s0 ms w) s ->
  happened (ESign t c) h (s_log s) -> in_force c0 h c.
Proof. intros c0 s0 ms w s t c h H. exact (cred_sign_pf c0 s0 H ms w s t c h). Qed.
(** What a return tells is true. *)
Theorem cred_returns_partial : forall c0 s0 ms w s t k r m v h, begun c0 s0 -> reachable step (start c0 s0 ms w) s ->
  happened (ERet t k r m v) h (s_log s) -> told c0 s0 h t k r m v.
Proof. intros c0 s0 ms w s t k r m v h H. exact (cred_returns_pf c0 s0 H ms w s t k r m v h). Qed.
(** A call waits at most half a minute for the refresh of another. *)
Theorem cred_bounded : forall c0 s0 ms w s t, begun c0 s0 -> reachable step (start c0 s0 ms w) s ->
  called t (s_log s) <> None -> (forall o, asking (s_log s) o -> o <> Some t) ->
  exists n s', (n <= 5)%nat /\ exec step s (LStep t :: LTick 30000 :: repeat (LStep t) n) = Next s' /\ settled t (s_log s').
Proof. intros c0 s0 ms w s t H. exact (cred_bounded_pf c0 s0 H ms w s t). Qed.
(** When all calls have returned the next refresh gets through. *)
Theorem cred_available : forall c0 s0 ms w s t, begun c0 s0 -> reachable step (start c0 s0 ms w) s -> dynamic s0 ->
  (forall u, called u (s_log s) = None) ->
  exists s', exec step s [LCall t CTok; LStep t; LStep t] = Next s'
    /\ s_log s' = EAsk t s0 :: ECall t CTok (s_ms s) :: s_log s.
Proof. intros c0 s0 ms w s t H. exact (cred_available_pf c0 s0 H ms w s t). Qed.
(** RefreshToken says that all is well although nothing was refreshed: the refresh it waited for failed. *)
Theorem cred_wait_refuted : exists ls s, exec step (start old ImdsSrc 0 90) ls = Next s
  /\ List.In (ERet 2 CTok ROk 0 90) (s_log s) /\ (forall t c, ~ List.In (EGot t (inl c)) (s_log s)) /\ expiring old 90.
Proof. exact cred_wait_refuted_pf. Qed.
(** RefreshIfExpiring asks for credentials although those in force, just received by another, do not expire. *)
Theorem cred_twice_refuted : exists ls s h, exec step (start old ImdsSrc 0 90) ls = Next s
  /\ s_log s = EAsk 1 ImdsSrc :: h /\ called 1 h = Some (CExp, 0) /\ received old h = [new; old] /\ ~ arriving h
  /\ ~ expiring new (s_wall s) /\ (forall w, ~ List.In (LWall w) ls).
Proof. exact cred_twice_refuted_pf. Qed.

Print Assumptions cred_serial.
Print Assumptions cred_asks.
Print Assumptions cred_sign.
Print Assumptions cred_returns_partial.
Print Assumptions cred_bounded.
Print Assumptions cred_available.
Print Assumptions cred_wait_refuted.
Print Assumptions cred_twice_refuted.

(** A run with two fibers: 1 finds the credentials expiring and refreshes, 2 waits and then finds
    fresh ones; both sign. *)
Definition refresh : list label :=
  [LSign 1; LCall 1 CExp; LCall 2 CExp; LStep 1; LStep 1; LStep 1; LStep 2; LStep 2; LStep 2; LAns 1 (inl new); LSign 3;
   LStep 1; LStep 1; LTick 100; LStep 2; LStep 2; LSign 2].
Example refresh_met : begun old ImdsSrc /\
  obs (fun s => rev (s_log s)) (exec step (start old ImdsSrc 0 90) refresh) = Some
    [ESign 1 old; ECall 1 CExp 0; ECall 2 CExp 0; EAsk 1 ImdsSrc; EGot 1 (inl new); ESign 3 old;
     ERet 1 CExp (RBool true) 0 90; ERet 2 CExp (RBool false) 100 90; ESign 2 new].
Proof. split; [left; right; right; reflexivity|vm_compute; reflexivity]. Qed.
(** One that waits half a minute in vain. *)
Example timeout_met :
  obs (fun s => rev (s_log s)) (exec step (start old ImdsSrc 0 90)
    [LCall 1 CTok; LCall 2 CTok; LStep 1; LStep 1; LStep 2; LStep 2; LTick 30000; LStep 2; LStep 2]) = Some
    [ECall 1 CTok 0; ECall 2 CTok 0; EAsk 1 ImdsSrc; ERet 2 CTok (RErr TimedOut) 30000 90].
Proof. vm_compute; reflexivity. Qed.
