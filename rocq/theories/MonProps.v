(** C15 (Mutex) and C49 (CondVar), for any number of fibers that run any client code. *)
From Verif Require Import Util Conc MonModel MonSpec MonProof MonWake.

(** At most one fiber is between lock() and unlock(). *)
Theorem mutex_exclusion {C L} NT (code : nat -> L -> minstr C L) own c0 l0 s t u :
  paired code own -> (forall v, own v (l0 v) = false) ->
  reachable (step NT code) (minit c0 l0) s -> inside own s t -> inside own s u -> t = u.
Proof. intros P O. exact (mutex_exclusion_pf NT code own P c0 l0 O s t u). Qed.
Print Assumptions mutex_exclusion.

(** No CHECK fails, no fiber is activated that is not suspended, the queues are never accessed by two
    fibers at once. *)
Theorem mutex_safe {C L} NT (code : nat -> L -> minstr C L) own c0 l0 :
  paired code own -> cv_guarded code own -> sane code -> (forall v, own v (l0 v) = false) ->
  safe (step NT code) (minit c0 l0).
Proof. intros P G S O. exact (mutex_safe_pf NT code own P c0 l0 O G S). Qed.
Print Assumptions mutex_safe.

(** If a fiber is suspended in lock() then somebody owns the mutex, or a fiber is awake in lock() and
    about to look at it. *)
Theorem mutex_handover {C L} NT (code : nat -> L -> minstr C L) own c0 l0 s t :
  paired code own -> (forall v, own v (l0 v) = false) ->
  reachable (step NT code) (minit c0 l0) s -> lock_suspended s t ->
  (exists u, owner s = Some u) \/ exists u k, pc s u = LSpin k \/ pc s u = LTest k.
Proof. intros P O. exact (mutex_handover_pf NT code own P c0 l0 O s t). Qed.
Print Assumptions mutex_handover.

(** When every fiber is outside of lock() .. unlock() or suspended, nobody is suspended in lock(). *)
Theorem mutex_quiescent {C L} NT (code : nat -> L -> minstr C L) own c0 l0 s t :
  paired code own -> (forall v, own v (l0 v) = false) ->
  reachable (step NT code) (minit c0 l0) s ->
  (forall u, outside own s u \/ lock_suspended s u \/ cv_suspended s u) -> ~ lock_suspended s t.
Proof. intros P O. exact (mutex_quiet_pf NT code own P c0 l0 O s t). Qed.
Print Assumptions mutex_quiescent.

(** A call in progress that is not suspended never blocks for ever: somebody can take a step. *)
Theorem mutex_progress {C L} NT (code : nat -> L -> minstr C L) own c0 l0 s t :
  paired code own -> (forall v, own v (l0 v) = false) ->
  reachable (step NT code) (minit c0 l0) s -> t < NT ->
  (forall l, pc s t <> Run l) -> ~ lock_suspended s t -> ~ cv_suspended s t ->
  exists u s', step NT code s (u, 0) = Next s'.
Proof. intros P O. exact (mutex_progress_pf NT code own P c0 l0 O s t). Qed.
Print Assumptions mutex_progress.

(** If the predicate of a fiber suspended in wait() has become true, then a fiber is still on its way
    to notify_all(). *)
Theorem condvar_no_lost_wakeup {C L} NT (code : nat -> L -> minstr C L) own wants owes c0 l0 s t k :
  paired code own -> cv_discipline code own wants owes -> (forall v, own v (l0 v) = false) ->
  reachable (step NT code) (minit c0 l0) s -> pc s t = CvParked k -> wants t k (cs s) = true ->
  exists u, owing owes s u = true.
Proof. intros P D O. exact (cv_no_lost_wakeup_pf NT code own wants owes P D c0 l0 O s t k). Qed.
Print Assumptions condvar_no_lost_wakeup.

(** ** Non-vacuity. A client that calls lock()/try_lock()/unlock() as it likes. *)
Inductive dloc := DIdle | DLock | DTry | DHeld.
Definition dcode (t : nat) (l : dloc) : minstr unit dloc :=
  match l with
  | DIdle => MAtom (fun c n => Next (c, match n with 0 => DLock | _ => DTry end))
  | DLock => MLock DHeld
  | DTry => MTry DHeld DIdle
  | DHeld => MUnlock DIdle
  end.
Definition down (t : nat) (l : dloc) : bool := match l with DHeld => true | _ => false end.
Example demo_paired : paired dcode down.
Proof. intros t []; simpl; auto. intros c [|n] c' l' [= <- <-]; reflexivity. Qed.
Example demo_guarded : cv_guarded dcode down /\ sane dcode.
Proof. split; intros t []; simpl; auto; discriminate. Qed.
(** Fiber 0 has the mutex, 1 and 2 are suspended in lock(), the try_lock() of 3 has failed. *)
Example demo_contended : exists s, reachable (step 4 dcode) (minit tt (fun _ => DIdle)) s /\
  inside down s 0 /\ lock_suspended s 1 /\ lock_suspended s 2 /\ outside down s 3.
Proof.
  destruct (reach_obs (step 4 dcode) (fun s => (pc s 0, pc s 1, pc s 2, pc s 3)) (minit tt (fun _ => DIdle))
    (repeat (0,0) 5 ++ repeat (1,0) 5 ++ repeat (2,0) 5 ++ repeat (3,1) 5) (Run DHeld, LParked DHeld, LParked DHeld, Run DIdle))
    as (s & R & E).
  { vm_compute. reflexivity. }
  injection E as E0 E1 E2 E3. exists s. split; auto. split; [|split; [|split]]; eexists; eauto.
Qed.
(** ... and after its unlock() fiber 1 gets in. *)
Example demo_handed_over : exists s, reachable (step 4 dcode) (minit tt (fun _ => DIdle)) s /\
  outside down s 0 /\ inside down s 1 /\ lock_suspended s 2.
Proof.
  destruct (reach_obs (step 4 dcode) (fun s => (pc s 0, pc s 1, pc s 2)) (minit tt (fun _ => DIdle))
    (repeat (0,0) 5 ++ repeat (1,0) 5 ++ repeat (2,0) 5 ++ repeat (0,0) 4 ++ repeat (1,0) 3) (Run DIdle, Run DHeld, LParked DHeld))
    as (s & R & E).
  { vm_compute. reflexivity. }
  injection E as E0 E1 E2. exists s. split; auto. split; [|split]; eexists; eauto.
Qed.

(** A client that waits for a flag: fiber 0 sets it and notifies, the others wait for it. *)
Inductive floc := FLock | FTest | FWait | FSet | FNtf | FUnl | FEnd.
Definition fcode (t : nat) (l : floc) : minstr bool floc :=
  match l with
  | FLock => MLock (match t with 0 => FSet | _ => FTest end)
  | FTest => MAtom (fun (c : bool) n => Next (c, if c then FUnl else FWait))
  | FWait => CvWait FTest
  | FSet => MAtom (fun (c : bool) n => Next (true, FNtf))
  | FNtf => CvNotify true FUnl
  | FUnl => MUnlock FEnd
  | FEnd => MAtom (fun (c : bool) n => Stuck)
  end.
Definition fown (t : nat) (l : floc) : bool := match l with FLock | FEnd => false | _ => true end.
Definition fwants (t : nat) (k : floc) (c : bool) : bool := c.
Definition fowes (t : nat) (l : floc) : bool := match l with FNtf => true | _ => false end.
Example flag_paired : paired fcode fown.
Proof.
  intros t []; simpl; auto; try discriminate.
  - destruct t; auto.
  - intros [] n c' l' [= <- <-]; reflexivity.
  - intros c n c' l' [= <- <-]; reflexivity.
Qed.
Example flag_discipline : cv_discipline fcode fown fwants fowes.
Proof.
  intros t []; simpl; auto; try (split; [reflexivity || discriminate|intros; discriminate]).
  - split; [destruct t; auto|destruct t; discriminate].
  - intros [] n c' l' [= <- <-]; repeat split; auto; try discriminate; congruence.
  - intros c n c' l' [= <- <-]; repeat split; auto; try discriminate.
Qed.
(** Fiber 1 is suspended, the flag is set, and fiber 0 is about to notify. *)
Example flag_woken : exists s, reachable (step 2 fcode) (minit false (fun _ => FLock)) s /\
  pc s 1 = CvParked FTest /\ fwants 1 FTest (cs s) = true /\ owing fowes s 0 = true.
Proof.
  destruct (reach_obs (step 2 fcode) (fun s => (pc s 0, pc s 1, cs s)) (minit false (fun _ => FLock))
    (repeat (1,0) 9 ++ repeat (0,0) 5) (Run FNtf, CvParked FTest, true)) as (s & R & E).
  { vm_compute. reflexivity. }
  injection E as E0 E1 E2. exists s. unfold owing, fwants. rewrite E0. auto.
Qed.
