(** C14: EventCount. [NT] fibers wait (await / await_until) for arbitrary conditions on an arbitrary
    shared state, or change that state and then notify; every schedule, any number of calls. *)
From Verif Require Import Util Conc EcModel EcProof AwaitModel AwaitSpec AwaitProof.

Section C14.
  Context {X : Type} (cond : nat -> X -> bool) (take : nat -> X -> X) (op : nat -> X -> X * bool).
  Context (all : bool) (menu : nat -> nat -> option call) (waiter : nat -> bool) (NT : nat).
  (** Fewer than 2^32 fibers. *)
  Context (Hnt : (N.of_nat NT < two32)%N).
  (** Whoever makes a condition true notifies afterwards. *)
  Context (Hop : forall g x k, cond k (fst (op g x)) = true -> cond k x = true \/ snd (op g x) = true).
  (** The effect of a condition that was found true (e.g. taking an element) makes no other one true. *)
  Context (Htake : forall j x k, cond j x = true -> cond k (take j x) = true -> cond k x = true).
  (** Either notifyAll() is used or at most one fiber waits. *)
  Context (Hall : all = true \/ exists w0, forall t, waiter t = true -> t = w0).
  Notation astep := (step NT (acode cond take op all menu waiter)).

  (** No lost wake-up: whenever a suspended fiber's condition holds, some fiber still has to
      complete a notification. The run is arbitrary, except that no fiber is preempted between
      making its key and comparing epochs for as long as 2^32 notifications take. *)
  Theorem ec_no_lost_wakeup x0 ls s t k : exec astep (ainit x0) ls = Next s -> timely astep (ainit x0) ls ->
    suspended_on s t k -> cond k (cs s) = true -> exists u, notifying s u.
  Proof.
    intros R A [tm E] Hc.
    destruct (await_no_lost_wakeup_pf cond take op all menu waiter NT Hnt Hop Htake Hall x0 s t k tm) as [u H]; auto.
    - now exists ls.
    - apply (await_window_pf cond take op all menu waiter NT Hnt Hop Htake Hall x0 ls s R).
      intros n s1 u l ky E1 P K. apply N.nle_gt. intros B. apply (A n s1 u E1). exists l, ky. auto.
    - exists u. unfold notifying. destruct H as [->|[->| ->]]; exact I.
  Qed.

  (** So if every fiber is idle or suspended, every suspended fiber's condition is false. *)
  Theorem ec_quiescent x0 ls s t k : exec astep (ainit x0) ls = Next s -> timely astep (ainit x0) ls ->
    (forall u, pc (th s u) = Run Idle \/ exists l, pc (th s u) = Parked l) ->
    suspended_on s t k -> cond k (cs s) = false.
  Proof.
    intros R A Q S. destruct (cond k (cs s)) eqn:E; auto. exfalso.
    destruct (ec_no_lost_wakeup x0 ls s t k R A S E) as [u N]. unfold notifying in N.
    destruct (Q u) as [H|[l H]]; rewrite H in N; exact N.
  Qed.

  (** Every run with fewer than 2^32 notifications in total qualifies. *)
  Theorem ec_no_lost_wakeup_short x0 s t k : reachable astep (ainit x0) s -> (notifications s < two32)%N ->
    suspended_on s t k -> cond k (cs s) = true -> exists u, notifying s u.
  Proof.
    intros R A [tm E] Hc.
    destruct (await_no_lost_wakeup_pf cond take op all menu waiter NT Hnt Hop Htake Hall x0 s t k tm R) as [u H]; auto.
    - exact (await_aba_pf cond take op all menu waiter NT Hnt Hop Htake Hall x0 s R A).
    - exists u. unfold notifying. destruct H as [->|[->| ->]]; exact I.
  Qed.

  (** No call blocks another one for good inside the primitive: a fiber that is in the middle of a
      notification, or of going to sleep or of waking up, can step, or else the fiber holding the
      internal spin lock can. *)
  Theorem ec_progress x0 s u : reachable astep (ainit x0) s -> u < NT ->
    (forall l, pc (th s u) <> Run l) -> (forall l, pc (th s u) <> Parked l) ->
    exists v s', astep s (v, 0) = Next s' /\ (v = u \/ exists e, lk (ec s e) = Some v).
  Proof. exact (await_progress_pf cond take op all menu waiter NT Hnt Hop Htake Hall x0 s u). Qed.

  (** No schedule performs an undefined operation (a corrupted wait queue, an unbalanced unlock,
      a waiter count below zero, ...). *)
  Theorem ec_safe x0 : safe astep (ainit x0).
  Proof. exact (await_safe_pf cond take op all menu waiter NT Hnt x0). Qed.
End C14.
Print Assumptions ec_no_lost_wakeup.
Print Assumptions ec_quiescent.
Print Assumptions ec_no_lost_wakeup_short.
Print Assumptions ec_progress.
Print Assumptions ec_safe.

(** Without that exception the claim is false: the 32-bit epoch repeats
    after 2^32 notifications, and a fiber that was preempted between its key and its wait call sleeps
    although its flag is set and nobody is going to notify. *)
Theorem ec_no_lost_wakeup_refuted : exists s,
  reachable (step 2 wcode) (ainit false) s /\ suspended_on s 0 0 /\ cs s = true /\ ~ exists u, u < 2 /\ notifying s u.
Proof.
  destruct ec_wrap_pf as (s & R & C & P0 & P1 & L). exists s. split; auto. split. { now exists false. } split; auto.
  intros (u & Hu & N). unfold notifying in N. destruct u as [|[|]]; [rewrite P0 in N|rewrite P1 in N|lia]; auto.
Qed.
Print Assumptions ec_no_lost_wakeup_refuted.

(** With notify() (one fiber) and two waiters the claim is false: one waiter is released, the other stays although its condition holds. *)
Definition one_code : nat -> aloc -> instr bool aloc :=
  acode (fun _ x => x) (fun _ x => x) (fun _ _ => (true, true)) false
    (fun t c => Some (if t <? 2 then CAwait 0 false else COp 0)) (fun _ => true).
Definition one_sched : list (nat * nat) :=
  repeat (0,0) 8 ++ repeat (1,0) 8 ++ repeat (2,0) 5 ++ repeat (0,0) 7.
Theorem ec_notify_one_refuted : exists s, reachable (step 3 one_code) (ainit false) s /\
  suspended_on s 1 0 /\ cs s = true /\ pc (th s 0) = Run Idle /\ pc (th s 2) = Run Idle.
Proof.
  destruct (reach_obs (step 3 one_code) (fun s => (pc (th s 0), pc (th s 1), pc (th s 2), cs s)) (ainit false) one_sched
    (Run Idle, Parked (Wt 0 false), Run Idle, true)) as (s & R & E).
  { vm_compute. reflexivity. }
  exists s. split; auto. injection E as -> P -> ->. repeat split; auto. now exists false.
Qed.
Print Assumptions ec_notify_one_refuted.

(** Non-vacuity: the hypotheses hold of a flag that fibers 0 and 1 wait for and fiber 2 sets; the run
    below suspends both, sets the flag (claim of the theorem: fiber 2 is notifying), and ends with all
    three idle. *)
Definition demo_code : nat -> aloc -> instr bool aloc :=
  acode (fun _ x => x) (fun _ x => x) (fun _ _ => (true, true)) true
    (fun t c => Some (if t <? 2 then CAwait 0 false else COp 0)) (fun _ => true).
Definition demo_at n := exec (step 3 demo_code) (ainit false)
  (firstn n (repeat (0,0) 8 ++ repeat (1,0) 8 ++ repeat (2,0) 7 ++ repeat (0,0) 7 ++ repeat (1,0) 7)).
Definition pcs (o : outcome (st bool aloc)) :=
  match o with Next s => Some (map (fun t => pc (th s t)) [0; 1; 2]) | _ => None end.
Example ec_demo_mid : pcs (demo_at 17) = Some [Parked (Wt 0 false); Parked (Wt 0 false); Run Ntf].
Proof. vm_compute. reflexivity. Qed.
Example ec_demo_end : pcs (demo_at 37) = Some [Run Idle; Run Idle; Run Idle].
Proof. vm_compute. reflexivity. Qed.
Example ec_demo_hyps :
  (forall (g : nat) (x : bool) (k : nat), (fun (_ : nat) (y : bool) => y) k (fst ((fun _ _ => (true, true)) g x)) = true ->
     x = true \/ snd ((fun (_ : nat) (_ : bool) => (true, true)) g x) = true).
Proof. intros. right. reflexivity. Qed.
