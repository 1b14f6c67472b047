(** C28: counter and gauge families. Every number of threads, every history of calls cut wherever a fiber
    may be preempted, every hash function. *)
From Verif Require Import Util Conc MetricsModel MetricsSpec MetricsProof.
From Coq Require Import ZArith Permutation.

Section Props.
  Variable hash : list N -> N.
  (** Every call that was made has ended and is counted, or still waits for the lock. *)
  Theorem metrics_calls n ls s : exec (step hash) (init n) ls = Next s -> Permutation (calls ls) (pend s ++ done s).
  Proof. exact (metrics_calls_pf hash n ls s). Qed.

  Variable U : labels -> Prop.
  Hypothesis Hap : apart hash U.
  (** The label sets in use have different hashes, and no thread meets a label set for the first time after it
      has met one that the family saw later: then Iterate reports each label set used, once, with the sum over
      the threads of what they gave it. Full property: the same without these two conditions; it is false, see below. *)
  Theorem metrics_partial n ls : (forall t L o, In (t, L, o) (calls ls) -> U L) ->
    exec (cstep hash) (init n) ls <> Ub /\
    forall s, exec (cstep hash) (init n) ls = Next s ->
      NoDup (map fst (report s)) /\
      forall L v, In (L, v) (report s) <-> (exists t o, In (t, L, o) (done s)) /\ v = total n L (done s).
  Proof. exact (metrics_partial_pf hash U Hap n ls). Qed.
  (** In a pool of one thread the second condition is always met. *)
  Theorem metrics_one_thread_partial ls : (forall t L o, In (t, L, o) (calls ls) -> U L) ->
    exec (step hash) (init 1) ls <> Ub /\
    forall s, exec (step hash) (init 1) ls = Next s ->
      NoDup (map fst (report s)) /\
      forall L v, In (L, v) (report s) <-> (exists t o, In (t, L, o) (done s)) /\ v = total 1 L (done s).
  Proof. intros H. rewrite (one_exec hash U Hap ls H). exact (metrics_partial_pf hash U Hap 1 ls H). Qed.
End Props.
(** For counters the sum over the threads is the sum of the increments. *)
Theorem metrics_increments n L cs : (forall t L' o, In (t, L', o) cs -> t < n /\ exists v, o = Add v) ->
  total n L cs = increments L cs.
Proof. exact (increments_total n L cs). Qed.
Print Assumptions metrics_calls.
Print Assumptions metrics_partial.
Print Assumptions metrics_one_thread_partial.
Print Assumptions metrics_increments.

(** Two label sets with one label each. *)
Definition LA : labels := [[1]]%N.
Definition LB : labels := [[2]]%N.

Ltac run1 D1 D2 := eapply exec_cons; [cbv -[N.eqb]; repeat (rewrite ?N.eqb_refl, ?D1, ?D2; cbv -[N.eqb]); reflexivity|].

(** Finding: thread 0 meets A, then B. Thread 1 meets B, then A: the resize for A cuts B's counter off, and the increments
    of thread 1 for B are lost, whatever the hash. *)
Theorem metrics_lost_refuted : forall hash, hash [1]%N <> hash [2]%N -> exists ls s,
  exec (step hash) (init 2) ls = Next s /\ pend s = [] /\ increments LB (done s) = 12%Z /\ In (LB, 5%Z) (report s).
Proof.
  intros hash D.
  assert (D1 := proj2 (N.eqb_neq _ _) D). assert (D2 := proj2 (N.eqb_neq _ _) (not_eq_sym D)).
  exists [Call 0 LA (Add 1); Finish 0; Call 0 LB (Add 5); Finish 0; Call 1 LB (Add 7); Finish 0; Call 1 LA (Add 1); Finish 0].
  eexists. split; [do 8 run1 D1 D2; reflexivity|]. cbn. auto.
Qed.
(** Finding: ... and the next increment of thread 1 for B writes past the end of the vector. *)
Theorem metrics_oob_refuted : forall hash, hash [1]%N <> hash [2]%N -> exists ls, exec (step hash) (init 2) ls = Ub.
Proof.
  intros hash D.
  assert (D1 := proj2 (N.eqb_neq _ _) D). assert (D2 := proj2 (N.eqb_neq _ _) (not_eq_sym D)).
  exists [Call 0 LA (Add 1); Finish 0; Call 0 LB (Add 5); Finish 0; Call 1 LB (Add 7); Finish 0; Call 1 LA (Add 1); Finish 0; Call 1 LB (Add 1)].
  do 8 run1 D1 D2. cbv -[N.eqb]. now rewrite D1, N.eqb_refl.
Qed.
(** Finding: the labels are hashed one after the other with nothing between them, so ("a","bc") and ("ab","c") share one counter,
    whatever the hash: what is counted for the second is reported for the first. *)
Theorem metrics_concat_refuted : forall hash, exists ls s,
  let L1 := [[97]; [98; 99]]%N in let L2 := [[97; 98]; [99]]%N in
  exec (step hash) (init 1) ls = Next s /\ pend s = [] /\ report s = [(L1, 3%Z)] /\
  increments L1 (done s) = 1%Z /\ increments L2 (done s) = 2%Z.
Proof.
  intros hash. exists [Call 0 [[97]; [98; 99]]%N (Add 1); Finish 0; Call 0 [[97; 98]; [99]]%N (Add 2)]. eexists.
  split; [do 3 run1 (@N.eqb_refl) (@N.eqb_refl); reflexivity|]. repeat split.
Qed.
Print Assumptions metrics_lost_refuted.
Print Assumptions metrics_oob_refuted.
Print Assumptions metrics_concat_refuted.

(** The hypotheses are met: two threads, two fibers of thread 0 racing for the same new labels, counters and a Set; the
    hash weighs the bytes. *)
Definition h0 (l : list N) : N := fold_left (fun a x => 256 * a + x)%N l 0%N.
Example metrics_met : apart h0 (fun L => L = LA \/ L = LB) /\
  exists s, exec (cstep h0) (init 2)
    [Call 0 LA (Add 1); Call 0 LA (Add 2); Finish 1; Finish 0; Call 1 LA (Add 4); Call 1 LB (Add 8); Finish 0; Finish 0; Call 0 LB (Put 3); Finish 0;
     Call 0 LA (Add 1)] = Next s /\ report s = [(LA, 8%Z); (LB, 11%Z)] /\ total 2 LA (done s) = 8%Z.
Proof.
  split.
  - intros L L' [->| ->] [->| ->]; vm_compute; congruence.
  - eexists. split; [vm_compute; reflexivity|]. split; vm_compute; reflexivity.
Qed.
