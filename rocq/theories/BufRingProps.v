(** Theorems about buffer rings and multishot receives (C70). *)
From Verif Require Import Util Conc BufRingModel BufRingSpec BufRingProof.
Open Scope N_scope.

(** C70: with every ring that RegisterBufferRing accepts, incremental or not, with bundles or without, whatever the
    sizes and the number of sockets, and however kernel and proactor interleave: no DCHECK fails, so buffer ids
    and offsets of proactor and kernel agree. *)
Theorem bufring_safe n es inc : ring_ok n es -> safe (step n es inc) (init n es).
Proof. exact (bufring_safe_pf n es inc). Qed.
Print Assumptions bufring_safe.

(** C70: the bytes given to the hook of a socket are, in this order, those received for it; none is overwritten by
    the kernel before the hook has returned. *)
Theorem bufring_stream n es inc s k : ring_ok n es -> reachable (step n es inc) (init n es) s ->
  exists rest, received k (karr s) = given k (hist s) ++ rest.
Proof. exact (fun R => bufring_stream_pf n es inc R s k). Qed.
Print Assumptions bufring_stream.

(** C70: all of them, when the completions are handled. *)
Theorem bufring_all n es inc s k : ring_ok n es -> reachable (step n es inc) (init n es) s -> cq s = [] -> cur s = None ->
  given k (hist s) = received k (karr s).
Proof. exact (fun R => bufring_all_pf n es inc R s k). Qed.
Print Assumptions bufring_all.

(** C70: then no buffer is lost: the kernel owns at least [n - 1] of them (one may be partly used), and at least one. *)
Theorem bufring_returned n es inc s : ring_ok n es -> reachable (step n es inc) (init n es) s -> cq s = [] -> cur s = None ->
  khead s < tail s /\ tail s <= khead s + n /\ n <= (tail s - khead s) + 1.
Proof. exact (fun R => bufring_returned_pf n es inc R s). Qed.
Print Assumptions bufring_returned.

(** C70: the proactor can handle all completions by itself, unless one says that there were no buffers. *)
Theorem bufring_handled_partial n es inc s : ring_ok n es -> reachable (step n es inc) (init n es) s -> dead s = false ->
  (forall k, ~ In (Fin k ENOBUFS) (cq s)) ->
  exists ls s', forallb own ls = true /\ exec (step n es inc) s ls = Next s' /\ cq s' = [] /\ cur s' = None.
Proof. exact (fun R => bufring_handled_pf n es inc R s). Qed.
Print Assumptions bufring_handled_partial.

(** C70: a recv that was registered and has not ended is served by the kernel whenever the completions are handled, also
    when the kernel stopped it in between. *)
Theorem bufring_armed n es inc ls s k : ring_ok n es -> exec (step n es inc) (init n es) ls = Next s -> In (LReg k) ls ->
  (forall e, ~ In (KFin k e) ls) -> cq s = [] -> cur s = None -> armed s k = true.
Proof. exact (fun R => bufring_armed_pf n es inc R ls s k). Qed.
Print Assumptions bufring_armed.

(** With every ring, a peer that sends as much as the ring holds before the proactor has handled
    the completions makes the process abort. *)
Theorem bufring_burst_refuted n es inc : ring_ok n es ->
  exists s, reachable (step n es inc) (init n es) s /\ In Fatal (hist s) /\ dead s = true.
Proof. exact (bufring_burst_pf n es inc). Qed.
Print Assumptions bufring_burst_refuted.

(** An error is reported to the hook with the wrong sign, whatever it is. *)
Theorem bufring_error_refuted n es inc e : e <> 0 -> e <> ENOBUFS ->
  exists s, exec (step n es inc) (init n es) [LReg 0; KFin 0 e; LTake] = Next s /\ hist s = [Error 0 (- Z.of_N e)] /\ (- Z.of_N e)%Z <> Z.of_N e.
Proof.
  intros E1 E2. cbn [exec step init put dead regms armed upd Nat.eqb].
  apply N.eqb_neq in E2. rewrite E2. cbn [negb orb andb exec step dead put cur cq app]. cbn [cur cq seg hist put init app]. rewrite ?E2. apply N.eqb_neq in E1. rewrite ?E1.
  eexists. split; [reflexivity|]. split; [reflexivity|]. apply N.eqb_neq in E1. lia.
Qed.
Print Assumptions bufring_error_refuted.

(** ResetOnRecvHook does not cancel the recv: the hook is called afterwards. *)
Theorem bufring_reset_refuted : exists s, exec (step 2 4 true) (init 2 4)
  [LReg 0; LReset 0; KRecv 0 [7] true true true; LTake; LGet; LDone] = Next s /\ called 0 false (hist s) /\
  hist s = [WasReset 0; Got 0 [7]].
Proof. eexists. split; [cbv; reflexivity|]. cbn. auto. Qed.
Print Assumptions bufring_reset_refuted.

(** With more than 4GB, buffers share memory. *)
Theorem bufring_4gb_refuted : let en := fill_ring 4 (2 ^ 31) 4 in e_addr (en 0) = e_addr (en 2) /\ e_len (en 0) = 2 ^ 31 /\ e_len (en 2) = 2 ^ 31.
Proof. repeat split. Qed.
Print Assumptions bufring_4gb_refuted.

(** Non-vacuity: an incremental ring of 2 buffers of 4 bytes. A byte, then a bundle of 6 bytes over both buffers, whose rest
    the kernel drops, then two bytes for another socket after the first buffer came back. *)
Example ring_met : ring_ok 2 4 /\ ring_ok 16384 65536.
Proof. split; (split; [|split; [reflexivity|discriminate]]); [exists 1|exists 14]; split; [reflexivity|discriminate|reflexivity|discriminate]. Qed.
Definition sample : list lab :=
  [LReg 0; LReg 1; KRecv 0 [1] true true true; KRecv 0 [2; 3; 4; 5; 6; 7] false false true; LTake; LGet; LDone; LTake; LGet; LDone;
   KRecv 1 [8; 9] true true false; LGet; LDone; LTake; LGet; LDone].
Example bufring_met : exists s, exec (step 2 4 true) (init 2 4) sample = Next s /\ cq s = [] /\ cur s = None /\ dead s = false /\ armed s 1%nat = true /\
  hist s = [Got 0 [1]; Got 0 [2; 3; 4]; Got 0 [5; 6; 7]; Got 1 [8; 9]] /\ khead s = 2 /\ tail s = 4 /\ ioff s = 2.
Proof. eexists. split; [cbv; reflexivity|]. repeat split. Qed.
