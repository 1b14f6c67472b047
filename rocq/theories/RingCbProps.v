(** C37: the callback table of UringProactor. Every history of submissions and completions, including
    submissions made by callbacks, for every initial table size. *)
From Verif Require Import Util Conc RingCbModel RingCbSpec RingCbProof.

Section Props.
  Variable n : nat.
  Hypothesis Hn : 1 <= n /\ (N.of_nat n < limit)%N.

  (** A completion runs the callback given with the submission, with the tag given with it, however
      the table was regrown in between; after the last one the submission is over. *)
  Theorem ring_completion s k c tag more : reachable cstep (init n) s -> mode s = Out -> in_flight s k c tag ->
    exists s', step s (Complete k more) = Next s' /\ mode s' = Run c tag more /\ (more = false -> ~ flying s' c).
  Proof. exact (ring_completion_pf n Hn s k c tag more). Qed.

  (** A submission without a callback runs none. *)
  Theorem ring_ignored s k x more : reachable cstep (init n) s -> mode s = Out -> nth_error (fl s) k = Some x -> scb x = None ->
    exists s', step s (Complete k more) = Next s' /\ mode s' = Out.
  Proof. exact (ring_ignored_pf n Hn s k x more). Qed.

  (** A callback runs for its last completion exactly once: not while in flight, once after. *)
  Theorem ring_once s c : reachable cstep (init n) s -> submitted s c ->
    flying s c /\ ended s c = 0 \/ ~ flying s c /\ ended s c = 1.
  Proof. exact (ring_once_pf n Hn s c). Qed.

  (** No two submissions in flight have the same user_data, if one of them has a callback. *)
  Theorem ring_tags s k1 k2 x1 x2 : reachable cstep (init n) s -> nth_error (fl s) k1 = Some x1 -> nth_error (fl s) k2 = Some x2 ->
    scb x1 <> None -> ud x1 = ud x2 -> k1 = k2.
  Proof. exact (ring_tags_pf n Hn s k1 k2 x1 x2). Qed.

  (** pending_cb_cnt_ is the number of callbacks in flight. *)
  Theorem ring_pending s : reachable cstep (init n) s -> exists l, NoDup l /\ pending s = length l /\ forall c, In c l <-> flying s c.
  Proof. exact (ring_pending_pf n Hn s). Qed.

  (** No entry outside of the table, no empty callback. Full property: [safe step (init n)]; it is
      false, see below. *)
  Theorem ring_safe_partial : safe cstep (init n).
  Proof. exact (ring_safe_pf n Hn). Qed.

  (** Finding: a multishot callback that submits while all entries are taken regrows the table and
      thereby moves itself while it runs. *)
  Theorem ring_safe_refuted : ~ safe step (init n).
  Proof. exact (ring_safe_refuted_pf n Hn). Qed.
End Props.
Print Assumptions ring_completion.
Print Assumptions ring_ignored.
Print Assumptions ring_once.
Print Assumptions ring_tags.
Print Assumptions ring_pending.
Print Assumptions ring_safe_partial.
Print Assumptions ring_safe_refuted.

(** Two entries. Submissions 0, 1 fill the table; 0 completes once with more to come; the third
    submission regrows; 1 completes and its callback submits again, reusing its entry. *)
Example ring_met : exists s, reachable cstep (init 2) s /\ mode s = Out /\ in_flight s 0 0 7%N /\ in_flight s 3 3 9%N /\
  length (ents s) = 4 /\ ended s 1 = 1 /\ submitted s 1 /\ pending s = 3.
Proof.
  destruct (reach_obs cstep (fun s => (mode s, fl s, length (ents s), ended s 1, nid s, pending s)) (init 2)
    [Submit true 7%N; Submit true 8%N; Complete 0 true; Return; Submit true 5%N; Submit false 3%N; Complete 1 false; Submit true 9%N; Return]
    (Out, [mk_s 30064772096 (Some 0) 7%N; mk_s 21474837506 (Some 2) 5%N; mk_s 12884901888 None 3%N; mk_s 38654706689 (Some 3) 9%N], 4, 1, 4, 3))
    as (s & R & E); [vm_compute; reflexivity|].
  injection E as E1 E2 E3 E4 E5 E6. exists s. unfold in_flight, submitted. rewrite E1, E2, E3, E4, E5, E6.
  split; [exact R|]. split; [reflexivity|]. split; [eexists; split; [reflexivity|split; reflexivity]|].
  split; [eexists; split; [reflexivity|split; reflexivity]|]. repeat split. repeat constructor.
Qed.
