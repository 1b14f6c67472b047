(** C01 - IoBuf is a byte FIFO. Specification in IoBufSpec.v. *)
From Verif Require Import Util IoBufModel IoBufSpec IoBufProof.
Open Scope N_scope.

(** For every initial capacity and every history that respects the preconditions: no undefined
    behaviour; the bytes handed out are those of the FIFO specification; the readable bytes are
    exactly the specification queue and InputLen() is its length. *)
Theorem iobuf_fifo : forall c h b0,
  c <= 2 ^ 63 -> NewIoBuf c = Some b0 -> respects b0 h ->
  exists b, run b0 h = Some (b, map Some (snd (spec_run [] h)))
    /\ InputBuffer b = map Some (fst (spec_run [] h))
    /\ InputLen b = len (fst (spec_run [] h)).
Proof. exact iobuf_fifo_pf. Qed.
Print Assumptions iobuf_fifo.

(** EnsureCapacity(n) leaves room for n bytes, keeps the unread bytes, and does nothing at all
    (in particular no reallocation: same generation, same memory) if there was room already. *)
Theorem iobuf_ensure_capacity : forall b n,
  reachable b -> offs b + InputLen b + n <= 2 ^ 63 ->
  exists b', EnsureCapacity n b = Some b' /\ n <= AppendLen b' /\ InputBuffer b' = InputBuffer b /\
    (n <= AppendLen b -> b' = b).
Proof. exact iobuf_ensure_capacity_pf. Qed.
Print Assumptions iobuf_ensure_capacity.

(** ShrinkTo keeps the unread bytes, and returns true iff the capacity got smaller; then the new
    capacity is a power of two that is at least the target. *)
Theorem iobuf_shrink : forall b n,
  reachable b ->
  exists r b', ShrinkTo n b = Some (r, b') /\ InputBuffer b' = InputBuffer b /\
    (r = true <-> cap b' < cap b) /\ (r = true -> n <= cap b' /\ InputLen b <= cap b') /\
    (r = false -> b' = b).
Proof. exact iobuf_shrink_pf. Qed.
Print Assumptions iobuf_shrink.

(** Non-vacuity: a history with growth, compaction, shrink and reads. *)
Definition demo : list op :=
  [OWrite [1;2;3;4;5]; OConsume 3; OWrite [6;7;8;9;10;11]; OShrink 8; OFill []; ORead 4; OCompact; OWrite [12];
   OConsume 100; OWrite [13;14]].
Example demo_respects : exists b0, NewIoBuf 4 = Some b0 /\ respects b0 demo.
Proof.
  eexists; split; [reflexivity|]. unfold demo.
  repeat (split; [vm_compute; try exact I; try discriminate; reflexivity|intros ? ? E; vm_compute in E;
    injection E as <- <-]).
  exact I.
Qed.
Example demo_run : exists b0 b, NewIoBuf 4 = Some b0 /\
  run b0 demo = Some (b, map Some [4;5;6;7]) /\ InputBuffer b = map Some [13;14].
Proof. do 2 eexists; split; [reflexivity|]. split; vm_compute; reflexivity. Qed.

(** The preconditions are needed: committing more than AppendLen() leaves the allocation, and a
    consume whose sum wraps around 2^64 does not behave as a queue. *)
Example commit_too_much_ub : exists b0, NewIoBuf 4 = Some b0 /\ run b0 [OFill [1;2;3;4;5]] = None.
Proof. eexists; split; [reflexivity|]. vm_compute. reflexivity. Qed.
