(** C31: PODArray. Any number of arrays of elements of any size that is a power of two, any alignment that is, every history. *)
From Verif Require Import Util Conc PodModel PodSpec PodProof.

(** Partial: T's size a power of two and without the uses in [calm]. Nothing outside the blocks is touched, blocks go back to
    where they came from, and the operations do what they do to a sequence. *)
Theorem pod_vector_partial j k n : safe (cstep (2 ^ j) (2 ^ k)) (init n) /\
  forall s l s', reachable (cstep (2 ^ j) (2 ^ k)) (init n) s -> cstep (2 ^ j) (2 ^ k) s l = Next s' -> acts (2 ^ j) s l s'.
Proof. exact (pod_partial_pf j k n). Qed.
Print Assumptions pod_vector_partial.

(** Refuted for T of 24 bytes: the second push_back is written past the block, as c_end_ never equals c_end_of_storage_. *)
Theorem pod_size_refuted : ~ is_vector 24 16.
Proof. exact pod_size_refuted_pf. Qed.
Print Assumptions pod_size_refuted.
(** resize_fill zeroes a byte for each new element. *)
Theorem pod_fill_refuted : exists s s', reachable (step 8 16) (init 1) s /\ step 8 16 s (On 0 (ResizeFill 2)) = Next s' /\ ~ acts 8 s (On 0 (ResizeFill 2)) s'.
Proof. exact pod_fill_refuted_pf. Qed.
Print Assumptions pod_fill_refuted.
(** push_back of an element of the array itself reads the block that was given back. *)
Theorem pod_own_refuted : exists s, reachable (step 8 16) (init 1) s /\ step 8 16 s (On 0 (PushOwn 0)) = Ub.
Proof. eexists. split; [exists [On 0 (Push (lit 8 1)); On 0 (Push (lit 8 2))]; reflexivity|]. reflexivity. Qed.
Print Assumptions pod_own_refuted.
(** The move constructor takes the block and not the resource it came from; the destructor gives it to the default one. *)
Theorem pod_move_refuted : exists s, reachable (step 8 16) (init 2) s /\ step 8 16 s (Renew 1 (CEmpty 0)) = Ub.
Proof. eexists. split; [exists [Renew 0 (CRange [lit 8 1] 5); MoveNew 0 1]; reflexivity|]. reflexivity. Qed.
Print Assumptions pod_move_refuted.
(** An array constructed with no elements of 32 bytes has a block of 16, that is never grown. *)
Theorem pod_zero_refuted : exists s, reachable (step 32 16) (init 1) s /\ step 32 16 s (On 0 (Push (lit 32 1))) = Ub.
Proof. eexists. split; [exists [Renew 0 (CSized 0 0)]; reflexivity|]. reflexivity. Qed.
Print Assumptions pod_zero_refuted.

(** A run with two arrays of 4-byte elements that grows, inserts in the middle and moves. *)
Example pod_met : exists s, reachable (cstep (2 ^ 2) (2 ^ 4)) (init 2) s /\
  map (elems 4) s = [[]; [lit 4 1; lit 4 7; lit 4 8; lit 4 2; lit 4 3; lit 4 4; lit 4 5]].
Proof.
  eexists. split; [exists [On 0 (Push (lit 4 1)); On 0 (Insert [lit 4 2; lit 4 3; lit 4 4]); On 0 (Push (lit 4 5)); On 0 (InsertAt 1 [lit 4 7; lit 4 8]); Move 0 1]; vm_compute; reflexivity|].
  vm_compute. reflexivity.
Qed.
