(** C02 - RingBuffer is a bounded FIFO. Specification in RingBufferSpec.v. *)
From Verif Require Import Util RingBufferModel RingBufferSpec RingBufferProof.
Open Scope N_scope.

(** For every element type, capacity 2^k (k <= 31) and history of any length (the 32-bit counters
    wrap along the way): no out-of-range slot access, every return value is the one of the
    bounded FIFO list, and size/empty/Full/operator[] observe exactly that list. *)
Theorem ring_fifo : forall (T : Type) (k : N) (d : T) (h : list (rop T)),
  k <= 31 -> q_respects (2 ^ k) [] h ->
  exists r, rrun (NewRing (2 ^ k) d) h = Some (r, snd (q_run (2 ^ k) [] h)) /\
    let q := fst (q_run (2 ^ k) [] h) in
    rsize r = len q /\ rempty r = (len q =? 0) /\ rfull r = (len q =? 2 ^ k) /\ len q <= 2 ^ k /\
    forall i, i < len q -> at_index i r = nth_error q (N.to_nat i).
Proof. exact @ring_fifo_pf. Qed.
Print Assumptions ring_fifo.

Example ring_demo :
  let h := [RTry 1; RTry 2; RTry 3; RForce 4; RPop; RSet 0 9; RTry 5; RConsume 1] in
  q_respects (2 ^ 1) [] h /\
  q_run (2 ^ 1) [] h = ([5], [RBool true; RBool true; RBool false; RBool true; RVal (Some 2); RUnit; RBool true; RUnit]).
Proof. vm_compute. intuition discriminate. Qed.

(** The wrap itself: a ring whose counters stand at 2^32 - 1 (as after that many pushes and pops)
    still delivers in order. *)
Example ring_wrap :
  rrun (Ring 2 1 4294967295 4294967295 [0;0]) [RTry 7; RTry 8; RTry 9; RPop; RPop; RPop]
  = Some (Ring 2 1 1 1 [8;7],
          [RBool true; RBool true; RBool false; RVal (Some 7); RVal (Some 8); RVal None]).
Proof. vm_compute. reflexivity. Qed.
