(** C10 - SlidingCounter sums exactly its window. Specification in SlidingSpec.v. *)
From Verif Require Import Util SlidingModel SlidingSpec SlidingProof.
Open Scope N_scope.

(** For every window size and every sequence of Inc/Sum/SumTail/Reset calls with any clock values
    (including steps backward, where the highest value read so far counts as the time), every value
    returned is the sum over the log restricted to the last NUM slots. *)
Theorem sliding_window : forall NUM h, 1 < NUM -> Forall clock_ok h ->
  exists c, scrun NUM (NewCounter NUM) h = Some (c, snd (logrun NUM (0, []) h)).
Proof. exact sliding_window_pf. Qed.
Print Assumptions sliding_window.

Example sliding_demo :
  let h := [SInc 10 5; SInc 11 7; SSum 12; SInc 13 1; SSum 13; STail 13; SInc 9 2; SSum 14; SReset; SSum 14; SSum 99] in
  Forall clock_ok h /\
  option_map snd (scrun 3 (NewCounter 3) h)
    = Some [None; None; Some 12%Z; None; Some 8%Z; Some 7%Z; None; Some 3%Z; None; Some 0%Z; Some 0%Z].
Proof. split; [|vm_compute; reflexivity]. repeat constructor. Qed.

(** A clock reading of 2^64 - 1 makes the clearing loop endless. *)
Example sliding_max_clock : Sum 3 (two64 - 1) (SC [0; 0; 0]%Z 0 (two64 - 2)) = None.
Proof. vm_compute. reflexivity. Qed.
