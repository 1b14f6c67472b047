(** C32: PmrArena. Any number of arenas, all histories of allocations, swaps and destructions, whatever memory upstream gives. *)
From Verif Require Import Util Conc ArenaModel ArenaSpec ArenaProof.
Open Scope N_scope.

(** Partial: sizes under 4GB and swaps between arenas with the same resource. Allocations have the size asked for, are
    disjoint, inside a block of their arena and aligned if asked for; blocks are given back to where they came from, with their
    size, and are counted. *)
Theorem arena_partial n : safe cstep (init n) /\ (forall s, reachable cstep (init n) s -> disjoint s /\ inside s /\ counted s) /\
  forall s l s', reachable cstep (init n) s -> cstep s l = Next s' -> gives s l s'.
Proof. exact (arena_partial_pf n). Qed.
Print Assumptions arena_partial.

(** Refuted for 4GB and more: the size of the block is cut to 32 bits. (The header says "up to 4GB".) *)
Theorem arena_large_refuted : exists s, reachable step (init 1) s /\ ~ inside s.
Proof.
  eexists. split; [exists [Alloc 0 two32 4096]; reflexivity|]. intros H. destruct (H 0%nat _ (4096, two32) eq_refl) as (b & [<-|[]] & W); [cbn; auto|].
  unfold within in W. vm_compute in W. destruct W as [_ W]. now apply W.
Qed.
Print Assumptions arena_large_refuted.
(** Refuted for Swap of arenas with different resources: the vectors' allocators differ. *)
Theorem arena_swap_refuted : ~ safe step (init 2).
Proof. intros H. apply (H [Renew 0 7; Swap 0 1]). reflexivity. Qed.
Print Assumptions arena_swap_refuted.

(** A run with allocations in a shared block, in own blocks and a swap. *)
Example arena_met : exists s, reachable cstep (init 2) s /\
  map out s = [[(20005, 1); (20000, 5)]; [(4112, 8); (80000, 9000); (4107, 1); (4096, 11)]].
Proof.
  eexists. split; [exists [Alloc 0 11 4096; Alloc 0 1 0; Alloc 0 9000 80000; AllocAligned 0 8 0; Alloc 1 5 20000; Swap 0 1; Alloc 0 1 0]; vm_compute; reflexivity|].
  vm_compute. reflexivity.
Qed.
