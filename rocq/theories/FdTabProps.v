(** C38: the table of direct descriptors. Every history of RegisterFd and UnregisterFd, every behaviour of
    the kernel, every table size. *)
From Verif Require Import Util Conc FdTabModel FdTabSpec FdTabProof.
From Coq Require Import ZArith.

Section Props.
  Variable n : nat.
  (** No access outside of the table. *)
  Theorem fdtab_safe : safe step (init n).
  Proof. exact (fdtab_safe_pf n). Qed.
  (** RegisterFd hands out a slot nobody holds, and disturbs no other. *)
  Theorem fdtab_fresh s fd ok k s' : reachable step (init n) s -> reg_result s ok = Some k -> step s (Reg fd ok) = Next s' ->
    ~ held s k /\ holds s' k fd /\ (forall j g, j <> k -> holds s' j g <-> holds s j g).
  Proof. exact (fdtab_fresh_pf n s fd ok k s'). Qed.
  (** A slot in use translates to the descriptor registered there, UnregisterFd returns it, and the
      kernel has it there. *)
  Theorem fdtab_translate s k fd : reachable step (init n) s -> holds s k fd ->
    translate s k = Some fd /\ unreg_result s k = Some fd /\ nth_error (ktbl s) k = Some fd.
  Proof. exact (fdtab_translate_pf n s k fd). Qed.
  (** UnregisterFd gives back its slot and no other. *)
  Theorem fdtab_unreg s k s' : step s (Unreg k true) = Next s' -> ~ held s' k /\ (forall j g, j <> k -> holds s' j g <-> holds s j g).
  Proof. exact (fdtab_unreg_pf s k s'). Qed.
  (** The kernel holds no descriptor that is not registered. *)
  Theorem fdtab_kernel s k fd : reachable step (init n) s -> nth_error (ktbl s) k = Some fd -> fd = (-1)%Z \/ holds s k fd.
  Proof. exact (fdtab_kernel_pf n s k fd). Qed.
  (** direct_fds_cnt_ counts the slots in use. *)
  Theorem fdtab_count s : reachable step (init n) s -> cnt s = length (live s) /\ NoDup (map fst (live s)).
  Proof. exact (fdtab_count_pf n s). Qed.
  (** If the kernel does not refuse, RegisterFd fails only when every slot is in use or was lost to an
      earlier refusal. Full property: without "or was lost"; it is false, see below. *)
  Theorem fdtab_full_partial s : reachable step (init n) s -> reg_result s true = None -> length (live s) + fails s = n.
  Proof. exact (fdtab_full_pf n s). Qed.
  (** Finding: a registration that the kernel refuses loses its slot. After enough of them nothing can be registered
      although no slot is in use. *)
  Theorem fdtab_full_refuted : exists s, reachable step (init n) s /\ live s = [] /\ reg_result s true = None.
  Proof. exact (fdtab_leak_pf n). Qed.
End Props.
Print Assumptions fdtab_safe.
Print Assumptions fdtab_fresh.
Print Assumptions fdtab_translate.
Print Assumptions fdtab_unreg.
Print Assumptions fdtab_kernel.
Print Assumptions fdtab_count.
Print Assumptions fdtab_full_partial.
Print Assumptions fdtab_full_refuted.

(** Slots 0, 1, 2 are taken, 1 is given back and found again although the hint was at 3. *)
Example fdtab_met : exists s, reachable step (init 4) s /\ holds s 0 10 /\ holds s 1 13 /\ holds s 2 12 /\ reg_result s true = Some 3 /\
  step s (Unreg 2 true) <> Stuck.
Proof.
  destruct (reach_obs step (fun s => (live s, reg_result s true, obs (fun _ => tt) (step s (Unreg 2 true)))) (init 4)
    [Reg 10 true; Reg 11 true; Reg 12 true; Unreg 1 true; Reg 13 true] ([(1, 13%Z); (2, 12%Z); (0, 10%Z)], Some 3, Some tt)) as (s & R & E); [vm_compute; reflexivity|].
  injection E as E1 E2 E3. exists s. unfold holds. rewrite E1. split; auto. cbn. split; [auto|]. split; [auto|]. split; [auto|]. split; [auto|].
  intros X. cbn in E3. cbn in X. rewrite X in E3. discriminate.
Qed.
(** A full table without refusals. *)
Example fdtab_full_met : exists s, reachable step (init 2) s /\ reg_result s true = None /\ length (live s) = 2 /\ fails s = 0.
Proof.
  destruct (reach_obs step (fun s => (reg_result s true, length (live s), fails s)) (init 2) [Reg 10 true; Reg 11 true] (None, 2, 0)) as (s & R & E); [vm_compute; reflexivity|].
  injection E as E1 E2 E3. eauto.
Qed.
