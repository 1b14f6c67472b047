(** C89: random number generators. *)
From Coq Require Import NArith List.
Import ListNotations.
From Verif Require Import RngModel RngSpec RngProof RngPeriod.
Open Scope N_scope.

(** From any seed, SplitMix64 returns every 64-bit number once before it returns one again, and then starts over. *)
Theorem sm_distinct : forall s i j, s < 2 ^ 64 -> (sm_out s i = sm_out s j <-> i mod 2 ^ 64 = j mod 2 ^ 64).
Proof. exact sm_distinct_pf. Qed.
Print Assumptions sm_distinct.
Theorem sm_all : forall s v, s < 2 ^ 64 -> v < 2 ^ 64 -> exists i, i < 2 ^ 64 /\ sm_out s i = v.
Proof. exact sm_all_pf. Qed.
Print Assumptions sm_all.
(** The published first outputs of SplitMix64 for the seed 1234567. *)
Example sm_met : map (sm_out 1234567) [0; 1; 2; 3; 4] =
  [6457827717110365317; 3203168211198807973; 9817491932198370423; 4593380528125082431; 16408922859458223821].
Proof. vm_compute. reflexivity. Qed.

(** Seeding Xoroshiro128p never gives the state it cannot leave, and no two seeds give one state. *)
Theorem x_seed : forall s, s < 2 ^ 64 -> proper (seed s) /\ forall s', s' < 2 ^ 64 -> seed s = seed s' -> s = s'.
Proof. exact x_seed_pf. Qed.
Print Assumptions x_seed.
(** However it is seeded, called and made to jump, it never gets there either. *)
Theorem x_used : forall st, used st -> proper st.
Proof. exact x_used_pf. Qed.
Print Assumptions x_used.
Example x_used_met : seed 0 = (16294208416658607535, 7960286522194355700) /\ used (jump (x_next (seed 0))).
Proof. split; [vm_compute; reflexivity|]. apply u_jump, u_next, u_seed. reflexivity. Qed.
(** Its period is 2^128-1 from every such state, no less ... *)
Theorem x_period : forall k st, proper st -> (x_after k st = st <-> (2 ^ 128 - 1 | k)).
Proof. exact x_period_pf. Qed.
Print Assumptions x_period.
(** ... so it goes through all of them. *)
Theorem x_all : forall st st', proper st -> proper st' -> exists k, k < 2 ^ 128 - 1 /\ x_after k st = st'.
Proof. exact x_all_pf. Qed.
Print Assumptions x_all.
(** The first outputs from the state (1, 2). *)
Example x_met : proper (1, 2) /\ map (fun n => x_result (x_after n (1, 2))) [0; 1; 2] = [3; 412333834243; 2360170716294286339].
Proof. split; [repeat split; discriminate|]. vm_compute. reflexivity. Qed.

(** jump() is one-to-one and can be swapped with a call ... *)
Theorem x_jump_partial : forall st, proper st ->
  proper (jump st) /\ jump (x_next st) = x_next (jump st) /\ forall st', proper st' -> jump st = jump st' -> st = st'.
Proof. exact x_jump_pf. Qed.
Print Assumptions x_jump_partial.
(** ... but it is not "equivalent to 2^64 calls", from any state at all: its constants belong to other shifts, 55, 14, 36. *)
Theorem x_jump_refuted : forall st, proper st -> jump st <> x_after (2 ^ 64) st.
Proof. exact x_jump_refuted_pf. Qed.
Print Assumptions x_jump_refuted.
(** With these constants it would be. *)
Theorem x_jump_right : forall st, proper st -> jump_words [0xdf900294d8f554a5; 0x170865df4b3201fc] (0, 0) st = x_after (2 ^ 64) st.
Proof. exact x_jump_right_pf. Qed.
Print Assumptions x_jump_right.
Example x_jump_met : proper default /\ proper (jump default) /\ jump default <> default.
Proof. split; [repeat split; discriminate|]. split; [apply x_used; apply u_jump, u_default|]. vm_compute. discriminate. Qed.
