(** C90: hashing. *)
From Coq Require Import NArith List.
Import ListNotations.
From Verif Require Import MurModel MurProof MurSpec.
Open Scope N_scope.

(** MurmurHash3_x86_32 reads nothing outside of its data, whatever the length. *)
Theorem murmur_safe : forall d s, s < 2 ^ 32 -> exists h, Murmur d s = Some h /\ h < 2 ^ 32.
Proof. exact murmur_safe_pf. Qed.
Print Assumptions murmur_safe.
(** Published values: the empty string with seed 1, "test" and "Hello, world!" with seed 0. *)
Example murmur_safe_met : Murmur [] 1 = Some 0x514e28b7 /\ Murmur [116; 101; 115; 116] 0 = Some 0xba6bd213 /\
  Murmur [72; 101; 108; 108; 111; 44; 32; 119; 111; 114; 108; 100; 33] 0 = Some 0xc0363e43.
Proof. repeat split. Qed.
(** Different seeds give different hashes of the same data. *)
Theorem murmur_seed : forall d s s', fits d -> s < 2 ^ 32 -> s' < 2 ^ 32 -> Murmur d s = Murmur d s' -> s = s'.
Proof. exact murmur_seed_pf. Qed.
Print Assumptions murmur_seed.
(** A change within one aligned group of four bytes, or within the last incomplete one, always changes the hash. *)
Theorem murmur_block : forall p x y q s, bytes x -> bytes y -> fits (p ++ x ++ q) -> s < 2 ^ 32 -> Nat.modulo (length p) 4 = 0%nat -> length x = length y ->
  (length x = 4%nat \/ (length x < 4)%nat /\ q = []) -> Murmur (p ++ x ++ q) s = Murmur (p ++ y ++ q) s -> x = y.
Proof. exact murmur_block_pf. Qed.
Print Assumptions murmur_block.
Example murmur_block_met : fits ([1; 2; 3; 4] ++ [5; 6; 7; 8] ++ [9]) /\
  Murmur ([1; 2; 3; 4] ++ [5; 6; 7; 8] ++ [9]) 7 <> Murmur ([1; 2; 3; 4] ++ [5; 6; 0; 8] ++ [9]) 7 /\
  Murmur ([1; 2; 3; 4] ++ [255; 0; 1] ++ []) 7 <> Murmur ([1; 2; 3; 4] ++ [255; 0; 2] ++ []) 7.
Proof. repeat split; vm_compute; discriminate. Qed.
(** Fingerprint never returns 0 or 1, which callers may use as marks, and is XXH64 otherwise. *)
Theorem fingerprint_marks : forall x, Fingerprint x <> 0 /\ Fingerprint x <> 1 /\ (1 < x -> Fingerprint x = x).
Proof. exact fingerprint_pf. Qed.
Print Assumptions fingerprint_marks.
Example fingerprint_met : Fingerprint 0 = 2 /\ Fingerprint 1 = 2 /\ Fingerprint 77 = 77.
Proof. repeat split. Qed.
