(** base/hash.cc: MurmurHash3_x86_32 and Fingerprint. A uint32_t is an [N] below 2^32, a byte an [N] below 256. *)
From Coq Require Import NArith List.
Import ListNotations.
Open Scope N_scope.

Definition u32 (x : N) : N := x mod 2 ^ 32.
(** hash.cc:28-30 *)
Definition rotl32 (x r : N) : N := N.lor (u32 (N.shiftl x r)) (N.shiftr x (32 - r)).
(** hash.cc:18-26 *)
Definition fmix (h : N) : N :=
  let h := N.lxor h (N.shiftr h 16) in
  let h := u32 (h * 0x85ebca6b) in
  let h := N.lxor h (N.shiftr h 13) in
  let h := u32 (h * 0xc2b2ae35) in
  N.lxor h (N.shiftr h 16).
(** k1 *= c1; k1 = rotl32(k1, 15); k1 *= c2; hash.cc:54-56, :79-81 *)
Definition scramble (k1 : N) : N := u32 (rotl32 (u32 (k1 * 0xcc9e2d51)) 15 * 0x1b873593).
(** hash.cc:58-60 *)
Definition absorb (h1 k1 : N) : N := u32 (rotl32 (N.lxor h1 (scramble k1)) 13 * 5 + 0xe6546b64).
(** memcpy of four bytes into a uint32_t on a little-endian machine, hash.cc:51-52. [None]: outside of the data. *)
Definition load (data : list N) (at_ : nat) : option N :=
  match nth_error data at_, nth_error data (at_ + 1), nth_error data (at_ + 2), nth_error data (at_ + 3) with
  | Some a, Some b, Some c, Some d => Some (a + 256 * (b + 256 * (c + 256 * d)))
  | _, _, _, _ => None
  end.
(** hash.cc:48-61: [n] blocks from block [i] on *)
Fixpoint blocks (data : list N) (n i : nat) (h1 : N) : option N :=
  match n with
  | O => Some h1
  | S m => match load data (4 * i) with None => None | Some k1 => blocks data m (S i) (absorb h1 k1) end
  end.
(** hash.cc:66-83 *)
Definition tail (data : list N) (nblocks : nat) (h1 : N) : option N :=
  let rd j := nth_error data (4 * nblocks + j) in
  match Nat.modulo (length data) 4 with
  | 3%nat => match rd 2%nat, rd 1%nat, rd 0%nat with
             | Some c, Some b, Some a => Some (N.lxor h1 (scramble (N.lxor (N.lxor (N.shiftl c 16) (N.shiftl b 8)) a)))
             | _, _, _ => None
             end
  | 2%nat => match rd 1%nat, rd 0%nat with Some b, Some a => Some (N.lxor h1 (scramble (N.lxor (N.shiftl b 8) a))) | _, _ => None end
  | 1%nat => match rd 0%nat with Some a => Some (N.lxor h1 (scramble a)) | None => None end
  | _ => Some h1
  end.
(** hash.cc:36-93; [len] is the length of the data. [None]: a byte outside of it is read. *)
Definition Murmur (data : list N) (seed : N) : option N :=
  let nblocks := Nat.div (length data) 4 in
  match blocks data nblocks 0 seed with
  | None => None
  | Some h1 =>
      match tail data nblocks h1 with
      | None => None
      | Some h1 => Some (fmix (N.lxor h1 (N.of_nat (length data))))
      end
  end.
(** hash.cc:95-100; [xxh] is XXH64(str, len, 24061983) *)
Definition Fingerprint (xxh : N) : N := if 1 <? xxh then xxh else 2.
