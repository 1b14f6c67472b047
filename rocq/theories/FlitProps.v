(** C06, C07, C08 - flit integers and ZigZag.
    [ParseT over ..]: [over] is what the machine computes for the out-of-range shift
    [T(1) << width]; [None] means undefined behaviour (the C++ standard). *)
From Verif Require Import Util FlitModel FlitProof.
Open Scope N_scope.

(** ** C06 *)
(** On a machine where the full-width shift yields 0, decoding the encoding gives back the value
    and the number of bytes written, whatever follows, for all 32- and 64-bit values. *)
Theorem flit_roundtrip_partial : forall w v rest, w = 4 \/ w = 8 -> v < 2 ^ (8 * w) ->
  w <= len (EncodeT w v ++ rest) ->
  ParseT (Some 0) w (EncodeT w v ++ rest) = Some (len (EncodeT w v), v) /\
  1 <= len (EncodeT w v) <= w + 1.
Proof. exact flit_roundtrip_pf. Qed.
Print Assumptions flit_roundtrip_partial.

(** By the C++ standard the round trip is defined exactly outside [2^(7(w-1)), 2^(7w)). *)
Theorem flit_roundtrip_std : forall w v rest, w = 4 \/ w = 8 -> v < 2 ^ (8 * w) ->
  w <= len (EncodeT w v ++ rest) ->
  (ParseT None w (EncodeT w v ++ rest) = Some (len (EncodeT w v), v) /\ ~ (2 ^ (7 * (w - 1)) <= v < 2 ^ (7 * w))) \/
  (ParseT None w (EncodeT w v ++ rest) = None /\ 2 ^ (7 * (w - 1)) <= v < 2 ^ (7 * w)).
Proof. exact flit_roundtrip_std_pf. Qed.
Print Assumptions flit_roundtrip_std.

(** Parse64Fast is ParseT<uint64_t>. *)
Theorem flit_parse64fast : forall over m, Parse64Fast over m = ParseT over 8 m.
Proof. exact flit_parse64fast_pf. Qed.
Print Assumptions flit_parse64fast.

(** Where the shift instruction masks its count (x86 SHL), every 8-byte encoding decodes to 0. *)
Theorem flit_roundtrip_x86_refuted : forall v rest, 2 ^ 49 <= v < 2 ^ 56 ->
  Parse64Fast (Some 1) (EncodeT 8 v ++ rest) = Some (8, 0).
Proof. exact x86_bad_pf. Qed.
Print Assumptions flit_roundtrip_x86_refuted.

(** The encoder uses the smallest number of bytes of the documented table. *)
Theorem flit_minimal : forall w v, w = 4 \/ w = 8 -> v < 2 ^ (8 * w) ->
  let n := len (EncodeT w v) in
  (n <= w -> v < 2 ^ (7 * n)) /\ (n = 1 \/ 2 ^ (7 * (n - 1)) <= v).
Proof. exact flit_minimal_pf. Qed.
Print Assumptions flit_minimal.

(** EncodeTFast writes the same encoding, never more than w+1 bytes. *)
Theorem flit_fast_encoder : forall w v, w = 4 \/ w = 8 -> v < 2 ^ (8 * w) ->
  let (bytes, n) := EncodeTFast w v in
  n = len (EncodeT w v) /\ take n bytes = EncodeT w v /\ len bytes <= w + 1.
Proof. exact flit_fast_encoder_pf. Qed.
Print Assumptions flit_fast_encoder.

(** ParseLengthT reports the encoded length from the first byte. *)
Theorem flit_parse_length : forall w v rest, w = 4 \/ w = 8 -> v < 2 ^ (8 * w) ->
  ParseLengthT w (EncodeT w v ++ rest) = Some (len (EncodeT w v)).
Proof. exact flit_parse_length_pf. Qed.
Print Assumptions flit_parse_length.

(** EncodingLength agrees with the encoder below 2^63 (and for all 32-bit values) ... *)
Theorem flit_length_partial : (forall v, v < 2 ^ 63 -> len (EncodeT 8 v) = EncodingLength 8 v) /\
  (forall v, v < 2 ^ 32 -> len (EncodeT 4 v) = EncodingLength 4 v).
Proof. exact (conj flit_length_pf flit_length32_pf). Qed.
Print Assumptions flit_length_partial.
(** ... and is wrong (10 instead of 9) for every value with the top bit set. *)
Theorem flit_length_refuted : forall v, 2 ^ 63 <= v < 2 ^ 64 ->
  len (EncodeT 8 v) = 9 /\ EncodingLength 8 v = 10.
Proof. exact flit_length_high_pf. Qed.
Print Assumptions flit_length_refuted.

(** The comment "Work[s] for decoding uint32 as well" (base/flit.h:118) holds below 2^28 ... *)
Theorem flit_fast_u32_partial : forall v rest, v < 2 ^ 28 -> 8 <= len (EncodeT 4 v ++ rest) ->
  Parse64Fast None (EncodeT 4 v ++ rest) = Some (len (EncodeT 4 v), v).
Proof. exact flit_fast_u32_pf. Qed.
Print Assumptions flit_fast_u32_partial.
(** ... and fails for every 32-bit value from 2^28 on: the decoder returns 8v. *)
Theorem flit_fast_u32_refuted : forall v rest, 2 ^ 28 <= v < 2 ^ 32 -> 3 <= len rest ->
  Parse64Fast None (EncodeT 4 v ++ rest) = Some (5, 8 * v).
Proof. exact flit_fast_u32_bad_pf. Qed.
Print Assumptions flit_fast_u32_refuted.

Example flit_demo : EncodeT 8 300 = [178; 4] /\ ParseT None 8 ([178; 4] ++ [9;9;9;9;9;9]) = Some (2, 300) /\
  EncodeT 4 300 = [178; 4] /\ EncodeT 8 (2 ^ 56) = [0;0;0;0;0;0;0;0;1] /\ EncodeT 4 (2 ^ 28) = [16;0;0;0;16].
Proof. vm_compute. auto. Qed.

(** ** C07 *)
(** Exactly the byte strings on which Parse64Safe has undefined behaviour: the empty one, an
    8-byte one starting with 0 (reads one byte past the end) and every one announcing an 8-byte
    encoding (shift by 64). *)
Theorem flit_safe_ub_iff : forall v0 m, Forall (fun b => b < 256) m ->
  (Parse64Safe None v0 m = None <->
     m = [] \/ (len m = 8 /\ hd 0 m = 0) \/ (8 <= len m /\ hd 0 m = 128)).
Proof. exact flit_safe_ub_iff_pf. Qed.
Print Assumptions flit_safe_ub_iff.
Theorem flit_safe_refuted : Parse64Safe None 0 (repeat 0 8) = None /\ Parse64Safe (Some 0) 0 (repeat 0 8) = None
  /\ Parse64Safe None 0 (EncodeT 8 (2 ^ 50)) = None /\ Parse64Safe (Some 0) 0 [] = None.
Proof. vm_compute. auto. Qed.
Print Assumptions flit_safe_refuted.

(** With the full-width shift yielding 0, Parse64Safe decodes every encoding, whatever follows and
    whatever *v held before; and rejects every non-empty proper prefix of an encoding, apart from
    the 8-byte prefix of a 9-byte one. *)
Theorem flit_safe_roundtrip_partial : forall v v0 rest, v < 2 ^ 64 -> v0 < 2 ^ 64 ->
  Parse64Safe (Some 0) v0 (EncodeT 8 v ++ rest) = Some (len (EncodeT 8 v), v).
Proof. exact flit_safe_roundtrip_pf. Qed.
Print Assumptions flit_safe_roundtrip_partial.
Theorem flit_safe_truncated_partial : forall over v v0 k, v < 2 ^ 64 -> 0 < k < len (EncodeT 8 v) ->
  ~ (2 ^ 56 <= v /\ k = 8) ->
  Parse64Safe over v0 (take k (EncodeT 8 v)) = Some (0, v0).
Proof. exact flit_safe_truncated_pf. Qed.
Print Assumptions flit_safe_truncated_partial.

Example flit_safe_demo : Parse64Safe None (two64 - 1) [178; 4; 77] = Some (2, 300) /\
  Parse64Safe None 5 [178] = Some (0, 5).
Proof. vm_compute. auto. Qed.

(** ** C08 *)
Theorem zigzag_bijection : forall wd, wd = 32 \/ wd = 64 ->
  (forall t, (- 2 ^ (Z.of_N wd - 1) <= t < 2 ^ (Z.of_N wd - 1))%Z ->
     ZigZagEncode wd t < 2 ^ wd /\ ZigZagDecode wd (ZigZagEncode wd t) = t) /\
  (forall u, u < 2 ^ wd ->
     (- 2 ^ (Z.of_N wd - 1) <= ZigZagDecode wd u < 2 ^ (Z.of_N wd - 1))%Z /\
     ZigZagEncode wd (ZigZagDecode wd u) = u).
Proof. exact zigzag_bijection_pf. Qed.
Print Assumptions zigzag_bijection.
Theorem zigzag_small : forall wd k t, wd = 32 \/ wd = 64 -> k < wd ->
  (- 2 ^ Z.of_N k < t < 2 ^ Z.of_N k)%Z -> ZigZagEncode wd t < 2 ^ (k + 1).
Proof. exact zigzag_small_pf. Qed.
Print Assumptions zigzag_small.
Example zigzag_demo : map (ZigZagEncode 32) [0; -1; 1; -2; 2147483647; -2147483648]%Z = [0; 1; 2; 3; 4294967294; 4294967295].
Proof. vm_compute. reflexivity. Qed.
