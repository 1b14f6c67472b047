(** Model of base/flit.h: flit integer encoding and ZigZag.

    Memory is a list of bytes starting at the pointer; [None] is undefined behaviour (reading past
    the readable bytes, or a shift by the full width of the type).
    [w] is sizeof(T): 4 or 8. Shifting by the full width is UB in C++; the parameter [over] of the
    decoders says what the machine makes of [T(1) << width]: [None] for "undefined" (the language
    standard), [Some r] when it happens to produce [r] (0 for a true wide shift, 1 for the x86 SHL
    instruction, which masks the count). *)
From Verif Require Import Util.
Open Scope N_scope.

(** Little-endian store / load (base/endian.h LE::StoreT, LE::LoadT). *)
Fixpoint le_bytes (n : nat) (x : N) : list N :=
  match n with O => [] | S n' => x mod 256 :: le_bytes n' (x / 256) end.
Fixpoint le_val (l : list N) : N :=
  match l with [] => 0 | b :: t => b + 256 * le_val t end.
Definition load (n : N) (m : list N) : option N :=
  if n <=? len m then Some (le_val (take n m)) else None.

(** absl::countr_zero; the argument is never 0 where it is called with the result used. *)
Fixpoint ctz_pos (p : positive) : N := match p with xO q => 1 + ctz_pos q | _ => 0 end.
Definition countr_zero (width v : N) : N := match v with 0 => width | Npos p => ctz_pos p end.
Definition countl_zero (width v : N) : N := match v with 0 => width | Npos _ => width - 1 - N.log2 v end.

(** [T(1) << n] for a type of [width] bits. *)
Definition shl1 (over : option N) (width n : N) : option N :=
  if n <? width then Some (2 ^ n) else if n =? width then over else None.

(** base/flit.h:53-55 *)
Definition Div7Small (v : N) : N := ((v * 37) / 256) mod 256.

(** base/flit.h:98-103 *)
Definition EncodingLength (w v : N) : N :=
  let index := N.lxor (w * 8 - 1) (countl_zero (w * 8) (N.lor v 1)) in
  1 + Div7Small index.

(** base/flit.h:192, 224: T(1) << (7 * sizeof(v)) *)
Definition kLarge (w : N) : N := 2 ^ (7 * w).
(** base/flit.h:195, 227, 246, 261: (1 << sizeof(T)) & 0xFF *)
Definition kMaxLenHeader (w : N) : N := (2 ^ w) mod 256.

(** [((v << 1) + 1) << (enc_len - 1)] in type T. *)
Definition with_prefix (w v enc_len : N) : N :=
  ((((v * 2) mod 2 ^ (8 * w) + 1) mod 2 ^ (8 * w)) * 2 ^ (enc_len - 1)) mod 2 ^ (8 * w).

(** base/flit.h:189-217: the bytes written; the returned length is their number. The dispatcher
    (lines 74-91) runs memcpy with len = enc_len, which lies in 1..sizeof(T). *)
Definition EncodeT (w v : N) : list N :=
  if kLarge w <=? v then kMaxLenHeader w :: le_bytes (N.to_nat w) v
  else let enc_len := EncodingLength w v in le_bytes (N.to_nat enc_len) (with_prefix w v enc_len).

(** base/flit.h:221-239: bytes written (may exceed the length) and the returned length. *)
Definition EncodeTFast (w v : N) : list N * N :=
  if kLarge w <=? v then (kMaxLenHeader w :: le_bytes (N.to_nat w) v, w + 1)
  else let enc_len := EncodingLength w v in (le_bytes (N.to_nat w) (with_prefix w v enc_len), enc_len).

(** base/flit.h:241-249; only the first byte is read. *)
Definition ParseLengthT (w : N) (m : list N) : option N :=
  match m with
  | [] => None
  | b :: _ => if b =? kMaxLenHeader w then Some (w + 1) else Some (1 + countr_zero 8 b)
  end.

(** base/flit.h:253-272: (returned length, decoded value). *)
Definition ParseT (over : option N) (w : N) (m : list N) : option (N * N) :=
  match load w m with
  | None => None
  | Some val =>
    if N.land val 255 =? kMaxLenHeader w then
      match load w (drop 1 m) with Some v => Some (w + 1, v) | None => None end
    else
      let index := countr_zero (8 * w) val + 1 in
      match shl1 over (8 * w) (index * 8) with
      | None => None
      | Some s =>
        let val' := N.land val ((s + (2 ^ (8 * w) - 1)) mod 2 ^ (8 * w)) in
        if index <? 8 * w then Some (index, N.shiftr val' index) else None
      end
  end.

(** base/flit.h:119-154: the same algorithm with T = uint64_t and header 0. *)
Definition Parse64Fast (over : option N) (m : list N) : option (N * N) :=
  match load 8 m with
  | None => None
  | Some val =>
    if N.land val 255 =? 0 then
      match load 8 (drop 1 m) with Some v => Some (9, v) | None => None end
    else
      let index := countr_zero 64 val + 1 in
      match shl1 over 64 (index * 8) with
      | None => None
      | Some s =>
        let val' := N.land val ((s + (two64 - 1)) mod two64) in
        if index <? 64 then Some (index, N.shiftr val' index) else None
      end
  end.

(** base/flit.h:157-184. [v0] is the previous content of *v; the result is the returned length (0:
    rejected) and the new content of *v. *)
Definition Parse64Safe (over : option N) (v0 : N) (m : list N) : option (N * N) :=
  match m with
  | [] => None                              (* *begin with begin == end *)
  | b :: rest =>
    if b =? 0 then
      if len m <? 8 then Some (0, v0)
      else match load 8 rest with
           | None => None
           | Some v => if v <? 2 ^ 56 then Some (0, v) else Some (9, v)
           end
    else
      let index := countr_zero 8 b + 1 in
      if len m <? index then Some (0, v0)
      else
        (* memcpy of [index] bytes over the low bytes of *v *)
        let v1 := le_val (take index m) + (v0 / 2 ^ (8 * index)) * 2 ^ (8 * index) in
        match shl1 over 64 (index * 8) with
        | None => None
        | Some s => Some (index, N.shiftr (N.land v1 ((s + (two64 - 1)) mod two64)) index)
        end
  end.

(** ** ZigZag. Signed values are [Z], unsigned [N]; [wd] is the width in bits (32 or 64). *)
Definition to_unsigned (wd : N) (t : Z) : N := Z.to_N (t mod 2 ^ Z.of_N wd).
Definition to_signed (wd : N) (u : N) : Z :=
  if u <? 2 ^ (wd - 1) then Z.of_N u else (Z.of_N u - 2 ^ Z.of_N wd)%Z.

(** base/flit.h:313-320: (UT(t) << 1) ^ (t >> (width - 1)); the arithmetic right shift of a negative
    number is -1 (implementation-defined before C++20, arithmetic in gcc/clang). *)
Definition ZigZagEncode (wd : N) (t : Z) : N :=
  N.lxor ((to_unsigned wd t * 2) mod 2 ^ wd) (to_unsigned wd (Z.shiftr t (Z.of_N (wd - 1)))).
(** base/flit.h:329-332: (t >> 1) ^ -static_cast<T>(t & 1), converted to T. *)
Definition ZigZagDecode (wd : N) (u : N) : Z :=
  to_signed wd (N.lxor (N.shiftr u 1) (to_unsigned wd (- Z.of_N (N.land u 1)))).
