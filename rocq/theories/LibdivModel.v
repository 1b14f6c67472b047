(** Model of the division by precomputed reciprocals: base/libdivide.h, the unsigned part (lines 232-257, 414-559, 577-639, 690-774), and its
    use for picking a bucket, base/cuckoo_map-internal.h:165-177, base/cuckoo_map.cc:20-53, 427-434.

    Not modelled: the signed and the SSE2 functions (not used in the repository). The builtins count zeros, and are undefined at 0. *)
From Verif Require Import Util.
Local Open Scope N_scope.

(** ** Helpers *)
(** __builtin_ctz, __builtin_ctzll: 414-442 *)
Fixpoint ctz_pos (p : positive) : N := match p with xO q => 1 + ctz_pos q | _ => 0 end.
Definition ctz (d : N) : option N := match d with 0 => None | Npos p => Some (ctz_pos p) end.
(** __builtin_clz, __builtin_clzll: 444-472; [w]: the number of bits *)
Definition clz (w d : N) : option N := match d with 0 => None | _ => Some (w - 1 - N.log2 d) end.
(** libdivide__mullhi_u32: 232-236 *)
Definition mullhi_u32 (x y : N) : N := ((x * y) mod two64 / 2 ^ 32) mod two32.
(** libdivide__mullhi_u64: 238-257. With HAS_INT128_T: *)
Definition mullhi_u64_128 (x y : N) : N := ((x * y) mod 2 ^ 128 / 2 ^ 64) mod two64.
(** Without; all additions and products in 64 bits *)
Definition mullhi_u64 (x y : N) : N :=
  let x0 := x mod two32 in let x1 := (x / 2 ^ 32) mod two32 in
  let y0 := y mod two32 in let y1 := (y / 2 ^ 32) mod two32 in
  let x0y0_hi := mullhi_u32 x0 y0 in
  let x0y1 := (x0 * y1) mod two64 in
  let x1y0 := (x1 * y0) mod two64 in
  let x1y1 := (x1 * y1) mod two64 in
  let temp := (x1y0 + x0y0_hi) mod two64 in
  let temp_lo := temp mod two32 in let temp_hi := temp / 2 ^ 32 in
  (x1y1 + temp_hi + ((temp_lo + x0y1) mod two64) / 2 ^ 32) mod two64.

(** libdivide_64_div_32_to_32, libdivide_128_div_64_to_64 on x86 (476-499): the instruction traps if the quotient does not fit. *)
Definition div_asm (w : N) (u1 u0 v : N) : option (N * N) :=
  let n := u1 * 2 ^ w + u0 in if (v =? 0) || (2 ^ w <=? n / v) then None else Some (n / v, n mod v).
(** libdivide_128_div_64_to_64 elsewhere: 505-558. [None]: undefined (a shift by 64; zero). *)
Definition b32 : N := 2 ^ 32.
(** The loop at again1 and again2. Two rounds are enough; [None] if not. *)
Fixpoint again (fuel : nat) (q rhat vn1 vn0 un : N) : option N :=
  match fuel with
  | O => None
  | S fuel =>
    if (b32 <=? q) || ((b32 * rhat + un) mod two64 <? (q * vn0) mod two64) then
      let q := q - 1 in let rhat := rhat + vn1 in
      if rhat <? b32 then again fuel q rhat vn1 vn0 un else Some q
    else Some q
  end.
Definition sub64 (a b : N) : N := (a + two64 - b mod two64) mod two64.
Definition divlu (u1 u0 v : N) : option (N * N) :=
  if v <=? u1 then Some (two64 - 1, two64 - 1) else
  match clz 64 v with
  | None => None
  | Some s =>
    if s =? 0 then None (* u0 >> 64 *) else
    let v := (v * 2 ^ s) mod two64 in
    let vn1 := v / 2 ^ 32 in let vn0 := v mod two32 in
    let un64 := N.lor ((u1 * 2 ^ s) mod two64) (u0 / 2 ^ (64 - s)) in
    let un10 := (u0 * 2 ^ s) mod two64 in
    let un1 := un10 / 2 ^ 32 in let un0 := un10 mod two32 in
    let q1 := un64 / vn1 in
    match again 3 q1 (un64 - q1 * vn1) vn1 vn0 un1 with
    | None => None
    | Some q1 =>
      let un21 := sub64 ((un64 * b32 + un1) mod two64) (q1 * v) in
      let q0 := un21 / vn1 in
      match again 3 q0 (un21 - q0 * vn1) vn1 vn0 un0 with
      | None => None
      | Some q0 => Some ((q1 * b32 + q0) mod two64, sub64 ((un21 * b32 + un0) mod two64) (q0 * v) / 2 ^ s)
      end
    end
  end.

(** ** Dividers. [w]: 32 or 64; [mullhi], [div_wide]: the functions above. *)
Record divider := mkD { magic : N; more : N }.
Definition ADD_MARKER : N := 64.
Definition SHIFT_PATH : N := 128.
Section W.
Variable w : N.
Variable mullhi : N -> N -> N.
Variable div_wide : N -> N -> N -> option (N * N).
Definition wr (x : N) : N := x mod 2 ^ w.
(** LIBDIVIDE_32_SHIFT_MASK, LIBDIVIDE_64_SHIFT_MASK: 110-111 *)
Definition SHIFT_MASK : N := w - 1.
(** libdivide_u32_gen (577-614), libdivide_u64_gen (690-728). [None]: undefined. *)
Definition gen (d : N) : option divider :=
  if N.land d (wr (d + 2 ^ w - 1)) =? 0 then
    match ctz d with Some z => Some (mkD 0 (N.lor z SHIFT_PATH)) | None => None end
  else
    match clz w d with
    | None => None
    | Some z =>
      let k := w - 1 - z in
      match div_wide (2 ^ k) 0 d with
      | None => None
      | Some (m, rem) =>
        let e := d - rem in
        if e <? 2 ^ k then Some (mkD (wr (1 + m)) k)
        else
          let m := wr (m + m) in
          let twice := wr (rem + rem) in
          let m := if (d <=? twice) || (twice <? rem) then wr (m + 1) else m in
          Some (mkD (wr (1 + m)) (N.lor k ADD_MARKER))
      end
    end.
(** libdivide_u32_get_algorithm (629-637), libdivide_u64_get_algorithm (744-752) *)
Definition get_algorithm (s : divider) : N :=
  if negb (N.land (more s) SHIFT_PATH =? 0) then 0 else if N.land (more s) ADD_MARKER =? 0 then 1 else 2.
(** libdivide_u32_do_alg0..2 (639-653), libdivide_u64_do_alg0..2 (754-768) *)
Definition do_alg0 (n : N) (s : divider) : N := n / 2 ^ N.land (more s) SHIFT_MASK.
Definition do_alg1 (n : N) (s : divider) : N := mullhi (magic s) n / 2 ^ more s.
Definition do_alg2 (n : N) (s : divider) : N :=
  let q := mullhi (magic s) n in
  let t := wr (wr (n + 2 ^ w - q) / 2 + q) in
  t / 2 ^ N.land (more s) SHIFT_MASK.
(** libdivide_u32_do (614-627), libdivide_u64_do (730-742) *)
Definition do_div (n : N) (s : divider) : N :=
  if negb (N.land (more s) SHIFT_PATH =? 0) then n / 2 ^ N.land (more s) SHIFT_MASK
  else
    let q := mullhi (magic s) n in
    if negb (N.land (more s) ADD_MARKER =? 0) then wr (wr (n + 2 ^ w - q) / 2 + q) / 2 ^ N.land (more s) SHIFT_MASK
    else q / 2 ^ more s.
End W.

(** ** Buckets *)
(** IsPrime: cuckoo_map.cc:20-31; the loop over i = 5, 7, ... with i * i in 32 bits. [None]: out of fuel *)
Fixpoint prime_loop (fuel : nat) (i val : N) : option bool :=
  match fuel with
  | O => None
  | S fuel => if (i * i) mod two32 <=? val then (if val mod i =? 0 then Some false else prime_loop fuel ((i + 2) mod two32) val) else Some true
  end.
Definition is_prime (fuel : nat) (val : N) : option bool :=
  if val <? 4 then Some true else if (val mod 2 =? 0) || (val mod 3 =? 0) then Some false else prime_loop fuel 5 val.
(** GetPrimeNotLessThan: cuckoo_map.cc:42-52 *)
Fixpoint prime_from (fuel : nat) (v : N) : option N :=
  match fuel with
  | O => None
  | S fuel' => if v <? two64 - 1 then match is_prime fuel v with Some true => Some v | Some false => prime_from fuel' (v + 2) | None => None end else None
  end.
Definition get_prime (fuel : nat) (v : N) : option N := prime_from fuel (if v mod 2 =? 0 then v + 1 else v).
(** SetBucketCount, FromHash: cuckoo_map.cc:433-434, cuckoo_map-internal.h:166-177 *)
Definition from_hash (s : divider) (count h : N) : N :=
  let p := if get_algorithm s =? 1 then do_alg1 mullhi_u64 h s else do_alg2 64 mullhi_u64 h s in
  sub64 h (p * count) mod two32. (* BucketId has 32 bits *)
(** The number of buckets in the constructor (160-163) and in Reserve() of an empty map (294-300); BucketFromId is in 32 bits
    (cuckoo_map-internal.h:151-153). *)
Definition bucket_from_id (d : N) : N := (d / 4) mod two32.
Definition init_count (fuel : nat) (capacity : N) : option N := get_prime fuel (N.max 16 (bucket_from_id capacity)).
Definition reserve_count (fuel : nat) (capacity : N) : option N := get_prime fuel (bucket_from_id capacity).
