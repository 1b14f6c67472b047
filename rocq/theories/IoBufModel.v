(** Model of base::IoBuf (base/io_buf.h, base/io_buf.cc).

    Memory of [buf_] is a list of cells; [None] is an indeterminate (never written) byte. All
    sizes are [N]; additions of size_t are taken modulo 2^64 where the code performs them before
    a comparison. Outcome [None] of a function is undefined behaviour: a memcpy/memmove whose
    source or destination range leaves the allocation, or absl::bit_ceil of a value above 2^63.
    Not modelled: alignment, allocation failure, [Swap]/move (see [swap_model] below, a pure
    exchange of all fields). *)
From Verif Require Import Util.
Open Scope N_scope.

Notation cell := (option N).

(** base/io_buf.h:177-186: the data members. [buf = None] is the null [buf_]. [mem] has length
    [cap]; [gen] is generation_. *)
Record iobuf := IoBuf { mem : list cell; offs : N; size : N; cap : N; gen : N; hasbuf : bool }.

Definition wrap (x : N) : N := x mod two64.

(** absl::bit_ceil: smallest power of two >= x, 1 for 0; undefined when not representable. *)
Definition bit_ceil (x : N) : option N :=
  if x <=? 1 then Some 1
  else if x <=? 2 ^ 63 then Some (2 ^ N.log2_up x) else None.

(** memcpy / memmove of [n] cells from [src] at [so] into [dst] at [d]: UB when a range leaves
    its array. *)
Definition copy_cells (src : list cell) (so n : N) (dst : list cell) (d : N) : option (list cell) :=
  if (so + n <=? len src) && (d + n <=? len dst)
  then Some (take d dst ++ take n (drop so src) ++ drop (d + n) dst)
  else None.

(** base/io_buf.h:56-58 *)
Definition InputLen (b : iobuf) : N := size b - offs b.
(** base/io_buf.h:60-66: the bytes of [buf_+offs_, InputLen()). *)
Definition InputBuffer (b : iobuf) : list cell := take (InputLen b) (drop (offs b) (mem b)).
(** base/io_buf.h:76-78 *)
Definition AppendLen (b : iobuf) : N := cap b - size b.

(** base/io_buf.h:127-134 *)
Definition Compact (b : iobuf) : option iobuf :=
  if 0 <? offs b then
    match copy_cells (mem b) (offs b) (size b - offs b) (mem b) 0 with
    | Some m => Some (IoBuf m 0 (size b - offs b) (cap b) (gen b) (hasbuf b))
    | None => None
    end
  else Some b.

(** base/io_buf.cc:12-22 *)
Definition ConsumeInput (sz : N) (b : iobuf) : option iobuf :=
  if size b <=? wrap (offs b + sz) then Some (IoBuf (mem b) 0 0 (cap b) (gen b) (hasbuf b))
  else
    let b' := IoBuf (mem b) (wrap (offs b + sz)) (size b) (cap b) (gen b) (hasbuf b) in
    if (size b' <? 2 * offs b') && (size b' - offs b' <? 512) then Compact b' else Some b'.

(** base/io_buf.cc:57-72. The new array is entirely indeterminate before the memcpy. *)
Definition Reallocate (ncap : N) (b : iobuf) : option iobuf :=
  let fresh := repeat (None : cell) (N.to_nat ncap) in
  if hasbuf b then
    if offs b <? size b then
      match copy_cells (mem b) (offs b) (size b - offs b) fresh 0 with
      | Some m => Some (IoBuf m 0 (size b - offs b) ncap (gen b + 1) true)
      | None => None
      end
    else Some (IoBuf fresh 0 0 ncap (gen b + 1) true)
  else Some (IoBuf fresh (offs b) (size b) ncap (gen b + 1) true).

(** base/io_buf.cc:37-43 *)
Definition Reserve (sz : N) (b : iobuf) : option iobuf :=
  if sz <? cap b then Some b
  else match bit_ceil sz with Some c => Reallocate c b | None => None end.

(** base/io_buf.h:94-98 *)
Definition EnsureCapacity (sz : N) (b : iobuf) : option iobuf :=
  if AppendLen b <? sz then Reserve (wrap (size b + sz)) b else Some b.

(** base/io_buf.cc:45-55; the boolean is the returned value. *)
Definition ShrinkTo (t : N) (b : iobuf) : option (bool * iobuf) :=
  if cap b <=? t then Some (false, b)
  else match bit_ceil t with
       | None => None
       | Some t' =>
         if (cap b <=? t') || (t' <? InputLen b) then Some (false, b)
         else match Reallocate t' b with Some b' => Some (true, b') | None => None end
       end.

(** base/io_buf.h:85-87 together with the user's store of [bs] through AppendBuffer()
    (base/io_buf.h:80-82): storing beyond AppendLen() is UB. *)
Definition FillAndCommit (bs : list N) (b : iobuf) : option iobuf :=
  match copy_cells (map Some bs) 0 (len bs) (mem b) (size b) with
  | Some m => Some (IoBuf m (offs b) (wrap (size b + len bs)) (cap b) (gen b) (hasbuf b))
  | None => None
  end.

(** base/io_buf.cc:31-35 *)
Definition WriteAndCommit (bs : list N) (b : iobuf) : option iobuf :=
  match EnsureCapacity (len bs) b with
  | Some b' => FillAndCommit bs b'
  | None => None
  end.

(** base/io_buf.cc:24-29; returns the bytes copied to [dest]. The assert is a precondition; a
    larger request reads past the input (UB if it leaves the allocation). *)
Definition ReadAndConsume (sz : N) (b : iobuf) : option (list cell * iobuf) :=
  if offs b + sz <=? len (mem b) then
    match ConsumeInput sz b with
    | Some b' => Some (take sz (drop (offs b) (mem b)), b')
    | None => None
    end
  else None.

(** base/io_buf.h:114-117 *)
Definition Clear (b : iobuf) : iobuf := IoBuf (mem b) 0 0 (cap b) (gen b) (hasbuf b).

(** base/io_buf.h:32-39, data members before Reserve. *)
Definition empty_buf : iobuf := IoBuf [] 0 0 0 0 false.
Definition NewIoBuf (c : N) : option iobuf := Reserve c empty_buf.

(** One call of the public interface. *)
Inductive op :=
| OWrite (bs : list N)      (* WriteAndCommit *)
| OFill (bs : list N)       (* store to AppendBuffer() then CommitWrite *)
| OConsume (n : N)          (* ConsumeInput *)
| ORead (n : N)             (* ReadAndConsume *)
| OEnsure (n : N)           (* EnsureCapacity *)
| OReserve (n : N)          (* Reserve *)
| OShrink (n : N)           (* ShrinkTo *)
| OClear
| OCompact.

(** Step: new buffer and the bytes handed to the caller (only ReadAndConsume hands any). *)
Definition step (b : iobuf) (o : op) : option (iobuf * list cell) :=
  let noout x := match x with Some b' => Some (b', []) | None => None end in
  match o with
  | OWrite bs => noout (WriteAndCommit bs b)
  | OFill bs => noout (FillAndCommit bs b)
  | OConsume n => noout (ConsumeInput n b)
  | ORead n => match ReadAndConsume n b with Some (out, b') => Some (b', out) | None => None end
  | OEnsure n => noout (EnsureCapacity n b)
  | OReserve n => noout (Reserve n b)
  | OShrink n => match ShrinkTo n b with Some (_, b') => Some (b', []) | None => None end
  | OClear => Some (Clear b, [])
  | OCompact => noout (Compact b)
  end.
