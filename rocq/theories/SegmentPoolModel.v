(** Model of base::SegmentPool (base/segment_pool.{h,cc}) and of the registered-buffer interface
    of UringProactor built on it (util/fibers/uring_proactor.cc:66, 405-463).
    [None] as the result of a pool operation is undefined behaviour. *)
From Verif Require Import Util.
Open Scope N_scope.

Notation seg := (N * N)%type.   (* offset, length *)

(** base/segment_pool.h:33-34 *)
Record pool := Pool { psize : N; taken : list seg }.

(** [unsigned] conversion / arithmetic *)
Definition u32 (x : N) : N := x mod two32.

(** base/segment_pool.h:15 *)
Definition NewPool (s : N) : pool := Pool s [].

(** base/segment_pool.cc:15-33. tail_mark is computed in [unsigned] and then widened to size_t, so
    the sum [tail_mark + length] does not wrap. *)
Definition Request (length : N) (p : pool) : option N * pool :=
  match taken p with
  | [] => if psize p <? length then (None, p) else (Some 0, Pool (psize p) [(0, length)])
  | (head_mark, _) :: _ =>
    if length <=? head_mark
    then (Some (head_mark - length), Pool (psize p) ((head_mark - length, length) :: taken p))
    else
      let bk := last (taken p) (0, 0) in
      let tail_mark := u32 (fst bk + snd bk) in
      if tail_mark + length <=? psize p
      then (Some tail_mark, Pool (psize p) (taken p ++ [(tail_mark, length)]))
      else (None, p)
  end.

(** base/segment_pool.cc:41: std::lower_bound for (offset, 0) followed by line 44's write.
    (o, l) < (offset, 0) iff o < offset; the deque is always ordered by offset, where lower_bound
    finds the first element that is not less. No such element: write through end(), UB. *)
Fixpoint clear_lower_bound (offset : N) (l : list seg) : option (list seg) :=
  match l with
  | [] => None
  | (o, n) :: t => if o <? offset
                   then match clear_lower_bound offset t with
                        | Some t' => Some ((o, n) :: t') | None => None end
                   else Some ((o, 0) :: t)
  end.

(** base/segment_pool.cc:48-49 *)
Fixpoint pop_zero_front (l : list seg) : list seg :=
  match l with
  | (o, n) :: t => if n =? 0 then pop_zero_front t else l
  | [] => []
  end.
(** base/segment_pool.cc:51-52: the same from the back. *)
Definition pop_zero_back (l : list seg) : list seg := rev (pop_zero_front (rev l)).

(** base/segment_pool.cc:35-53. front() of an empty deque is UB. *)
Definition Return (offset : N) (p : pool) : option pool :=
  match taken p with
  | [] => None
  | (o, n) :: t =>
    match (if o =? offset then Some ((o, 0) :: t) else clear_lower_bound offset (taken p)) with
    | Some l => Some (Pool (psize p) (pop_zero_back (pop_zero_front l)))
    | None => None
    end
  end.

(** base/segment_pool.cc:55-57 *)
Definition Grow (a : N) (p : pool) : pool := Pool (u32 (psize p + a)) (taken p).

(** util/fibers/uring_proactor.cc:66 *)
Definition kAlign : N := 4096.
(** util/fibers/uring_proactor.cc:429-439 (and 448-458, the same code): byte range handed out,
    relative to the backing, as (start, length). size_t arithmetic wraps at 2^64 and the argument
    of Request is converted to [unsigned]. The [backing] non-null test is elsewhere: the model
    starts after RegisterBuffers succeeded. *)
Definition RequestBuffer (size : N) (p : pool) : option (N * N) * pool :=
  let segment_cnt := ((size + kAlign - 1) mod two64) / kAlign in
  match Request (u32 segment_cnt) p with
  | (Some offset, p') => (Some ((offset * kAlign) mod two64, (segment_cnt * kAlign) mod two64), p')
  | (None, p') => (None, p')
  end.
(** util/fibers/uring_proactor.cc:441-446 / 460-463: [start] is bytes.data() - backing. *)
Definition ReturnBuffer (start : N) (p : pool) : option pool := Return (u32 (start / kAlign)) p.
(** util/fibers/uring_proactor.cc:405-427: successful registration of [size] bytes. *)
Definition RegisterBuffers (size : N) (p : pool) : pool :=
  Grow (u32 ((size + kAlign - 1) mod two64 / kAlign)) p.
