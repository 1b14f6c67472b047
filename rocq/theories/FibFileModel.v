(** Model of the reads of FiberReadFile with prefetching (util/fibers/fiber_file.cc:26-64, 102-276), the file that OpenFiberReadFile
    returns. One fiber uses the file; the tasks that it gives to the thread pool run concurrently with it.

    Simplified: the file does not change while it is open; offsets are unbounded numbers ([None] is the file_prefetch_offset_
    of -1); ReadAllPosix (io/file.cc:293-341) either fails or reads up to the end of the buffers or of the file; the statistics,
    the histogram and DCHECKs are left out; Read has one non-empty buffer (io/file.h:46-47 demand it; of several iovecs the code
    fills the first one only, line 272). A pool task that reads for a waiting Read (lines 152-156) is one step together with it:
    no other task is in the pool then. Done::Notify is one step (C19 is about Done). What a failed pread has already written is
    left out. *)
From Verif Require Import Util Conc.
Local Open Scope bool_scope.

(** The length of prefetch_: [Huge] is 2^64 - 1 less what was consumed, which the result -1 of a failed prefetch becomes (line 238). *)
Inductive plen := Fin (n : nat) | Huge.
Inductive result := RErr | ROk (d : list nat).
(** [InWait]: in done_.Wait of HandleActivePrefetch (line 237); [InClose]: in that of Close (line 115). *)
Inductive fiber := Idle | InWait (off len : nat) | InClose | Closed | Gone.
Record st := mkS {
  buf : nat -> nat;                         (* buf_ *)
  ps : nat; pl : plen;                      (* prefetch_: where it starts in buf_, and its length *)
  fpo : option nat;                         (* file_prefetch_offset_ *)
  ptr : option nat;                         (* prefetch_ptr_ *)
  task : option (nat * nat * nat);          (* the prefetch in the pool: position in buf_, length, offset in the file *)
  pres : option nat;                        (* prefetch_res_; [None] is -1 *)
  ready : bool;                             (* done_ *)
  fib : fiber;
  hist : list (nat * nat * result) }.       (* for the statements: the reads that have returned, the last one first *)
Definition init : st := mkS (fun _ => 0) 0 (Fin 0) None None None (Some 0) false Idle [].

Inductive lab := LRead (off len : nat) (derr : bool) | LWake (derr : bool) | LTask (fail : bool) | LClose | LDestroy.

(** memcpy and pread on the buffer. *)
Definition rd (b : nat -> nat) (p n : nat) : list nat := map b (seq p n).
Definition wr (b : nat -> nat) (p : nat) (l : list nat) : nat -> nat := fun i => if Nat.leb p i && Nat.ltb i (p + length l) then nth (i - p) l 0 else b i.
Definition empty (l : plen) : bool := match l with Fin 0 => true | _ => false end.

Section M.
Variable file : list nat.
Variable B : nat.                           (* buf_size_, not 0 *)

(** What pread finds. *)
Definition pread (off n : nat) : list nat := firstn n (skipn off file).

(** Does the pool's task write to [p, p + n) ? Then touching it is a data race. *)
Definition races (s : st) (p n : nat) : bool :=
  match task s with Some (q, m, _) => Nat.ltb q (p + n) && Nat.ltb p (q + m) | None => false end.

Definition ret (off len : nat) (r : result) (s : st) : st :=
  mkS (buf s) (ps s) (pl s) (fpo s) (ptr s) (task s) (pres s) (ready s) Idle ((off, len, r) :: hist s).

(** Lines 136-198, after the cache was tried: [d] was copied from it. [off] and [len] are the arguments of Read. *)
Definition rest (off len : nat) (d : list nat) (derr : bool) (s : st) : outcome st :=
  match pl s with
  | Huge => Ub
  | Fin k =>
    let s := mkS (buf s) 0 (Fin k) (fpo s) (ptr s) (task s) (pres s) (ready s) (fib s) (hist s) in
    if Nat.ltb (length d) len
    then (* lines 144-178 *)
      if races s k (B - k) then Ub
      else if derr then Next (ret off len RErr s)
      else
        let want := len - length d in
        let got := pread (off + length d) (want + (B - k)) in
        if Nat.leb (length got) want then Next (ret off len (ROk (d ++ got)) s)
        else let more := skipn want got in
             Next (ret off len (ROk (d ++ firstn want got))
                       (mkS (wr (buf s) k more) 0 (Fin (length more)) (Some (off + length d + want)) (ptr s) (task s) (pres s) (ready s) (fib s) (hist s)))
    else (* lines 183-198; with an offset of -1 pread would fail: never met, hence [Ub] *)
      match fpo s with
      | None => Ub
      | Some o => Next (ret off len (ROk d) (mkS (buf s) 0 (Fin k) (fpo s) (Some k) (Some (k, B - k, o + k)) (pres s) (ready s) (fib s) (hist s)))
      end
  end.

(** ReadFromCache, lines 210-233, and what follows it in ReadAndPrefetch. *)
Definition cache (off len : nat) (derr : bool) (s : st) : outcome st :=
  match fpo s with
  | Some o =>
    if Nat.eqb off o
    then
      let n := match pl s with Fin k => Nat.min k len | Huge => len end in
      let k' := match pl s with Fin k => Fin (k - n) | Huge => Huge end in
      if Nat.ltb B (ps s + n) then Ub                        (* memcpy from outside the buffer *)
      else if races s (ps s) n then Ub
      else
        let d := rd (buf s) (ps s) n in
        let s := mkS (buf s) (ps s + n) k' (Some (o + n)) (ptr s) (task s) (pres s) (ready s) (fib s) (hist s) in
        if match ptr s, k' with Some _, _ => true | None, Fin k => Nat.leb (Nat.div2 B) k | None, Huge => true end
        then Next (ret off len (ROk d) s)
        else match k' with
             | Fin (S _ as k) =>                              (* memmove *)
               if races s 0 B then Ub
               else rest off len d derr (mkS (wr (buf s) 0 (rd (buf s) (ps s) k)) (ps s) (Fin k) (fpo s) (ptr s) (task s) (pres s) (ready s) (fib s) (hist s))
             | _ => rest off len d derr s
             end
    else rest off len [] derr (mkS (buf s) 0 (Fin 0) (fpo s) (ptr s) (task s) (pres s) (ready s) (fib s) (hist s))
  | None => rest off len [] derr (mkS (buf s) 0 (Fin 0) (fpo s) (ptr s) (task s) (pres s) (ready s) (fib s) (hist s))
  end.

(** HandleActivePrefetch after the wait, lines 238-264. [Ub]: the CHECK of line 244 fails, or prefetch_ptr_ is null. *)
Definition handle (s : st) : outcome st :=
  let fin p l f := Next (mkS (buf s) p l f None (task s) (pres s) (ready s) (fib s) (hist s)) in
  match ptr s with
  | None => Ub
  | Some p =>
    match pres s with
    | Some 0 => fin (ps s) (pl s) None
    | Some r => match pl s with
                | Fin 0 => fin p (Fin r) (fpo s)
                | Fin k => if Nat.eqb (ps s + k) p then fin (ps s) (Fin (k + r)) (fpo s) else Ub
                | Huge => Ub
                end
    | None => match pl s with
              | Fin 0 => fin p Huge (fpo s)
              | Fin k => if Nat.eqb (ps s + k) p then fin (ps s) (Fin (k - 1)) (fpo s) else Ub     (* k + (2^64 - 1) wraps *)
              | Huge => Ub
              end
    end
  end.

Definition setfib (f : fiber) (s : st) : st := mkS (buf s) (ps s) (pl s) (fpo s) (ptr s) (task s) (pres s) (ready s) f (hist s).
Definition unready (s : st) : st := mkS (buf s) (ps s) (pl s) (fpo s) (ptr s) (task s) (pres s) false (fib s) (hist s).
Definition has {A} (o : option A) : bool := match o with Some _ => true | None => false end.
(** range.size() > prefetch_.size() *)
Definition longer (len : nat) (l : plen) : bool := match l with Fin k => Nat.ltb k len | Huge => false end.
Definition at_fpo (off : nat) (s : st) : bool := match fpo s with Some o => Nat.eqb off o | None => false end.

Definition step (s : st) (l : lab) : outcome st :=
  match l with
  (* lines 128-135, 204-208 *)
  | LRead off len derr =>
    match fib s with
    | Idle =>
      if Nat.eqb len 0 then Stuck
      else if has (ptr s) || negb (empty (pl s))
      then if (longer len (pl s) && has (ptr s)) || negb (at_fpo off s)
           then Next (setfib (InWait off len) s)
           else cache off len derr s
      else rest off len [] derr s
    | _ => Stuck
    end
  (* done_.Wait returns *)
  | LWake derr =>
    if ready s
    then match fib s with
         | InWait off len => match handle (unready s) with Next s' => cache off len derr s' | o => o end
         | InClose => Next (mkS (buf s) (ps s) (pl s) (fpo s) None (task s) (pres s) false Closed (hist s))
         | _ => Stuck
         end
    else Stuck
  (* lines 192-196, in the pool: it uses [this], so the file must still be there *)
  | LTask fail =>
    match task s with
    | Some (p, n, o) =>
      match fib s with
      | Gone => Ub
      | _ => let d := pread o n in
             Next (mkS (if fail then buf s else wr (buf s) p d) (ps s) (pl s) (fpo s) (ptr s) None (if fail then None else Some (length d)) true (fib s) (hist s))
      end
    | None => Stuck
    end
  (* lines 113-121 *)
  | LClose => match fib s with Idle => Next (setfib (if has (ptr s) then InClose else Closed) s) | _ => Stuck end
  | LDestroy => match fib s with Idle | Closed => Next (setfib Gone s) | _ => Stuck end
  end.
End M.
