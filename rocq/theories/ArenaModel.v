(** base::PmrArena: base/pmr/arena.h, base/pmr/arena.cc.

    Addresses are numbers. Memory comes from upstream resources (numbers); where a new block is placed is up to the resource
    and part of the label. What is kept of memory is which bytes were handed out. Simplification: allocation does not fail, and
    the memory of the vector blocks_ itself is not modelled, apart from its allocator. *)
From Verif Require Import Util Conc.
Open Scope N_scope.

(** arena.h:46-49, with where the block is from and how large it is there (ghost). *)
Record block := Block { ptr : N; sz : N; from : nat; real : N }.
(** :39-56. [vmr] the allocator of blocks_, [out] the allocations handed out, address and size, last first (ghost). *)
Record arena := Arena { mr : nat; vmr : nat; cur : N; rest : N; mem : N; blocks : list block; out : list (N * N) }.
Definition new (r : nat) : arena := Arena r r 0 0 0 [] [].

(** arena.cc:11 *)
Definition kBlockSize : N := 8192.

(** The contract of memory_resource::allocate(size, alignof(max_align_t)): aligned, and not part of a block that is in use. *)
Definition apartb (p n q m : N) : bool := (p + n <=? q) || (q + m <=? p).
Definition may (s : list arena) (n p : N) : bool :=
  (0 <? p) && (p mod 16 =? 0) && (p + n <=? two64) && forallb (fun a => forallb (fun b => apartb p n (ptr b) (real b)) (blocks a)) s.

(** AllocateNewBlock, arena.cc:63-68: [p] what upstream answers *)
Definition new_block (n p : N) (a : arena) : arena :=
  Arena (mr a) (vmr a) (cur a) (rest a) ((mem a + n) mod two64) (blocks a ++ [Block p n (mr a) n]) (out a).
(** The allocator's answer. *)
Definition hand (p n : N) (a : arena) : arena := Arena (mr a) (vmr a) (cur a) (rest a) (mem a) (blocks a) ((p, n) :: out a).
(** alloc_ptr_ += k; alloc_bytes_remaining_ -= k *)
Definition bump (k : N) (a : arena) : arena := Arena (mr a) (vmr a) (cur a + k) (rest a - k) (mem a) (blocks a) (out a).
Definition place (p n : N) (a : arena) : arena := Arena (mr a) (vmr a) p n (mem a) (blocks a) (out a).
(** The argument of AllocateNewBlock is a uint32_t. *)
Definition u32 (n : N) : N := n mod two32.
(** AllocateFallback, arena.cc:24-41 *)
Definition fallback (s : list arena) (n p : N) (a : arena) : outcome arena :=
  if kBlockSize / 4 <? n
  then if may s (u32 n) p then Next (hand p n (new_block (u32 n) p a)) else Stuck
  else if may s kBlockSize p then Next (hand p n (bump n (place p kBlockSize (new_block kBlockSize p a)))) else Stuck.
(** Allocate, arena.h:62-74 *)
Definition allocate (s : list arena) (n p : N) (a : arena) : outcome arena :=
  if n <=? rest a then Next (hand (cur a) n (bump n a)) else fallback s n p a.
(** AllocateAligned, arena.cc:43-61 *)
Definition slop (p : N) : N := let m := p mod 8 in if m =? 0 then 0 else 8 - m.
Definition allocate_aligned (s : list arena) (n p : N) (a : arena) : outcome arena :=
  let needed := (n + slop (cur a)) mod two64 in
  if needed <=? rest a then Next (hand (cur a + slop (cur a)) n (bump needed a)) else fallback s n p a.

(** ** Several arenas *)
Inductive lab :=
  | Alloc (i : nat) (n p : N) | AllocAligned (i : nat) (n p : N)
  | Swap (i j : nat)
  | Renew (i : nat) (r : nat).   (* ~PmrArena, and another one that uses resource r is constructed in its place *)
(** The destructor, arena.cc:18-22: a block goes back to where it is from, with the size it has. *)
Definition returns (a : arena) : bool := forallb (fun b => Nat.eqb (from b) (mr a) && (sz b =? real b)) (blocks a).
(** arena.cc:70-77. Vectors with different allocators must not be swapped. *)
Definition bind {A B} (x : outcome A) (f : A -> outcome B) : outcome B := match x with Next a => f a | Ub => Ub | Stuck => Stuck end.
Definition on (s : list arena) (i : nat) (f : arena -> outcome arena) : outcome (list arena) :=
  match nth_error s i with Some a => bind (f a) (fun a => Next (set i a s)) | None => Stuck end.
Definition swap_in (a b : arena) : arena := Arena (mr b) (vmr a) (cur b) (rest b) (mem b) (blocks b) (out b).
Definition step (s : list arena) (l : lab) : outcome (list arena) :=
  match l with
  | Alloc i n p => if n =? 0 then Stuck else on s i (allocate s n p)     (* assert(bytes > 0), arena.h:66 *)
  | AllocAligned i n p => if n =? 0 then Stuck else on s i (allocate_aligned s n p)
  | Swap i j =>
      match nth_error s i, nth_error s j with
      | Some a, Some b => if Nat.eqb i j then Next s else if Nat.eqb (vmr a) (vmr b) then Next (set j (swap_in b a) (set i (swap_in a b) s)) else Ub
      | _, _ => Stuck
      end
  | Renew i r => on s i (fun a => if returns a then Next (new r) else Ub)
  end.
Definition init (n : nat) : list arena := repeat (new 0) n.
