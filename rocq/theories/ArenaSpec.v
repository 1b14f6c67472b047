(** What arenas promise. A region is an address and a size. *)
From Verif Require Import Util Conc ArenaModel.
Open Scope N_scope.

Definition apart (x y : N * N) : Prop := fst x + snd x <= fst y \/ fst y + snd y <= fst x.
Definition within (x y : N * N) : Prop := fst y <= fst x /\ fst x + snd x <= fst y + snd y.
(** What upstream gave: address and size. *)
Definition region (b : block) : N * N := (ptr b, real b).
(** Any two different allocations that were handed out by arenas that exist are apart. *)
Definition disjoint (s : list arena) : Prop := forall i j a b k m x y,
  nth_error s i = Some a -> nth_error s j = Some b -> nth_error (out a) k = Some x -> nth_error (out b) m = Some y -> (i, k) <> (j, m) -> apart x y.
(** Each is in a block that its arena holds. *)
Definition inside (s : list arena) : Prop := forall i a x, nth_error s i = Some a -> In x (out a) -> exists b, In b (blocks a) /\ within x (region b).
(** MemoryUsage() counts the blocks. *)
Fixpoint total (bs : list block) : N := match bs with [] => 0 | b :: r => real b + total r end.
Definition counted (s : list arena) : Prop := forall i a, nth_error s i = Some a -> mem a = total (blocks a) mod two64.

(** Sizes under 4GB, and swaps between arenas with the same resource only. *)
Definition calm (s : list arena) (l : lab) : bool :=
  match l with
  | Alloc _ n _ | AllocAligned _ n _ => n <? two32
  | Swap i j => match nth_error s i, nth_error s j with Some a, Some b => Nat.eqb (mr a) (mr b) | _, _ => true end
  | Renew _ _ => true
  end.
Definition cstep (s : list arena) (l : lab) : outcome (list arena) := if calm s l then step s l else Stuck.

(** What a step does to what is out: an allocation of the size asked for is added in one arena, aligned to 8 bytes if asked
    for; a swap exchanges; nothing else changes. *)
Definition outs (s : list arena) (i : nat) : list (N * N) := match nth_error s i with Some a => out a | None => [] end.
Definition gives (s : list arena) (l : lab) (s' : list arena) : Prop :=
  length s' = length s /\
  match l with
  | Alloc i n _ => (exists q, outs s' i = (q, n) :: outs s i) /\ forall k, k <> i -> outs s' k = outs s k
  | AllocAligned i n _ => (exists q, outs s' i = (q, n) :: outs s i /\ q mod 8 = 0) /\ forall k, k <> i -> outs s' k = outs s k
  | Swap i j => outs s' i = outs s j /\ outs s' j = outs s i /\ forall k, k <> i -> k <> j -> outs s' k = outs s k
  | Renew i _ => outs s' i = [] /\ forall k, k <> i -> outs s' k = outs s k
  end.
