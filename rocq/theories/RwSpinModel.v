(** Model of folly::RWSpinLock (base/RWSpinLock.h:142-262): a reader-writer lock in one 32-bit word, with upgradable
    readers. Every atomic operation is one step of one of [n] threads; operations are sequentially consistent. A
    blocking call (150-156, 165-171, 184-190, 197-203) repeats the corresponding try_ function (the yielding in between changes nothing). *)
From Verif Require Import Util Conc.
From Coq Require Import ZArith.
Local Open Scope Z_scope.

(** RWSpinLock.h:143 *)
Definition READER := 4.
Definition UPGRADED := 2.
Definition WRITER := 1.
(** int32_t arithmetic of std::atomic wraps around. *)
Definition wrap32 (x : Z) : Z := (x + 2147483648) mod 4294967296 - 2147483648.

(** Where a thread is. *)
Inductive pc :=
| Out        (* holds nothing *)
| Back       (* in try_lock_shared, has to take its READER back *)
| Rd         (* lock_shared has returned *)
| Up         (* lock_upgrade has returned *)
| Wr         (* lock has returned *)
| WrRd       (* in unlock_and_lock_shared, between its two operations *)
| WrUp.      (* in unlock_and_lock_upgrade, between its two operations *)
(** [data] stands for what the lock protects, [seen] for what a thread knows about it: both are for the statements only. *)
Record st := mkS { bits : Z; th : nat -> pc; data : nat; seen : nat -> nat }.
Definition init : st := mkS 0 (fun _ => Out) 0 (fun _ => 0%nat).

Inductive op :=
| TryLock | Unlock | TryShared | BackOff | UnlockShared | ToShared1 | ToShared2
| TryUpgrade | UnlockUpgrade | TryPromote | UpToShared | ToUp1 | ToUp2
| Store (v : nat).

(** The thread goes on at [p] and looks at the data. *)
Definition go (t : nat) (b : Z) (p : pc) (s : st) : outcome st := Next (mkS b (upd (th s) t p) (data s) (upd (seen s) t (data s))).
(** The same for a thread that holds the lock already: it looks at nothing. *)
Definition mv (t : nat) (b : Z) (p : pc) (s : st) : outcome st := Next (mkS b (upd (th s) t p) (data s) (seen s)).

Definition step (n : nat) (s : st) (l : nat * op) : outcome st :=
  let (t, o) := l in
  if negb (Nat.ltb t n) then Stuck else
  match o, th s t with
  (* RWSpinLock.h:219-222 *)
  | TryLock, Out => if bits s =? 0 then go t WRITER Wr s else mv t (bits s) Out s
  (* 158-162 *)
  | Unlock, Wr => mv t (Z.land (bits s) (Z.lnot (Z.lor WRITER UPGRADED))) Out s
  (* 230-239 *)
  | TryShared, Out =>
    if Z.land (bits s) (Z.lor WRITER UPGRADED) =? 0 then go t (wrap32 (bits s + READER)) Rd s else mv t (wrap32 (bits s + READER)) Back s
  | BackOff, Back => mv t (wrap32 (bits s + - READER)) Out s
  (* 173-175 *)
  | UnlockShared, Rd => mv t (wrap32 (bits s + - READER)) Out s
  (* 178-181 *)
  | ToShared1, Wr => mv t (wrap32 (bits s + READER)) WrRd s
  | ToShared2, WrRd => mv t (Z.land (bits s) (Z.lnot (Z.lor WRITER UPGRADED))) Rd s
  (* 248-256 *)
  | TryUpgrade, Out => if Z.land (bits s) (Z.lor UPGRADED WRITER) =? 0 then go t (Z.lor (bits s) UPGRADED) Up s else mv t (Z.lor (bits s) UPGRADED) Out s
  (* 192-194 *)
  | UnlockUpgrade, Up => mv t (wrap32 (bits s + - UPGRADED)) Out s
  (* 242-245 *)
  | TryPromote, Up => if bits s =? UPGRADED then mv t WRITER Wr s else mv t (bits s) Up s
  (* 206-208 *)
  | UpToShared, Up => mv t (wrap32 (bits s + (READER - UPGRADED))) Rd s
  (* 211-216 *)
  | ToUp1, Wr => mv t (Z.lor (bits s) UPGRADED) WrUp s
  | ToUp2, WrUp => mv t (wrap32 (bits s + - WRITER)) Up s
  (* a holder of the write lock changes what it protects *)
  | Store v, Wr => Next (mkS (bits s) (th s) v (upd (seen s) t v))
  | _, _ => Stuck
  end.
