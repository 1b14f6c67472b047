(** Model of SharedMutex (/repo/util/fibers/synchronization.h:319-357) on top of EventCount
    (EcModel.v). The calls of [EventCount::await] (:412-431) are unfolded here because evaluating the
    condition of lock_shared is two atomic operations when it fails. *)
From Verif Require Import Util Conc EcModel.

(** READER = 4, WRITER = 1, :353 *)
Definition READER : N := 4.
Definition WRITER : N := 1.
Definition add32 (v d : N) : N := ((v + d) mod two32)%N.
Definition sub32 (v d : N) : N := ((v + (two32 - d)) mod two32)%N.
Definition has_writer (v : N) : bool := negb (N.land v WRITER =? 0)%N.

(** Program points of a fiber; [w] tells lock() (true) from lock_shared() (false). *)
Inductive sloc :=
| SIdle
| Try (w : bool)      (* try_lock() / try_lock_shared() called by the user *)
| TryBack             (* the second half of a failing try_lock_shared() *)
| Fast (w : bool)     (* await: first evaluation of the condition, :413 *)
| FastBack
| Prep (w : bool)     (* prepareWait, :422 *)
| Cnd (w : bool)      (* condition in the loop, :423 *)
| CndBack
| Wt (w : bool)       (* wait(key.epoch()), :427 *)
| Lp (w : bool)       (* ~Key at the end of the loop body *)
| Dn (w : bool)       (* ~Key after break *)
| Hold (w : bool)     (* between lock and unlock *)
| Ntf.                (* notifyAll in unlock / unlock_shared *)

(** try_lock, :321-324: compare_exchange_strong(0, WRITER). *)
Definition try_lock (ok ko : sloc) (v : N) (_ : nat) : outcome (N * sloc) :=
  Next (if (v =? 0)%N then (WRITER, ok) else (v, ko)).
(** try_lock_shared, :330-337: fetch_add(READER); [ko] is the rollback. *)
Definition try_lock_shared (ok ko : sloc) (v : N) (_ : nat) : outcome (N * sloc) :=
  Next (add32 v READER, if has_writer v then ko else ok).
(** :333 fetch_add(-READER), then return false *)
Definition rollback (k : sloc) (v : N) (_ : nat) : outcome (N * sloc) := Next (sub32 v READER, k).
Definition attempt (w : bool) (ok ko back : sloc) : N -> nat -> outcome (N * sloc) :=
  if w then try_lock ok ko else try_lock_shared ok back.

Inductive scall := CLock (w : bool) | CTry (w : bool).

Section Code.
  (** The call that idle fiber [t] makes at choice [c]. *)
  Variable menu : nat -> nat -> option scall.
  Definition scode (t : nat) (l : sloc) : instr N sloc :=
    match l with
    | SIdle => Atom (fun v c => match menu t c with
        | Some (CLock w) => Next (v, Fast w) | Some (CTry w) => Next (v, Try w) | None => Stuck end)
    | Try w => Atom (attempt w (Hold w) SIdle TryBack)
    | TryBack => Atom (rollback SIdle)
    | Fast w => Atom (attempt w (Hold w) (Prep w) FastBack)   (* lock :326-328, lock_shared :339-341 *)
    | FastBack => Atom (rollback (Prep false))
    | Prep w => PrepareWait 0 (Cnd w)
    | Cnd w => Atom (attempt w (Dn w) (Wt w) CndBack)
    | CndBack => Atom (rollback (Wt false))
    | Wt w => Wait (Lp w)
    | Lp w => DropKey (Prep w)
    | Dn w => DropKey (Hold w)
    | Hold true => Atom (fun v _ => Next (N.ldiff v WRITER, Ntf))    (* unlock, :343-346 *)
    | Hold false => Atom (fun v _ => Next (sub32 v READER, Ntf))     (* unlock_shared, :348-351 *)
    | Ntf => Notify 0 true SIdle
    end.
End Code.
Definition sinit : st N sloc := init 0%N (fun _ => SIdle).
