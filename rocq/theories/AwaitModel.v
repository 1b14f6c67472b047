(** Model of [EventCount::await] and [EventCount::await_until] (/repo/util/fibers/synchronization.h:
    412-431 and 469-486) used with an arbitrary condition on an arbitrary shared state, together
    with the fibers that change that state and notify. The event count itself is EcModel.v. *)
From Verif Require Import Util Conc EcModel.

Section Await.
  Context {X : Type}.                    (* shared state the conditions read *)
  Variable cond : nat -> X -> bool.      (* condition number k *)
  Variable take : nat -> X -> X.         (* what evaluating condition k does to the state when true *)
  (** Operation g: new state and whether the caller goes on to notify. *)
  Variable op : nat -> X -> X * bool.
  Variable all : bool.                   (* notifyAll() or notify() *)

  (** What an idle fiber can start: a wait for condition k (with a deadline or not), or an
      operation. [menu t c] is the call that fiber [t] makes at choice [c]. *)
  Inductive call := CAwait (k : nat) (tm : bool) | COp (g : nat).
  Variable menu : nat -> nat -> option call.
  (** The fibers that may wait. *)
  Variable waiter : nat -> bool.

  Inductive aloc :=
  | Idle
  | Fast (k : nat) (tm : bool)   (* first evaluation, synchronization.h:413-416 / 472-473 *)
  | Prep (k : nat) (tm : bool)   (* Key key = prepareWait(), :422 / :477 *)
  | Cond (k : nat) (tm : bool)   (* condition() inside the loop, :423 / :478 *)
  | Wt (k : nat) (tm : bool)     (* wait(key.epoch()), :427 / wait_until, :481 *)
  | Lp (k : nat) (tm : bool)     (* ~Key at the end of the loop body *)
  | Dn (k : nat)                 (* ~Key after break (condition true) *)
  | Tmo (k : nat)                (* ~Key after break (timeout) *)
  | Ntf.                         (* the notification after an operation *)

  Definition acode (t : nat) (l : aloc) : instr X aloc :=
    match l with
    | Idle => Atom (fun x c =>
        match menu t c with
        | Some (CAwait k tm) => if waiter t then Next (x, Fast k tm) else Stuck
        | Some (COp g) => let (x', b) := op g x in Next (x', if b then Ntf else Idle)
        | None => Stuck
        end)
    | Fast k tm => Atom (fun x _ => Next (if cond k x then (take k x, Idle) else (x, Prep k tm)))
    | Prep k tm => if waiter t then PrepareWait 0 (Cond k tm) else Atom (fun _ _ => Stuck)
    | Cond k tm => Atom (fun x _ => Next (if cond k x then (take k x, Dn k) else (x, Wt k tm)))
    | Wt k tm => if tm then WaitUntil (Tmo k) (Lp k tm) else Wait (Lp k tm)
    | Lp k tm => DropKey (Prep k tm)
    | Dn k | Tmo k => DropKey Idle
    | Ntf => Notify 0 all Idle
    end.

  Definition ainit (x0 : X) : st X aloc := init x0 (fun _ => Idle).
End Await.
