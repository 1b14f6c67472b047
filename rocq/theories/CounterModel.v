(** Model of EmbeddedBlockingCounter (/repo/util/fibers/event_count.h:170-221,
    /repo/util/fibers/synchronization.cc:123-161, synchronization.h:559-563). BlockingCounter
    (synchronization.cc:163-165) and FiberBlockingCounter (167-179) own one such counter and call
    the functions below; their reference counting is not modelled. *)
From Verif Require Import Util Conc EcModel AwaitModel CounterSpec.

(** kCancelFlag, event_count.h:171 *)
Definition flag : N := (2 ^ 63)%N.
(** count_, plus the history of calls (ghost, CounterSpec.v). *)
Record cst := mk_c { cnt : N; hist : calls }.

(** count_.load(): the atomic holds 64 bits. *)
Definition load (x : cst) : N := (cnt x mod two64)%N.

(** WaitCondition, event_count.h:174-179 ([k] is unused: there is one condition). *)
Definition cwait (k : nat) (x : cst) : bool := ((load x =? 0) || N.testbit (load x) 63)%N.
(** The result that Wait (synchronization.h:559-563) and WaitUntil (synchronization.cc:123-127, when
    it did not time out) compute from the value stored by the condition. *)
Definition cresult (x : cst) : bool := (N.land (load x) flag =? 0)%N.
Definition creturn (k : nat) (x : cst) : cst := mk_c (cnt x) (did_return (hist x) (cresult x)).

(** Operations, numbered: 0 = Dec, 1 = Cancel, n+2 with n even = Add(n/2), odd = Start(n/2).
    The second component: whether notifyAll is called. Calls that break the contract (Dec without a
    matching Add, an Add that overflows 63 bits, Start on a running counter) are not made: they
    leave the state alone. *)
Definition low (c : N) : N := (c mod flag)%N.
Inductive cop := ODec | OCancel | OAdd (n : N) | OStart (n : N).
Definition cop_of (g : nat) : cop :=
  match g with
  | 0 => ODec
  | 1 => OCancel
  | S (S n) => if Nat.even n then OAdd (N.of_nat (Nat.div2 n)) else OStart (N.of_nat (Nat.div2 n))
  end.
Definition crun (o : cop) (x : cst) : cst * bool :=
  match o with
  | ODec =>       (* synchronization.cc:134-139 *)
    if (low (load x) =? 0)%N then (x, false)
    else (mk_c (sub64 (load x) 1) (did_dec (hist x)), (load x =? 1)%N)
  | OCancel =>    (* synchronization.cc:141-144 *)
    (mk_c (N.lor (load x) flag) (did_cancel (hist x)), true)
  | OAdd n =>     (* event_count.h:199-201 *)
    if (low (load x) + n <? flag)%N then (mk_c (add64 (load x) n) (did_add (hist x) n), false) else (x, false)
  | OStart n =>   (* synchronization.cc:129-132; the argument is an unsigned *)
    if ((low (load x) =? 0) && (n <? two32))%N then (mk_c n (did_start (hist x) n), false) else (x, false)
  end.
Definition cop_run (g : nat) (x : cst) : cst * bool := crun (cop_of g) x.

(** [NT] fibers; fiber [t] makes the calls that [menu] offers it. *)
Definition cstep (NT : nat) (menu : nat -> nat -> option call) :=
  step NT (acode cwait creturn cop_run true menu (fun _ => true)).
(** The constructor with start_count [n], event_count.h:182-183 *)
Definition cinit (n : N) : st cst aloc := ainit (mk_c n (fresh_calls n)).
