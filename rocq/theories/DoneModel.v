(** Model of Done (/repo/util/fibers/synchronization.h:185-268) and Future
    (/repo/util/fibers/future.h:17-62) on top of EventCount (EcModel.v, AwaitModel.v). The reference
    counting of the shared block is not modelled. *)
From Verif Require Import Util Conc EcModel AwaitModel.

(** Done::Impl: the shared state is ready_. Operation 0 is Notify (:244-247: store true, then
    ec_.notify()), any other one is Reset (:249-251). Wait (:228-233) and WaitFor (:236-241) wait for
    ready_; the store of Wait(AND_RESET) is a Reset that the same fiber performs after the wait. *)
Definition done_cond (k : nat) (x : bool) : bool := x.
Definition done_op (g : nat) (x : bool) : bool * bool := match g with 0 => (true, true) | _ => (false, false) end.
Definition done_code (menu : nat -> nat -> option call) (waiter : nat -> bool) :=
  acode done_cond (fun _ x => x) done_op false menu waiter.
Definition done_init : st bool aloc := ainit false.

(** Future<T>::Block: has_value, value; ghost: the calls of Get/GetFor (true) and GetRef (false) that
    returned, with the value they returned, and the argument of Resolve. [T] is [nat].
    The value is written before has_value is set and read after has_value was seen; both pairs are
    one step here. Resolve is called at most once (a second call leaves the state alone). *)
Record fut := mk_fut { has_value : bool; value : nat; got : list (bool * nat); resolved : option nat }.
(** Conditions: number 0 is that of Get (:21-25) and GetFor (:35-43), any other one that of GetRef (:30-33). *)
Definition fut_cond (k : nat) (x : fut) : bool := has_value x.
Definition fut_take (k : nat) (x : fut) : fut :=
  match k with
  | 0 => mk_fut false (value x) (got x ++ [(true, value x)]) (resolved x)
  | _ => mk_fut (has_value x) (value x) (got x ++ [(false, value x)]) (resolved x)
  end.
(** Resolve(g), :45-49 *)
Definition fut_op (g : nat) (x : fut) : fut * bool :=
  match resolved x with
  | None => (mk_fut true g (got x) (Some g), true)
  | Some _ => (x, false)
  end.
Definition fut_code (menu : nat -> nat -> option call) (waiter : nat -> bool) :=
  acode fut_cond fut_take fut_op false menu waiter.
Definition fut_init : st fut aloc := ainit (mk_fut false 0 [] None).
