(** What a user of RegisterOnErrorCb relies on. *)
From Verif Require Import Util Conc ErrCbModel.

(** CancelOnErrorCb (or Close) is called before the next RegisterOnErrorCb. *)
Fixpoint polite (registered : bool) (ls : list lab) : Prop :=
  match ls with
  | [] => True
  | LReg _ :: t => registered = false /\ polite true t
  | LCancel :: t | LClose :: t => polite false t
  | _ :: t => polite registered t
  end.
(** The callback of a registration is called at most once, and not after it was cancelled. *)
Fixpoint once (w : nat) (open : bool) (h : list ev) : Prop :=
  match h with
  | [] => True
  | Called v :: t => if Nat.eqb v w then open = true /\ once w false t else once w open t
  | Cancelled v :: t => once w (if Nat.eqb v w then false else open) t
  | _ :: t => once w open t
  end.
(** Nothing is under way. *)
Definition idle (s : st) : Prop := sq s = [] /\ cq s = [] /\ forall i, kreq s i = None.
