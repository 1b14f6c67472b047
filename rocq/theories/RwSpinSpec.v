(** Reader-writer locks with upgradable readers. *)
From Verif Require Import Util Conc RwSpinModel.

Inductive access := Reader | Upgrader | Writer.
(** The right a thread has: a call that gives up a right has given it up when it starts its only or last operation. *)
Definition right_of (p : pc) : option access :=
  match p with
  | Out | Back => None
  | Rd => Some Reader
  | Up => Some Upgrader
  | Wr | WrRd | WrUp => Some Writer
  end.
(** Which rights two threads may have at a time. *)
Definition compatible (a b : access) : Prop :=
  match a, b with
  | Reader, Reader | Reader, Upgrader | Upgrader, Reader => True
  | _, _ => False
  end.
