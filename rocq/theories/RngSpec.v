(** What C89 says: the outputs and the states of a generator after some number of calls. *)
From Coq Require Import NArith.
From Verif Require Import RngModel.
Open Scope N_scope.

(** The state of SplitMix64 after [n] calls, and what the call after them returns. *)
Definition sm_state (s n : N) : N := N.iter n (fun x => snd (sm_next x)) s.
Definition sm_out (s n : N) : N := fst (sm_next (sm_state s n)).
(** The state of Xoroshiro128p after [n] calls. *)
Definition x_after (n : N) (st : xstate) : xstate := N.iter n x_next st.
(** Two 64-bit words, not both zero. *)
Definition proper (st : xstate) : Prop := fst st < 2 ^ 64 /\ snd st < 2 ^ 64 /\ st <> (0, 0).
(** All states that some history of seeding, calling and jumping leaves behind. *)
Inductive used : xstate -> Prop :=
| u_default : used default
| u_seed s : s < 2 ^ 64 -> used (seed s)
| u_next st : used st -> used (x_next st)
| u_jump st : used st -> used (jump st).
