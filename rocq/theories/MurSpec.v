(** What C90 says. *)
From Coq Require Import NArith List.
Open Scope N_scope.
(** Data that a caller can pass: bytes, and a length that fits in a uint32_t. *)
Definition bytes (d : list N) : Prop := Forall (fun b => b < 256) d.
Definition fits (d : list N) : Prop := N.of_nat (length d) < 2 ^ 32.
