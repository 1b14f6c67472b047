(** Division and primes need no definitions; a prime, and what the compiled code may use for the wide division. *)
From Verif Require Import Util.
Local Open Scope N_scope.
Definition prime (p : N) : Prop := 1 < p /\ forall d, (d | p) -> d = 1 \/ d = p.
(** [p] is the least prime that is at least [v]. *)
Definition next_prime (v p : N) : Prop := v <= p /\ prime p /\ forall q, v <= q -> prime q -> p <= q.
Definition power_of_two (d : N) : Prop := exists k, d = 2 ^ k.
