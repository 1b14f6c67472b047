(** The random generators of base/random.h. A uint64_t is an [N]; results are cut to 64 bits where C++ cuts them. *)
From Coq Require Import NArith List.
Import ListNotations.
Open Scope N_scope.

(** uint64_t arithmetic *)
Definition u64 (x : N) : N := x mod 2 ^ 64.

(** SplitMix64::operator(), random.h:36-41: the result and the new state *)
Definition sm_next (state : N) : N * N :=
  let state := u64 (state + 0x9e3779b97f4a7c15) in
  let z := state in
  let z := u64 (N.lxor z (N.shiftr z 30) * 0xbf58476d1ce4e5b9) in
  let z := u64 (N.lxor z (N.shiftr z 27) * 0x94d049bb133111eb) in
  (N.lxor z (N.shiftr z 31), state).

(** Xoroshiro128p::rotl, random.h:76-78 *)
Definition rotl (x k : N) : N := N.lor (u64 (N.shiftl x k)) (N.shiftr x (64 - k)).
(** state_ *)
Definition xstate := (N * N)%type.
(** Xoroshiro128p::seed, random.h:90-95 *)
Definition seed (s : N) : xstate :=
  let '(a, s) := sm_next s in
  let '(b, _) := sm_next s in
  (a, b).
(** Xoroshiro128p(), random.h:83-84 *)
Definition default : xstate := (0xc898c79bcd50055b, 0x5dfe998262db6465).
(** Xoroshiro128p::operator(), random.h:97-107: the result, and the new state *)
Definition x_result (st : xstate) : N := u64 (fst st + snd st).
Definition x_next (st : xstate) : xstate :=
  let s0 := fst st in
  let s1 := N.lxor (snd st) s0 in
  (N.lxor (N.lxor (rotl s0 24) s1) (u64 (N.shiftl s1 16)), rotl s1 37).
(** Xoroshiro128p::jump, random.h:120-141. The inner loop, from bit [b] on: [acc] is (s0, s1), [st] is state_. *)
Fixpoint jump_bits (w : N) (n : nat) (b : N) (acc st : xstate) : xstate * xstate :=
  match n with
  | O => (acc, st)
  | S k =>
      let acc := if N.testbit w b then (N.lxor (fst acc) (fst st), N.lxor (snd acc) (snd st)) else acc in
      jump_bits w k (b + 1) acc (x_next st)
  end.
Fixpoint jump_words (ws : list N) (acc st : xstate) : xstate :=
  match ws with
  | [] => acc
  | w :: r => let '(acc, st) := jump_bits w 64 0 acc st in jump_words r acc st
  end.
Definition jump (st : xstate) : xstate := jump_words [0xbeac0467eba5facb; 0xd86b048b86aa9922] (0, 0) st.
