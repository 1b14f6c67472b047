(** What a size in bytes denotes. *)
From Verif Require Import Util.
From Coq Require Import ZArith.
Local Open Scope N_scope.

Definition digits (w : list N) : Prop := Forall (fun c => 48 <= c <= 57) w.
(** The number that a string of decimal digits denotes. *)
Fixpoint dec (w : list N) : N :=
  match w with [] => 0 | c :: r => (c - 48) * 10 ^ len r + dec r end.

(** [unit_of c k]: the letter [c] stands for 1024^k. *)
Definition unit_of (c k : N) : Prop :=
  In (c, k) [(75, 1); (107, 1); (77, 2); (109, 2); (71, 3); (103, 3); (84, 4); (116, 4); (80, 5); (112, 5); (69, 6); (101, 6)].
Definition bB (c : N) : Prop := c = 66 \/ c = 98.
(** The suffixes the documentation lists: nothing, B, K, KB, Ki, KiB and so on, and what they stand for. *)
Inductive suffix : list N -> N -> Prop :=
  | SNone : suffix [] 0
  | SByte b : bB b -> suffix [b] 0
  | SUnit c k : unit_of c k -> suffix [c] k
  | SUnitB c k b : unit_of c k -> bB b -> suffix [c; b] k
  | SUnitI c k : unit_of c k -> suffix [c; 105] k
  | SUnitIB c k b : unit_of c k -> bB b -> suffix [c; 105; b] k.
(** Suffixes that are accepted although nobody lists them. *)
Inductive loose : list N -> Prop :=
  | LB b c : bB b -> bB c -> loose [b; c]
  | LI b : bB b -> loose [b; 105]
  | LIB b c : bB b -> bB c -> loose [b; 105; c].

Definition sign (neg : bool) : list N := if neg then [45] else [].
Definition signed (neg : bool) (n : N) : Z := if neg then (- Z.of_N n)%Z else Z.of_N n.
(** A fraction: nothing, or a point and digits. *)
Definition fraction (f w : list N) : Prop := (f = [] /\ w = []) \/ (f = 46 :: w /\ digits w).

(** What follows a numeral does not belong to it: no digit, point, x, exponent; and no NUL. *)
Definition stops (l : list N) : Prop :=
  ~ In 0 l /\
  match l with
  | [] => True
  | c :: r => ~ (48 <= c <= 57) /\ c <> 46 /\ c <> 120 /\ c <> 88 /\
              ((c = 69 \/ c = 101) -> match r with
                                     | [] => True
                                     | d :: r' => ~ (48 <= d <= 57) /\ (d = 43 \/ d = 45 -> match r' with [] => True | e :: _ => ~ (48 <= e <= 57) end)
                                     end)
  end.
