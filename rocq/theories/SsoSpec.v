(** Strings are lists of bytes; a view is to be as good as the string. *)
From Verif Require Import Util SsoModel.
Open Scope N_scope.

(** The memory at [p] has the string [t]. *)
Definition holds (m : memory) (p : N) (t : list N) : Prop := forall i, (i < length t)%nat -> m (p + N.of_nat i) = Some (nth i t 0).
(** From one memory to another, the string at [p] is kept. *)
Definition kept (p : N) (t : list N) (m : memory) : Prop := holds m p t.
(** [v] is the string [t] in memory [m]. *)
Definition is (m : memory) (v : view) (t : list N) : Prop := size v = length t /\ read m v = Some t.
(** Views come from the constructors and from substr. *)
Inductive built : view -> Prop :=
  | b_null : built null
  | b_make m p n v : make m p n = Some v -> built v
  | b_sub m v pos n w : built v -> substr m v pos n = Done w -> built w.
(** Lexicographic order *)
Inductive lt : list N -> list N -> Prop :=
  | lt_nil y b : lt [] (y :: b)
  | lt_head x y a b : x < y -> lt (x :: a) (y :: b)
  | lt_tail x a b : lt a b -> lt (x :: a) (x :: b).
Definition order (a b : list N) (c : comparison) : Prop := match c with Lt => lt a b | Eq => a = b | Gt => lt b a end.
