(** base::string_view_sso: base/string_view_sso.h, compiled with libstdc++ (LOCAL_CAPACITY 15).

    Memory outside the view is a function from addresses to bytes; [None] where nothing may be read. Simplification: the
    standard's string_view is modelled by the bytes it covers. find, rfind and the like are declared in the header and defined
    nowhere, so there is nothing to model. *)
From Verif Require Import Util.
Open Scope N_scope.

Definition memory := N -> option N.
(** n bytes at p; [None] is undefined behaviour *)
Fixpoint fetch (m : memory) (p : N) (n : nat) : option (list N) :=
  match n with
  | O => Some []
  | S n => match m p, fetch m (p + 1) n with Some b, Some r => Some (b :: r) | _, _ => None end
  end.
(** string_view_sso.h:430 *)
Definition cap : nat := 15.
(** union Buffer, :438-454: which member is active *)
Inductive buffer := Begin (p : N) | Local (l : list N).
(** :456-457 *)
Record view := View { buf : buffer; size : nat }.

(** The null constructor, :43-44, :442-443 *)
Definition null : view := View (Begin 0) 0.
(** Buffer(s, len), :444-453: the array is zeroed, then the bytes and a NUL are copied *)
Definition fill (t : list N) : list N := t ++ [0] ++ repeat 0 (cap - length t).
Definition make (m : memory) (p : N) (n : nat) : option view :=
  if (n <=? cap)%nat then match fetch m p n with Some t => Some (View (Local (fill t)) n) | None => None end
  else Some (View (Begin p) n).
(** From a NUL-terminated string, :60-62. strlen: [fuel] bounds the memory looked at *)
Fixpoint strlen (fuel : nat) (m : memory) (p : N) : option nat :=
  match fuel with
  | O => None
  | S f => match m p with Some 0 => Some O | Some _ => option_map S (strlen f m (p + 1)) | None => None end
  end.
Definition make_c (fuel : nat) (m : memory) (p : N) : option view := match strlen fuel m p with Some n => make m p n | None => None end.

(** [k] bytes at [ptr() + pos], :434-436 *)
Definition look (m : memory) (v : view) (pos k : nat) : option (list N) :=
  if (k =? 0)%nat then Some []
  else if (size v <=? cap)%nat
  then match buf v with Local l => if (pos + k <=? length l)%nat then Some (firstn k (skipn pos l)) else None | Begin _ => None end
  else match buf v with Begin p => fetch m (p + N.of_nat pos) k | Local _ => None end.
(** The conversions to string_view and string, :253-261, begin/end, data/size *)
Definition read (m : memory) (v : view) : option (list N) := look m v 0 (size v).
Inductive result (A : Type) := Throw | Done (a : A) | Undef.
Arguments Throw {A}. Arguments Done {A}. Arguments Undef {A}.
Definition opt {A} (o : option A) : result A := match o with Some a => Done a | None => Undef end.
(** operator[], :178-180 *)
Definition nth_byte (m : memory) (v : view) (i : nat) : option N := match look m v i 1 with Some [b] => Some b | _ => None end.
(** at, :187-193 *)
Definition at_ (m : memory) (v : view) (i : nat) : result N := if (size v <=? i)%nat then Throw else opt (nth_byte m v i).
(** front, back: :198-207 *)
Definition front (m : memory) (v : view) : option N := nth_byte m v 0.
Definition back (m : memory) (v : view) : option N := nth_byte m v (size v - 1).
(** copy, :267-277: what is written to the buffer *)
Definition copy (m : memory) (v : view) (n pos : nat) : result (list N) :=
  if (size v <? pos)%nat then Throw else opt (look m v pos (Nat.min (size v - pos) n)).
(** substr, :284-289; of a short view, ptr() + pos is in the view itself *)
Definition substr (m : memory) (v : view) (pos n : nat) : result view :=
  if (size v <? pos)%nat then Throw
  else let k := Nat.min n (size v - pos) in
    if (k <=? cap)%nat then match look m v pos k with Some t => Done (View (Local (fill t)) k) | None => Undef end
    else match buf v with Begin p => if (size v <=? cap)%nat then Undef else Done (View (Begin (p + N.of_nat pos)) k) | Local _ => Undef end.
(** swap, :244-248 *)
Definition swap (a b : view) : view * view := let t := a in let a := b in let b := t in (a, b).

(** std::string_view::compare: memcmp of the common length, then the lengths *)
Fixpoint memcmp (a b : list N) : comparison :=
  match a, b with
  | x :: a, y :: b => match x ?= y with Eq => memcmp a b | c => c end
  | _, _ => Eq
  end.
Definition sv_compare (a b : list N) : comparison :=
  let k := Nat.min (length a) (length b) in
  match memcmp (firstn k a) (firstn k b) with Eq => Nat.compare (length a) (length b) | c => c end.
(** compare, :299-303 *)
Definition compare (m : memory) (v w : view) : option comparison :=
  match read m v, read m w with Some a, Some b => Some (sv_compare a b) | _, _ => None end.
(** compare of substrings, :313-316 *)
Definition compare_sub (m : memory) (v : view) (p1 n1 : nat) (w : view) (p2 n2 : nat) : result comparison :=
  match substr m v p1 n1, substr m w p2 n2 with
  | Done a, Done b => opt (compare m a b)
  | Undef, _ | _, Undef => Undef
  | _, _ => Throw
  end.
(** operators, :463-486. string_view's == compares lengths, then content *)
Definition eqb (m : memory) (v w : view) : option bool :=
  match read m v, read m w with
  | Some a, Some b => Some ((length a =? length b)%nat && match memcmp a b with Eq => true | _ => false end)
  | _, _ => None
  end.
Definition ltb (m : memory) (v w : view) : option bool := option_map (fun c => match c with Lt => true | _ => false end) (compare m v w).
Definition neqb m v w := option_map negb (eqb m v w).
Definition gtb m v w := ltb m w v.
Definition leb m v w := option_map negb (ltb m w v).
Definition geb m v w := option_map negb (ltb m v w).
