(** Model of base::RingBuffer<T> (base/ring_buffer.h). [head_]/[tail_] are 32-bit unsigned
    counters that wrap; [buf_] is a list of [cap] elements. An access outside [buf_] is [None]
    (undefined behaviour). Simplification: moved-from elements keep their old value (nothing in
    the interface can observe them before they are overwritten). *)
From Verif Require Import Util.
Open Scope N_scope.

Section Ring.
Context {T : Type}.

Record ring := Ring { rcap : N; rmask : N; head : N; tail : N; buf : list T }.

Definition w32 (x : N) : N := x mod two32.
(** unsigned subtraction *)
Definition usub (a b : N) : N := (a + two32 - b) mod two32.

(** base/ring_buffer.h:19-24; [dflt] is T's default value. *)
Definition NewRing (cap : N) (dflt : T) : ring :=
  Ring cap (usub cap 1) 0 0 (repeat dflt (N.to_nat cap)).

(** base/ring_buffer.h:26-28 *)
Definition rsize (r : ring) : N := usub (tail r) (head r).
(** base/ring_buffer.h:30-32 *)
Definition rempty (r : ring) : bool := tail r =? head r.
(** base/ring_buffer.h:34-36 *)
Definition rfull (r : ring) : bool := usub (tail r) (head r) =? rcap r.

(** A store through a pointer into [buf_]. *)
Definition store (i : N) (v : T) (r : ring) : option ring :=
  if i <? len (buf r)
  then Some (Ring (rcap r) (rmask r) (head r) (tail r) (set (N.to_nat i) v (buf r)))
  else None.

(** base/ring_buffer.h:59-71: the slot (as an index) and the updated ring. *)
Definition GetTail (override : bool) (r : ring) : option N * ring :=
  if rfull r then
    if override
    then (Some (N.land (tail r) (rmask r)),
          Ring (rcap r) (rmask r) (w32 (head r + 1)) (w32 (tail r + 1)) (buf r))
    else (None, r)
  else (Some (N.land (tail r) (rmask r)),
        Ring (rcap r) (rmask r) (head r) (w32 (tail r + 1)) (buf r)).

(** base/ring_buffer.h:39-45 *)
Definition TryEmplace (v : T) (r : ring) : option (bool * ring) :=
  match GetTail false r with
  | (Some i, r') => match store i v r' with Some r'' => Some (true, r'') | None => None end
  | (None, r') => Some (false, r')
  end.

(** base/ring_buffer.h:50-54; dereferencing a null slot would be UB. *)
Definition EmplaceOrOverride (v : T) (r : ring) : option (bool * ring) :=
  let is_full := rfull r in
  match GetTail true r with
  | (Some i, r') => match store i v r' with Some r'' => Some (is_full, r'') | None => None end
  | (None, _) => None
  end.

(** base/ring_buffer.h:74-81; result [None] inside the pair is the return value false. *)
Definition TryDeque (r : ring) : option (option T * ring) :=
  if rsize r =? 0 then Some (None, r)
  else match nth_error (buf r) (N.to_nat (N.land (head r) (rmask r))) with
       | Some v => Some (Some v, Ring (rcap r) (rmask r) (w32 (head r + 1)) (tail r) (buf r))
       | None => None
       end.

(** base/ring_buffer.h:87-95: index of the accessed slot. *)
Definition slot (i : N) (r : ring) : N := N.land (w32 (head r + i)) (rmask r).
Definition at_index (i : N) (r : ring) : option T := nth_error (buf r) (N.to_nat (slot i r)).
Definition set_index (i : N) (v : T) (r : ring) : option ring := store (slot i r) v r.

(** base/ring_buffer.h:98-101 *)
Definition ConsumeHead (n : N) (r : ring) : ring :=
  Ring (rcap r) (rmask r) (w32 (head r + n)) (tail r) (buf r).

Inductive rop := RTry (v : T) | RForce (v : T) | RPop | RSet (i : N) (v : T) | RConsume (n : N).
Inductive rres := RBool (b : bool) | RVal (v : option T) | RUnit.

Definition rstep (r : ring) (o : rop) : option (ring * rres) :=
  match o with
  | RTry v => match TryEmplace v r with Some (b, r') => Some (r', RBool b) | None => None end
  | RForce v => match EmplaceOrOverride v r with Some (b, r') => Some (r', RBool b) | None => None end
  | RPop => match TryDeque r with Some (x, r') => Some (r', RVal x) | None => None end
  | RSet i v => match set_index i v r with Some r' => Some (r', RUnit) | None => None end
  | RConsume n => Some (ConsumeHead n r, RUnit)
  end.
End Ring.
Arguments ring : clear implicits.
Arguments rop : clear implicits.
Arguments rres : clear implicits.
