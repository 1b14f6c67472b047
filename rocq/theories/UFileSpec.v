(** What a user expects of a file, without the code. Bytes are numbered from 0. *)
From Verif Require Import Util.
Local Open Scope N_scope.

(** The [n] bytes of [F] from [off] on, or as many as there are. *)
Definition piece (F : list N) (off n : N) : list N := take n (drop off F).

(** [a] is the beginning of [b]. *)
Definition begins (a b : list N) : Prop := exists t, b = a ++ t.

(** [F'] is [F] after [d] was put at [off]: a hole in front of [off] reads as zeros, and the rest of
    the file is as it was. *)
Definition byte_after (F : list N) (off : nat) (d : list N) (i : nat) : option N :=
  if ((off <=? i) && (i <? off + length d))%nat then nth_error d (i - off)
  else match nth_error F i with
       | Some x => Some x
       | None => if ((i <? off) && (0 <? length d))%nat then Some 0 else None
       end.
Definition written (F : list N) (off : N) (d F' : list N) : Prop :=
  forall i, nth_error F' i = byte_after F (N.to_nat off) d i.
