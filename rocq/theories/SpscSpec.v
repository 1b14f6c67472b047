(** C11: the sequential specification, a FIFO with room for size-1 elements. *)
From Verif Require Import Util Conc SpscModel.

Definition fifo {T} (n : nat) (q : list T) (o : op T) (r : res T) (q' : list T) : Prop :=
  match o with
  | Write v => if Nat.ltb (length q) (n - 1) then r = RBool true /\ q' = q ++ [v]
               else r = RBool false /\ q' = q
  | Read => match q with [] => r = ROpt None /\ q' = [] | x :: t => r = ROpt (Some x) /\ q' = t end
  | Front => q' = q /\ r = ROpt (hd_error q)
  | Pop => r = RUnit /\ exists x, q = x :: q'
  | SizeP | SizeC => q' = q /\ r = RNat (length q)
  | FullP => q' = q /\ r = RBool (Nat.eqb (length q) (n - 1))
  | EmptyC => q' = q /\ r = RBool (Nat.eqb (length q) 0)
  end.
