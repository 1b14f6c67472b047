(** A finite map that keeps the first value stored with a key. *)
From Verif Require Import Util Conc CuckooModel.

Section V.
  Variable V : Type.
  Definition amap := list (N * V).
  Fixpoint get (m : amap) (k : N) : option V := match m with [] => None | (k', v) :: m => if (k' =? k)%N then Some v else get m k end.
  Definition add (m : amap) (k : N) (v : V) : amap := match get m k with Some _ => m | None => (k, v) :: m end.
  Definition act (m : amap) (l : lab V) : amap := match l with Insert k v _ => add m k v | Reserve _ _ => m | Clear => [] end.
  (** The map after a history. The keys in it are different, so its length is the number of keys. *)
  Definition after (ls : list (lab V)) : amap := fold_left act ls [].

  (** A table has at most 2^30 buckets. *)
  Definition fits (n : nat) : Prop := (N.of_nat n <= 2 ^ 30)%N.
  Definition small (l : lab V) : Prop := match l with Insert _ _ ns | Reserve _ ns => Forall fits ns | Clear => True end.
End V.
