(** The finite map of CuckooSpec.v does not change when a map is compacted. *)
From Verif Require Import Util Conc CuckooModel CuckooSpec CompactModel.

Section V.
  Variable V : Type.
  Definition cact (m : amap V) (l : clab V) : amap V := match l with Call l => act V m l | Compact _ _ => m end.
  Definition cafter (ls : list (clab V)) : amap V := fold_left cact ls [].
  (** Tables have at most 2^30 buckets, and a new one has at least two. *)
  Definition csmall (l : clab V) : Prop := match l with Call l => small V l | Compact ns _ => Forall (fun n => fits n /\ 2 <= n) ns end.
  (** Compact() returned true. *)
  Definition yes (l : clab V) : Prop := match l with Call _ => True | Compact _ res => res = true end.
End V.
