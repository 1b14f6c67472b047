(** What a caller of Fiber::Join sees. *)
From Verif Require Import Util Conc JoinModel.

(** The fiber's function has returned. *)
Definition finished (s : st) : Prop := te s <> TBody.
(** The fiber has gone through its termination completely. *)
Definition gone (s : st) : Prop := te s = TEnd.
(** Join called by [j] returned. *)
Definition joined (s : st) (j : nat) : Prop := jo s j = JDone.
(** [j] called Join and has not returned. *)
Definition joining (s : st) (j : nat) : Prop := jo s j <> JOut /\ jo s j <> JDone.
(** [j] is suspended in Join and nobody has activated it. *)
Definition asleep (s : st) (j : nat) : Prop := jo s j = JSusp /\ act s j = 0.
(** [o] is inside Join and holds the lock of the wait list. *)
Definition in_the_way (s : st) (o : nat) : Prop := jo s o = JOwn \/ jo s o = JLink \/ jo s o = JRel \/ jo s o = JRelT.
