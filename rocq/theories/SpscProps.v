(** C11 - ProducerConsumerQueue. Sequential specification in SpscSpec.v, definition of
    linearizability in Conc.v. *)
From Verif Require Import Util Conc SpscModel SpscSpec SpscProof.

(** Every history of one producer and one consumer is linearizable to the FIFO with room for
    size-1 elements; this covers the values received, their order, and the exactness of the
    failure answers, of frontPtr/popFront and of the size observers. *)
Theorem spsc_linearizable : forall T n (s : state T), 2 <= n -> reachable step (init n) s ->
  linearizable (fifo n) [] (erase (tr s)).
Proof. intros T. exact spsc_linearizable_pf. Qed.
Print Assumptions spsc_linearizable.

(** No schedule constructs over a live object, or reads or destroys raw storage. *)
Theorem spsc_safe : forall T n, 2 <= n -> safe (@step T) (init n).
Proof. intros T n Hn. exact (proj1 (spsc_inv n Hn)). Qed.
Print Assumptions spsc_safe.

(** The two threads are never both about to access the same slot. *)
Theorem spsc_no_race : forall T n (s : state T), 2 <= n -> reachable step (init n) s ->
  forall v cw nx i, pp s = PCons v cw nx ->
   (exists nx', cp s = CMove i nx') \/ (exists v' nx', cp s = CDestroy v' i nx') \/
   cp s = FDeref i \/ (exists nx', cp s = ODestroy i nx') -> cw <> i.
Proof. intros T. exact spsc_no_race_pf. Qed.
Print Assumptions spsc_no_race.

(** The destructor destroys exactly the live objects: no raw slot is destroyed, none is left. *)
Theorem spsc_destroy : forall T n (s : state T), 2 <= n -> reachable step (init n) s ->
  pp s = PIdle -> cp s = CIdle ->
  exists sl, destroy s = Some sl /\ forall i, i < n -> sl i = None.
Proof. intros T. exact spsc_destroy_pf. Qed.
Print Assumptions spsc_destroy.

(** Non-vacuity: size 2 (room for one): the second write fails, the value is read, and a third
    write that overlaps the read succeeds. *)
Definition demo : list (label nat) :=
  [Call (Write 7); StepP; StepP; StepP; StepP; StepP;          (* accepted *)
   Call (Write 8); StepP; StepP; StepP;                        (* full *)
   Call Read; StepC; StepC; StepC; Call (Write 9); StepP; StepC; StepC;
   StepP; StepC; StepP; StepP; StepP;
   Call SizeC; StepC; StepC; StepC; Call Front; StepC; StepC; StepC; StepC; Call Pop; StepC; StepC; StepC; StepC;
   Call Read; StepC; StepC; StepC].
Example demo_runs : exists s, exec step (init 2) demo = Next s /\ erase (tr s) =
  [Inv 0 (Write 7); Ret 0 (Write 7) (RBool true); Inv 0 (Write 8); Ret 0 (Write 8) (RBool false);
   Inv 1 Read; Inv 0 (Write 9); Ret 1 Read (ROpt (Some 7)); Ret 0 (Write 9) (RBool true);
   Inv 1 SizeC; Ret 1 SizeC (RNat 1); Inv 1 Front; Ret 1 Front (ROpt (Some 9)); Inv 1 Pop; Ret 1 Pop RUnit;
   Inv 1 Read; Ret 1 Read (ROpt None)].
Proof. eexists. split; vm_compute; reflexivity. Qed.
(** The specification rejects wrong answers: a history where the value read was never written. *)
Example spec_rejects : ~ fifo 4 [] (Read (T := nat)) (ROpt (Some 1)) [].
Proof. intros [H _]. discriminate. Qed.
