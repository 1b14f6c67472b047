(** How the client's program points move: used for invariants that only talk about the client. *)
From Verif Require Import Util Conc EcModel EcProof.

Section Loc.
  Context {C L : Type}.
  Variable NT : nat.
  Variable code : nat -> L -> @instr C L.
  Notation st := (st C L).
  Notation step := (step NT code).
  Variable holds : nat -> L -> option nat.

  Definition at_ (s : st) (t : nat) : L := loc (pc (th s t)).
  (** [l'] follows the instruction at [l] that is not an atomic client step. *)
  Definition follows (t : nat) (l l' : L) : Prop :=
    match code t l with
    | Atom _ => False
    | PrepareWait _ k | DropKey k | Wait k | Notify _ _ k => l' = k
    | WaitUntil kt ko => l' = kt \/ l' = ko
    end.
  Definition atom_move (s : st) (t c : nat) (s' : st) : Prop :=
    exists l f c' l', pc (th s t) = Run l /\ code t l = Atom f /\ f (cs s) c = Next (c', l') /\
      cs s' = c' /\ pc (th s' t) = Run l'.

  Ltac rw := rewrite ?th_set_aba, ?ec_set_aba, ?th_set_cs, ?ec_set_cs, ?th_set_ec, ?pc_set_pc,
    ?key_set_pc, ?ec_set_pc, ?pc_set_key, ?key_set_key, ?ec_set_key, ?th_set_ec, ?ec_set_ec,
    ?th_set_cs, ?ec_set_cs in *.
  Ltac cases H := unfold EcModel.step in H; cbn [fst snd] in H;
    match type of H with context [NT <=? ?t] => destruct (Nat.leb_spec NT t); [discriminate H|] end;
    match type of H with context [match pc (th ?s ?t) with _ => _ end] => destruct (pc (th s t)) eqn:E end;
    unfold step_run, acquire, release, activate in H;
    repeat match type of H with
    | context [match ?x with _ => _ end] =>
        lazymatch x with context [match _ with _ => _ end] => fail | _ => destruct x eqn:? end
    | Next _ = Next _ => injection H as <-
    | Stuck = _ => discriminate H | Ub = _ => discriminate H
    end.

  Lemma step_loc s t c s' : EcInv NT code holds s -> step s (t, c) = Next s' ->
    t < NT /\ (forall u, u <> t -> at_ s' u = at_ s u) /\
    (atom_move s t c s' \/ cs s' = cs s /\ (at_ s' t = at_ s t \/ follows t (at_ s t) (at_ s' t))).
  Proof.
    intros I H.
    assert (Ht : t < NT).
    { unfold EcModel.step in H. cbn [fst] in H. destruct (Nat.leb_spec NT t); [discriminate|auto]. }
    assert (Wc := e_wc _ _ _ _ I t). unfold is_wait in Wc.
    split; auto. unfold at_, follows, atom_move. split.
    - intros u Hu. apply Nat.eqb_neq in Hu. cases H; rw; rewrite ?Hu; auto;
      repeat match goal with |- context [?a =? ?b] => destruct (Nat.eqb_spec a b); subst end; rewrite ?Nat.eqb_refl in *; try discriminate; auto;
      rw; repeat match goal with X : context [?a =? ?b] |- _ => destruct (Nat.eqb_spec a b); subst end; try congruence;
      try match goal with X : pc _ = _ |- _ => rewrite X end; auto.
    - cases H; try (left; do 4 eexists; repeat split; eauto; rw; now rewrite ?Nat.eqb_refl);
      right; (split; [reflexivity|]); rw; rewrite ?Nat.eqb_refl; simpl; auto; try (rewrite E in Wc; simpl in Wc; specialize (Wc eq_refl));
      try (match goal with X : code _ _ = _ |- _ => rewrite X end; simpl; auto).
      all: repeat match goal with |- context [?a =? ?b] => destruct (Nat.eqb_spec a b); subst end; simpl; auto; rewrite ?E; simpl; auto.
      all: try (unfold cont; destruct (code t l); simpl; try tauto).
      all: try (match goal with |- context [if ?b then _ else _] => destruct b end); simpl; auto.
      all: match goal with X : (if _ then _ else _) = _ |- _ => rewrite Nat.eqb_refl in X; discriminate X end.
  Qed.
End Loc.
