(** Vocabulary for the concurrent models; nothing here models code.

    A program is a transition function [step s l]: [l] says which thread moves (and which of the
    possible moves it takes, for instance which call it starts). One transition performs at most
    one access to shared memory, so that a list of labels is an arbitrary interleaving under
    sequential consistency. [Stuck]: the thread cannot take that move now. [Ub]: undefined
    behaviour. *)
From Verif Require Import Util.

Inductive outcome (S : Type) := Stuck | Ub | Next (s : S).
Arguments Stuck {S}. Arguments Ub {S}. Arguments Next {S}.

Section Exec.
  Context {S L : Type}.
  Variable step : S -> L -> outcome S.
  Fixpoint exec (s : S) (ls : list L) : outcome S :=
    match ls with
    | [] => Next s
    | l :: ls' => match step s l with Next s' => exec s' ls' | Ub => Ub | Stuck => Stuck end
    end.
  Definition reachable (s0 s : S) : Prop := exists ls, exec s0 ls = Next s.
  (** No schedule leads to undefined behaviour. *)
  Definition safe (s0 : S) : Prop := forall ls, exec s0 ls <> Ub.

  Lemma exec_inv (I : S -> Prop) :
    (forall s l, I s -> match step s l with Next s' => I s' | Ub => False | Stuck => True end) ->
    forall ls s0, I s0 -> match exec s0 ls with Next s => I s | Ub => False | Stuck => True end.
  Proof.
    intros H ls. induction ls as [|l ls IH]; intros s0 H0; simpl; auto.
    pose proof (H s0 l H0) as H1. destruct (step s0 l) as [| |s1]; auto. exact (IH s1 H1).
  Qed.
  Lemma reach_inv (I : S -> Prop) s0 :
    (forall s l, I s -> match step s l with Next s' => I s' | Ub => False | Stuck => True end) ->
    I s0 -> safe s0 /\ forall s, reachable s0 s -> I s.
  Proof.
    intros H H0. split.
    - intros ls E. pose proof (exec_inv I H ls s0 H0) as X. now rewrite E in X.
    - intros s [ls E]. pose proof (exec_inv I H ls s0 H0) as X. now rewrite E in X.
  Qed.
  Lemma exec_app ls1 : forall ls2 s, exec s (ls1 ++ ls2) =
    match exec s ls1 with Next s' => exec s' ls2 | Ub => Ub | Stuck => Stuck end.
  Proof. induction ls1; intros; simpl; auto. destruct (step s a); auto. Qed.
  Lemma reachable_refl s : reachable s s. Proof. now exists []. Qed.
  Lemma reachable_step s0 s l s' : reachable s0 s -> step s l = Next s' -> reachable s0 s'.
  Proof. intros [ls E] H. exists (ls ++ [l]). rewrite exec_app, E. simpl. now rewrite H. Qed.
  Lemma reachable_trans a b c : reachable a b -> reachable b c -> reachable a c.
  Proof. intros [l1 E1] [l2 E2]. exists (l1 ++ l2). now rewrite exec_app, E1. Qed.
  (** Invariants of systems that need not be safe. *)
  Lemma reach_step (I : S -> Prop) s0 :
    (forall s l s', I s -> step s l = Next s' -> I s') -> I s0 -> forall s, reachable s0 s -> I s.
  Proof.
    intros H H0 s [ls E]. revert s0 H0 E. induction ls as [|l ls IH]; simpl; intros s0 H0 E.
    - now injection E as <-.
    - destruct (step s0 l) eqn:E1; try discriminate. eauto.
  Qed.
  Lemma safe_reach s0 : (forall s l, reachable s0 s -> step s l <> Ub) -> safe s0.
  Proof.
    intros H ls. induction ls as [|l ls IH] using rev_ind; [discriminate|].
    rewrite exec_app. destruct (exec s0 ls) as [| |s] eqn:E; try congruence. simpl.
    assert (R := H s l (ex_intro _ ls E)). destruct (step s l); congruence.
  Qed.
  (** What a given schedule leads to, seen through [f]; used for concrete runs. *)
  Definition obs {A} (f : S -> A) (o : outcome S) : option A := match o with Next s => Some (f s) | _ => None end.
  Lemma reach_obs {A} (f : S -> A) s0 ls a : obs f (exec s0 ls) = Some a -> exists s, reachable s0 s /\ f s = a.
  Proof. unfold obs, reachable. destruct (exec s0 ls) eqn:E; try discriminate. intros [= <-]. eauto. Qed.
End Exec.

(** ** Linearizability (Herlihy & Wing).
    A history is a list of invocations and responses. It is linearizable if one can insert, inside
    the interval of each completed call (and of some pending ones), one point where the call takes
    effect atomically, such that the effects in that order are a run of the sequential
    specification and every response is the one decided at that point. *)
Section Lin.
  Context {Op Res St : Type}.
  Inductive ev := Inv (t : nat) (o : Op) | Lin (t : nat) (o : Op) (r : Res) | Ret (t : nat) (o : Op) (r : Res).
  Definition is_lin (e : ev) : bool := match e with Lin _ _ _ => true | _ => false end.
  (** The observable history: without the points. *)
  Definition erase (tr : list ev) : list ev := filter (fun e => negb (is_lin e)) tr.
  (** The effects, in order. *)
  Definition effects (tr : list ev) : list (Op * Res) :=
    flat_map (fun e => match e with Lin _ o r => [(o, r)] | _ => [] end) tr.

  (** Each thread runs Inv o; Lin o r; Ret o r, again and again. *)
  Inductive tst := TIdle | TCalled (o : Op) | TDecided (o : Op) (r : Res).
  Inductive tnext : tst -> ev -> tst -> Prop :=
  | tn_inv t o : tnext TIdle (Inv t o) (TCalled o)
  | tn_lin t o r : tnext (TCalled o) (Lin t o r) (TDecided o r)
  | tn_ret t o r : tnext (TDecided o r) (Ret t o r) TIdle.
  Definition ev_thread (e : ev) : nat := match e with Inv t _ | Lin t _ _ | Ret t _ _ => t end.
  (** [wf m tr m']: the events [tr] bring the threads from states [m] to [m']. *)
  Inductive wf : (nat -> tst) -> list ev -> (nat -> tst) -> Prop :=
  | wf_nil m m' : (forall t, m t = m' t) -> wf m [] m'
  | wf_cons m e tr s m' : tnext (m (ev_thread e)) e s -> wf (upd m (ev_thread e) s) tr m' -> wf m (e :: tr) m'.

  Variable spec : St -> Op -> Res -> St -> Prop.
  Inductive legal : St -> list (Op * Res) -> St -> Prop :=
  | legal_nil s : legal s [] s
  | legal_cons s o r s1 l s2 : spec s o r s1 -> legal s1 l s2 -> legal s ((o, r) :: l) s2.

  Definition linearizable (s0 : St) (h : list ev) : Prop :=
    exists tr m s, erase tr = h /\ wf (fun _ => TIdle) tr m /\ legal s0 (effects tr) s.

  Lemma legal_app s l1 s1 l2 s2 : legal s l1 s1 -> legal s1 l2 s2 -> legal s (l1 ++ l2) s2.
  Proof. induction 1; simpl; auto. intros. econstructor; eauto. Qed.
  Lemma legal_snoc s l s1 o r s2 : legal s l s1 -> spec s1 o r s2 -> legal s (l ++ [(o, r)]) s2.
  Proof. intros. eapply legal_app; eauto. econstructor; eauto. constructor. Qed.
  Lemma wf_ext m tr m' m2 : wf m tr m' -> (forall t, m' t = m2 t) -> wf m tr m2.
  Proof.
    induction 1; intros E. constructor. intros; now rewrite H. econstructor; eauto.
  Qed.
  Lemma wf_snoc m tr m' e s : wf m tr m' -> tnext (m' (ev_thread e)) e s ->
    wf m (tr ++ [e]) (upd m' (ev_thread e) s).
  Proof.
    induction 1; intros Hn; simpl.
    - econstructor. rewrite H. exact Hn. constructor. intros t. unfold upd. now rewrite H.
    - econstructor; eauto.
  Qed.
  Lemma effects_app a b : effects (a ++ b) = effects a ++ effects b.
  Proof. unfold effects. now rewrite flat_map_app. Qed.
  Lemma erase_app a b : erase (a ++ b) = erase a ++ erase b.
  Proof. unfold erase. now rewrite filter_app. Qed.
End Lin.
Arguments ev : clear implicits.
Arguments tst : clear implicits.
