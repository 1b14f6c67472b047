(** The effect of one step of an EventCount client without timed waits, as seen by counting
    arguments: which fiber moves from where to where, and what happens to keys, queues and epochs. *)
From Verif Require Import Util Conc EcModel EcProof EcWake.

Section Eff.
  Context {C L : Type}.
  Variable NT : nat.
  Variable code : nat -> L -> @instr C L.
  Notation st := (st C L).
  Notation step := (step NT code).
  Variable holds : nat -> L -> option nat.
  Hypothesis KO : key_ok code holds.
  Hypothesis Hnt : (N.of_nat NT < two32)%N.
  Hypothesis Untimed : forall t l, timed code t l = false.

  (** Moves that touch nothing but the program point (and the spinlock). *)
  Inductive silent (t : nat) : pct L -> pct L -> Prop :=
  | Q_wait l k : code t l = Wait k -> silent t (Run l) (WLock l)
  | Q_nlock e all k : silent t (NLock e all k) (NWork e all k)
  | Q_nunl e k : silent t (NUnl e k) (Run k)
  | Q_wlock l : silent t (WLock l) (WCheck l)
  | Q_stale l : silent t (WCheck l) (WUnl l false)
  | Q_park l : silent t (WUnl l true) (Parked l)
  | Q_nopark l k : code t l = Wait k -> silent t (WUnl l false) (Run k)
  | Q_sched l : silent t (Woken l) (FLock l false)
  | Q_flock l b : silent t (FLock l b) (FUnl l b)
  | Q_done l b k : code t l = Wait k -> silent t (FUnl l b) (Run k).

  Definition moves (s s' : st) (t : nat) (p' : pct L) : Prop :=
    forall u, pc (th s' u) = if u =? t then p' else pc (th s u).
  Definition keys_same (s s' : st) : Prop := forall u, key (th s' u) = key (th s u).
  Definition wq_same (s s' : st) : Prop := forall e, wq (ec s' e) = wq (ec s e).
  Definition ep_same (s s' : st) : Prop := forall e, ep (ec s' e) = ep (ec s e).

  Inductive eff (s : st) (t c : nat) (s' : st) : Prop :=
  | E_atom l f c' l' : pc (th s t) = Run l -> code t l = Atom f -> f (cs s) c = Next (c', l') ->
      cs s' = c' -> moves s s' t (Run l') -> keys_same s s' -> wq_same s s' -> ep_same s s' -> eff s t c s'
  | E_prep l e k : pc (th s t) = Run l -> code t l = PrepareWait e k -> cs s' = cs s ->
      moves s s' t (Run k) -> wq_same s s' -> ep_same s s' -> key (th s t) = None ->
      (exists w, forall u, key (th s' u) = if u =? t then Some (mk_key e w (ep (ec s e))) else key (th s u)) -> eff s t c s'
  | E_drop l k : pc (th s t) = Run l -> code t l = DropKey k -> cs s' = cs s ->
      moves s s' t (Run k) -> wq_same s s' -> ep_same s s' ->
      (forall u, key (th s' u) = if u =? t then None else key (th s u)) -> eff s t c s'
  | E_ntf l e all k : pc (th s t) = Run l -> code t l = Notify e all k -> cs s' = cs s ->
      keys_same s s' -> wq_same s s' -> (forall e', ep (ec s' e') = if e' =? e then S (ep (ec s e)) else ep (ec s e')) ->
      (moves s s' t (NLock e all k) \/
       moves s s' t (Run k) /\ forall u ky, u < NT -> key (th s u) = Some ky -> ke ky <> e) -> eff s t c s'
  | E_wake e all k n q l : pc (th s t) = NWork e all k -> wq (ec s e) = n :: q -> cs s' = cs s ->
      pc (th s n) = Parked l -> n <> t -> n < NT -> holds n l = Some e ->
      (forall u, pc (th s' u) = if u =? t then (if all then NWork e all k else NUnl e k)
         else if u =? n then Woken l else pc (th s u)) ->
      keys_same s s' -> (forall e', wq (ec s' e') = if e' =? e then q else wq (ec s e')) ->
      ep_same s s' -> eff s t c s'
  | E_none e all k : pc (th s t) = NWork e all k -> wq (ec s e) = [] -> cs s' = cs s ->
      moves s s' t (NUnl e k) -> keys_same s s' -> wq_same s s' -> ep_same s s' -> eff s t c s'
  | E_link l ky : pc (th s t) = WCheck l -> key (th s t) = Some ky -> cs s' = cs s ->
      moves s s' t (WUnl l true) -> keys_same s s' -> ep_same s s' ->
      (forall e', wq (ec s' e') = if e' =? ke ky then wq (ec s (ke ky)) ++ [t] else wq (ec s e')) ->
      (aba s' = false -> kg ky = ep (ec s (ke ky))) -> eff s t c s'
  | E_silent p' : silent t (pc (th s t)) p' -> cs s' = cs s ->
      moves s s' t p' -> keys_same s s' -> wq_same s s' -> ep_same s s' -> eff s t c s'.

  Ltac rw := rewrite ?th_set_aba, ?ec_set_aba, ?th_set_cs, ?ec_set_cs, ?th_set_ec, ?pc_set_pc,
    ?key_set_pc, ?ec_set_pc, ?pc_set_key, ?key_set_key, ?ec_set_key, ?th_set_ec, ?ec_set_ec,
    ?th_set_cs, ?ec_set_cs in *.
  Ltac cases H := unfold EcModel.step in H; cbn [fst snd] in H;
    match type of H with context [NT <=? ?t] => destruct (Nat.leb_spec NT t); [discriminate H|] end;
    match type of H with context [match pc (th ?s ?t) with _ => _ end] => destruct (pc (th s t)) eqn:E end;
    unfold step_run, acquire, release, activate in H;
    repeat match type of H with
    | context [match ?x with _ => _ end] =>
        lazymatch x with context [match _ with _ => _ end] => fail | _ => destruct x eqn:? end
    | Next _ = Next _ => injection H as <-
    | Stuck = _ => discriminate H | Ub = _ => discriminate H
    end.
  Ltac fr := try reflexivity; try (let v := fresh "v" in intros v; rw; try reflexivity;
     repeat match goal with |- context [?a =? ?b] => destruct (Nat.eqb_spec a b); subst end; simpl; solve [auto | congruence]).

  Lemma step_eff s t c s' : EcInv NT code holds s -> step s (t, c) = Next s' -> t < NT /\ eff s t c s'.
  Proof.
    intros I H.
    assert (Ht : t < NT).
    { unfold EcModel.step in H. cbn [fst] in H. destruct (Nat.leb_spec NT t); [discriminate|auto]. }
    split; auto.
    assert (Wc := e_wc _ _ _ _ I t).
    assert (Wq := e_wq _ _ _ _ I). assert (Nd := e_nd _ _ _ _ I).
    assert (Fl := e_fl _ _ _ _ I). assert (Lk := linked_lt NT code holds s).
    assert (Un := Untimed). unfold timed in Un.
    assert (KV := e_val _ _ _ _ I). assert (Kk := e_key _ _ _ _ I). clear Untimed.
    cases H.
    - eapply E_atom; eauto; fr.
    - eapply E_prep; eauto; fr. exists (epoch_of (val (ec s e))). fr.
    - eapply E_drop; eauto; fr. 
    - eapply (E_silent _ _ _ _ (WLock l)); fr. rewrite E. eapply Q_wait; eauto.
    - specialize (Un t l). rewrite Heqi in Un. discriminate.
    - eapply E_ntf; eauto; fr. right. split; fr.
      intros u ky Hu K Ek. apply N.eqb_eq in Heqb. rewrite KV, word_waiters in Heqb by (apply nkeys_bound; auto).
      pose proof (sumn_pos (fun t => has (th s t) e) NT u Hu) as P. unfold has in P at 1.
      rewrite K, Ek, Nat.eqb_refl in P. unfold nkeys in Heqb. lia.
    - eapply E_ntf; eauto; fr. left. fr.
    - eapply (E_silent _ _ _ _ (NWork e all k)); fr. rewrite E. constructor.
    - eapply E_none; eauto; fr.
    - assert (Hi : In n (wq (ec s e))) by (rewrite Heql; now left).
      destruct (Wq _ _ Hi) as [Hm Hk].
      rw. destruct (Nat.eqb_spec n t) as [->|N]. { rewrite E in Hm. destruct Hm. }
      eapply E_wake; eauto; fr.
      rewrite Kk in Hk. rewrite Heqp in Hk. exact Hk.
    - exfalso. rw. destruct (Nat.eqb_spec n t); [discriminate|]. specialize (Fl _ _ Heqp).
      unfold timed in Fl. rewrite Un in Fl. discriminate.
    - assert (Hi : In n (wq (ec s e))) by (rewrite Heql; now left).
      destruct (Wq _ _ Hi) as [Hm Hk].
      rw. destruct (Nat.eqb_spec n t) as [->|N]. { rewrite E in Hm. destruct Hm. }
      eapply E_wake; eauto; fr.
      rewrite Kk in Hk. rewrite Heqp in Hk. exact Hk.
    - exfalso. rw. destruct (Nat.eqb_spec n t); [discriminate|]. specialize (Fl _ _ Heqp).
      unfold timed in Fl. rewrite Un in Fl. discriminate.
    - eapply (E_silent _ _ _ _ (Run k)); fr. rewrite E. constructor.
    - eapply (E_silent _ _ _ _ (WCheck l)); fr. rewrite E. constructor.
    - eapply E_link; eauto; fr. simpl. intros A. apply orb_false_iff in A as [_ A].
      apply negb_false_iff, Nat.eqb_eq in A. auto.
    - eapply (E_silent _ _ _ _ (WUnl l false)); fr. rewrite E. constructor.
    - eapply (E_silent _ _ _ _ (Parked l)); fr. rewrite E. constructor.
    - specialize (Wc eq_refl). unfold is_wait in Wc. simpl in Wc. pose proof (Un t l) as U. destruct (code t l) eqn:Ec; try tauto; try discriminate.
      eapply (E_silent _ _ _ _ (Run k0)); fr. 
      + rewrite E. constructor; auto.
      + intros u. rw. unfold cont. rewrite Ec. reflexivity.
    - unfold timed in Heqb. rewrite (Un t l) in Heqb. discriminate.
    - unfold timed. rewrite (Un t l). simpl. eapply (E_silent _ _ _ _ (FLock l false)); fr. rewrite E. constructor.
    - unfold timed in Heqb. rewrite (Un t l) in Heqb. discriminate.
    - eapply (E_silent _ _ _ _ (FUnl l timed_out)); fr. rewrite E. constructor.
    - specialize (Wc eq_refl). unfold is_wait in Wc. simpl in Wc. pose proof (Un t l) as U. destruct (code t l) eqn:Ec; try tauto; try discriminate.
      eapply (E_silent _ _ _ _ (Run k0)); fr. 
      + rewrite E. constructor; auto.
      + intros u. rw. unfold cont. rewrite Ec. reflexivity.
  Qed.

  (** Sums of a weight of the program points. *)
  Definition tot (f : pct L -> nat) (s : st) : nat := sumn (fun u => f (pc (th s u))) NT.
  Lemma tot_moves f s s' t p' : t < NT -> moves s s' t p' -> tot f s' + f (pc (th s t)) = tot f s + f p'.
  Proof.
    intros Ht M. unfold tot.
    rewrite (sumn_chg (fun u => f (pc (th s' u))) (fun u => f (pc (th s u))) t NT); auto.
    - now rewrite M, Nat.eqb_refl.
    - intros i Hi. rewrite M. apply Nat.eqb_neq in Hi. now rewrite Hi.
  Qed.
  Lemma tot_wake f s s' t n p' p2 : t < NT -> n < NT -> n <> t ->
    (forall u, pc (th s' u) = if u =? t then p' else if u =? n then p2 else pc (th s u)) ->
    tot f s' + f (pc (th s t)) + f (pc (th s n)) = tot f s + f p' + f p2.
  Proof.
    clear Hnt Untimed. intros Ht Hn N M. unfold tot.
    set (m := fun u => if u =? n then f p2 else f (pc (th s u))).
    pose proof (sumn_upd (fun u => f (pc (th s u))) n (f p2) NT Hn) as A.
    pose proof (sumn_chg (fun u => f (pc (th s' u))) m t NT Ht) as B.
    assert (m t = f (pc (th s t))). { unfold m. destruct (Nat.eqb_spec t n); congruence. }
    rewrite H in B. cbv beta in B. rewrite (M t), Nat.eqb_refl in B. cbv beta in A. fold m in A.
    assert (E : sumn (fun u => f (pc (th s' u))) NT + f (pc (th s t)) = sumn m NT + f p').
    { apply B. intros i Hi. rewrite M. unfold m. apply Nat.eqb_neq in Hi. rewrite Hi. now destruct (i =? n). }
    lia.
  Qed.
  Lemma tot_pos f s u : u < NT -> f (pc (th s u)) <= tot f s.
  Proof. intros H. exact (sumn_pos (fun u => f (pc (th s u))) NT u H). Qed.
  Lemma tot_ex f s : 0 < tot f s -> exists u, u < NT /\ 0 < f (pc (th s u)).
  Proof. apply (sumn_ex (fun u => f (pc (th s u)))). Qed.

  (** Fiber [u] holds a key of [e] that no notification of [e] has outdated, is at one of the points
      [A] or waits there, and is not linked yet. *)
  Definition fresh (e : nat) (A : L -> bool) (s : st) (u : nat) : Prop :=
    (exists ky, key (th s u) = Some ky /\ ke ky = e /\ kg ky = ep (ec s e)) /\
    match pc (th s u) with
    | Run l | NLock _ _ l | NWork _ _ l | NUnl _ l | WLock l | WCheck l => A l = true
    | _ => False
    end.
  Definition closed_pts (A : L -> bool) : Prop := forall t l,
    match code t l with
    | Atom _ => True
    | PrepareWait _ k | DropKey k | Wait k => A k = false
    | WaitUntil k1 k2 => A k1 = false /\ A k2 = false
    | Notify _ _ k => A k = true -> A l = true
    end.
  Lemma fresh_back e A s t c s' u : closed_pts A -> EcInv NT code holds s -> eff s t c s' -> fresh e A s' u ->
    fresh e A s u \/
    (u = t /\ exists l f c' l', pc (th s t) = Run l /\ code t l = Atom f /\ f (cs s) c = Next (c', l') /\
       A l' = true /\ A l = false).
  Proof.
    clear Hnt Untimed. intros HA I F [(ky & K & Ke & Kg) P].
    assert (Kle := fun K => proj2 (e_kw _ _ _ _ I u ky K)).
    destruct F as [l f c' l' E Ec Ef Hc M Ks Wq Ep | l e1 k E Ec Hc M Wq Ep Kn [w Ks] | l k E Ec Hc M Wq Ep Ks
      | l e1 all k E Ec Hc Ks Wq Ep D | e1 all k n r l E Eq Hc En N Hn Hh M Ks Wq Ep
      | e1 all k E Eq Hc M Ks Wq Ep | l kyt E Kt Hc M Ks Ep Wq Ha | p' Si Hc M Ks Wq Ep].
    - rewrite Ks in K. rewrite Ep in Kg. rewrite M in P. destruct (Nat.eqb_spec u t) as [->|Hu].
      + destruct (A l) eqn:Al.
        * left. split; [eauto|]. now rewrite E.
        * right. split; auto. exists l, f, c', l'. auto.
      + left. split; eauto.
    - rewrite Ep in Kg. rewrite M in P. rewrite Ks in K. destruct (Nat.eqb_spec u t) as [->|Hu].
      + specialize (HA t l). rewrite Ec in HA. congruence.
      + left. split; eauto.
    - rewrite Ep in Kg. rewrite M in P. rewrite Ks in K. destruct (Nat.eqb_spec u t) as [->|Hu]; [discriminate|].
      left. split; eauto.
    - rewrite Ks in K. specialize (Kle K). rewrite Ep in Kg. destruct (Nat.eqb_spec e e1) as [->|He]; [rewrite Ke in Kle; lia|].
      left. split; [eauto|]. specialize (HA t l). rewrite Ec in HA.
      destruct D as [M|[M _]]; rewrite M in P; destruct (Nat.eqb_spec u t) as [->|Hu]; auto; now rewrite E; auto.
    - left. rewrite Ep in Kg. rewrite Ks in K. split; [eauto|]. rewrite M in P.
      destruct (Nat.eqb_spec u t) as [->|Hu]; [rewrite E; now destruct all|].
      destruct (Nat.eqb_spec u n); [destruct P|]. auto.
    - left. rewrite Ep in Kg. rewrite Ks in K. split; [eauto|]. rewrite M in P.
      destruct (Nat.eqb_spec u t) as [->|Hu]; auto. now rewrite E.
    - left. rewrite Ep in Kg. rewrite Ks in K. split; [eauto|]. rewrite M in P.
      destruct (Nat.eqb_spec u t) as [->|Hu]; auto. destruct P.
    - left. rewrite Ep in Kg. rewrite Ks in K. split; [eauto|]. rewrite M in P.
      destruct (Nat.eqb_spec u t) as [->|Hu]; auto.
      destruct Si; simpl in P; auto; try tauto; specialize (HA t l); rewrite H in HA; congruence.
  Qed.
  Lemma fresh_ntf e A s t c s' u : EcInv NT code holds s -> eff s t c s' -> ep (ec s' e) <> ep (ec s e) -> ~ fresh e A s' u.
  Proof.
    clear Hnt Untimed. intros I F Hne [(ky & K & Ke & Kg) _].
    assert (Kle := fun K => proj2 (e_kw _ _ _ _ I u ky K)).
    destruct F as [l f c' l' E Ec Ef Hc M Ks Wq Ep | l e1 k E Ec Hc M Wq Ep Kn [w Ks] | l k E Ec Hc M Wq Ep Ks
      | l e1 all k E Ec Hc Ks Wq Ep D | e1 all k n r l E Eq Hc En N Hn Hh M Ks Wq Ep
      | e1 all k E Eq Hc M Ks Wq Ep | l kyt E Kt Hc M Ks Ep Wq Ha | p' Si Hc M Ks Wq Ep]; try (now rewrite Ep in Hne).
    rewrite Ks in K. specialize (Kle K). rewrite Ep in Kg, Hne. destruct (Nat.eqb_spec e e1) as [->|He]; [rewrite Ke in Kle; lia|congruence].
  Qed.
End Eff.
