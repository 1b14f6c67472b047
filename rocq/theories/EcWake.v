(** No lost wake-up, for arbitrary clients of one EventCount that use notifyAll(), or notify() with
    a single fiber that ever waits. *)
From Verif Require Import Util Conc EcModel EcProof.

Section Wake.
  Context {C L : Type}.
  Variable NT : nat.
  Variable code : nat -> L -> @instr C L.
  Notation st := (st C L).
  Notation step := (step NT code).
  Variable holds : nat -> L -> option nat.
  Variable e0 : nat.

  (** [wants t w c]: the condition for which fiber [t] waits at its wait point [w] holds in [c].
      [armed t l = Some w]: [l] lies between the evaluation of that condition (which gave false)
      and the wait point [w], included. [debt t l]: from [l], fiber [t] goes on to notify [e0]. *)
  Variable wants : nat -> L -> C -> Prop.
  Variable armed : nat -> L -> option L.
  Variable debt : nat -> L -> Prop.

  Definition solo : Prop := exists w0, forall t l k, code t l = PrepareWait e0 k -> t = w0.
  Definition client_ok : Prop := forall t l,
    (forall w, armed t l = Some w -> holds t l = Some e0) /\
    match code t l with
    | Atom f => forall c n c' l', f c n = Next (c', l') ->
        (forall u w, wants u w c' -> wants u w c \/ debt t l') /\
        (forall w, armed t l' = Some w -> armed t l = Some w \/ ~ wants t w c') /\
        (debt t l -> debt t l')
    | PrepareWait _ k | DropKey k => armed t k = None /\ (debt t l -> debt t k)
    | Wait k => ~ debt t l /\ armed t k = None /\ (holds t l = Some e0 -> armed t l = Some l)
    | WaitUntil kt ko => ~ debt t l /\ armed t kt = None /\ armed t ko = None /\
        (holds t l = Some e0 -> armed t l = Some l)
    | Notify e all k => (armed t k = None \/ armed t k = armed t l) /\
        (debt t l -> e = e0 \/ debt t k) /\ (e = e0 -> all = true \/ solo)
    end.

  Hypothesis KO : key_ok code holds.
  Hypothesis Hnt : (N.of_nat NT < two32)%N.
  Hypothesis CO : client_ok.

  Definition watch (s : st) (t : nat) : option L :=
    match pc (th s t) with
    | Run l | NLock _ _ l | NWork _ _ l | NUnl _ l => armed t l
    | WLock w | WCheck w | WUnl w true | Parked w => armed t w
    | _ => None
    end.
  (** Fiber [u] is on its way to notify [e0]. *)
  Definition owes (s : st) (u : nat) : Prop :=
    match pc (th s u) with
    | Run l | NLock _ _ l | NWork _ _ l | NUnl _ l => debt u l
    | _ => False
    end.
  (** Fiber [u] is inside notify()/notifyAll() of [e0], past the increment, and has not finished
      going through the wait queue. *)
  Definition pending (s : st) (u : nat) : Prop :=
    match pc (th s u) with NLock e _ _ | NWork e _ _ => e = e0 | _ => False end.

  Definition G2 (s : st) : Prop := aba s = false -> forall t ky, In t (wq (ec s e0)) ->
    key (th s t) = Some ky -> kg ky < ep (ec s e0) -> exists u, pending s u.
  Definition G1 (s : st) : Prop := aba s = false -> forall t w ky, watch s t = Some w ->
    key (th s t) = Some ky -> wants t w (cs s) ->
    (exists u, owes s u) \/ kg ky < ep (ec s e0).

  (** With [solo] only one fiber ever has a key. *)
  Definition Gsolo (s : st) : Prop := forall w0, (forall t l k, code t l = PrepareWait e0 k -> t = w0) ->
    forall t ky, key (th s t) = Some ky -> ke ky = e0 -> t = w0.

  Ltac rw := rewrite ?th_set_aba, ?ec_set_aba, ?th_set_cs, ?ec_set_cs, ?th_set_ec, ?pc_set_pc,
    ?key_set_pc, ?ec_set_pc, ?pc_set_key, ?key_set_key, ?ec_set_key, ?th_set_ec, ?ec_set_ec,
    ?th_set_cs, ?ec_set_cs in *.
  Ltac dt := match goal with |- context [?a =? ?b] => destruct (Nat.eqb_spec a b); subst
    | H : context [?a =? ?b] |- _ => destruct (Nat.eqb_spec a b); subst end.

  Ltac cases H := unfold EcModel.step in H; cbn [fst snd] in H;
    match type of H with context [NT <=? ?t] => destruct (Nat.leb_spec NT t); [discriminate H|] end;
    match type of H with context [match pc (th ?s ?t) with _ => _ end] => destruct (pc (th s t)) eqn:E end;
    unfold step_run, acquire, release, activate in H;
    repeat match type of H with
    | context [match ?x with _ => _ end] =>
        lazymatch x with context [match _ with _ => _ end] => fail | _ => destruct x eqn:? end
    | Next _ = Next _ => injection H as <-
    | Stuck = _ => discriminate H | Ub = _ => discriminate H
    end.

  Lemma step_keys s t c s' : step s (t, c) = Next s' -> forall u, u <> t -> key (th s' u) = key (th s u).
  Proof.
    intros H u Hu. apply Nat.eqb_neq in Hu. cases H; rw; rewrite ?Hu; auto.
  Qed.
  Lemma aba_mono s lab s' : step s lab = Next s' -> aba s' = false -> aba s = false.
  Proof.
    destruct lab as [t c]. intros H. cases H; simpl; auto. intros A. apply orb_false_iff in A. tauto.
  Qed.

  Lemma solo_step s lab s' : Gsolo s -> step s lab = Next s' -> Gsolo s'.
  Proof.
    destruct lab as [t c]. intros G H w0 Hw. specialize (G w0 Hw).
    intros u ky K Ke. destruct (Nat.eq_dec u t) as [->|N].
    2: { rewrite (step_keys s t c s' H) in K by auto. eauto. }
    cases H; rw; rewrite ?Nat.eqb_refl in *; eauto. 
    - injection K as <-. simpl in Ke. subst. eauto.
    - discriminate.
  Qed.

  (** Pending notifiers of other fibers are not disturbed. *)
  Lemma pend_other s t c s' u : step s (t, c) = Next s' -> u <> t -> pending s u -> pending s' u.
  Proof.
    intros H Hu P. unfold pending in *. apply Nat.eqb_neq in Hu.
    cases H; rw; rewrite ?Hu; auto;
    dt; rewrite ?Nat.eqb_refl in *; try congruence;
    repeat match goal with X : (if ?b then _ else _) = _ |- _ => destruct b eqn:? end;
    repeat match goal with X : pc _ = _ |- _ => rewrite X in * end; simpl in *; try tauto; congruence.
  Qed.
  Lemma owes_other s t c s' u : step s (t, c) = Next s' -> u <> t -> owes s u -> owes s' u.
  Proof.
    intros H Hu P. unfold owes in *. apply Nat.eqb_neq in Hu.
    cases H; rw; rewrite ?Hu; auto;
    dt; rewrite ?Nat.eqb_refl in *; try congruence;
    repeat match goal with X : (if ?b then _ else _) = _ |- _ => destruct b eqn:? end;
    repeat match goal with X : pc _ = _ |- _ => rewrite X in * end; simpl in *; try tauto; congruence.
  Qed.

  Definition Gall (s : st) : Prop := forall u e all k,
    pc (th s u) = NLock e all k \/ pc (th s u) = NWork e all k -> e = e0 -> all = true \/ solo.
  Lemma all_step s lab s' : Gall s -> step s lab = Next s' -> Gall s'.
  Proof.
    destruct lab as [t c]. intros G H u e all k X ->. assert (G' := G u e0 all k).
    pose proof (CO t (loc (pc (th s t)))) as [_ CO'].
    cases H; rw; auto; dt; rewrite ?Nat.eqb_refl in *; auto;
    repeat match goal with X : (if ?b then _ else _) = _ |- _ => destruct b eqn:? end;
    try congruence; try (destruct X; congruence); try tauto.
    all: try (destruct X as [X|X]; try congruence; try (injection X as <- <- <-); auto; fail).
    all: try solve [unfold EcModel.cont in X; destruct (code t l); try destruct timed_out; intuition congruence].
    - simpl in CO'. rewrite Heqi in CO'. destruct X as [X|X]; [|discriminate]. injection X as -> -> ->. tauto.
    - dt; auto. destruct X as [X|X]; [discriminate|]. injection X as -> <- ->. auto.
    - dt; auto. destruct X as [X|X]; discriminate.
  Qed.

  Lemma linked_lt s u e : EcInv NT code holds s -> In u (wq (ec s e)) -> u < NT.
  Proof.
    intros I Hi. destruct (Nat.lt_ge_cases u NT) as [|Hu]; auto. exfalso.
    apply (e_wq _ _ _ _ I) in Hi as [Hi _]. destruct (e_idle _ _ _ _ I u Hu) as [l El]. now rewrite El in Hi.
  Qed.
  Lemma has_waiters s u e : EcInv NT code holds s -> In u (wq (ec s e)) -> (waiters_of (val (ec s e)) =? 0)%N = false.
  Proof.
    intros I Hi. pose proof (linked_lt _ _ _ I Hi) as Hu. apply (e_wq _ _ _ _ I) in Hi as [_ Hk].
    rewrite (e_val _ _ _ _ I), word_waiters by (apply nkeys_bound; auto).
    pose proof (sumn_pos (fun t => has (th s t) e) NT u Hu) as P. unfold has in P at 1.
    destruct (key (th s u)); [|discriminate]. simpl in Hk. injection Hk as Hk. rewrite Hk, Nat.eqb_refl in P.
    unfold nkeys. apply N.eqb_neq. lia.
  Qed.

  (** Queue membership goes back in time, except for the fiber that links itself. *)
  Lemma wq_step s t c s' e u : step s (t, c) = Next s' -> In u (wq (ec s' e)) ->
    In u (wq (ec s e)) \/ (u = t /\ exists l, pc (th s t) = WCheck l).
  Proof.
    intros H Hi. cases H; rw; auto;
    repeat match type of Hi with context [if ?a =? ?b then _ else _] => destruct (Nat.eqb_spec a b) end;
    simpl in Hi; auto;
    repeat match goal with X : e = _ |- _ => rewrite X in *; clear X end; auto;
    try (rewrite Heql; simpl; tauto);
    rewrite ?upd_eq in Hi; try (rewrite upd_neq in Hi by auto); auto;
    try (apply filter_In in Hi; tauto); try congruence.
    rewrite in_app_iff in Hi. simpl in Hi. destruct Hi as [|[<-|[]]]; eauto.
  Qed.
  Lemma ep_step s t c s' e : step s (t, c) = Next s' -> ep (ec s e) <= ep (ec s' e) /\
    (ep (ec s e) = ep (ec s' e) \/ exists l all k, ep (ec s' e) = S (ep (ec s e)) /\
       pc (th s t) = Run l /\ code t l = Notify e all k /\
       pc (th s' t) = (if (waiters_of (val (ec s e)) =? 0)%N then Run k else NLock e all k)).
  Proof.
    intros H. cases H; rw; rewrite ?Nat.eqb_refl; auto;
    repeat match goal with |- context [if ?a =? ?b then _ else _] => destruct (Nat.eqb_spec a b) end;
    simpl; auto; repeat match goal with X : e = _ |- _ => rewrite X in *; clear X end;
    rewrite ?upd_eq; try (rewrite upd_neq by auto); split; auto.
    - right. exists l, all, k. rewrite Heqb. auto.
    - right. exists l, all, k. rewrite Heqb. auto.
  Qed.

  Lemma G2_step s lab s' : EcInv NT code holds s -> Gsolo s -> Gall s -> G2 s ->
    step s lab = Next s' -> G2 s'.
  Proof.
    destruct lab as [t c]. intros I Gs Ga G H A u ky Hi K Hlt.
    pose proof (aba_mono _ _ _ H A) as A0. specialize (G A0).
    destruct (ep_step _ _ _ _ e0 H) as [_ [He|(l & all & k & _ & E1 & E2 & E3)]].
    2: { (* a notification of e0 *)
      assert (Hi' : In u (wq (ec s e0))).
      { destruct (wq_step _ _ _ _ _ _ H Hi) as [|[-> [l' X]]]; auto. congruence. }
      rewrite (has_waiters _ _ _ I Hi') in E3. exists t. unfold pending. now rewrite E3. }
    destruct (wq_step _ _ _ _ _ _ H Hi) as [Hi'|[-> [l' E0]]].
    - (* it was already linked *)
      assert (K' : key (th s u) = Some ky).
      { destruct (Nat.eq_dec u t) as [->|N]; [|rewrite <- (step_keys s t c s' H); auto].
        apply (e_wq _ _ _ _ I) in Hi' as [Hm _]. clear - H K Hm. cases H; simpl in Hm; try tauto; rw; congruence. }
      destruct (G u ky Hi' K' ltac:(congruence)) as [v Pv].
      destruct (Nat.eq_dec v t) as [->|N]; [|exists v; eapply pend_other; eauto].
      exists t. unfold pending in *. specialize (Ga t). clear A.
      assert (Nd := e_nd _ _ _ _ I e0).
      assert (Wq := fun w Hw => proj2 (e_wq _ _ _ _ I e0 w Hw)).
      cases H; try tauto; rw; rewrite ?Nat.eqb_refl; auto;
      try (destruct (Nat.eqb_spec t n); [congruence|]; rewrite ?Nat.eqb_refl; auto); subst e.
      all: try (rewrite Heql in *; simpl in Hi'; tauto).
      all: try (destruct (Nat.eqb_spec n t); [congruence|]); try (destruct (Nat.eqb_spec t n); [congruence|]); auto.
      all: exfalso; destruct (Ga e0 false k) as [X|[w0 Hw0]]; auto; [discriminate|];
        assert (E1 : n = u);
        [ specialize (Gs w0 Hw0); transitivity w0; [|symmetry];
          [destruct (key (th s n)) as [kn|] eqn:Kn;
             [apply (Gs n kn); auto|]; specialize (Wq n ltac:(rewrite Heql; now left));
             rewrite Kn in Wq; simpl in Wq; congruence
          |apply (Gs u ky); auto; specialize (Wq u Hi'); rewrite K' in Wq; simpl in Wq; congruence]
        | subst n; rewrite Nat.eqb_refl in Hi; simpl in Hi; rewrite Heql in Nd; inversion Nd; auto].
    - (* it links itself: the epochs agree *)
      exfalso. clear G Ga Gs. rewrite <- He in Hlt. revert A Hlt K.
      cases H; try congruence; rw; simpl.
      + intros A Hlt K. apply orb_false_iff in A as [_ A]. apply negb_false_iff, Nat.eqb_eq in A.
        assert (X : ke k = e0).
        { destruct (Nat.eq_dec (ke k) e0); auto. exfalso. rw. destruct (Nat.eqb_spec e0 (ke k)); [congruence|].
          apply (e_wq _ _ _ _ I) in Hi as [Hm _]. now rewrite E in Hm. }
        assert (k = ky) by congruence. subst k. rewrite X in A. lia.
      + intros _ _ _. rw. apply (e_wq _ _ _ _ I) in Hi as [Hm _]. now rewrite E in Hm.
  Qed.

  Lemma watch_armed s t w : watch s t = Some w -> exists l, armed t l = Some w /\ l = loc (pc (th s t)).
  Proof. unfold watch. destruct (pc (th s t)); try destruct linked; try discriminate; simpl; eauto. Qed.

  Lemma cont_armed t l b : is_wait code t l -> exists k, cont code t l b = Run k /\ armed t k = None.
  Proof.
    unfold is_wait, cont. pose proof (CO t l) as [_ H]. destruct (code t l); try tauto; intros _.
    - eexists; split; auto; tauto.
    - destruct b; eexists; split; auto; tauto.
  Qed.
  Lemma owes_self s t c s' : EcInv NT code holds s -> step s (t, c) = Next s' -> ep (ec s' e0) = ep (ec s e0) ->
    owes s t -> owes s' t.
  Proof.
    intros I H He O. unfold owes in *. pose proof (CO t (loc (pc (th s t)))) as [_ CO'].
    cases H; simpl in O, CO'; rewrite ?Heqi in CO'; try tauto; rw; rewrite ?Nat.eqb_refl; simpl; auto; try tauto.
    - eapply CO'; eauto.
    - destruct CO' as (_ & X & _). destruct (X O); auto. subst. rewrite Nat.eqb_refl in He. simpl in He. lia.
    - destruct CO' as (_ & X & _). destruct (X O); auto. subst. rewrite Nat.eqb_refl in He. simpl in He. lia.
    - destruct (Nat.eqb_spec t n); auto. subst. rewrite Nat.eqb_refl in Heqp. discriminate.
    - destruct (Nat.eqb_spec t n); auto. subst. rewrite Nat.eqb_refl in Heqp. discriminate.
  Qed.
  Definition is_atom (s : st) t : Prop := exists l f, pc (th s t) = Run l /\ code t l = Atom f.
  Lemma watch_back s t c s' u w : EcInv NT code holds s -> step s (t, c) = Next s' -> ~ is_atom s t ->
    watch s' u = Some w -> watch s u = Some w /\ key (th s' u) = key (th s u).
  Proof.
    intros I H Na W. destruct (Nat.eq_dec u t) as [->|N].
    - pose proof (CO t (loc (pc (th s t)))) as [_ CO']. unfold watch in *.
      assert (Wc := e_wc _ _ _ _ I t).
      cases H; simpl in CO'; rewrite ?Heqi in CO'; rw; rewrite ?Nat.eqb_refl in *; simpl in *; auto; try congruence;
      try (exfalso; apply Na; red; eauto; fail);
      try (destruct (cont_armed t l false (Wc eq_refl)) as (k' & X & Y); rewrite X in W; congruence).
      + destruct CO'; congruence.
      + destruct CO'; congruence.
      + destruct CO' as [[|] _]; split; congruence.
      + destruct CO' as [[|] _]; split; congruence.
      + destruct (Nat.eqb_spec t n); auto. subst. rewrite Nat.eqb_refl in Heqp. discriminate.
      + destruct (Nat.eqb_spec t n); auto. subst. rewrite Nat.eqb_refl in Heqp. discriminate.
      + destruct (cont_armed t l timed_out (Wc eq_refl)) as (k' & X & Y). rewrite X in W; congruence.
    - split; [|eapply step_keys; eauto]. unfold watch in *. clear Na. apply Nat.eqb_neq in N.
      cases H; rw; rewrite ?N in *; auto.
      all: destruct (u =? n); auto; discriminate.
  Qed.
  Lemma G1_step s lab s' : EcInv NT code holds s -> G1 s -> step s lab = Next s' -> G1 s'.
  Proof.
    destruct lab as [t c]. intros I G H A u w ky W K Wt.
    pose proof (aba_mono _ _ _ H A) as A0. specialize (G A0).
    destruct (ep_step _ _ _ _ e0 H) as [_ [He|(l & all & k & He & E1 & E2 & E3)]].
    2: { (* notification of e0 *)
      right. assert (K' : key (th s u) = Some ky).
      { destruct (Nat.eq_dec u t) as [->|N]; [|rewrite <- (step_keys s t c s' H); auto].
        clear - H K E1 E2. cases H; try congruence; rw; auto. }
      destruct (e_kw _ _ _ _ I _ _ K') as [_ X].
      assert (Hke : ke ky = e0).
      { pose proof (inv_step NT code holds KO Hnt s (t, c) I) as I'. rewrite H in I'.
        pose proof (e_key _ _ _ _ I' u) as Y. rewrite K in Y. destruct (watch_armed _ _ _ W) as (l' & Al & ->).
        apply (CO u) in Al. simpl in Y. congruence. }
      rewrite Hke in X. lia. }
    assert (Fw : forall v, owes s v -> owes s' v).
    { intros v O. destruct (Nat.eq_dec v t) as [->|N]; [eapply owes_self|eapply owes_other]; eauto. }
    destruct (pc (th s t)) eqn:E0.
    2-11: assert (Na : ~ is_atom s t) by (intros (l' & f & X & _); congruence);
      destruct (watch_back _ _ _ _ _ _ I H Na W) as [W' K']; rewrite K' in K; rewrite <- He;
      assert (Hcs : cs s' = cs s) by (clear - H E0; cases H; try congruence; reflexivity);
      rewrite Hcs in Wt; destruct (G u w ky W' K Wt) as [[v O]|]; auto; left; exists v; auto.
    destruct (code t l) eqn:Ec.
    2-6: assert (Na : ~ is_atom s t) by (intros (l' & f & X & Y); congruence);
      destruct (watch_back _ _ _ _ _ _ I H Na W) as [W' K']; rewrite K' in K; rewrite <- He;
      assert (Hcs : cs s' = cs s) by (clear - H E0 Ec; cases H; try congruence; reflexivity);
      rewrite Hcs in Wt; destruct (G u w ky W' K Wt) as [[v O]|]; auto; left; exists v; auto.
    (* a step of the client *)
    rewrite <- He. pose proof (CO t l) as [_ CO']. rewrite Ec in CO'.
    assert (X : exists c' l', f (cs s) c = Next (c', l') /\ s' = set_pc (set_cs s c') t (Run l')).
    { clear - H E0 Ec. cases H; try congruence. exists c0, l1. split; congruence. }
    destruct X as (c' & l' & Ef & Es). destruct (CO' _ _ _ _ Ef) as (C1 & C2 & C3).
    assert (Hcs : cs s' = c') by (now subst s').
    assert (O' : debt t l' -> owes s' t).
    { intros D. unfold owes. subst s'. rw. now rewrite Nat.eqb_refl. }
    assert (K' : key (th s u) = Some ky). { subst s'. now rw. }
    assert (Fin : watch s u = Some w -> (exists v, owes s' v) \/ kg ky < ep (ec s e0)).
    { intros W'. rewrite Hcs in Wt. destruct (C1 u w Wt) as [Wt'|D]; [|left; eauto].
      destruct (G u w ky W' K' Wt') as [[v O]|]; auto. left; eauto. }
    destruct (Nat.eq_dec u t) as [->|N].
    - assert (Wl : armed t l' = Some w). { unfold watch in W. subst s'. rw. now rewrite Nat.eqb_refl in W. }
      destruct (C2 w Wl) as [Al|Nw]; [|now rewrite Hcs in Wt]. apply Fin. unfold watch. now rewrite E0.
    - apply Fin. unfold watch in *. subst s'. rw. now apply Nat.eqb_neq in N; rewrite N in W.
  Qed.

  (** A fiber inside a notification was sent there by its code. *)
  Definition Gntf (s : st) : Prop := forall u,
    match pc (th s u) with
    | NLock e all k | NWork e all k => exists l, code u l = Notify e all k
    | NUnl e k => exists l all, code u l = Notify e all k
    | _ => True
    end.
  Lemma ntf_step s lab s' : EcInv NT code holds s -> Gntf s -> step s lab = Next s' -> Gntf s'.
  Proof.
    destruct lab as [t c]. intros I G H u. assert (G' := G u).
    assert (Wc := e_wc _ _ _ _ I t).
    cases H; rw; auto;
    repeat match goal with |- context [if ?a =? ?b then _ else _] => destruct (Nat.eqb_spec a b); subst end;
    rewrite ?Nat.eqb_refl in *; rewrite ?E in *; simpl in *; auto; try discriminate; eauto;
    try (destruct (cont_armed t l false (Wc eq_refl)) as (k' & Z & _); now rewrite Z);
    try (destruct (cont_armed t l timed_out (Wc eq_refl)) as (k' & Z & _); now rewrite Z);
    try (destruct G' as [l' G']; eauto; fail).
  Qed.

  Record WakeInv (s : st) : Prop := {
    w_ntf : Gntf s;
    w_ec : EcInv NT code holds s; w_solo : Gsolo s; w_all : Gall s; w_2 : G2 s; w_1 : G1 s }.
  Lemma wake_step s lab s' : WakeInv s -> step s lab = Next s' -> WakeInv s'.
  Proof.
    intros [] H. split.
    - eapply ntf_step; eauto.
    - pose proof (inv_step NT code holds KO Hnt s lab w_ec0) as X. now rewrite H in X.
    - eapply solo_step; eauto.
    - eapply all_step; eauto.
    - eapply G2_step; eauto.
    - eapply G1_step; eauto.
  Qed.
  Lemma wake_init c0 l0 : (forall t, holds t (l0 t) = None) -> WakeInv (init c0 l0).
  Proof.
    intros H. split.
    - intros u. simpl. auto.
    - now apply inv_init.
    - intros w0 Hw t ky K. discriminate.
    - intros u e all k [X|X]; discriminate.
    - intros _ t ky Hi. destruct Hi.
    - intros _ t w ky _ K. discriminate.
  Qed.
  (** The result: a suspended fiber whose condition holds is about to be woken: some fiber is on
      its way to notify, or is in the middle of a notification that will reach it. *)
  Lemma wake_reach c0 l0 : (forall t, holds t (l0 t) = None) -> forall s,
    reachable step (init c0 l0) s -> WakeInv s.
  Proof.
    intros H0 s [ls E]. revert s E. assert (W0 : WakeInv (init c0 l0)) by now apply wake_init.
    revert W0. generalize (init c0 l0) as s0. induction ls as [|lab ls IH]; simpl; intros s0 W0 s E.
    - now injection E as <-.
    - destruct (step s0 lab) eqn:Es; try discriminate. eapply IH; [|eauto]. eapply wake_step; eauto.
  Qed.
  (** The spinlocks never block for good: a fiber inside the event count code that is not suspended
      can take a step, or the fiber that holds the spinlock it needs can. *)
  Lemma holder_moves s e h : EcInv NT code holds s -> lk (ec s e) = Some h -> exists s', step s (h, 0) = Next s'.
  Proof.
    intros I Hl. pose proof (proj1 (e_lk _ _ _ _ I e h) Hl) as O.
    assert (Hh : h < NT).
    { destruct (Nat.lt_ge_cases h NT) as [|Hu]; auto. exfalso.
      destruct (e_idle _ _ _ _ I h Hu) as [l El]. unfold owns in O. now rewrite El in O. }
    pose proof (inv_step NT code holds KO Hnt s (h, 0) I) as St.
    destruct (step s (h, 0)) as [| |s'] eqn:Es; eauto; exfalso.
    - unfold EcModel.step in Es. cbn [fst snd] in Es. destruct (Nat.leb_spec NT h); [lia|].
      unfold owns in O. destruct (pc (th s h)) eqn:E; try tauto; unfold release, activate in Es.
      + repeat match type of Es with context [match ?x with _ => _ end] => destruct x; try discriminate end.
      + discriminate.
      + destruct (key (th s h)); try discriminate. destruct (_ =? _)%N; discriminate.
      + destruct (key (th s h)); discriminate.
      + destruct (key (th s h)); discriminate.
    - destruct St as (l & f & E & _). cbn [fst] in E. unfold owns in O. now rewrite E in O.
  Qed.
  Lemma inside_moves s u : EcInv NT code holds s -> u < NT ->
    (forall l, pc (th s u) <> Run l) -> (forall l, pc (th s u) <> Parked l) ->
    exists v s', step s (v, 0) = Next s' /\ (v = u \/ exists e, lk (ec s e) = Some v).
  Proof.
    intros I Hu N1 N2.
    pose proof (inv_step NT code holds KO Hnt s (u, 0) I) as St.
    assert (Nub : step s (u, 0) <> Ub).
    { intros Es. rewrite Es in St. destruct St as (l & f & E & _). now apply (N1 l). }
    assert (Lk : forall e h, lk (ec s e) = Some h ->
       exists v s', step s (v, 0) = Next s' /\ (v = u \/ exists e, lk (ec s e) = Some v)).
    { intros e h Hl. destruct (holder_moves s e h I Hl) as [s' Es]. exists h, s'. eauto. }
    destruct (step s (u, 0)) as [| |s'] eqn:Es; eauto; try congruence.
    unfold EcModel.step in Es. cbn [fst snd] in Es. destruct (Nat.leb_spec NT u); [lia|].
    unfold release, activate, acquire in Es.
    destruct (pc (th s u)) eqn:E.
    - now destruct (N1 l).
    - destruct (lk (ec s e)) eqn:El; [eauto|discriminate].
    - repeat match type of Es with context [match ?x with _ => _ end] => destruct x; try discriminate end.
    - discriminate.
    - destruct (key (th s u)); try discriminate. destruct (lk (ec s (ke k))) eqn:El; [eauto|discriminate].
    - destruct (key (th s u)); try discriminate. destruct (_ =? _)%N; discriminate.
    - destruct (key (th s u)); discriminate.
    - now destruct (N2 l).
    - discriminate.
    - destruct (key (th s u)); try discriminate. destruct (lk (ec s (ke k))) eqn:El; [eauto|discriminate].
    - destruct (key (th s u)); discriminate.
  Qed.

  (** A wrong "unchanged" answer of the epoch check needs 2^32 notifications of one event count. *)
  Definition Gaba (s : st) : Prop := aba s = true -> exists e, (exists t l, holds t l = Some e) /\ (two32 <= N.of_nat (ep (ec s e)))%N.
  Lemma aba_step s lab s' : EcInv NT code holds s -> Gaba s -> step s lab = Next s' -> Gaba s'.
  Proof.
    destruct lab as [t c]. intros I G H A.
    assert (B : aba s = true -> exists e, (exists t l, holds t l = Some e) /\ (two32 <= N.of_nat (ep (ec s' e)))%N).
    { intros A0. destruct (G A0) as [e [Hx He]]. exists e. destruct (ep_step s t c s' e H). split; auto. lia. }
    destruct (aba s) eqn:A0; auto. clear B G.
    cases H; simpl in A; try congruence. rewrite A0 in A. simpl in A.
    apply negb_true_iff, Nat.eqb_neq in A. apply N.eqb_eq in Heqb.
    destruct (e_kw _ _ _ _ I t k Heqo) as [Hw Hle].
    rewrite (e_val _ _ _ _ I), word_epoch, Hw in Heqb by (apply nkeys_bound; auto).
    exists (ke k). split.
    { pose proof (e_key _ _ _ _ I t) as Y. rewrite Heqo in Y. simpl in Y. eauto. }
    rw. rewrite Nat.eqb_refl. simpl. unfold two32 in *. lia.
  Qed.
  Lemma aba_reach c0 l0 : (forall t, holds t (l0 t) = None) -> forall s,
    reachable step (init c0 l0) s -> Gaba s.
  Proof.
    intros H0 s [ls E]. revert s E. assert (W0 : WakeInv (init c0 l0)) by now apply wake_init.
    assert (A0 : Gaba (init c0 l0)) by (intros A; discriminate). revert A0.
    revert W0. generalize (init c0 l0) as s0. induction ls as [|lab ls IH]; simpl; intros s0 W0 A0 s E.
    - now injection E as <-.
    - destruct (step s0 lab) eqn:Es; try discriminate. eapply IH; [| |eauto]. eapply wake_step; eauto.
      eapply aba_step; eauto. apply W0.
  Qed.
  (** The same, about one step: the fiber that compares made its key 2^32 notifications ago. *)
  Lemma aba_stale s lab s' : EcInv NT code holds s -> aba s = false -> step s lab = Next s' -> aba s' = true ->
    exists t l ky, pc (th s t) = WCheck l /\ key (th s t) = Some ky /\
      (N.of_nat (kg ky) + two32 <= N.of_nat (ep (ec s (ke ky))))%N.
  Proof.
    destruct lab as [t c]. intros I A0 H A.
    cases H; simpl in A; try congruence. rewrite A0 in A. simpl in A.
    apply negb_true_iff, Nat.eqb_neq in A. apply N.eqb_eq in Heqb.
    destruct (e_kw _ _ _ _ I t k Heqo) as [Hw Hle].
    rewrite (e_val _ _ _ _ I), word_epoch, Hw in Heqb by (apply nkeys_bound; auto).
    exists t, l, k. repeat split; auto.
    assert (H2 : (two32 <> 0)%N) by discriminate.
    pose proof (N.div_mod (N.of_nat (ep (ec s (ke k)))) _ H2) as D1.
    pose proof (N.div_mod (N.of_nat (kg k)) _ H2) as D2. rewrite Heqb in D1.
    assert (N.of_nat (kg k) < N.of_nat (ep (ec s (ke k))))%N by lia.
    set (a := (N.of_nat (ep (ec s (ke k))) / two32)%N) in *. set (b := (N.of_nat (kg k) / two32)%N) in *.
    assert (b < a)%N by (destruct (N.lt_ge_cases b a); auto; unfold two32 in *; nia).
    unfold two32 in *. nia.
  Qed.
  Lemma aba_window c0 l0 : (forall t, holds t (l0 t) = None) -> forall ls s,
    exec step (init c0 l0) ls = Next s ->
    (forall n s1 t l ky, exec step (init c0 l0) (firstn n ls) = Next s1 -> pc (th s1 t) = WCheck l ->
      key (th s1 t) = Some ky -> (N.of_nat (ep (ec s1 (ke ky))) < N.of_nat (kg ky) + two32)%N) ->
    aba s = false.
  Proof.
    intros H0. assert (W0 : WakeInv (init c0 l0)) by now apply wake_init.
    assert (A0 : aba (init c0 l0) = false) by reflexivity. revert W0 A0.
    generalize (init c0 l0) as s0. intros s0 W0 A0 ls. revert s0 W0 A0.
    induction ls as [|lab ls IH]; simpl; intros s0 W0 A0 s E F.
    - now injection E as <-.
    - destruct (step s0 lab) as [| |s2] eqn:Es; try discriminate. apply (IH s2); auto.
      + eapply wake_step; eauto.
      + destruct (aba s2) eqn:A2; auto. exfalso.
        destruct (aba_stale s0 lab s2 (w_ec _ W0) A0 Es A2) as (t & l & ky & P & K & B).
        pose proof (F 0 s0 t l ky eq_refl P K). lia.
      + intros n s1 t l ky E1. apply (F (S n)). simpl. now rewrite Es.
  Qed.
  Lemma no_lost_wakeup s t w : WakeInv s -> aba s = false ->
    pc (th s t) = Parked w -> holds t w = Some e0 -> wants t w (cs s) ->
    exists u, owes s u \/ pending s u.
  Proof.
    intros W A E Hh Wt.
    assert (Wc := e_wc _ _ _ _ (w_ec _ W) t). rewrite E in Wc. specialize (Wc eq_refl). simpl in Wc.
    assert (Ea : armed t w = Some w).
    { pose proof (CO t w) as [_ X]. unfold is_wait in Wc. destruct (code t w); tauto. }
    assert (Ek := e_key _ _ _ _ (w_ec _ W) t). rewrite E in Ek. simpl in Ek. rewrite Hh in Ek.
    destruct (key (th s t)) as [ky|] eqn:K; [|discriminate]. simpl in Ek. injection Ek as Ek.
    assert (Hq : In t (wq (ec s e0))).
    { rewrite <- Ek. eapply (e_wq2 _ _ _ _ (w_ec _ W)); eauto. now rewrite E. }
    destruct (w_1 _ W A t w ky) as [[u O]|Hlt]; auto.
    - unfold watch. now rewrite E.
    - eauto.
    - destruct (w_2 _ W A t ky Hq K Hlt) as [u P]. eauto.
  Qed.
End Wake.
