(** Invariants of the EventCount code for arbitrary clients. *)
From Verif Require Import Util Conc EcModel.

(** Sums over the fibers 0 .. n-1. *)
Fixpoint sumn (f : nat -> nat) (n : nat) : nat :=
  match n with O => 0 | S m => sumn f m + f m end.
Lemma sumn_ext f g n : (forall i, i < n -> f i = g i) -> sumn f n = sumn g n.
Proof. induction n; simpl; intros; auto. rewrite IHn, H; auto. Qed.
Lemma sumn_upd f t v n : t < n ->
  sumn (fun i => if i =? t then v else f i) n + f t = sumn f n + v.
Proof.
  induction n; simpl; intros; [lia|].
  destruct (Nat.eq_dec t n) as [->|Hn].
  - rewrite Nat.eqb_refl.
    rewrite (sumn_ext (fun i => if i =? n then v else f i) f). lia.
    intros i Hi. destruct (Nat.eqb_spec i n); auto. lia.
  - specialize (IHn ltac:(lia)). destruct (Nat.eqb_spec n t); lia.
Qed.
(** The version used in proofs: the function changes at [t] only. *)
Lemma sumn_chg f g t n : t < n -> (forall i, i <> t -> f i = g i) ->
  sumn f n + g t = sumn g n + f t.
Proof.
  intros Ht H. rewrite (sumn_ext f (fun i => if i =? t then f t else g i)).
  apply sumn_upd; auto.
  intros i _. destruct (Nat.eqb_spec i t); subst; auto.
Qed.
Lemma sumn_le f n b : (forall i, i < n -> f i <= b) -> sumn f n <= n * b.
Proof. induction n; simpl; intros; auto. specialize (IHn ltac:(auto)). specialize (H n). lia. Qed.
Lemma sumn_pos f n t : t < n -> f t <= sumn f n.
Proof. induction n; simpl; intros; [lia|]. destruct (Nat.eq_dec t n) as [->|]; [lia|]. specialize (IHn ltac:(lia)). lia. Qed.
Lemma sumn_zero f n : sumn f n = 0 -> forall t, t < n -> f t = 0.
Proof. intros H t Ht. pose proof (sumn_pos f n t Ht). lia. Qed.
Lemma sumn_ex f n : 0 < sumn f n -> exists t, t < n /\ 0 < f t.
Proof.
  induction n; simpl; intros; [lia|]. destruct (f n) eqn:E.
  - destruct IHn as (t & ? & ?). lia. exists t; split; auto; lia.
  - exists n. split; lia.
Qed.

(** Word arithmetic on val_. *)
Definition word (p w : N) : N := ((p * two32 + w) mod two64)%N.
Lemma two64_32 : two64 = (two32 * two32)%N. Proof. reflexivity. Qed.
Lemma word_epoch p w : (w < two32)%N -> epoch_of (word p w) = (p mod two32)%N.
Proof. unfold epoch_of, word. rewrite two64_32. unfold two32. intros. lia. Qed.
Lemma word_waiters p w : (w < two32)%N -> waiters_of (word p w) = w.
Proof. unfold waiters_of, word. rewrite two64_32. unfold two32. intros. lia. Qed.
Lemma word_addw p w : add64 (word p w) 1 = word p (w + 1).
Proof. unfold add64, word. rewrite N.add_mod_idemp_l by (unfold two64; lia). f_equal. lia. Qed.
Lemma word_adde p w : add64 (word p w) kAddEpoch = word (p + 1) w.
Proof. unfold add64, word, kAddEpoch. rewrite N.add_mod_idemp_l by (unfold two64; lia). f_equal. lia. Qed.
Lemma word_subw p w : (0 < w)%N -> sub64 (word p w) 1 = word p (w - 1).
Proof.
  unfold sub64, word. intros. rewrite N.add_mod_idemp_l by (unfold two64; lia).
  replace (p * two32 + w + (two64 - 1))%N with (p * two32 + (w - 1) + 1 * two64)%N by (unfold two64; lia).
  now rewrite N.mod_add by (unfold two64; lia).
Qed.

Section EcInv.
  Context {C L : Type}.
  Variable NT : nat.
  Variable code : nat -> L -> @instr C L.
  Notation st := (st C L).
  Notation step := (step NT code).
  Notation timed := (timed code).
  Notation cont := (cont code).

  (** Static discipline of the client: the event count whose key is held at each point. *)
  Variable holds : nat -> L -> option nat.
  Definition key_ok : Prop := forall t l,
    match code t l with
    | Atom f => forall c n c' l', f c n = Next (c', l') -> holds t l' = holds t l
    | PrepareWait e k => holds t l = None /\ holds t k = Some e
    | DropKey k => holds t l <> None /\ holds t k = None
    | Wait k => holds t l <> None /\ holds t k = holds t l
    | WaitUntil kt ko => holds t l <> None /\ holds t kt = holds t l /\ holds t ko = holds t l
    | Notify e all k => holds t k = holds t l
    end.

  Definition is_wait (t : nat) (l : L) : Prop :=
    match code t l with Wait _ | WaitUntil _ _ => True | _ => False end.
  Definition loc (p : pct L) : L :=
    match p with
    | Run l | NLock _ _ l | NWork _ _ l | NUnl _ l | WLock l | WCheck l | WUnl l _ | Parked l
    | Woken l | FLock l _ | FUnl l _ => l end.
  Definition waiting (p : pct L) : bool :=
    match p with WLock _ | WCheck _ | WUnl _ _ | Parked _ | Woken _ | FLock _ _ | FUnl _ _ => true
    | _ => false end.
  (** The event count whose spinlock the fiber holds. *)
  Definition owns (x : thr L) (e : nat) : Prop :=
    match pc x with
    | NWork e' _ _ | NUnl e' _ => e' = e
    | WCheck _ | WUnl _ _ | FUnl _ _ => exists ky, key x = Some ky /\ ke ky = e
    | _ => False
    end.
  (** Points at which the fiber may be / must be in the wait queue. *)
  Definition may_link (t : nat) (p : pct L) : Prop :=
    match p with WUnl _ true | Parked _ => True | FLock l true => timed t l = true | _ => False end.
  Definition must_link (p : pct L) : Prop :=
    match p with WUnl _ true | Parked _ => True | _ => False end.
  Definition has (x : thr L) (e : nat) : nat :=
    match key x with Some ky => if ke ky =? e then 1 else 0 | None => 0 end.
  Definition nkeys (s : st) (e : nat) : nat := sumn (fun t => has (th s t) e) NT.

  Record EcInv (s : st) : Prop := mkEcInv {
    e_key : forall t, option_map ke (key (th s t)) = holds t (loc (pc (th s t)));
    e_wc : forall t, waiting (pc (th s t)) = true -> is_wait t (loc (pc (th s t)));
    e_lk : forall e t, lk (ec s e) = Some t <-> owns (th s t) e;
    e_nd : forall e, NoDup (wq (ec s e));
    e_wq : forall e t, In t (wq (ec s e)) -> may_link t (pc (th s t)) /\ option_map ke (key (th s t)) = Some e;
    e_wq2 : forall t ky, must_link (pc (th s t)) -> key (th s t) = Some ky -> In t (wq (ec s (ke ky)));
    e_val : forall e, val (ec s e) = word (N.of_nat (ep (ec s e))) (N.of_nat (nkeys s e));
    e_kw : forall t ky, key (th s t) = Some ky ->
      kw ky = (N.of_nat (kg ky) mod two32)%N /\ kg ky <= ep (ec s (ke ky));
    e_idle : forall t, NT <= t -> exists l, pc (th s t) = Run l;
    e_fl : forall t l, pc (th s t) = FLock l true -> timed t l = true
  }.

  Hypothesis KO : key_ok.
  Hypothesis Hnt : (N.of_nat NT < two32)%N.

  Lemma nkeys_bound s e : (N.of_nat (nkeys s e) < two32)%N.
  Proof.
    unfold nkeys. pose proof (sumn_le (fun t => has (th s t) e) NT 1).
    assert (sumn (fun t => has (th s t) e) NT <= NT * 1).
    { apply H. intros. unfold has. destruct key; [destruct (_ =? _)|]; lia. }
    lia.
  Qed.
  Lemma nkeys_chg s s' t e : t < NT -> (forall u, u <> t -> key (th s' u) = key (th s u)) ->
    nkeys s' e + has (th s t) e = nkeys s e + has (th s' t) e.
  Proof.
    intros Ht H. unfold nkeys. apply (sumn_chg (fun u => has (th s' u) e) (fun u => has (th s u) e)); auto.
    intros. unfold has. now rewrite H.
  Qed.
  Lemma nkeys_same s s' e : (forall u, key (th s' u) = key (th s u)) -> nkeys s' e = nkeys s e.
  Proof. intros H. unfold nkeys. apply sumn_ext. intros. unfold has. now rewrite H. Qed.

  (** *** Frame lemmas: how the setters change what is observed. *)
  Lemma pc_set_pc (s : st) t p u : pc (th (set_pc s t p) u) = if u =? t then p else pc (th s u).
  Proof. unfold set_pc, upd. simpl. destruct (u =? t); auto. Qed.
  Lemma key_set_pc (s : st) t p u : key (th (set_pc s t p) u) = key (th s u).
  Proof. unfold set_pc, upd. simpl. destruct (Nat.eqb_spec u t); subst; auto. Qed.
  Lemma ec_set_pc (s : st) t p e : ec (set_pc s t p) e = ec s e. Proof. reflexivity. Qed.
  Lemma pc_set_key (s : st) t k u : pc (th (set_key s t k) u) = pc (th s u).
  Proof. unfold set_key, upd. simpl. destruct (Nat.eqb_spec u t); subst; auto. Qed.
  Lemma key_set_key (s : st) t k u : key (th (set_key s t k) u) = if u =? t then k else key (th s u).
  Proof. unfold set_key, upd. simpl. destruct (u =? t); auto. Qed.
  Lemma ec_set_key (s : st) t k e : ec (set_key s t k) e = ec s e. Proof. reflexivity. Qed.
  Lemma ec_set_ec (s : st) e x e' : ec (set_ec s e x) e' = if e' =? e then x else ec s e'.
  Proof. reflexivity. Qed.
  Lemma th_set_ec (s : st) e x t : th (set_ec s e x) t = th s t. Proof. reflexivity. Qed.
  Lemma cs_set_pc (s : st) t p : cs (set_pc s t p) = cs s. Proof. reflexivity. Qed.
  Lemma aba_set_pc (s : st) t p : aba (set_pc s t p) = aba s. Proof. reflexivity. Qed.

  Lemma th_set_cs (s : st) c t : th (set_cs s c) t = th s t. Proof. reflexivity. Qed.
  Lemma ec_set_cs (s : st) c e : ec (set_cs s c) e = ec s e. Proof. reflexivity. Qed.
  Lemma th_set_aba (s : st) b t : th (set_aba s b) t = th s t. Proof. reflexivity. Qed.
  Lemma ec_set_aba (s : st) b e : ec (set_aba s b) e = ec s e. Proof. reflexivity. Qed.

  (** Structural part of the invariant, about [pc], [key], [ec] seen as functions. *)
  Ltac rw := rewrite ?th_set_aba, ?ec_set_aba, ?th_set_cs, ?ec_set_cs, ?th_set_ec, ?pc_set_pc,
    ?key_set_pc, ?ec_set_pc, ?pc_set_key, ?key_set_key, ?ec_set_key, ?th_set_ec, ?ec_set_ec,
    ?th_set_cs, ?ec_set_cs in *.

  (** A step of [t] that changes only [pc] of [t], between points that hold no lock and are not in
      a wait queue. *)
  Definition lockfree (p : pct L) : Prop :=
    match p with Run _ | NLock _ _ _ | WLock _ | FLock _ _ | Parked _ | Woken _ => True | _ => False end.

  Lemma owns_lockfree x e : lockfree (pc x) -> ~ owns x e.
  Proof. unfold owns. destruct (pc x); simpl; auto. Qed.

  (** General form of the preservation: [t] moves to [p'], its key does not change, event count [e]
      changes its lock and queue only; another fiber may change from Parked to Woken. *)
  Lemma inv_goto s t p' : EcInv s -> t < NT -> lockfree (pc (th s t)) -> lockfree p' ->
    holds t (loc p') = holds t (loc (pc (th s t))) ->
    (waiting p' = true -> is_wait t (loc p')) ->
    (must_link p' -> must_link (pc (th s t))) ->
    (may_link t (pc (th s t)) -> may_link t p') ->
    (forall l, p' = FLock l true -> timed t l = true) ->
    EcInv (set_pc s t p').
  Proof.
    intros [] Ht H1 H2 H3 H4 H5 H6 H7. constructor; intros; rw.
    - destruct (Nat.eqb_spec t0 t); subst; rewrite ?H3; auto.
    - destruct (Nat.eqb_spec t0 t); subst; auto.
    - rewrite e_lk0. unfold owns. rw. destruct (Nat.eqb_spec t0 t); subst; [|tauto].
      split; intros H; exfalso; revert H.
      + destruct (pc (th s t)); simpl in *; tauto.
      + destruct p'; simpl in *; tauto.
    - auto.
    - destruct (Nat.eqb_spec t0 t); subst; auto. split; apply e_wq0 in H; tauto.
    - destruct (Nat.eqb_spec t0 t); subst; auto.
    - rewrite (nkeys_same s) by (intros; now rw). auto.
    - eauto.
    - destruct (Nat.eqb_spec t0 t); subst; eauto. lia.
    - destruct (Nat.eqb_spec t0 t); subst; eauto.
  Qed.

  (** Changes of locks, queues and program points only. *)
  Lemma inv_gen s s' : EcInv s ->
    (forall u, key (th s' u) = key (th s u)) ->
    (forall e, val (ec s' e) = val (ec s e) /\ ep (ec s' e) = ep (ec s e)) ->
    (forall t, holds t (loc (pc (th s' t))) = holds t (loc (pc (th s t)))) ->
    (forall t, waiting (pc (th s' t)) = true -> is_wait t (loc (pc (th s' t)))) ->
    (forall e t, lk (ec s' e) = Some t <-> owns (th s' t) e) ->
    (forall e, NoDup (wq (ec s' e))) ->
    (forall e t, In t (wq (ec s' e)) -> may_link t (pc (th s' t)) /\ option_map ke (key (th s' t)) = Some e) ->
    (forall t ky, must_link (pc (th s' t)) -> key (th s' t) = Some ky -> In t (wq (ec s' (ke ky)))) ->
    (forall t, NT <= t -> exists l, pc (th s' t) = Run l) ->
    (forall t l, pc (th s' t) = FLock l true -> timed t l = true) ->
    EcInv s'.
  Proof.
    intros [] Hk Hv Hl Hw Hlk Hnd Hq Hq2 Hi Hf. constructor; auto.
    - intros t. rewrite Hk, Hl. auto.
    - intros e. destruct (Hv e) as [-> ->]. rewrite (nkeys_same s s'); auto.
    - intros t ky. rewrite Hk. intros E. destruct (Hv (ke ky)) as [_ ->]. eauto.
  Qed.
  Lemma NoDup_app_last {A} (l : list A) x : NoDup l -> ~ In x l -> NoDup (l ++ [x]).
  Proof.
    intros. apply NoDup_rev in H. rewrite <- (rev_involutive (l ++ [x])). apply NoDup_rev.
    rewrite rev_app_distr. simpl. constructor; auto. now rewrite <- in_rev.
  Qed.

  Lemma owns_not_link s t e : EcInv s -> owns (th s t) e -> forall e', In t (wq (ec s e')) ->
    exists l, pc (th s t) = WUnl l true.
  Proof.
    intros I H e' Hi. apply (e_wq _ I) in Hi as [Hi _]. unfold owns in H.
    destruct (pc (th s t)); simpl in *; try tauto. destruct linked; try tauto. eauto.
  Qed.
  Lemma owner_unique s t u e : EcInv s -> owns (th s t) e -> owns (th s u) e -> t = u.
  Proof. intros I H1 H2. apply (e_lk _ I) in H1, H2. congruence. Qed.

  Ltac dt := match goal with |- context [?a =? ?b] => destruct (Nat.eqb_spec a b); subst
    | H : context [?a =? ?b] |- _ => destruct (Nat.eqb_spec a b); subst end.

  Lemma inv_acquire_n s t e all k : EcInv s -> t < NT -> pc (th s t) = NLock e all k ->
    match acquire s e t (NWork e all k) with Next s' => EcInv s' | Ub => False | Stuck => True end.
  Proof.
    intros I Ht E. unfold acquire. destruct (lk (ec s e)) eqn:El; auto.
    apply (inv_gen s); auto; intros; unfold owns in *; rw.
    - auto.
    - dt; auto.
    - dt; auto. now rewrite E.
    - revert H. dt; simpl; intros; [discriminate|]. now apply (e_wc _ I).
    - assert (A := e_lk _ I e0 t0). unfold owns in A. destruct (Nat.eqb_spec t0 t); subst.
      + rewrite E in A. dt; simpl. tauto. split; intros; [|congruence]. tauto.
      + dt; simpl; auto. rewrite El in A. split; intros; [congruence|]. now apply A in H.
    - dt; simpl; apply I.
    - destruct (e_wq _ I e0 t0) as [A B]. { revert H. dt; auto. }
      split; auto. dt; auto. now rewrite E in A.
    - revert H. dt; simpl; [tauto|]. intros. pose proof (e_wq2 _ I _ _ H H0). dt; simpl; congruence || auto.
    - dt. lia. now apply (e_idle _ I).
    - revert H. dt; [discriminate|]. now apply (e_fl _ I).
  Qed.
  Lemma inv_acquire_w s t l ky : EcInv s -> t < NT -> pc (th s t) = WLock l -> key (th s t) = Some ky ->
    match acquire s (ke ky) t (WCheck l) with Next s' => EcInv s' | Ub => False | Stuck => True end.
  Proof.
    intros I Ht E K. unfold acquire. destruct (lk (ec s (ke ky))) eqn:El; auto.
    apply (inv_gen s); auto; intros; unfold owns in *; rw.
    - auto.
    - dt; auto.
    - dt; auto. now rewrite E.
    - revert H. dt; simpl; intros; [|now apply (e_wc _ I)]. pose proof (e_wc _ I t) as A. rewrite E in A. auto.
    - assert (A := e_lk _ I e t0). unfold owns in A. destruct (Nat.eqb_spec t0 t); subst.
      + rewrite E in A. rewrite K. dt; simpl. { split; eauto. }
        split; intros. tauto. destruct H as (ky' & H & H'). congruence.
      + dt; simpl; auto. rewrite El in A. split; intros; [congruence|]. now apply A in H.
    - dt; simpl; apply I.
    - destruct (e_wq _ I e t0) as [A B]. { revert H. dt; auto. }
      split; auto. dt; auto. now rewrite E in A.
    - revert H. dt; simpl; [tauto|]. intros. pose proof (e_wq2 _ I _ _ H H0). dt; simpl; congruence || auto.
    - dt. lia. now apply (e_idle _ I).
    - revert H. dt; [discriminate|]. now apply (e_fl _ I).
  Qed.
  Lemma inv_acquire_f s t l to ky : EcInv s -> t < NT -> pc (th s t) = FLock l to -> key (th s t) = Some ky ->
    match acquire s (ke ky) t (FUnl l to) with
    | Next s1 => EcInv (if timed t l
                then set_ec s1 (ke ky) (with_wq (ec s1 (ke ky)) (filter (fun u => negb (Nat.eqb u t)) (wq (ec s1 (ke ky)))))
                else s1)
    | Ub => False | Stuck => True end.
  Proof.
    intros I Ht E K. unfold acquire. destruct (lk (ec s (ke ky))) eqn:El; auto.
    set (q' := if timed t l then filter (fun u => negb (Nat.eqb u t)) (wq (ec s (ke ky))) else wq (ec s (ke ky))).
    assert (Q1 : forall u, In u q' <-> In u (wq (ec s (ke ky))) /\ u <> t).
    { intros u. subst q'. destruct (timed t l) eqn:Tm.
      - rewrite filter_In, negb_true_iff, Nat.eqb_neq. tauto.
      - split; try tauto. intros Hu. split; auto. intros ->. apply (e_wq _ I) in Hu as [Hu _].
        rewrite E in Hu. simpl in Hu. destruct to; congruence. }
    assert (Q2 : NoDup q').
    { subst q'. destruct (timed t l); [apply NoDup_filter|]; apply I. }
    match goal with |- EcInv ?x => set (s' := x) end.
    assert (F1 : forall u, key (th s' u) = key (th s u)).
    { intros. subst s'. destruct (timed t l); now rw. }
    assert (F2 : forall u, pc (th s' u) = if u =? t then FUnl l to else pc (th s u)).
    { intros. subst s'. destruct (timed t l); now rw. }
    assert (F3 : forall e, ec s' e = if e =? ke ky then mk_ec (val (ec s (ke ky))) (Some t) q' (ep (ec s (ke ky))) else ec s e).
    { intros. subst s' q'. unfold set_ec, set_pc, upd. destruct (timed t l); simpl; rewrite ?Nat.eqb_refl; simpl; destruct (e =? ke ky); auto. }
    clearbody s' q'.
    apply (inv_gen s); auto; intros; unfold owns in *; rewrite ?F1, ?F2, ?F3 in *.
    - dt; auto.
    - dt; auto. now rewrite E.
    - revert H. dt; simpl; intros; [|now apply (e_wc _ I)]. pose proof (e_wc _ I t) as A. rewrite E in A. auto.
    - assert (A := e_lk _ I e t0). unfold owns in A. destruct (Nat.eqb_spec t0 t); subst.
      + rewrite E in A. rewrite K. dt; simpl. { split; eauto. }
        split; intros. tauto. destruct H as (ky' & H & H'). congruence.
      + dt; simpl; auto. rewrite El in A. split; intros; [congruence|]. now apply A in H.
    - dt; simpl; auto; apply I.
    - assert (H' : In t0 (wq (ec s e)) /\ (e = ke ky -> t0 <> t)).
      { revert H. dt; simpl; rewrite ?Q1; tauto. }
      destruct H' as [H' H2]. destruct (e_wq _ I e t0 H') as [A B]. split; auto.
      destruct (Nat.eqb_spec t0 t); subst; auto.
      rewrite K in B. simpl in B. injection B as <-. tauto.
    - destruct (Nat.eqb_spec t0 t); subst; simpl in H; [tauto|].
      pose proof (e_wq2 _ I _ _ H H0). dt; auto. simpl. rewrite Q1. rewrite <- e; auto.
    - dt. lia. now apply (e_idle _ I).
    - destruct (Nat.eqb_spec t0 t); [discriminate|]. now apply (e_fl _ I).
  Qed.
  Lemma inv_release s t e p' : EcInv s -> t < NT -> owns (th s t) e -> lockfree p' ->
    holds t (loc p') = holds t (loc (pc (th s t))) ->
    (waiting p' = true -> is_wait t (loc p')) ->
    (must_link p' <-> must_link (pc (th s t))) ->
    (forall l, p' <> FLock l true) ->
    EcInv (set_pc (set_ec s e (with_lk (ec s e) None)) t p').
  Proof.
    intros I Ht O H1 H2 H3 H4 H5.
    assert (O2 : forall e', owns (th s t) e' -> e' = e).
    { intros e' O2. unfold owns in *. destruct (pc (th s t)); try tauto; try congruence;
      destruct O as (k1 & ? & ?), O2 as (k2 & ? & ?); congruence. }
    apply (inv_gen s); auto; intros; unfold owns in *; rw.
    - auto.
    - dt; auto.
    - dt; auto.
    - revert H. dt; simpl; intros; auto. now apply (e_wc _ I).
    - assert (A := e_lk _ I e0 t0). unfold owns in A. destruct (Nat.eqb_spec t0 t); subst.
      + split; intros H; exfalso.
        * revert H. dt; simpl. discriminate. intros H. apply A in H. apply O2 in H. auto.
        * destruct p'; simpl in *; tauto.
      + dt; simpl; auto. split; [discriminate|]. intros H. apply A in H.
        apply (e_lk _ I) in O. congruence.
    - dt; simpl; apply I.
    - assert (H' : In t0 (wq (ec s e0))). { revert H. dt; auto. }
      destruct (e_wq _ I e0 t0 H') as [A B]. split; auto. dt; auto.
      destruct (pc (th s t)); simpl in *; try tauto. destruct linked; simpl in *; try tauto.
      destruct p'; simpl in *; tauto.
    - assert (H' : must_link (pc (th s t0))). { revert H. dt; auto. tauto. }
      pose proof (e_wq2 _ I _ _ H' H0). dt; auto.
    - dt. lia. now apply (e_idle _ I).
    - destruct (Nat.eqb_spec t0 t); [|now apply (e_fl _ I)]. now apply H5 in H.
  Qed.
  Lemma inv_work_nil s t e all k : EcInv s -> t < NT -> pc (th s t) = NWork e all k ->
    EcInv (set_pc s t (NUnl e k)).
  Proof.
    intros I Ht E. apply (inv_gen s); auto; intros; unfold owns in *; rw.
    - auto.
    - dt; auto. now rewrite E.
    - revert H. dt; simpl; intros; [discriminate|]. now apply (e_wc _ I).
    - assert (A := e_lk _ I e0 t0). unfold owns in A. dt; auto. now rewrite E in A.
    - apply I.
    - destruct (e_wq _ I e0 t0 H) as [A B]. split; auto. dt; auto. now rewrite E in A.
    - revert H. dt; simpl; [tauto|]. intros. exact (e_wq2 _ I _ _ H H0).
    - dt. lia. now apply (e_idle _ I).
    - destruct (Nat.eqb_spec t0 t); [discriminate|]. now apply (e_fl _ I).
  Qed.
  Lemma inv_work_pop s t e all k w q : EcInv s -> t < NT -> pc (th s t) = NWork e all k ->
    wq (ec s e) = w :: q ->
    match activate (set_pc (set_ec s e (with_wq (ec s e) q)) t (if all then NWork e all k else NUnl e k)) w
    with Next s' => EcInv s' | Ub => False | Stuck => True end.
  Proof.
    intros I Ht E W. unfold activate. rw.
    destruct (e_wq _ I e w) as [A B]. { rewrite W; now left. }
    assert (Nw : w <> t). { intros ->. now rewrite E in A. }
    destruct (Nat.eqb_spec w t); [tauto|].
    assert (Nd : NoDup (w :: q)). { rewrite <- W. apply I. }
    assert (Nwq : ~ In w q). { now inversion Nd. }
    assert (Ndq : NoDup q). { now inversion Nd. }
    assert (Ow : owns (th s t) e). { unfold owns. now rewrite E. }
    assert (Oe := proj2 (e_lk _ I _ _) Ow).
    assert (Nunl : forall l, pc (th s w) <> WUnl l true).
    { intros l X. apply Nw. apply (owner_unique s w t e I); auto. unfold owns. rewrite X.
      destruct (key (th s w)); try discriminate. simpl in B. eexists; split; eauto. congruence. }
    assert (Common : forall s', (forall u, key (th s' u) = key (th s u)) ->
      (forall u, pc (th s' u) = if u =? t then (if all then NWork e all k else NUnl e k) else
          if u =? w then match pc (th s w) with Parked l => Woken l | x => x end else pc (th s u)) ->
      (forall e', ec s' e' = if e' =? e then with_wq (ec s e) q else ec s e') -> EcInv s').
    { intros s' F1 F2 F3. apply (inv_gen s); auto; intros; unfold owns in *; rewrite ?F1, ?F2, ?F3 in *.
      - dt; auto.
      - dt; auto. destruct all; now rewrite E. dt; auto. now destruct (pc (th s w)).
      - revert H. dt. destruct all; discriminate. dt. 
        pose proof (e_wc _ I w). destruct (pc (th s w)); simpl in *; auto. apply e_wc; auto.
      - assert (L0 := e_lk _ I e0 t0). unfold owns in L0. destruct (Nat.eqb_spec t0 t); subst.
        + rewrite E in L0. dt; simpl; destruct all; auto.
        + destruct (Nat.eqb_spec t0 w); subst.
          * destruct (pc (th s w)); simpl in *; auto; dt; simpl; auto.
          * dt; simpl; auto.
      - dt; simpl; auto. apply I.
      - assert (H' : In t0 (wq (ec s e0)) /\ (e0 = e -> t0 <> w)).
        { revert H. dt; simpl. rewrite W. simpl. intros. split; auto. intros _ ->. auto. tauto. }
        destruct H' as [H1 H2]. destruct (e_wq _ I e0 t0 H1) as [A' B']. split; auto.
        dt. rewrite E in A'. now destruct all. dt; auto. exfalso. apply H2; congruence.
      - destruct (Nat.eqb_spec t0 t); [now destruct all|]. destruct (Nat.eqb_spec t0 w); subst.
        + exfalso. destruct (pc (th s w)); simpl in *; auto. destruct linked; auto. now apply (Nunl l).
        + pose proof (e_wq2 _ I _ _ H H0) as Q. dt; auto. simpl. rewrite W in Q.
          destruct Q; auto. congruence.
      - dt. lia. dt. destruct (e_idle _ I w H) as [l ->]. eauto. now apply (e_idle _ I).
      - destruct (Nat.eqb_spec t0 t); [now destruct all|]. destruct (Nat.eqb_spec t0 w); subst.
        pose proof (e_fl _ I w l). destruct (pc (th s w)); auto. discriminate. now apply (e_fl _ I). }
    destruct (pc (th s w)) eqn:Ep; simpl in A; try tauto; auto.
    - destruct linked; try tauto. now apply (Nunl l).
    - apply Common; intros; rw; auto. dt. destruct (Nat.eqb_spec w t); [tauto|]. auto. auto.
    - destruct timed_out; try tauto. apply Common; intros; rw; auto. dt; auto. dt; auto.
  Qed.
  Lemma inv_check_link s t l ky b : EcInv s -> t < NT -> pc (th s t) = WCheck l -> key (th s t) = Some ky ->
    EcInv (set_aba (set_pc (set_ec s (ke ky) (with_wq (ec s (ke ky)) (wq (ec s (ke ky)) ++ [t]))) t (WUnl l true)) b).
  Proof.
    intros I Ht E K.
    assert (Ni : forall e, ~ In t (wq (ec s e))). { intros e Hi. apply (e_wq _ I) in Hi as [Hi _]. now rewrite E in Hi. }
    apply (inv_gen s); auto; intros; unfold owns in *; rw.
    - auto.
    - dt; auto.
    - dt; auto. now rewrite E.
    - revert H. dt; simpl; intros; [|now apply (e_wc _ I)]. pose proof (e_wc _ I t) as A. rewrite E in A. auto.
    - assert (A := e_lk _ I e t0). unfold owns in A. destruct (Nat.eqb_spec t0 t); subst.
      + rewrite E in A. dt; simpl; auto.
      + dt; simpl; auto.
    - dt; simpl; try apply I. apply NoDup_app_last; auto. apply I.
    - assert (H' : In t0 (wq (ec s e)) \/ (e = ke ky /\ t0 = t)).
      { revert H. dt; simpl; auto. rewrite in_app_iff. simpl. intuition. }
      destruct H' as [H'|[-> ->]].
      + destruct (e_wq _ I e t0 H') as [A B]. split; auto. dt; auto. now apply Ni in H'.
      + rewrite Nat.eqb_refl, K. simpl. auto.
    - destruct (Nat.eqb_spec t0 t); subst.
      + rewrite K in H0. injection H0 as <-. rewrite Nat.eqb_refl. simpl. rewrite in_app_iff. simpl. auto.
      + pose proof (e_wq2 _ I _ _ H H0). dt; auto. simpl. rewrite in_app_iff, <- e. auto.
    - dt. lia. now apply (e_idle _ I).
    - destruct (Nat.eqb_spec t0 t); [discriminate|]. now apply (e_fl _ I).
  Qed.
  Lemma inv_check_skip s t l : EcInv s -> t < NT -> pc (th s t) = WCheck l ->
    EcInv (set_pc s t (WUnl l false)).
  Proof.
    intros I Ht E. apply (inv_gen s); auto; intros; unfold owns in *; rw.
    - auto.
    - dt; auto. now rewrite E.
    - revert H. dt; simpl; intros; [|now apply (e_wc _ I)]. pose proof (e_wc _ I t) as A. rewrite E in A. auto.
    - assert (A := e_lk _ I e t0). unfold owns in A. dt; auto. now rewrite E in A.
    - apply I.
    - destruct (e_wq _ I e t0 H) as [A B]. split; auto. dt; auto. now rewrite E in A.
    - revert H. dt; simpl; [tauto|]. intros. exact (e_wq2 _ I _ _ H H0).
    - dt. lia. now apply (e_idle _ I).
    - destruct (Nat.eqb_spec t0 t); [discriminate|]. now apply (e_fl _ I).
  Qed.

  (** Steps that change a key or val_ (Prepare, Drop, Notify): [t] stays outside the locks. *)
  Lemma inv_val s s' t e : EcInv s -> t < NT -> lockfree (pc (th s t)) ->
    (forall e, ~ In t (wq (ec s e))) ->
    (forall u, u <> t -> th s' u = th s u) ->
    (forall e', lk (ec s' e') = lk (ec s e') /\ wq (ec s' e') = wq (ec s e') /\ ep (ec s e') <= ep (ec s' e')) ->
    (forall e', e' <> e -> ec s' e' = ec s e') ->
    lockfree (pc (th s' t)) -> ~ must_link (pc (th s' t)) -> waiting (pc (th s' t)) = false ->
    option_map ke (key (th s' t)) = holds t (loc (pc (th s' t))) ->
    (forall ky, key (th s' t) = Some ky -> kw ky = (N.of_nat (kg ky) mod two32)%N /\ kg ky <= ep (ec s' (ke ky))) ->
    val (ec s' e) = word (N.of_nat (ep (ec s' e))) (N.of_nat (nkeys s' e)) ->
    (forall e', e' <> e -> nkeys s' e' = nkeys s e') ->
    EcInv s'.
  Proof.
    intros I Ht H1 Hni Ho Hec Heo H2 H3 H4 H5 H6 H7 H8.
    assert (Hf : forall l b, pc (th s' t) <> FLock l b). { intros l b X. now rewrite X in H4. }
    constructor.
    - intros u. destruct (Nat.eq_dec u t); subst; auto. rewrite Ho by auto. apply I.
    - intros u. destruct (Nat.eq_dec u t); subst. congruence. rewrite Ho by auto. apply I.
    - intros e' u. destruct (Hec e') as (-> & _). destruct (Nat.eq_dec u t); subst.
      + pose proof (e_lk _ I e' t) as A. pose proof (owns_lockfree (th s t) e' H1).
        pose proof (owns_lockfree (th s' t) e' H2). tauto.
      + rewrite Ho by auto. apply I.
    - intros e'. destruct (Hec e') as (_ & -> & _). apply I.
    - intros e' u. destruct (Hec e') as (_ & -> & _). intros Hi. destruct (Nat.eq_dec u t); subst.
      now apply Hni in Hi. rewrite Ho by auto. now apply (e_wq _ I).
    - intros u ky. destruct (Hec (ke ky)) as (_ & -> & _). destruct (Nat.eq_dec u t); subst. tauto.
      rewrite Ho by auto. apply I.
    - intros e'. destruct (Nat.eq_dec e' e); subst; auto. rewrite Heo, H8 by auto. apply I.
    - intros u ky. destruct (Nat.eq_dec u t); subst; auto. rewrite Ho by auto. intros K.
      destruct (e_kw _ I u ky K). destruct (Hec (ke ky)) as (_ & _ & ?). split; auto; lia.
    - intros u Hu. assert (u <> t) by lia. rewrite Ho by auto. now apply (e_idle _ I).
    - intros u l. destruct (Nat.eq_dec u t); subst. intros X; now apply Hf in X. rewrite Ho by auto. apply I.
  Qed.

  Lemma run_not_linked s t l : EcInv s -> pc (th s t) = Run l -> forall e, ~ In t (wq (ec s e)).
  Proof. intros I E e Hi. apply (e_wq _ I) in Hi as [Hi _]. now rewrite E in Hi. Qed.

  Lemma wait_holds t l : is_wait t l -> holds t l <> None.
  Proof. unfold is_wait. specialize (KO t l). destruct (code t l); tauto. Qed.
  Lemma wait_key t l : is_wait t l -> holds t l = None -> False.
  Proof. intros H. now apply wait_holds in H. Qed.
  Lemma cont_ok t l b : is_wait t l -> exists k, cont t l b = Run k /\ holds t k = holds t l.
  Proof.
    unfold is_wait, EcModel.cont. specialize (KO t l). destruct (code t l); try tauto; intros _.
    - exists k. tauto.
    - destruct b; eexists; intuition eauto.
  Qed.

  (** Every step of the EventCount code and of a client that respects [key_ok] keeps the
      invariant; undefined behaviour can only come from the client's own [Atom]s. *)
  Definition atom_ub (s : st) (lab : nat * nat) : Prop :=
    exists l f, pc (th s (fst lab)) = Run l /\ code (fst lab) l = Atom f /\ f (cs s) (snd lab) = Ub.

  Lemma inv_step s lab : EcInv s ->
    match step s lab with Next s' => EcInv s' | Ub => atom_ub s lab | Stuck => True end.
  Proof.
    intros I. destruct lab as [t c]. unfold EcModel.step. cbn [fst snd].
    destruct (Nat.leb_spec NT t) as [|Ht]; auto.
    assert (Ek := e_key _ I t). assert (Ewc := e_wc _ I t).
    destruct (pc (th s t)) eqn:E; simpl in Ek.
    - (* Run *) unfold step_run. specialize (KO t l). destruct (code t l) eqn:Ec.
      + destruct (f (cs s) c) as [| |[c' l']] eqn:Ef; auto.
        * exists l, f. auto.
        * assert (X : EcInv (set_pc s t (Run l'))).
          { apply inv_goto; auto; rewrite ?E; simpl; auto; try discriminate. eauto. }
          destruct X. constructor; auto.
      + destruct KO as [K1 K2]. rewrite K1 in Ek. destruct (key (th s t)) eqn:Kt; try discriminate.
        match goal with |- EcInv ?x => set (s' := x) end.
        assert (N1 : forall e', nkeys s' e' + 0 = nkeys s e' + if e =? e' then 1 else 0).
        { intros e'. pose proof (nkeys_chg s s' t e' Ht) as X. unfold has in X at 1 2. rewrite Kt in X.
          rewrite X. subst s'. rw. now rewrite Nat.eqb_refl.
          intros u Hu. subst s'. rw. destruct (Nat.eqb_spec u t); congruence. }
        eapply (inv_val s s' t e); auto; subst s'; rw.
        * rewrite E; simpl; auto.
        * eapply run_not_linked; eauto.
        * intros u Hu. unfold set_pc, set_key, upd. simpl. destruct (Nat.eqb_spec u t); congruence.
        * intros e'. rw. dt; simpl; auto.
        * intros e' He. rw. dt; congruence.
        * rewrite Nat.eqb_refl. simpl; auto.
        * rewrite Nat.eqb_refl. simpl; auto.
        * rewrite Nat.eqb_refl. simpl; auto.
        * rewrite Nat.eqb_refl. simpl; auto.
        * rewrite Nat.eqb_refl. intros ky [= <-]. rw. cbn [ke kw kg]. rewrite Nat.eqb_refl. simpl. split; auto.
          rewrite (e_val _ I). apply word_epoch. apply nkeys_bound.
        * rewrite Nat.eqb_refl. simpl. specialize (N1 e). rewrite Nat.eqb_refl in N1.
          match goal with |- _ = word _ (N.of_nat ?m) => replace m with (nkeys s e + 1) by lia end.
          rewrite (e_val _ I), word_addw. f_equal. lia.
        * intros e' He. specialize (N1 e'). destruct (Nat.eqb_spec e e'); [congruence|]. lia.
      + destruct KO as [K1 K2]. destruct (key (th s t)) as [ky|] eqn:Kt; [|simpl in Ek; congruence].
        match goal with |- EcInv ?x => set (s' := x) end.
        assert (N1 : forall e', nkeys s' e' + (if ke ky =? e' then 1 else 0) = nkeys s e' + 0).
        { intros e'. pose proof (nkeys_chg s s' t e' Ht) as X. unfold has in X at 1 2. rewrite Kt in X.
          rewrite X. subst s'. rw. now rewrite Nat.eqb_refl.
          intros u Hu. subst s'. rw. destruct (Nat.eqb_spec u t); congruence. }
        eapply (inv_val s s' t (ke ky)); auto; subst s'; rw.
        * rewrite E; simpl; auto.
        * eapply run_not_linked; eauto.
        * intros u Hu. unfold set_pc, set_key, upd. simpl. destruct (Nat.eqb_spec u t); congruence.
        * intros e'. rw. dt; simpl; auto.
        * intros e' He. rw. dt; congruence.
        * rewrite Nat.eqb_refl. simpl; auto.
        * rewrite Nat.eqb_refl. simpl; auto.
        * rewrite Nat.eqb_refl. simpl; auto.
        * rewrite Nat.eqb_refl. simpl; auto.
        * rewrite Nat.eqb_refl. intros ky' [=].
        * rewrite Nat.eqb_refl. simpl. specialize (N1 (ke ky)). rewrite Nat.eqb_refl in N1.
          match goal with |- _ = word _ (N.of_nat ?m) => replace m with (nkeys s (ke ky) - 1) by lia end.
          rewrite (e_val _ I), word_subw by lia. f_equal. lia.
        * intros e' He. specialize (N1 e'). destruct (Nat.eqb_spec (ke ky) e'); [congruence|]. lia.
      + destruct KO as [K1 K2]. destruct (key (th s t)) eqn:Kt; [|simpl in Ek; congruence].
        apply inv_goto; auto; rewrite ?E; simpl; auto; try discriminate. intros _. unfold is_wait. now rewrite Ec.
      + destruct KO as (K1 & K2 & K3). destruct (key (th s t)) eqn:Kt; [|simpl in Ek; congruence].
        apply inv_goto; auto; rewrite ?E; simpl; auto; try discriminate. intros _. unfold is_wait. now rewrite Ec.
      + match goal with |- EcInv ?x => set (s' := x) end.
        assert (N1 : forall e', nkeys s' e' = nkeys s e').
        { intros e'. apply nkeys_same. intros. subst s'. now rw. }
        eapply (inv_val s s' t e); auto; subst s'; rw.
        * rewrite E; simpl; auto.
        * eapply run_not_linked; eauto.
        * intros u Hu. unfold set_pc, set_key, upd. simpl. destruct (Nat.eqb_spec u t); congruence.
        * intros e'. rw. dt; simpl; auto.
        * intros e' He. rw. dt; congruence.
        * rewrite Nat.eqb_refl. destruct (_ =? _)%N; simpl; auto.
        * rewrite Nat.eqb_refl. destruct (_ =? _)%N; simpl; auto.
        * rewrite Nat.eqb_refl. destruct (_ =? _)%N; simpl; auto.
        * rewrite Nat.eqb_refl. destruct (_ =? _)%N; simpl; congruence.
        * intros ky Kt. destruct (e_kw _ I t ky Kt). rw. dt; simpl; auto.
        * rewrite Nat.eqb_refl. simpl. rewrite N1, (e_val _ I), word_adde. f_equal. lia.
    - pose proof (inv_acquire_n s t e all k I Ht E) as X. destruct acquire; auto. tauto.
    - destruct (wq (ec s e)) as [|w q] eqn:W.
      + eapply inv_work_nil; eauto.
      + pose proof (inv_work_pop s t e all k w q I Ht E W) as X.
        destruct (activate _ w) eqn:Ea; auto. tauto.
    - unfold release. apply inv_release; auto; unfold owns; rewrite ?E; simpl; auto; try tauto; congruence.
    - destruct (key (th s t)) as [ky|] eqn:Kt; [|exfalso; eapply wait_key; [exact (Ewc eq_refl)|auto]].
      pose proof (inv_acquire_w s t l ky I Ht E Kt) as X. destruct acquire; auto. tauto.
    - destruct (key (th s t)) as [ky|] eqn:Kt; [|exfalso; eapply wait_key; [exact (Ewc eq_refl)|auto]].
      destruct (_ =? _)%N. apply inv_check_link; auto. apply inv_check_skip; auto.
    - destruct (key (th s t)) as [ky|] eqn:Kt; [|exfalso; eapply wait_key; [exact (Ewc eq_refl)|auto]].
      assert (O : owns (th s t) (ke ky)). { unfold owns. rewrite E. eauto. }
      destruct linked; [|pose proof (cont_ok t l false (Ewc eq_refl)) as (k & -> & Hk)]; apply inv_release;
        auto; rewrite ?E; simpl; auto; try tauto; try congruence.
    - destruct (timed t l) eqn:Tm; auto. apply inv_goto; auto; rewrite ?E; simpl; auto; try tauto. congruence.
    - apply inv_goto; auto; rewrite ?E; simpl; auto; try tauto.
      intros l' [= <- X]. apply andb_prop in X. tauto.
    - destruct (key (th s t)) as [ky|] eqn:Kt; [|exfalso; eapply wait_key; [exact (Ewc eq_refl)|auto]].
      pose proof (inv_acquire_f s t l timed_out ky I Ht E Kt) as X.
      destruct acquire eqn:Ea; auto. tauto.
    - destruct (key (th s t)) as [ky|] eqn:Kt; [|exfalso; eapply wait_key; [exact (Ewc eq_refl)|auto]].
      assert (O : owns (th s t) (ke ky)). { unfold owns. rewrite E. eauto. }
      pose proof (cont_ok t l timed_out (Ewc eq_refl)) as (k & -> & Hk). apply inv_release;
        auto; rewrite ?E; simpl; auto; try tauto; try congruence.
  Qed.

  Lemma inv_init c0 l0 : (forall t, holds t (l0 t) = None) -> EcInv (init c0 l0).
  Proof.
    intros H. constructor; simpl; intros; auto; try tauto; try discriminate.
    - split; [discriminate|]. unfold owns. simpl. tauto.
    - constructor.
    - replace (nkeys (init c0 l0) e) with 0; auto. unfold nkeys, init, has. simpl.
      clear. induction NT; simpl; lia.
    - eauto.
  Qed.
End EcInv.
