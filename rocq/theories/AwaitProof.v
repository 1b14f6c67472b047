From Verif Require Import Util Conc EcModel EcProof EcWake AwaitModel.

Section AwaitProof.
  Context {X : Type}.
  Variable cond : nat -> X -> bool.
  Variable take : nat -> X -> X.
  Variable op : nat -> X -> X * bool.
  Variable all : bool.
  Variable menu : nat -> nat -> option call.
  Variable waiter : nat -> bool.
  Variable NT : nat.
  Notation code := (acode cond take op all menu waiter).
  Notation astep := (step NT code).

  Definition aholds (t : nat) (l : aloc) : option nat :=
    match l with Cond _ _ | Wt _ _ | Lp _ _ | Dn _ | Tmo _ => Some 0 | _ => None end.
  Definition awants (t : nat) (l : aloc) (x : X) : Prop :=
    match l with Wt k _ => cond k x = true | _ => False end.
  Definition aarmed (t : nat) (l : aloc) : option aloc :=
    match l with Wt _ _ => Some l | _ => None end.
  Definition adebt (t : nat) (l : aloc) : Prop := l = Ntf.

  Hypothesis Hnt : (N.of_nat NT < two32)%N.
  Lemma akey_ok : key_ok code aholds.
  Proof.
    intros t l. destruct l; simpl; auto.
    - intros c n c' l'. destruct (menu t n) as [[k tm|g]|]; try discriminate.
      destruct (waiter t); try discriminate. intros [= <- <-]; auto.
      destruct (op g c) as [x b]. destruct b; intros [= <- <-]; auto.
    - intros c _ c' l'. destruct (cond k c); intros [= <- <-]; auto.
    - destruct (waiter t); simpl; auto. intros; discriminate.
    - intros c _ c' l'. destruct (cond k c); intros [= <- <-]; auto.
    - destruct tm; simpl; auto; split; auto; discriminate.
    - split; auto; discriminate.
    - split; auto; discriminate.
    - split; auto; discriminate.
  Qed.

  (** Only operations and successful conditions change the shared state. *)
  Lemma await_cs_inv (I : X -> Prop) x0 s : (forall g x, I x -> I (fst (op g x))) ->
    (forall k x, I x -> cond k x = true -> I (take k x)) -> I x0 -> reachable astep (ainit x0) s -> I (cs s).
  Proof.
    intros Ho Ht H0 [ls E]. assert (H1 : I (cs (ainit x0))) by exact H0. revert H1 E. generalize (ainit x0).
    induction ls as [|[t c] ls IH]; simpl; intros s0 H1 E. { now injection E as <-. }
    destruct (astep s0 (t, c)) as [| |s1] eqn:Es; try discriminate. apply (IH s1); auto. clear IH E.
    unfold step in Es. cbn [fst snd] in Es. destruct (NT <=? t); try discriminate.
    destruct (pc (th s0 t)) as [l|e al k|e al k|e k|l|l|l lkd|l|l|l to|l to].
    - unfold step_run in Es. destruct l; simpl in Es.
      + destruct (menu t c) as [[k tm|g]|]; try discriminate.
        * destruct (waiter t); try discriminate. injection Es as <-. exact H1.
        * pose proof (Ho g _ H1) as Hx. destruct (op g (cs s0)) as [x' b]. injection Es as <-. exact Hx.
      + destruct (cond k (cs s0)) eqn:Ec; injection Es as <-; simpl; auto.
      + destruct (waiter t); try discriminate. destruct (key (th s0 t)); try discriminate. injection Es as <-. exact H1.
      + destruct (cond k (cs s0)) eqn:Ec; injection Es as <-; simpl; auto.
      + destruct tm; destruct (key (th s0 t)); try discriminate; injection Es as <-; exact H1.
      + destruct (key (th s0 t)); try discriminate; injection Es as <-; exact H1.
      + destruct (key (th s0 t)); try discriminate; injection Es as <-; exact H1.
      + destruct (key (th s0 t)); try discriminate; injection Es as <-; exact H1.
      + injection Es as <-. exact H1.
    - unfold acquire in Es. destruct (lk (ec s0 e)); try discriminate. injection Es as <-. exact H1.
    - destruct (wq (ec s0 e)). injection Es as <-. exact H1.
      unfold activate in Es. match type of Es with context [match ?x with _ => _ end] => destruct x; try discriminate end.
      injection Es as <-. exact H1. destruct timed_out; try discriminate. injection Es as <-. exact H1.
    - injection Es as <-. exact H1.
    - destruct (key (th s0 t)); try discriminate. unfold acquire in Es. destruct (lk _); try discriminate. injection Es as <-. exact H1.
    - destruct (key (th s0 t)); try discriminate. destruct (_ =? _)%N; injection Es as <-; exact H1.
    - destruct (key (th s0 t)); try discriminate. injection Es as <-. exact H1.
    - destruct (timed _ _ _); try discriminate. injection Es as <-. exact H1.
    - injection Es as <-. exact H1.
    - destruct (key (th s0 t)); try discriminate. unfold acquire in Es. destruct (lk _); try discriminate. injection Es as <-.
      destruct (timed _ _ _); exact H1.
    - destruct (key (th s0 t)); try discriminate. injection Es as <-. exact H1.
  Qed.

  (** An operation that makes a condition true is followed by the notification; evaluating a
      condition does not make another one true. *)
  Hypothesis Hop : forall g x k, cond k (fst (op g x)) = true -> cond k x = true \/ snd (op g x) = true.
  Hypothesis Htake : forall j x k, cond j x = true -> cond k (take j x) = true -> cond k x = true.
  Hypothesis Hall : all = true \/ exists w0, forall t, waiter t = true -> t = w0.

  Lemma aclient_ok : client_ok code aholds 0 awants aarmed adebt.
  Proof.
    intros t l. split. { destruct l; simpl; congruence. }
    destruct l; simpl; auto.
    - intros x n x' l'. destruct (menu t n) as [[k tm|g]|]; try discriminate.
      + destruct (waiter t); try discriminate. intros [= <- <-]. repeat split; auto; try discriminate.
      + destruct (op g x) as [y b] eqn:Eo. intros Eq.
        assert (x' = y /\ l' = if b then Ntf else Idle) as [-> ->] by (split; congruence). clear Eq.
        pose proof (Hop g x) as H. rewrite Eo in H. simpl in H. repeat split.
        * intros u w. destruct w; simpl; try tauto. intros Hw. destruct (H _ Hw); auto. subst. right. reflexivity.
        * intros w. destruct b; discriminate.
        * discriminate.
    - intros x _ x' l'. destruct (cond k x) eqn:Ek; intros [= <- <-]; repeat split; auto; try discriminate.
      intros u w. destruct w; simpl; try tauto. intros Hw. left. eauto.
    - destruct (waiter t); simpl; auto. split; auto. discriminate. intros; discriminate.
    - intros x _ x' l'. destruct (cond k x) eqn:Ek; intros [= <- <-]; repeat split; auto; try discriminate.
      + intros u w. destruct w; simpl; try tauto. intros Hw. left. eauto.
      + intros w [= <-]. simpl. right. congruence.
    - destruct tm; repeat split; auto; discriminate.
    - split; auto. discriminate.
    - split; auto. discriminate.
    - split; auto. discriminate.
    - repeat split; auto. intros _. destruct Hall as [->|[w0 Hw]]; auto. right. exists w0. intros t' l' k.
      destruct l'; simpl; try discriminate; try (destruct tm; discriminate).
      destruct (waiter t') eqn:Ew; auto. discriminate.
  Qed.

  Lemma await_inv x0 s : reachable astep (ainit x0) s -> WakeInv NT code aholds 0 awants aarmed adebt s.
  Proof.
    intros R. eapply wake_reach; eauto using akey_ok, aclient_ok. auto.
  Qed.

  Lemma await_safe_pf x0 : safe astep (ainit x0).
  Proof.
    intros ls. assert (I0 : EcInv NT code aholds (ainit x0)) by (apply inv_init; auto).
    revert I0. generalize (ainit x0). induction ls as [|lab ls IH]; simpl; intros s I; [discriminate|].
    pose proof (inv_step NT code aholds akey_ok Hnt s lab I) as St.
    destruct (astep s lab) eqn:Es; try discriminate. 2: { now apply IH. }
    exfalso. destruct St as (l & f & _ & Ec & Ef). destruct l; simpl in Ec; try discriminate.
    - injection Ec as <-. destruct (menu _ _) as [[k tm|g]|]; try discriminate.
      destruct (waiter _); discriminate. destruct (op g (cs s)) as [? []]; discriminate.
    - injection Ec as <-. discriminate.
    - destruct (waiter _); try discriminate. injection Ec as <-. discriminate.
    - injection Ec as <-. discriminate.
    - destruct tm; discriminate.
  Qed.

  Lemma await_no_lost_wakeup_pf x0 s t k tm :
    reachable astep (ainit x0) s -> aba s = false ->
    pc (th s t) = Parked (Wt k tm) -> cond k (cs s) = true ->
    exists u, pc (th s u) = Run Ntf \/ pc (th s u) = NLock 0 all Idle \/ pc (th s u) = NWork 0 all Idle.
  Proof.
    intros R A E Hc. pose proof (await_inv _ _ R) as W.
    destruct (no_lost_wakeup NT code aholds 0 awants aarmed adebt aclient_ok s t (Wt k tm) W A E) as [u [O|P]]; auto.
    - exists u. pose proof (w_ntf _ _ _ _ _ _ _ _ W u) as N. unfold owes, adebt in O.
      destruct (pc (th s u)); try tauto; subst; auto; exfalso.
      + destruct N as [l N]. destruct l; simpl in N; try discriminate; try (destruct tm0; discriminate); destruct (waiter u); discriminate.
      + destruct N as [l N]. destruct l; simpl in N; try discriminate; try (destruct tm0; discriminate); destruct (waiter u); discriminate.
      + destruct N as [l [a N]]. destruct l; simpl in N; try discriminate; try (destruct tm0; discriminate); destruct (waiter u); discriminate.
    - exists u. pose proof (w_ntf _ _ _ _ _ _ _ _ W u) as N. unfold pending in P.
      destruct (pc (th s u)); try tauto; subst; destruct N as [l N];
      destruct l; simpl in N; try discriminate; try (destruct tm0; discriminate); try (destruct (waiter u); discriminate).
      + injection N as <- <-. auto.
      + injection N as <- <-. auto.
  Qed.
  Lemma await_aba_pf x0 s : reachable astep (ainit x0) s -> (N.of_nat (ep (ec s 0)) < two32)%N -> aba s = false.
  Proof.
    intros R H. destruct (aba s) eqn:A; auto. exfalso.
    assert (G : Gaba aholds s) .
    { eapply (aba_reach NT code aholds 0 awants aarmed adebt akey_ok Hnt aclient_ok x0 (fun _ => Idle)); auto. }
    destruct (G A) as (e & (t & l & Hh) & He). destruct l; simpl in Hh; try discriminate; injection Hh as <-; lia.
  Qed.
  Lemma await_window_pf x0 ls s : exec astep (ainit x0) ls = Next s ->
    (forall n s1 t l ky, exec astep (ainit x0) (firstn n ls) = Next s1 -> pc (th s1 t) = WCheck l ->
      key (th s1 t) = Some ky -> (N.of_nat (ep (ec s1 (ke ky))) < N.of_nat (kg ky) + two32)%N) ->
    aba s = false.
  Proof.
    apply (aba_window NT code aholds 0 awants aarmed adebt akey_ok Hnt aclient_ok x0 (fun _ => Idle)). auto.
  Qed.
  Lemma await_progress_pf x0 s u : reachable astep (ainit x0) s -> u < NT ->
    (forall l, pc (th s u) <> Run l) -> (forall l, pc (th s u) <> Parked l) ->
    exists v s', astep s (v, 0) = Next s' /\ (v = u \/ exists e, lk (ec s e) = Some v).
  Proof.
    intros R. eapply inside_moves; eauto using akey_ok. eapply await_inv; eauto.
  Qed.
End AwaitProof.

(** ** Without the restriction on the number of notifications: a flag, two fibers, 2^32 calls. *)
Section Wrap.
  Definition wcode : nat -> aloc -> instr bool aloc :=
    acode (fun _ x => x) (fun _ x => x) (fun _ _ => (true, true)) true
      (fun t c => Some (if t =? 0 then CAwait 0 false else COp 0)) (fun _ => true).
  Notation wstep := (step 2 wcode).

  (** Fiber 0 stands before its wait call with a key made at epoch 0; [n] notifications passed. *)
  Definition mid (n : nat) (s : st bool aloc) : Prop :=
    pc (th s 0) = Run (Wt 0 false) /\ key (th s 0) = Some (mk_key 0 0%N 0) /\
    pc (th s 1) = Run Idle /\ key (th s 1) = None /\
    val (ec s 0) = word (N.of_nat n) 1 /\ lk (ec s 0) = None /\ wq (ec s 0) = [] /\ ep (ec s 0) = n /\
    (0 < n -> cs s = true).
  Lemma mid_step n s : mid n s -> exists s', exec wstep s [(1,0); (1,0); (1,0); (1,0); (1,0)] = Next s' /\ mid (S n) s'.
  Proof.
    intros (P0 & K0 & P1 & K1 & V & Lk & Q & E & F).
    assert (Wt : (waiters_of (val (ec s 0)) =? 0)%N = false).
    { rewrite V, word_waiters by (unfold two32; lia). reflexivity. }
    eexists. split.
    - unfold exec, step, step_run, acquire, release. cbn [fst snd Nat.leb].
      rewrite P1. cbn -[word waiters_of add64 N.eqb upd].
      repeat (rewrite ?upd_eq, ?Wt, ?Lk, ?Q; cbn -[word waiters_of add64 N.eqb upd]).
      reflexivity.
    - unfold mid. cbn -[word waiters_of add64 N.eqb upd].
      rewrite !upd_eq. cbn -[word waiters_of add64 N.eqb upd].
      rewrite ?upd_neq by lia. rewrite ?Lk, ?Q, ?E, ?K1. cbn -[word waiters_of add64 N.eqb upd].
      repeat (split; auto). rewrite V, word_adde. f_equal. lia.
  Qed.
  Lemma mid_many n : forall s k, mid k s -> exists s', reachable wstep s s' /\ mid (n + k) s'.
  Proof.
    induction n; intros s k H.
    - exists s. split; auto. apply reachable_refl.
    - destruct (mid_step k s H) as (s1 & E & H1). destruct (IHn s1 (S k) H1) as (s2 & R & H2).
      exists s2. split. eapply reachable_trans; eauto. now exists [(1,0); (1,0); (1,0); (1,0); (1,0)].
      now replace (S n + k) with (n + S k) by lia.
  Qed.
  Lemma ec_wrap_pf : exists s, reachable wstep (ainit false) s /\
    cs s = true /\ pc (th s 0) = Parked (Wt 0 false) /\ pc (th s 1) = Run Idle /\ lk (ec s 0) = None.
  Proof.
    assert (M0 : exists s, exec wstep (ainit false) [(0,0); (0,0); (0,0); (0,0)] = Next s /\ mid 0 s).
    { eexists. split. { vm_compute. reflexivity. } unfold mid. cbn. repeat split; auto; lia. }
    destruct M0 as (s0 & E0 & M0).
    assert (exists k, N.of_nat k = two32) as [k Hk] by (exists (N.to_nat two32); apply N2Nat.id).
    destruct (mid_many k s0 0 M0) as (s1 & R1 & M1).
    destruct M1 as (P0 & K0 & P1 & K1 & V & Lk & Q & E & F).
    assert (Hv : epoch_of (val (ec s1 0)) = 0%N).
    { rewrite V, word_epoch by (unfold two32; lia).
      replace (N.of_nat (k + 0)) with two32 by lia. reflexivity. }
    assert (X : exists s2, exec wstep s1 [(0,0); (0,0); (0,0); (0,0)] = Next s2 /\
      cs s2 = cs s1 /\ pc (th s2 0) = Parked (Wt 0 false) /\ pc (th s2 1) = Run Idle /\ lk (ec s2 0) = None).
    { eexists. split.
      - unfold exec, step, step_run, acquire, release. cbn [fst snd Nat.leb].
        rewrite P0. cbn -[word epoch_of N.eqb upd]. rewrite K0. cbn -[word epoch_of N.eqb upd].
        repeat (rewrite ?upd_eq, ?Lk, ?Hv, ?K0, ?Q; cbn -[word epoch_of upd]).
        reflexivity.
      - cbn -[upd]. rewrite !upd_eq, ?upd_neq by lia. cbn -[upd]. rewrite ?upd_neq by lia. auto. }
    destruct X as (s2 & E2 & C2 & A & B & D). exists s2.
    split; [|rewrite C2; split; auto; apply F; unfold two32 in Hk; lia].
    apply reachable_trans with s0. { now exists [(0,0); (0,0); (0,0); (0,0)]. }
    apply reachable_trans with s1; auto. now exists [(0,0); (0,0); (0,0); (0,0)].
  Qed.
End Wrap.
