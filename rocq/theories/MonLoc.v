(** How the clients of the mutex move. *)
From Verif Require Import Util Conc MonModel MonSpec MonProof MonWake.

Section MonLoc.
  Context {C L : Type}.
  Variable NT : nat.
  Variable code : nat -> L -> minstr C L.
  Variable own : nat -> L -> bool.
  Notation mst := (mst C L).
  Notation step := (step NT code).

  (** Where a fiber is or where its call returns to. *)
  Definition tail (p : mpc L) : L :=
    match p with
    | Run l | LSpin l | LTest l | LRel l _ | LParked l | CvParked l | TSpin _ l | TTest _ l | TRel _ l => l
    | USpin (ARun l | APark l | AAwake l) | UDo (ARun l | APark l | AAwake l) | URel (ARun l | APark l | AAwake l) => l
    end.
  Definition at_ (s : mst) (t : nat) : L := tail (pc s t).
  Definition succ (i : minstr C L) (l : L) : Prop :=
    match i with
    | MAtom _ => False
    | MLock k | MUnlock k | CvWait k | CvNotify _ k => l = k
    | MTry _ kf => l = kf
    end.
  Inductive moves (s s' : mst) (t : nat) : Prop :=
  | MvAtom l f n c' l' : pc s t = Run l -> code t l = MAtom f -> f (cs s) n = Next (c', l') -> cs s' = c' ->
      at_ s t = l -> at_ s' t = l' -> (forall u, u <> t -> at_ s' u = at_ s u) -> moves s s' t
  | MvTry kt kf : pc s t = TTest kt kf -> cs s' = cs s -> at_ s t = kf -> at_ s' t = kt ->
      (forall u, u <> t -> at_ s' u = at_ s u) -> moves s s' t
  | MvCall l : pc s t = Run l -> at_ s t = l -> succ (code t l) (at_ s' t) -> cs s' = cs s ->
      (forall u, u <> t -> at_ s' u = at_ s u) -> moves s s' t
  | MvStay : cs s' = cs s -> (forall u, at_ s' u = at_ s u) -> moves s s' t.

  Lemma woke_tail (p : mpc L) : tail (woke p) = tail p.
  Proof. destruct p as [| | | | | | | |[]|[]|[]|]; reflexivity. Qed.

  Lemma wake_tail q : forall s s' : mst, wake_all s q = Next s' -> cs s' = cs s /\ forall u, at_ s' u = at_ s u.
  Proof.
    induction q; simpl; intros s s' H.
    - injection H; intros; subst; auto.
    - rewrite wake_cv_eq in H. destruct (clinked (pc s a)); [|discriminate].
      destruct (IHq _ _ H) as [A B]. split; auto. intros u. rewrite B. unfold at_. cbn. rewrite updE.
      destruct (Nat.eqb_spec u a) as [->|]; auto. apply woke_tail.
  Qed.

  Lemma mon_move s t c s' : step s (t, c) = Next s' -> t < NT /\ moves s s' t.
  Proof.
    intros H. unfold MonModel.step in H. cbn [fst snd] in H.
    destruct (Nat.leb_spec NT t); [discriminate|]. split; auto.
    destruct (pc s t) as [l|k|k|k linked|k|kt kf|kt kf|got k|a|a|a|k] eqn:E.
    - unfold step_run in H. destruct (code t l) as [f|k|kt kf|k|k|all k] eqn:Ec.
      + destruct (f (cs s) c) as [| |[c' l']] eqn:Ef; try discriminate. injection H; clear H; intros; subst s'.
        eapply MvAtom; eauto; unfold at_; cbn; rewrite ?E, ?upd_eq; auto. intros. now rewrite upd_neq.
      + injection H; clear H; intros; subst s'.
        apply (MvCall _ _ _ l); unfold at_; cbn; rewrite ?E, ?Ec, ?upd_eq; cbn; auto. intros. now rewrite upd_neq.
      + injection H; clear H; intros; subst s'.
        apply (MvCall _ _ _ l); unfold at_; cbn; rewrite ?E, ?Ec, ?upd_eq; cbn; auto. intros. now rewrite upd_neq.
      + injection H; clear H; intros; subst s'.
        apply (MvCall _ _ _ l); unfold at_; cbn; rewrite ?E, ?Ec, ?upd_eq; cbn; auto. intros. now rewrite upd_neq.
      + destruct (races code s t); [discriminate|]. injection H; clear H; intros; subst s'.
        apply (MvCall _ _ _ l); unfold at_; cbn; rewrite ?E, ?Ec, ?upd_eq; cbn; auto. intros. now rewrite upd_neq.
      + destruct (races code s t); [discriminate|].
        assert (X : cs s' = cs s /\ forall u, at_ s' u = if u =? t then k else at_ s u).
        { destruct (cq s) as [|w q].
          - injection H; clear H; intros; subst s'. split; [reflexivity|]. intros u. unfold at_. cbn. rewrite updE. now destruct (u =? t).
          - assert (Y : wake_all (set_cq (set_pc s t (Run k)) (if all then [] else q)) (if all then w :: q else [w]) = Next s')
              by (destruct all; [exact H|cbn [wake_all]; rewrite H; reflexivity]).
            apply wake_tail in Y. destruct Y as [Y1 Y2]. split; [exact Y1|]. intros u. rewrite Y2. unfold at_. cbn. rewrite updE. now destruct (u =? t). }
        destruct X as [X1 X2].
        apply (MvCall _ _ _ l); rewrite ?X2, ?Nat.eqb_refl, ?Ec; cbn; auto. unfold at_; now rewrite E.
        intros u Hu. rewrite X2. now rewrite (proj2 (Nat.eqb_neq u t) Hu).
    - unfold spin in H. destruct (splk s); [discriminate|]. injection H; clear H; intros; subst s'.
      apply MvStay; auto. intros u. unfold at_. cbn. rewrite updE. destruct (Nat.eqb_spec u t) as [->|]; rewrite ?E; auto.
    - destruct (owner s) as [o|]; [destruct (o =? t); [discriminate|]|]; injection H; clear H; intros; subst s';
      (apply MvStay; auto; intros u; unfold at_; cbn; rewrite updE; destruct (Nat.eqb_spec u t) as [->|]; rewrite ?E; auto).
    - unfold unspin in H. injection H; clear H; intros; subst s'.
      apply MvStay; auto. intros u. unfold at_. cbn. rewrite updE. destruct (Nat.eqb_spec u t) as [->|]; rewrite ?E; destruct linked; auto.
    - discriminate.
    - unfold spin in H. destruct (splk s); [discriminate|]. injection H; clear H; intros; subst s'.
      apply MvStay; auto. intros u. unfold at_. cbn. rewrite updE. destruct (Nat.eqb_spec u t) as [->|]; rewrite ?E; auto.
    - destruct (owner s) as [o|]; injection H; clear H; intros; subst s'.
      + apply MvStay; auto. intros u. unfold at_. cbn. rewrite updE. destruct (Nat.eqb_spec u t) as [->|]; rewrite ?E; auto.
      + apply (MvTry _ _ _ kt kf); unfold at_; cbn; rewrite ?E, ?upd_eq; auto. intros. now rewrite upd_neq.
    - unfold unspin in H. injection H; clear H; intros; subst s'.
      apply MvStay; auto. intros u. unfold at_. cbn. rewrite updE. destruct (Nat.eqb_spec u t) as [->|]; rewrite ?E; auto.
    - unfold spin in H. destruct (splk s); [discriminate|]. injection H; clear H; intros; subst s'.
      apply MvStay; auto. intros u. unfold at_. cbn. rewrite updE. destruct (Nat.eqb_spec u t) as [->|]; rewrite ?E; destruct a; auto.
    - destruct (owner s) as [o|]; [|discriminate]. destruct (o =? t); [|discriminate].
      assert (X : forall u, at_ (set_pc (set_owner s None) t (URel a)) u = at_ s u).
      { intros u. unfold at_. cbn. rewrite updE. destruct (Nat.eqb_spec u t) as [->|]; rewrite ?E; destruct a; auto. }
      destruct (mq s) as [|w q]; [injection H; clear H; intros; subst s'; apply MvStay; auto|].
      destruct (pc (set_pc (set_owner s None) t (URel a)) w) as [|k|k|k ?|k| | | | | | |] eqn:Ew; try discriminate.
      injection H; clear H; intros; subst s'. apply MvStay; auto. intros u. rewrite <- X. unfold at_. cbn. rewrite (updE _ w).
      destruct (Nat.eqb_spec u w) as [->|]; auto. cbn in Ew. rewrite Ew. reflexivity.
    - unfold unspin in H. injection H; clear H; intros; subst s'.
      apply MvStay; auto. intros u. unfold at_. cbn. rewrite updE. destruct (Nat.eqb_spec u t) as [->|]; rewrite ?E; destruct a; auto.
    - discriminate.
  Qed.


  (** ** Invariants of single fibers *)
  Inductive own_tr (t : nat) : mpc L -> mpc L -> Prop :=
  | o_atom l f c n c' l' : code t l = MAtom f -> f c n = Next (c', l') -> own_tr t (Run l) (Run l')
  | o_lock l k : code t l = MLock k -> own_tr t (Run l) (LSpin k)
  | o_try l kt kf : code t l = MTry kt kf -> own_tr t (Run l) (TSpin kt kf)
  | o_unl l k : code t l = MUnlock k -> own_tr t (Run l) (USpin (ARun k))
  | o_wait l k : code t l = CvWait k -> own_tr t (Run l) (USpin (APark k))
  | o_ntf l all k : code t l = CvNotify all k -> own_tr t (Run l) (Run k)
  | o_ls k : own_tr t (LSpin k) (LTest k)
  | o_lt k b : own_tr t (LTest k) (LRel k b)
  | o_lr k b : own_tr t (LRel k b) (if b then LParked k else Run k)
  | o_ts kt kf : own_tr t (TSpin kt kf) (TTest kt kf)
  | o_tt kt kf (b : bool) : own_tr t (TTest kt kf) (TRel b (if b then kt else kf))
  | o_tr b k : own_tr t (TRel b k) (Run k)
  | o_us a : own_tr t (USpin a) (UDo a)
  | o_ud a : own_tr t (UDo a) (URel a)
  | o_ur a : own_tr t (URel a) (match a with ARun k => Run k | APark k => CvParked k | AAwake k => LSpin k end).
  Definition oth_tr (p p' : mpc L) : Prop :=
    p' = p \/ p' = woke p \/ exists k, p = LParked k /\ p' = LSpin k.

  Lemma wake_oth q : forall s s' : mst, wake_all s q = Next s' -> NoDup q -> forall u, oth_tr (pc s u) (pc s' u).
  Proof.
    induction q; simpl; intros s s' H Nd u.
    - injection H; intros; subst. left; auto.
    - rewrite wake_cv_eq in H. destruct (clinked (pc s a)) eqn:Cl; [|discriminate]. inversion Nd; subst.
      assert (Z : forall q (x y : mst), wake_all x q = Next y -> ~ In a q -> pc y a = pc x a).
      { clear. induction q; simpl; intros x y H N. injection H; intros; subst; auto.
        rewrite wake_cv_eq in H. destruct (clinked (pc x a0)); [|discriminate]. rewrite (IHq _ _ H); auto. cbn. rewrite upd_neq; auto. }
      destruct (Nat.eq_dec u a) as [->|Ne].
      + rewrite (Z _ _ _ H) by auto. cbn. rewrite upd_eq. right. left. auto.
      + specialize (IHq _ _ H H3 u). cbn in IHq. rewrite upd_neq in IHq by auto. exact IHq.
  Qed.
  Hypothesis PA : paired code own.

  Lemma step_tr s t c s' : MInv own s -> step s (t, c) = Next s' ->
    t < NT /\ own_tr t (pc s t) (pc s' t) /\ forall u, u <> t -> oth_tr (pc s u) (pc s' u).
  Proof.
    intros I H. unfold MonModel.step in H. cbn [fst snd] in H.
    destruct (Nat.leb_spec NT t); [discriminate|]. split; auto.
    assert (U : forall (x : mst) p, pc x = pc s -> (own_tr t (pc s t) p) ->
      own_tr t (pc s t) (pc (set_pc x t p) t) /\ forall u, u <> t -> oth_tr (pc s u) (pc (set_pc x t p) u)).
    { intros x p E O. split. cbn. now rewrite upd_eq. intros u Hu. cbn. rewrite upd_neq, E by auto. left; auto. }
    destruct (pc s t) as [l|k|k|k linked|k|kt kf|kt kf|got k|a|a|a|k] eqn:E; try discriminate.
    - unfold step_run in H. destruct (code t l) as [f|k|kt kf|k|k|all k] eqn:Ec.
      + destruct (f (cs s) c) as [| |[c' l']] eqn:Ef; try discriminate. injection H; clear H; intros; subst s'.
        apply U; auto. econstructor; eauto.
      + injection H; clear H; intros; subst s'. apply U; auto. now constructor.
      + injection H; clear H; intros; subst s'. apply U; auto. now constructor.
      + injection H; clear H; intros; subst s'. apply U; auto. now constructor.
      + destruct (races code s t); [discriminate|]. injection H; clear H; intros; subst s'. apply U; auto. now constructor.
      + destruct (races code s t); [discriminate|].
        destruct (U s (Run k) eq_refl (o_ntf t l all k Ec)) as [U1 U2].
        destruct (cq s) as [|w q] eqn:Eq; [injection H; clear H; intros; subst s'; auto|].
        assert (Y : wake_all (set_cq (set_pc s t (Run k)) (if all then [] else q)) (if all then w :: q else [w]) = Next s')
              by (destruct all; [exact H|cbn [wake_all]; rewrite H; reflexivity]).
        assert (Nd := i_cnd _ _ I). rewrite Eq in Nd.
        assert (Y2 := wake_oth _ _ _ Y). specialize (Y2 ltac:(destruct all; auto; constructor; [intros []|constructor])).
        cbn in Y2. split.
        * specialize (Y2 t). rewrite upd_eq in Y2. destruct Y2 as [->|[->|(? & X & _)]]; [|cbn|discriminate]; eapply o_ntf; eauto.
        * intros u Hu. specialize (Y2 u). rewrite upd_neq in Y2; auto.
    - unfold spin in H. destruct (splk s); [discriminate|]. injection H; clear H; intros; subst s'. apply U; auto. constructor.
    - destruct (owner s) as [o|]; [destruct (o =? t); [discriminate|]|]; injection H; clear H; intros; subst s'; (apply U; auto; constructor).
    - injection H; clear H; intros; subst s'. apply U; auto. constructor.
    - unfold spin in H. destruct (splk s); [discriminate|]. injection H; clear H; intros; subst s'. apply U; auto. constructor.
    - destruct (owner s) as [o|]; injection H; clear H; intros; subst s'; (apply U; auto); [apply (o_tt t kt kf false)|apply (o_tt t kt kf true)].
    - injection H; clear H; intros; subst s'. apply U; auto. constructor.
    - unfold spin in H. destruct (splk s); [discriminate|]. injection H; clear H; intros; subst s'. apply U; auto. constructor.
    - destruct (owner s) as [o|]; [|discriminate]. destruct (o =? t); [|discriminate].
      destruct (U (set_owner s None) (URel a) eq_refl ltac:(constructor)) as [U1 U2].
      destruct (mq s) as [|w q]; [injection H; clear H; intros; subst s'; auto|].
      destruct (pc (set_pc (set_owner s None) t (URel a)) w) as [|k|k|k ?|k| | | | | | |] eqn:Ew; try discriminate.
      cbn in Ew. rewrite updE in Ew. destruct (Nat.eqb_spec w t); [discriminate|].
      injection H; clear H; intros; subst s'. split.
      + cbn. rewrite upd_neq, upd_eq by auto. constructor.
      + intros u Hu. cbn. rewrite updE. destruct (Nat.eqb_spec u w) as [->|]; [right; right; eauto|]. apply U2; auto.
    - injection H; clear H; intros; subst s'. apply U; auto. constructor.
  Qed.

  Variables (c0 : C) (l0 : nat -> L).
  Hypothesis own0 : forall t, own t (l0 t) = false.
  Lemma pointwise (Q : nat -> mpc L -> Prop) :
    (forall t p p', Q t p -> t < NT -> own_tr t p p' -> Q t p') -> (forall t p p', Q t p -> oth_tr p p' -> Q t p') ->
    (forall t, Q t (Run (l0 t))) -> forall s, reachable step (minit c0 l0) s -> forall t, Q t (pc s t).
  Proof.
    intros H1 H2 H3 s R. apply (reach_step step (fun s => MInv own s /\ forall t, Q t (pc s t)) (minit c0 l0)); auto.
    - intros x [t c] y [I P] H. split; [eapply step_inv; eauto|]. destruct (step_tr _ _ _ _ I H) as (A & B & D).
      intros u. destruct (Nat.eq_dec u t) as [->|Ne]; eauto.
    - split; auto. now apply init_inv.
  Qed.

  (** Clients that do not call try_lock(). *)
  Definition no_try (s : mst) : Prop := forall t, match pc s t with TSpin _ _ | TTest _ _ => False | _ => True end.
  Lemma no_try_pf s : (forall t l kt kf, code t l <> MTry kt kf) -> reachable step (minit c0 l0) s -> no_try s.
  Proof.
    intros N R t. apply (pointwise (fun t p => match p with TSpin _ _ | TTest _ _ => False | _ => True end)); auto.
    - intros u p p' Hp _ O. destruct O; auto; try (destruct b; auto; fail); try (destruct a; auto; fail). now apply N in H.
    - intros u p p' Hp [->|[->|(k & -> & ->)]]; auto. destruct p as [| | | | | | | |[]|[]|[]|]; auto.
  Qed.
  (** Whoever waits on the condition variable called wait(). *)
  Lemma cv_src s t k : reachable step (minit c0 l0) s -> waits (pc s t) = Some k -> exists l, code t l = CvWait k.
  Proof.
    intros R. apply (pointwise (fun t p => waits p = Some k -> exists l, code t l = CvWait k)); auto.
    - intros u p p' Hp _ O E. destruct O; cbn in *; try discriminate; auto; try (destruct b; discriminate).
      + injection E; intros; subst. eauto.
      + destruct a; try discriminate. auto.
    - intros u p p' Hp [->|[->|(j & -> & ->)]]; auto. rewrite woke_waits. discriminate.
    - discriminate.
  Qed.
  (** Fibers that do not exist stay where they are. *)
  Lemma mon_out s t : reachable step (minit c0 l0) s -> NT <= t -> pc s t = Run (l0 t).
  Proof.
    intros R. apply (pointwise (fun t p => NT <= t -> p = Run (l0 t))); auto.
    - intros. lia.
    - intros u p p' Hp [->|[->|(j & -> & ->)]] Hu; auto. now rewrite (Hp Hu). specialize (Hp Hu). discriminate.
  Qed.
End MonLoc.
