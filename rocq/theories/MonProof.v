From Verif Require Import Util Conc MonModel MonSpec.

Lemma NoDup_app_one {A} (l : list A) x : NoDup l -> ~ In x l -> NoDup (l ++ [x]).
Proof.
  intros. apply NoDup_rev in H. rewrite <- (rev_involutive (l ++ [x])). apply NoDup_rev.
  rewrite rev_app_distr. simpl. constructor; auto. now rewrite <- in_rev.
Qed.
Lemma NoDup_app_r {A} (l l' : list A) : NoDup (l ++ l') -> NoDup l'.
Proof. induction l; simpl; auto. intros H. inversion H; auto. Qed.
Lemma NoDup_app_disj {A} (l l' : list A) x : NoDup (l ++ l') -> In x l -> In x l' -> False.
Proof.
  induction l; simpl; [tauto|]. intros H [->|Hx] Hy; inversion H; subst; auto. apply H2. apply in_or_app. auto.
Qed.

Section MonProof.
  Context {C L : Type}.
  Variable NT : nat.
  Variable code : nat -> L -> minstr C L.
  Notation mst := (mst C L).
  Notation step := (step NT code).
  Variable own : nat -> L -> bool.

  Notation paired := (paired code own).

  Definition spins (p : mpc L) : bool :=
    match p with LTest _ | LRel _ _ | TTest _ _ | TRel _ _ | UDo _ | URel _ => true | _ => false end.
  Definition hasm (t : nat) (p : mpc L) : bool :=
    match p with
    | Run l => own t l
    | LRel _ linked => negb linked
    | TRel got _ => got
    | USpin _ | UDo _ => true
    | _ => false
    end.
  Definition mlinked (p : mpc L) : bool := match p with LRel _ true | LParked _ => true | _ => false end.
  Definition clinked (p : mpc L) : bool :=
    match p with USpin (APark _) | UDo (APark _) | URel (APark _) | CvParked _ => true | _ => false end.
  Definition locker (p : mpc L) : bool := match p with LSpin _ | LTest _ => true | _ => false end.
  Definition aft_ok (t : nat) (a : aft L) : Prop :=
    match a with ARun k => own t k = false | APark k | AAwake k => own t k = true end.
  Definition cont_ok (t : nat) (p : mpc L) : Prop :=
    match p with
    | Run _ => True
    | LSpin k | LTest k | LRel k _ | LParked k | CvParked k => own t k = true
    | TSpin kt kf | TTest kt kf => own t kt = true /\ own t kf = false
    | TRel got k => own t k = got
    | USpin a | UDo a | URel a => aft_ok t a
    end.

  Record MInv (s : mst) : Prop := mkMInv {
    i_sp : forall t, splk s = Some t <-> spins (pc s t) = true;
    i_ow : forall t, owner s = Some t <-> hasm t (pc s t) = true;
    i_co : forall t, cont_ok t (pc s t);
    i_mnd : NoDup (mq s);
    i_mq : forall t, In t (mq s) <-> mlinked (pc s t) = true;
    i_cnd : NoDup (cq s);
    i_cq : forall t, In t (cq s) <-> clinked (pc s t) = true;
    i_ho : owner s = None -> mq s <> [] -> exists u, locker (pc s u) = true
  }.

  (** ** Waking fibers of the condition variable *)
  Definition woke (p : mpc L) : mpc L :=
    match p with
    | CvParked k => LSpin k
    | USpin (APark k) => USpin (AAwake k)
    | UDo (APark k) => UDo (AAwake k)
    | URel (APark k) => URel (AAwake k)
    | _ => p
    end.
  Lemma wake_cv_eq (s : mst) w : wake_cv s w = if clinked (pc s w) then Next (set_pc s w (woke (pc s w))) else Ub.
  Proof. unfold wake_cv. destruct (pc s w) as [| | | | | | | |[]|[]|[]|]; reflexivity. Qed.
  Lemma wake_all_eq q : forall s : mst, NoDup q -> (forall w, In w q -> clinked (pc s w) = true) ->
    exists s', wake_all s q = Next s' /\ cs s' = cs s /\ splk s' = splk s /\ owner s' = owner s /\
      mq s' = mq s /\ cq s' = cq s /\ forall u, (In u q -> pc s' u = woke (pc s u)) /\ (~ In u q -> pc s' u = pc s u).
  Proof.
    induction q as [|w q IH]; intros s Nd H; simpl.
    - exists s. repeat split; auto. intros [].
    - rewrite wake_cv_eq, H by (left; auto). inversion Nd; subst.
      destruct (IH (set_pc s w (woke (pc s w)))) as (s' & E & A1 & A2 & A3 & A4 & A5 & A6); auto.
      + intros x Hx. simpl. rewrite upd_neq by congruence. apply H. now right.
      + exists s'. repeat split; auto.
        * intros [<-|Hu].
          -- rewrite (proj2 (A6 w)) by auto. simpl. now rewrite upd_eq.
          -- rewrite (proj1 (A6 u)) by auto. simpl. rewrite upd_neq by congruence; auto.
        * intros Hu. rewrite (proj2 (A6 u)) by tauto. simpl. rewrite upd_neq by (intros ->; tauto); auto.
  Qed.
  Lemma woke_sp p : spins (woke p) = spins p. Proof. destruct p as [| | | | | | | |[]|[]|[]|]; reflexivity. Qed.
  Lemma woke_has t p : hasm t (woke p) = hasm t p. Proof. destruct p as [| | | | | | | |[]|[]|[]|]; reflexivity. Qed.
  Lemma woke_ml p : mlinked (woke p) = mlinked p. Proof. destruct p as [| | | | | | | |[]|[]|[]|]; reflexivity. Qed.
  Lemma woke_cl p : clinked (woke p) = false. Proof. destruct p as [| | | | | | | |[]|[]|[]|]; reflexivity. Qed.
  Lemma woke_lo p : locker p = true -> locker (woke p) = true. Proof. destruct p as [| | | | | | | |[]|[]|[]|]; auto. Qed.
  Lemma woke_co t p : cont_ok t p -> cont_ok t (woke p). Proof. destruct p as [| | | | | | | |[]|[]|[]|]; auto. Qed.

  Hypothesis PA : paired.

  (** A state that differs in the pc of one fiber (and the lock words as given). *)
  Lemma inv_pc s s' t p : MInv s ->
    (forall u, pc s' u = if u =? t then p else pc s u) ->
    (splk s' = splk s /\ spins p = spins (pc s t) \/
     splk s = None /\ splk s' = Some t /\ spins p = true \/ splk s = Some t /\ splk s' = None /\ spins p = false) ->
    (owner s' = owner s /\ hasm t p = hasm t (pc s t) \/
     owner s = None /\ owner s' = Some t /\ hasm t p = true \/ owner s = Some t /\ owner s' = None /\ hasm t p = false) ->
    cont_ok t p ->
    (mq s' = mq s /\ mlinked p = mlinked (pc s t) \/ mq s' = mq s ++ [t] /\ mlinked p = true /\ mlinked (pc s t) = false) ->
    (cq s' = cq s /\ clinked p = clinked (pc s t) \/ cq s' = cq s ++ [t] /\ clinked p = true /\ clinked (pc s t) = false) ->
    (owner s' = None -> mq s' <> [] -> exists u, locker (pc s' u) = true) -> MInv s'.
  Proof.
    intros I P S O Co M Q Ho. constructor; auto.
    - intros u. rewrite P. destruct (Nat.eqb_spec u t) as [->|Ne].
      + destruct S as [[-> ->]|[(_ & -> & ->)|(_ & -> & ->)]]; [apply (i_sp _ I)|tauto|split; discriminate].
      + rewrite <- (i_sp _ I). destruct S as [[-> _]|[(-> & -> & _)|(-> & -> & _)]]; [tauto| |];
        split; congruence.
    - intros u. rewrite P. destruct (Nat.eqb_spec u t) as [->|Ne].
      + destruct O as [[-> ->]|[(_ & -> & ->)|(_ & -> & ->)]]; [apply (i_ow _ I)|tauto|split; discriminate].
      + rewrite <- (i_ow _ I). destruct O as [[-> _]|[(-> & -> & _)|(-> & -> & _)]]; [tauto| |];
        split; congruence.
    - intros u. rewrite P. destruct (Nat.eqb_spec u t) as [->|Ne]; auto. apply (i_co _ I).
    - destruct M as [[-> _]|(-> & _ & M)]. apply (i_mnd _ I).
      apply NoDup_app_one; [apply (i_mnd _ I)|]. rewrite (i_mq _ I). congruence.
    - intros u. rewrite P. destruct (Nat.eqb_spec u t) as [->|Ne].
      + destruct M as [[-> ->]|(-> & -> & M)]; [apply (i_mq _ I)|]. split; auto. intros _. apply in_or_app. right. now left.
      + rewrite <- (i_mq _ I). destruct M as [[-> _]|(-> & _)]; [tauto|]. rewrite in_app_iff. simpl. intuition congruence.
    - destruct Q as [[-> _]|(-> & _ & Q)]. apply (i_cnd _ I).
      apply NoDup_app_one; [apply (i_cnd _ I)|]. rewrite (i_cq _ I). congruence.
    - intros u. rewrite P. destruct (Nat.eqb_spec u t) as [->|Ne].
      + destruct Q as [[-> ->]|(-> & -> & Q)]; [apply (i_cq _ I)|]. split; auto. intros _. apply in_or_app. right. now left.
      + rewrite <- (i_cq _ I). destruct Q as [[-> _]|(-> & _)]; [tauto|]. rewrite in_app_iff. simpl. intuition congruence.
  Qed.

  Lemma updE (f : nat -> mpc L) t p u : upd f t p u = if u =? t then p else f u.
  Proof. destruct (Nat.eqb_spec u t) as [->|]; [apply upd_eq|now apply upd_neq]. Qed.

  Lemma ho_keep (s s' : mst) t p : MInv s -> (forall u, pc s' u = if u =? t then p else pc s u) ->
    owner s' = owner s -> mq s' = mq s -> (locker (pc s t) = true -> locker p = true) ->
    owner s' = None -> mq s' <> [] -> exists u, locker (pc s' u) = true.
  Proof.
    intros I P EO EM Hl O M. rewrite EO in O. rewrite EM in M. destruct (i_ho _ I O M) as [u Hu].
    exists u. rewrite P. destruct (Nat.eqb_spec u t) as [->|]; auto.
  Qed.

  (** The mutex hands over: one fiber leaves its queue. *)
  Lemma inv_hand (s s' : mst) w k : MInv s -> pc s w = LParked k -> mq s = w :: mq s' ->
    (forall u, pc s' u = if u =? w then LSpin k else pc s u) ->
    splk s' = splk s -> owner s' = owner s -> cq s' = cq s -> MInv s'.
  Proof.
    intros I Ew EM P E1 E2 E3.
    assert (Nd := i_mnd _ I). rewrite EM in Nd. inversion Nd as [|? ? N1 N2]; subst.
    assert (Co := i_co _ I w). rewrite Ew in Co. simpl in Co.
    constructor; rewrite ?E1, ?E2, ?E3; auto.
    - intros u. rewrite P. destruct (Nat.eqb_spec u w) as [->|]; [|apply (i_sp _ I)].
      rewrite (i_sp _ I), Ew. reflexivity.
    - intros u. rewrite P. destruct (Nat.eqb_spec u w) as [->|]; [|apply (i_ow _ I)].
      rewrite (i_ow _ I), Ew. reflexivity.
    - intros u. rewrite P. destruct (Nat.eqb_spec u w) as [->|]; [exact Co|apply (i_co _ I)].
    - intros u. rewrite P. destruct (Nat.eqb_spec u w) as [->|]; simpl. split; [tauto|discriminate].
      rewrite <- (i_mq _ I), EM. simpl. intuition congruence.
    - apply (i_cnd _ I).
    - intros u. rewrite P. destruct (Nat.eqb_spec u w) as [->|]; [|apply (i_cq _ I)].
      rewrite (i_cq _ I), Ew. reflexivity.
    - intros _ _. exists w. rewrite P, Nat.eqb_refl. reflexivity.
  Qed.

  (** Some fibers leave the queue of the condition variable. *)
  Lemma inv_woke (s s' : mst) q : MInv s -> cq s = q ++ cq s' ->
    (forall u, (In u q -> pc s' u = woke (pc s u)) /\ (~ In u q -> pc s' u = pc s u)) ->
    splk s' = splk s -> owner s' = owner s -> mq s' = mq s -> MInv s'.
  Proof.
    intros I EQ P E1 E2 E3.
    assert (X : forall u, pc s' u = woke (pc s u) /\ In u q \/ pc s' u = pc s u /\ ~ In u q)
      by (intros u; destruct (in_dec Nat.eq_dec u q); [left|right]; split; auto; apply P; auto).
    assert (Nd := i_cnd _ I). rewrite EQ in Nd.
    constructor; rewrite ?E1, ?E2, ?E3.
    - intros u. destruct (X u) as [[-> _]|[-> _]]; rewrite ?woke_sp; apply (i_sp _ I).
    - intros u. destruct (X u) as [[-> _]|[-> _]]; rewrite ?woke_has; apply (i_ow _ I).
    - intros u. destruct (X u) as [[-> _]|[-> _]]; [apply woke_co|]; apply (i_co _ I).
    - apply (i_mnd _ I).
    - intros u. destruct (X u) as [[-> _]|[-> _]]; rewrite ?woke_ml; apply (i_mq _ I).
    - eapply NoDup_app_r; eauto.
    - intros u. destruct (X u) as [[-> Hu]|[-> Hu]].
      + rewrite woke_cl. split; [|discriminate]. intros Hu'. exfalso. eapply NoDup_app_disj; eauto.
      + rewrite <- (i_cq _ I), EQ, in_app_iff. tauto.
    - intros O M. destruct (i_ho _ I O M) as [u Hu]. exists u.
      destruct (X u) as [[-> _]|[-> _]]; auto. now apply woke_lo.
  Qed.

  Ltac one t p s I :=
    eapply (inv_pc s _ t p I);
    [ intros; cbn; apply updE | cbn | cbn | cbn | cbn | cbn | eapply (ho_keep s _ t p I); [intros; cbn; apply updE|cbn..] ].

  Lemma step_inv s lab s' : MInv s -> step s lab = Next s' -> MInv s'.
  Proof.
    intros I H. destruct lab as [t c]. unfold MonModel.step in H. cbn [fst snd] in H.
    destruct (Nat.leb_spec NT t); [discriminate|].
    assert (SP := i_sp _ I t). assert (OW := i_ow _ I t). assert (CO := i_co _ I t).
    assert (MQ := i_mq _ I t). assert (CQ := i_cq _ I t).
    destruct (pc s t) as [l|k|k|k linked|k|kt kf|kt kf|got k|a|a|a|k] eqn:E; cbn in SP, OW, CO, MQ, CQ.
    - unfold step_run in H. assert (PAl := PA t l). destruct (code t l) as [f|k|kt kf|k|k|all k] eqn:Ec.
      + destruct (f (cs s) c) as [| |[c' l']] eqn:Ef; try discriminate. injection H; clear H; intros; subst s'.
        apply PAl in Ef. one t (Run (L:=L) l') s I; rewrite ?E; auto.
      + injection H; clear H; intros; subst s'. destruct PAl as [A B].
        one t (LSpin k) s I; rewrite ?E; cbn; rewrite ?A; auto.
      + injection H; clear H; intros; subst s'. destruct PAl as (A & B & D).
        one t (TSpin kt kf) s I; rewrite ?E; cbn; rewrite ?A; auto; discriminate.
      + injection H; clear H; intros; subst s'. destruct PAl as (A & B).
        one t (USpin (ARun k)) s I; rewrite ?E; cbn; rewrite ?A; auto; discriminate.
      + destruct (races code s t); [discriminate|]. injection H; clear H; intros; subst s'. destruct PAl as (A & B).
        one t (USpin (APark k)) s I; rewrite ?E; cbn; rewrite ?A; auto; discriminate.
      + destruct (races code s t); [discriminate|].
        assert (I1 : MInv (set_pc s t (Run k)))
          by (one t (Run (L:=L) k) s I; rewrite ?E; cbn; auto).
        destruct (cq s) as [|w q] eqn:Eq.
        * injection H; clear H; intros; subst s'. exact I1.
        * destruct all.
          -- destruct (wake_all_eq (w :: q) (set_cq (set_pc s t (Run k)) [])) as (s1 & E1 & A1 & A2 & A3 & A4 & A5 & A6).
             ++ rewrite <- Eq. apply (i_cnd _ I).
             ++ intros x Hx. rewrite <- Eq in Hx. apply (i_cq _ I1 x). exact Hx.
             ++ rewrite E1 in H. injection H; clear H; intros; subst s1.
                apply (inv_woke (set_pc s t (Run k)) s' (w :: q)); auto.
                rewrite A5. cbn. rewrite app_nil_r. exact Eq.
          -- rewrite wake_cv_eq in H. destruct clinked eqn:Hc in H; [|discriminate].
             injection H; clear H; intros; subst s'.
             apply (inv_woke (set_pc s t (Run k)) _ [w]); auto.
             intros u. cbn. rewrite (updE _ w). destruct (Nat.eqb_spec u w) as [->|]; split; intros; auto.
             ++ tauto.
             ++ destruct H as [->|[]]. tauto.
    - unfold spin in H. destruct (splk s) eqn:Es; [discriminate|]. injection H; clear H; intros; subst s'.
      one t (LTest k) s I; rewrite ?E; cbn; auto 6.
    - assert (Es : splk s = Some t) by tauto. destruct (owner s) as [o|] eqn:Eo.
      + destruct (Nat.eqb_spec o t); [discriminate|]. injection H; clear H; intros; subst s'.
        eapply (inv_pc s _ t (LRel k true) I); [intros; cbn; apply updE|cbn..]; rewrite ?E; cbn; auto 6.
        rewrite Eo. discriminate.
      + injection H; clear H; intros; subst s'.
        eapply (inv_pc s _ t (LRel k false) I); [intros; cbn; apply updE|cbn..]; rewrite ?E; cbn; auto 6. discriminate.
    - assert (Es : splk s = Some t) by tauto. unfold unspin in H. injection H; clear H; intros; subst s'.
      one t (if linked then LParked k else Run k) s I; rewrite ?E; destruct linked; cbn; auto 6; discriminate.
    - discriminate.
    - unfold spin in H. destruct (splk s) eqn:Es; [discriminate|]. injection H; clear H; intros; subst s'.
      one t (TTest kt kf) s I; rewrite ?E; cbn; auto 6.
    - assert (Es : splk s = Some t) by tauto. destruct CO as [C1 C2]. destruct (owner s) as [o|] eqn:Eo.
      + injection H; clear H; intros; subst s'.
        one t (TRel false kf) s I; rewrite ?E; cbn; auto 6.
      + injection H; clear H; intros; subst s'.
        eapply (inv_pc s _ t (TRel true kt) I); [intros; cbn; apply updE|cbn..]; rewrite ?E; cbn; auto 6. discriminate.
    - assert (Es : splk s = Some t) by tauto. unfold unspin in H. injection H; clear H; intros; subst s'.
      one t (Run (L:=L) k) s I; rewrite ?E; cbn; auto 6.
    - unfold spin in H. destruct (splk s) eqn:Es; [discriminate|]. injection H; clear H; intros; subst s'.
      one t (UDo a) s I; rewrite ?E; destruct a; cbn; auto 6.
    - assert (Es : splk s = Some t) by tauto. assert (Eo : owner s = Some t) by tauto.
      rewrite Eo, Nat.eqb_refl in H.
      destruct (mq s) as [|w q] eqn:Em.
      + injection H; clear H; intros; subst s'.
        eapply (inv_pc s _ t (URel a) I); [intros; cbn; apply updE|cbn..]; rewrite ?E; destruct a; cbn; auto 6;
        rewrite Em; congruence.
      + cbn [pc set_pc set_owner] in H. rewrite updE in H. destruct (Nat.eqb_spec w t) as [|Nw]; [discriminate|].
        destruct (pc s w) as [|k|k|k ?|k| | | | | | |] eqn:Ew; try discriminate. injection H; clear H; intros; subst s'.
        (* first the hand-over, then the release *)
        set (s1 := mk_m (cs s) (splk s) (owner s) q (cq s) (upd (pc s) w (LSpin k))).
        assert (I1 : MInv s1) by (apply (inv_hand s s1 w k); auto; intros; cbn; apply updE).
        eapply (inv_pc s1 _ t (URel a) I1); cbn.
        * intros u. rewrite (updE _ w), (updE _ t), (updE (pc s) w).
          destruct (Nat.eqb_spec u w) as [->|]; auto.
          destruct (Nat.eqb_spec w t) as [->|]; [congruence|auto].
        * rewrite updE. rewrite (proj2 (Nat.eqb_neq t w)) by auto. rewrite E. auto.
        * auto.
        * destruct a; auto.
        * rewrite updE. rewrite (proj2 (Nat.eqb_neq t w)) by auto. rewrite E. auto.
        * rewrite updE. rewrite (proj2 (Nat.eqb_neq t w)) by auto. rewrite E. destruct a; auto.
        * intros _ _. exists w. rewrite upd_eq. reflexivity.
    - assert (Es : splk s = Some t) by tauto. unfold unspin in H. injection H; clear H; intros; subst s'.
      destruct a; [one t (Run (L:=L) k) s I|one t (CvParked k) s I|one t (LSpin k) s I]; rewrite ?E; cbn; cbn in CO; rewrite ?CO; auto 6.
    - discriminate.
  Qed.

  Variables (c0 : C) (l0 : nat -> L).
  Hypothesis own0 : forall t, own t (l0 t) = false.
  Lemma init_inv : MInv (minit c0 l0).
  Proof.
    constructor; cbn; auto; try (intros t; split; try discriminate; try tauto).
    - rewrite own0. discriminate.
    - constructor.
    - constructor.
  Qed.
  Lemma mon_inv s : reachable step (minit c0 l0) s -> MInv s.
  Proof. apply (reach_step step MInv); [intros; eapply step_inv; eauto|apply init_inv]. Qed.

  (** No step of the mutex or of the condition variable is undefined, only the client's own can be. *)
  Lemma step_ub s t c : MInv s -> step s (t, c) = Ub ->
    exists l, pc s t = Run l /\
      ((exists f, code t l = MAtom f /\ f (cs s) c = Ub) \/
       (exists all k, code t l = CvNotify all k /\ own t l = false /\ races code s t = true)).
  Proof.
    intros I H. unfold MonModel.step in H. cbn [fst snd] in H.
    destruct (NT <=? t); [discriminate|].
    assert (SP := i_sp _ I t). assert (OW := i_ow _ I t).
    destruct (pc s t) as [l|k|k|k linked|k|kt kf|kt kf|got k|a|a|a|k] eqn:E; cbn in SP, OW; try discriminate;
      try (unfold spin in H; destruct (splk s); discriminate).
    - exists l. split; auto. unfold step_run in H. assert (PAl := PA t l).
      destruct (code t l) as [f|k|kt kf|k|k|all k] eqn:Ec; try discriminate.
      + left. exists f. split; auto. destruct (f (cs s) c) as [| |[]]; auto; discriminate.
      + destruct (races code s t) eqn:Er; [|discriminate]. unfold races in Er.
        destruct PAl as [A _]. rewrite (proj2 OW A), Nat.eqb_refl in Er. discriminate.
      + right. exists all, k. split; auto. destruct (races code s t) eqn:Er.
        * split; auto. unfold races in Er. destruct (own t l) eqn:A; auto.
          rewrite (proj2 OW eq_refl), Nat.eqb_refl in Er. discriminate.
        * exfalso. assert (I1 : MInv (set_pc s t (Run k)))
            by (one t (Run (L:=L) k) s I; rewrite ?E; cbn; auto; apply (i_co _ I t)).
          destruct (cq s) as [|w q] eqn:Eq; [discriminate|]. destruct all.
          -- destruct (wake_all_eq (w :: q) (set_cq (set_pc s t (Run k)) [])) as (s1 & E1 & _).
             ++ rewrite <- Eq. apply (i_cnd _ I).
             ++ intros x Hx. rewrite <- Eq in Hx. apply (i_cq _ I1 x). exact Hx.
             ++ congruence.
          -- rewrite wake_cv_eq in H. cbn [pc set_cq] in H.
             rewrite (proj1 (i_cq _ I1 w)) in H; [discriminate|]. cbn. rewrite Eq. now left.
    - exfalso. destruct (owner s) as [o|] eqn:Eo; [|discriminate].
      destruct (Nat.eqb_spec o t) as [->|]; [|discriminate]. destruct OW as [OW _]. specialize (OW eq_refl). discriminate.
    - exfalso. destruct (owner s) as [o|] eqn:Eo; discriminate.
    - exfalso. rewrite (proj2 OW eq_refl), Nat.eqb_refl in H. destruct (mq s) as [|w q] eqn:Em; [discriminate|].
      assert (Mw : In w (mq s)) by (rewrite Em; now left). apply (i_mq _ I) in Mw.
      cbn [pc set_pc set_owner] in H. rewrite updE in H. destruct (Nat.eqb_spec w t) as [->|].
      + rewrite E in Mw. discriminate.
      + destruct (pc s w) eqn:Ew; try discriminate. assert (Sw := i_sp _ I w). rewrite Ew in Sw. cbn in Sw.
        assert (splk s = Some w) by tauto. assert (splk s = Some t) by tauto. congruence.
  Qed.

  Lemma mutex_exclusion_pf s t u : reachable step (minit c0 l0) s -> inside own s t -> inside own s u -> t = u.
  Proof.
    intros R (l & E & O) (l' & E' & O'). assert (I := mon_inv _ R).
    assert (A := i_ow _ I t). assert (B := i_ow _ I u). rewrite E in A. rewrite E' in B. cbn in A, B.
    assert (owner s = Some t) by tauto. assert (owner s = Some u) by tauto. congruence.
  Qed.

  Lemma mutex_safe_pf : cv_guarded code own -> sane code -> safe step (minit c0 l0).
  Proof.
    intros G S. apply safe_reach. intros s [t c] R H.
    destruct (step_ub s t c (mon_inv _ R) H) as (l & E & [(f & Ec & Ef)|(all & k & Ec & Eo & _)]).
    - assert (X := S t l). rewrite Ec in X. now apply (X (cs s) c).
    - assert (X := G t l). rewrite Ec in X. congruence.
  Qed.

  Lemma mutex_handover_pf s t : reachable step (minit c0 l0) s -> lock_suspended s t ->
    (exists u, owner s = Some u) \/ exists u k, pc s u = LSpin k \/ pc s u = LTest k.
  Proof.
    intros R [k E]. assert (I := mon_inv _ R). destruct (owner s) as [o|] eqn:Eo; [left; eauto|right].
    destruct (i_ho _ I Eo) as [u Hu].
    - intros M. assert (X := i_mq _ I t). rewrite M, E in X. simpl in X. tauto.
    - exists u. destruct (pc s u); try discriminate; eauto.
  Qed.
  Lemma mutex_quiet_pf s t : reachable step (minit c0 l0) s ->
    (forall u, outside own s u \/ lock_suspended s u \/ cv_suspended s u) -> ~ lock_suspended s t.
  Proof.
    intros R Q P. assert (I := mon_inv _ R). destruct (mutex_handover_pf s t R P) as [[u O]|(u & k & O)].
    - apply (i_ow _ I) in O. destruct (Q u) as [(l & E & E')|[[k E]|[k E]]]; rewrite E in O; simpl in O; congruence.
    - destruct (Q u) as [(l & E & E')|[[k' E]|[k' E]]]; rewrite E in O; destruct O; discriminate.
  Qed.

  (** The calls never block one another for ever on the internal spin lock. *)
  Lemma mutex_progress_pf s t : reachable step (minit c0 l0) s -> t < NT ->
    (forall l, pc s t <> Run l) -> ~ lock_suspended s t -> ~ cv_suspended s t ->
    exists u s', step s (u, 0) = Next s'.
  Proof.
    intros R Ht N1 N2 N3. assert (I := mon_inv _ R).
    assert (H : forall u, u < NT -> splk s = Some u -> exists s', step s (u, 0) = Next s').
    { intros u Hu Es. assert (A := proj1 (i_sp _ I u) Es). assert (B := i_ow _ I u).
      destruct (step s (u, 0)) as [| |s'] eqn:E; eauto; exfalso.
      - unfold MonModel.step in E. cbn [fst snd] in E. rewrite (proj2 (Nat.leb_gt _ _) Hu) in E.
        destruct (pc s u) eqn:P; try discriminate.
        + destruct (owner s) as [o|]; [destruct (o =? u)|]; discriminate.
        + destruct (owner s) as [o|]; discriminate.
        + cbn in B. rewrite (proj2 B eq_refl), Nat.eqb_refl in E. destruct (mq s) as [|w q]; [discriminate|].
          destruct (pc _ w); discriminate.
      - destruct (step_ub s u 0 I E) as (l & P & _). rewrite P in A. discriminate. }
    assert (D : forall u, splk s = Some u -> u < NT).
    { clear t Ht N1 N2 N3 H. revert R. set (P := fun s : mst => forall u, splk s = Some u -> u < NT).
      intros R. apply (reach_step step P (minit c0 l0)); auto; [|intros u; discriminate].
      clear. intros s [t c] s' Hs H u. unfold MonModel.step in H. cbn [fst snd] in H.
      destruct (Nat.leb_spec NT t) as [|Ht]; [discriminate|].
      destruct (pc s t) as [l|k|k|k linked|k|kt kf|kt kf|got k|a|a|a|k] eqn:E;
        unfold spin, unspin in H; cbn in H.
      - unfold step_run in H. destruct (code t l) as [f|k|kt kf|k|k|all k].
        + destruct (f (cs s) c) as [| |[]]; try discriminate. injection H; clear H; intros; subst s'. now apply Hs.
        + injection H; clear H; intros; subst s'. now apply Hs.
        + injection H; clear H; intros; subst s'. now apply Hs.
        + injection H; clear H; intros; subst s'. now apply Hs.
        + destruct (races code s t); [discriminate|]. injection H; clear H; intros; subst s'. now apply Hs.
        + destruct (races code s t); [discriminate|]. destruct (cq s) as [|w q].
          * injection H; clear H; intros; subst s'. now apply Hs.
          * assert (W : forall q (x y : mst), wake_all x q = Next y -> splk y = splk x).
            { clear. induction q; simpl; intros x y H. congruence.
              rewrite wake_cv_eq in H. destruct (clinked (pc x a)); [|discriminate]. apply IHq in H. exact H. }
            intros Hu. apply Hs. rewrite <- Hu. symmetry. destruct all.
            -- exact (W _ _ _ H).
            -- rewrite wake_cv_eq in H. destruct clinked; [|discriminate]. injection H; clear H; intros; subst s'. reflexivity.
      - destruct (splk s); [discriminate|]. injection H; clear H; intros; subst s'. cbn in *. congruence.
      - destruct (owner s) as [o|]; [destruct (o =? t)|]; try discriminate; injection H; clear H; intros; subst s'; now apply Hs.
      - injection H; clear H; intros; subst s'. discriminate.
      - discriminate.
      - destruct (splk s); [discriminate|]. injection H; clear H; intros; subst s'. cbn in *. congruence.
      - destruct (owner s) as [o|]; injection H; clear H; intros; subst s'; now apply Hs.
      - injection H; clear H; intros; subst s'. discriminate.
      - destruct (splk s); [discriminate|]. injection H; clear H; intros; subst s'. cbn in *. congruence.
      - destruct (owner s) as [o|]; [|discriminate]. destruct (o =? t); [|discriminate].
        destruct (mq s) as [|w q]; [injection H; clear H; intros; subst s'; now apply Hs|].
        destruct (upd _ _ _ w); try discriminate. injection H; clear H; intros; subst s'; now apply Hs.
      - injection H; clear H; intros; subst s'. discriminate.
      - discriminate. }
    destruct (splk s) as [u|] eqn:Es.
    - destruct (H u (D u eq_refl) eq_refl) as [s' E]. eauto.
    - assert (A := i_sp _ I t). rewrite Es in A. exists t. unfold MonModel.step. cbn [fst snd].
      rewrite (proj2 (Nat.leb_gt _ _) Ht).
      destruct (pc s t) eqn:P; unfold spin; rewrite ?Es; cbn in A;
        try (exfalso; apply N2; eexists; eauto; fail); try (exfalso; apply N3; eexists; eauto; fail);
        try (exfalso; now apply (N1 l)); eauto; try (assert (None = Some t) by tauto; discriminate).
  Qed.
End MonProof.
