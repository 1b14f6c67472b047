From Verif Require Import Util Conc MonModel MonSpec MonProof.

Section MonWake.
  Context {C L : Type}.
  Variable NT : nat.
  Variable code : nat -> L -> minstr C L.
  Variable own : nat -> L -> bool.
  Variable wants : nat -> L -> C -> bool.
  Variable owes : nat -> L -> bool.
  Notation mst := (mst C L).
  Notation step := (step NT code).
  Notation owing := (owing owes).
  Hypothesis PA : paired code own.
  Hypothesis CD : cv_discipline code own wants owes.

  (** Linked on the condition variable with continuation [k]. *)
  Definition waits (p : mpc L) : option L :=
    match p with USpin (APark k) | UDo (APark k) | URel (APark k) | CvParked k => Some k | _ => None end.
  (** At a point that calls wait(): its predicate is false. *)
  Definition conts (p : mpc L) (l : L) : Prop :=
    match p with
    | LSpin l1 | LTest l1 | LRel l1 _ | LParked l1 | CvParked l1 | TRel _ l1 => l1 = l
    | TSpin l1 l2 | TTest l1 l2 => l1 = l \/ l2 = l
    | USpin (ARun l1 | APark l1 | AAwake l1) | UDo (ARun l1 | APark l1 | AAwake l1)
    | URel (ARun l1 | APark l1 | AAwake l1) => l1 = l
    | Run _ => False
    end.
  Definition owp (u : nat) (p : mpc L) : bool :=
    match p with
    | Run l | LSpin l | LTest l | LRel l _ | LParked l | TRel _ l => owes u l
    | TSpin l _ | TTest l _ => owes u l
    | USpin (ARun l) | UDo (ARun l) | URel (ARun l) => owes u l
    | _ => false
    end.
  Definition same_owes (t : nat) (p : mpc L) : Prop :=
    match p with TSpin kt kf | TTest kt kf => owes t kt = owes t kf | _ => True end.
  Record WInv (s : mst) : Prop := mkWInv {
    w_at : forall t l k, pc s t = Run l -> code t l = CvWait k -> wants t k (cs s) = false;
    w_nc : forall t l k, conts (pc s t) l -> code t l <> CvWait k;
    w_tr : forall t, same_owes t (pc s t);
    w_q : forall t k, waits (pc s t) = Some k -> wants t k (cs s) = true -> exists u, owp u (pc s u) = true
  }.

  (** One fiber moves, the data stay. *)
  Lemma w_move (s s' : mst) t p : WInv s -> cs s' = cs s ->
    (forall u, pc s' u = if u =? t then p else pc s u) ->
    (forall l k, p = Run l -> code t l <> CvWait k) ->
    (forall l k, conts p l -> code t l <> CvWait k) -> same_owes t p ->
    (owp t (pc s t) = true -> owp t p = true) ->
    (forall k, waits p = Some k -> waits (pc s t) = Some k \/ wants t k (cs s) = false) -> WInv s'.
  Proof.
    intros W Ec P A B D O Q. constructor; rewrite ?Ec.
    - intros u l k. rewrite P. destruct (Nat.eqb_spec u t) as [->|]; [|apply (w_at _ W)].
      intros Ep Ek. now apply A in Ek.
    - intros u l k. rewrite P. destruct (Nat.eqb_spec u t) as [->|]; [|apply (w_nc _ W)]. auto.
    - intros u. rewrite P. destruct (Nat.eqb_spec u t) as [->|]; [|apply (w_tr _ W)]. auto.
    - intros u k. rewrite P. intros H1 H2.
      assert (X : exists v, owp v (pc s v) = true).
      { destruct (Nat.eqb_spec u t) as [->|]; [|eapply (w_q _ W); eauto].
        destruct (Q k H1) as [Q'|Q']; [eapply (w_q _ W); eauto|congruence]. }
      destruct X as [v Hv]. exists v. rewrite P. destruct (Nat.eqb_spec v t) as [->|]; auto.
  Qed.

  Lemma woke_waits (p : mpc L) : waits (woke p) = None. Proof. destruct p as [| | | | | | | |[]|[]|[]|]; reflexivity. Qed.
  Lemma woke_owp u p : owp u p = true -> owp u (woke p) = true. Proof. destruct p as [| | | | | | | |[]|[]|[]|]; auto; discriminate. Qed.
  Lemma woke_conts (p : mpc L) l : conts (woke p) l -> conts p l. Proof. destruct p as [| | | | | | | |[]|[]|[]|]; auto. Qed.
  Lemma woke_run (p : mpc L) l : woke p = Run l -> p = Run l. Proof. destruct p as [| | | | | | | |[]|[]|[]|]; auto; discriminate. Qed.
  Lemma woke_same t p : same_owes t p -> same_owes t (woke p). Proof. destruct p as [| | | | | | | |[]|[]|[]|]; auto. Qed.
  Lemma waits_cl (p : mpc L) k : waits p = Some k -> clinked p = true. Proof. destruct p as [| | | | | | | |[]|[]|[]|]; auto; discriminate. Qed.

  Ltac mv t p s W :=
    eapply (w_move s _ t p W); [reflexivity|intros; cbn; apply updE|cbn..].

  Lemma w_step s lab s' : MInv own s -> WInv s -> step s lab = Next s' -> WInv s'.
  Proof.
    intros I W H0. assert (I' := step_inv NT code own PA s lab s' I H0). assert (H := H0). clear H0.
    destruct lab as [t c]. unfold MonModel.step in H. cbn [fst snd] in H.
    destruct (Nat.leb_spec NT t); [discriminate|].
    assert (NC := w_nc _ W t). assert (TR := w_tr _ W t).
    destruct (pc s t) as [l|k|k|k linked|k|kt kf|kt kf|got k|a|a|a|k] eqn:E; cbn in NC, TR.
    - unfold step_run in H. assert (PAl := PA t l). assert (CDl := CD t l).
      destruct (code t l) as [f|k|kt kf|k|k|all k] eqn:Ec.
      + destruct (f (cs s) c) as [| |[c' l']] eqn:Ef; try discriminate. injection H; clear H; intros; subst s'.
        destruct (CDl _ _ _ _ Ef) as (D1 & D2 & D3 & D4).
        assert (D5 : own t l = true -> owner s = Some t) by (intros X; apply (i_ow _ _ I); rewrite E; exact X).
        constructor; cbn.
        * intros u m k. rewrite updE. destruct (Nat.eqb_spec u t) as [->|Ne].
          -- intros [= <-]. apply D2.
          -- intros Eu Ek. destruct (own t l) eqn:O.
             ++ exfalso. assert (PAu := PA u m). rewrite Ek in PAu.
                assert (owner s = Some u) by (apply (i_ow _ _ I); rewrite Eu; apply PAu).
                assert (owner s = Some t) by auto. congruence.
             ++ rewrite D1; auto. eapply (w_at _ W); eauto.
        * intros u m k. rewrite updE. destruct (Nat.eqb_spec u t) as [->|Ne]; [intros []|apply (w_nc _ W)].
        * intros u. rewrite updE. destruct (Nat.eqb_spec u t) as [->|Ne]; [exact Logic.I|apply (w_tr _ W)].
        * intros u k. rewrite updE. destruct (Nat.eqb_spec u t) as [->|Ne]; [discriminate|].
          intros Hw Hk. destruct (wants u k (cs s)) eqn:Hk0.
          -- destruct (w_q _ W u k Hw Hk0) as [v Hv]. exists v. rewrite updE.
             destruct (Nat.eqb_spec v t) as [->|]; auto. rewrite E in Hv. cbn in Hv. cbn. auto.
          -- exists t. rewrite upd_eq. cbn. eauto.
      + injection H; clear H; intros; subst s'. destruct CDl as [D1 D2].
        mv t (LSpin k) s W; rewrite ?E; cbn; auto; try congruence.
      + injection H; clear H; intros; subst s'. destruct CDl as (D1 & D2 & D3).
        mv t (TSpin kt kf) s W; rewrite ?E; cbn; auto; try congruence.
        intros m k [<-|<-]; apply D3.
      + injection H; clear H; intros; subst s'. destruct CDl as [D1 D2].
        mv t (USpin (ARun k)) s W; rewrite ?E; cbn; auto; try congruence.
      + destruct (races code s t); [discriminate|]. injection H; clear H; intros; subst s'. destruct CDl as [D1 D2].
        mv t (USpin (APark k)) s W; rewrite ?E; cbn; auto; try congruence.
        intros k' [= <-]. right. eapply (w_at _ W); eauto.
      + destruct (races code s t); [discriminate|]. destruct CDl as [D1 D2].
        (* everything but the pending notification *)
        assert (V : cs s' = cs s /\ forall u, pc s' u = (if u =? t then Run k else pc s u) \/
                    pc s' u = woke (if u =? t then Run k else pc s u)).
        { destruct (cq s) as [|w q] eqn:Eq.
          - injection H; clear H; intros; subst s'. split; [reflexivity|]. intros u. cbn. rewrite updE. auto.
          - destruct all.
            + destruct (wake_all_eq NT code own (w :: q) (set_cq (set_pc s t (Run k)) [])) as (s1 & E1 & A1 & A2 & A3 & A4 & A5 & A6).
              * rewrite <- Eq. apply (i_cnd _ _ I).
              * intros x Hx. rewrite <- Eq in Hx. apply (i_cq _ _ I x) in Hx. cbn. rewrite updE.
                destruct (Nat.eqb_spec x t) as [->|]; auto. rewrite E in Hx. discriminate.
              * rewrite E1 in H. injection H; clear H; intros; subst s1. split; auto.
                intros u. destruct (A6 u) as [A7 A8]. cbn in A7, A8. rewrite updE in A7, A8.
                destruct (in_dec Nat.eq_dec u (w :: q)); auto.
            + rewrite wake_cv_eq in H. destruct clinked eqn:Hc in H; [|discriminate].
              injection H; clear H; intros; subst s'. split; [reflexivity|]. intros u. cbn. rewrite (updE _ w).
              destruct (Nat.eqb_spec u w) as [->|]; rewrite updE; auto. }
        destruct V as [Vc V]. 
        assert (V' : forall u, u <> t -> pc s' u = pc s u \/ pc s' u = woke (pc s u)).
        { intros u Ne. specialize (V u). rewrite (proj2 (Nat.eqb_neq u t) Ne) in V. exact V. }
        assert (Vt : pc s' t = Run k). { specialize (V t). rewrite Nat.eqb_refl in V. destruct V; auto. }
        constructor; rewrite ?Vc.
        * intros u m k'. destruct (Nat.eq_dec u t) as [->|Ne].
          -- rewrite Vt. intros [= <-] X. now apply D2 in X.
          -- intros Ep. apply (w_at _ W). destruct (V' u Ne) as [X|X]; rewrite X in Ep; auto. now apply woke_run.
        * intros u m k'. destruct (Nat.eq_dec u t) as [->|Ne].
          -- rewrite Vt. intros [].
          -- intros Ep. apply (w_nc _ W). destruct (V' u Ne) as [X|X]; rewrite X in Ep; auto. now apply woke_conts.
        * intros u. destruct (Nat.eq_dec u t) as [->|Ne].
          -- rewrite Vt. exact Logic.I.
          -- destruct (V' u Ne) as [X|X]; rewrite X; auto; try apply woke_same; apply (w_tr _ W).
        * intros u k' Hw Hk. destruct all.
          -- exfalso. assert (Q : cq s' = []).
             { destruct (cq s) as [|w q] eqn:Eq; [injection H; clear H; intros; subst s'; exact Eq|].
               assert (Z : forall q (x y : mst), wake_all x q = Next y -> cq y = cq x).
               { clear. induction q; simpl; intros x y H. congruence.
                 rewrite wake_cv_eq in H. destruct (clinked (pc x a)); [|discriminate]. apply IHq in H. exact H. }
               exact (Z _ _ _ H). }
             apply waits_cl in Hw. apply (i_cq _ _ I') in Hw. rewrite Q in Hw. exact Hw.
          -- destruct (Nat.eq_dec u t) as [->|Ne]; [rewrite Vt in Hw; discriminate|].
             destruct (V' u Ne) as [X|X]; rewrite X in Hw; [|rewrite woke_waits in Hw; discriminate].
             destruct (w_q _ W u k' Hw Hk) as [v Hv]. exists v. destruct (Nat.eq_dec v t) as [->|Nv].
             ++ rewrite Vt. cbn. rewrite E in Hv. cbn in Hv. rewrite D1; auto.
             ++ destruct (V' v Nv) as [Y|Y]; rewrite Y; auto. now apply woke_owp.
    - unfold spin in H. destruct (splk s) eqn:Es; [discriminate|]. injection H; clear H; intros; subst s'.
      mv t (LTest k) s W; rewrite ?E; cbn; auto; congruence.
    - destruct (owner s) as [o|] eqn:Eo.
      + destruct (Nat.eqb_spec o t); [discriminate|]. injection H; clear H; intros; subst s'.
        mv t (LRel k true) s W; rewrite ?E; cbn; auto; congruence.
      + injection H; clear H; intros; subst s'.
        mv t (LRel k false) s W; rewrite ?E; cbn; auto; congruence.
    - unfold unspin in H. injection H; clear H; intros; subst s'.
      destruct linked; [mv t (LParked k) s W|mv t (Run (L:=L) k) s W]; rewrite ?E; cbn; auto; try congruence; try tauto.
      intros ? ? [= <-]. auto.
    - discriminate.
    - unfold spin in H. destruct (splk s) eqn:Es; [discriminate|]. injection H; clear H; intros; subst s'.
      mv t (TTest kt kf) s W; rewrite ?E; cbn; auto; congruence.
    - destruct (owner s) as [o|] eqn:Eo.
      + injection H; clear H; intros; subst s'.
        mv t (TRel false kf) s W; rewrite ?E; cbn; auto; congruence.
      + injection H; clear H; intros; subst s'.
        mv t (TRel true kt) s W; rewrite ?E; cbn; auto; congruence.
    - unfold unspin in H. injection H; clear H; intros; subst s'.
      mv t (Run (L:=L) k) s W; rewrite ?E; cbn; auto; try congruence; try tauto. intros ? ? [= <-]. auto.
    - unfold spin in H. destruct (splk s) eqn:Es; [discriminate|]. injection H; clear H; intros; subst s'.
      mv t (UDo a) s W; rewrite ?E; destruct a; cbn; auto; congruence.
    - destruct (owner s) as [o|] eqn:Eo; [|discriminate]. destruct (o =? t); [|discriminate].
      assert (W1 : WInv (set_pc (set_owner s None) t (URel a))).
      { mv t (URel a) s W; rewrite ?E; destruct a; cbn; auto; congruence. }
      destruct (mq s) as [|w q] eqn:Em.
      + injection H; clear H; intros; subst s'. exact W1.
      + destruct (pc (set_pc (set_owner s None) t (URel a)) w) as [|k|k|k ?|k| | | | | | |] eqn:Ew; try discriminate.
        injection H; clear H; intros; subst s'.
        assert (NW := w_nc _ W1 w). rewrite Ew in NW.
        mv w (LSpin k) (set_pc (set_owner s None) t (URel a)) W1; cbn in Ew; rewrite ?Ew; cbn; auto; congruence.
    - unfold unspin in H. injection H; clear H; intros; subst s'.
      destruct a; [mv t (Run (L:=L) k) s W|mv t (CvParked k) s W|mv t (LSpin k) s W]; rewrite ?E; cbn; auto; try congruence; try tauto.
      intros ? ? [= <-]. auto.
    - discriminate.
  Qed.

  Variables (c0 : C) (l0 : nat -> L).
  Hypothesis own0 : forall t, own t (l0 t) = false.
  Lemma w_inv s : reachable step (minit c0 l0) s -> WInv s.
  Proof.
    intros R. apply (reach_step step (fun s => MInv own s /\ WInv s) (minit c0 l0)); auto.
    - intros x l y [I W] H. split; [eapply step_inv|eapply w_step]; eauto.
    - split; [now apply init_inv|]. constructor; cbn; try easy.
      intros t l k [= <-] E. assert (X := PA t (l0 t)). rewrite E in X. rewrite own0 in X. destruct X. discriminate.
  Qed.
  Lemma cv_no_lost_wakeup_pf s t k : reachable step (minit c0 l0) s -> pc s t = CvParked k ->
    wants t k (cs s) = true -> exists u, owing s u = true.
  Proof. intros R E Hk. apply (w_q _ (w_inv _ R) t k); auto. now rewrite E. Qed.
End MonWake.
