(** Closing, and the wake-up invariants of SimpleChannel. *)
From Verif Require Import Util Conc EcModel EcProof EcWake EcLoc EcEff AwaitSpec ChannelModel ChannelSpec ChannelProof.

Section ChannelWake.
  Variable mp : bool.
  Variable cap np NT : nat.
  Variable cons : nat -> bool.
  Hypothesis Hnt : (N.of_nat NT < two32)%N.
  Notation code := (ccode mp cap np).
  Notation cstep := (step NT code).
  Notation s0 := (cinit cons).
  Notation Inv s := (EcInv NT code cholds s).
  Notation effc := (eff NT code cholds).
  Notation CI := (CI mp cap NT cons).

  (** ** Closing *)
  Lemma sum_squeeze (f g : nat -> nat) n : (forall i, i < n -> f i <= g i) -> sumn g n <= sumn f n ->
    forall i, i < n -> f i = g i.
  Proof.
    intros H. assert (L : sumn f n <= sumn g n).
    { clear - H. induction n; simpl; auto. specialize (IHn ltac:(auto)). specialize (H n ltac:(auto)). lia. }
    revert H L. induction n; simpl; intros H L E i Hi; [lia|].
    assert (L' : sumn f n <= sumn g n).
    { clear - H. induction n; simpl; auto. assert (forall i, i < S n -> f i <= g i) by auto.
      specialize (IHn ltac:(auto)). specialize (H n ltac:(auto)). lia. }
    pose proof (H n ltac:(auto)). destruct (Nat.eq_dec i n) as [->|]; [lia|].
    apply IHn; auto; lia.
  Qed.
  Lemma producers_sum n : producers cons n = sumn (fun u => if cons u then 0 else 1) n.
  Proof. induction n; simpl; auto. Qed.
  Lemma over_shut s : CI s -> np = producers cons NT -> np <= closing (cs s) ->
    forall t, t < NT -> cons t = false -> shut (pc (th s t)) = 1.
  Proof.
    intros I Hp Ho t Ht Hc. rewrite (c_shut _ _ _ _ _ I), Hp, producers_sum in Ho.
    unfold tot in Ho.
    rewrite (sum_squeeze (fun u => shut (pc (th s u))) (fun u => if cons u then 0 else 1) NT); auto.
    - now rewrite Hc.
    - intros i _. rewrite <- (c_role _ _ _ _ _ I i). unfold shut. destruct (loc (pc (th s i))); simpl; lia.
  Qed.

  Definition FInv (s : st chan cloc) : Prop := forall t, t < NT ->
    match loc (pc (th s t)) with
    | KTry Last | KRel Last => np <= closing (cs s)
    | KN Last | KDropF | KRet => np <= closing (cs s) /\ q (cs s) = []
    | _ => True
    end.
  Ltac effd F := destruct F as [l f c' l' E Ec Ef Hc M Ks Wq Ep | l e1 k E Ec Hc M Wq Ep Kn [w Ks] | l k E Ec Hc M Wq Ep Ks
      | l e1 all k E Ec Hc Ks Wq Ep D | e1 all k n r l E Eq Hc En N Hn Hh M Ks Wq Ep
      | e1 all k E Eq Hc M Ks Wq Ep | l kyt E Kt Hc M Ks Ep Wq Ha | p' Si Hc M Ks Wq Ep].
  (** Client steps never reopen the channel, and once it is closed nothing is added. *)
  Lemma atom_q s t c l f c' l' : CI s -> np = producers cons NT -> t < NT -> pc (th s t) = Run l -> code t l = Atom f ->
    f (cs s) c = Next (c', l') -> closing (cs s) <= closing c' /\ (np <= closing (cs s) -> q (cs s) = [] -> q c' = []).
  Proof.
    intros I Hp Ht E Ec Ef. pose proof (over_shut s I Hp) as Sh. pose proof (c_role _ _ _ _ _ I t) as Ro.
    destruct l; simpl in Ec; try discriminate; injection Ec as <-; try (injection Ef as <- <-); auto.
    - destruct c; injection Ef as <- <-; auto.
    - destruct (enq mp cap t v (cs s)) as [x|] eqn:Eq; injection Ef as <- <-; auto.
      unfold enq in Eq. destruct (_ || _); [discriminate|]. injection Eq as <-. simpl. split; auto.
      intros Ho. rewrite E in Ro. simpl in Ro. specialize (Sh Ho t Ht (eq_sym Ro)). rewrite E in Sh. discriminate.
    - simpl. split; auto. intros _ ->. auto.
    - simpl. split; auto; try lia.
    - discriminate.
    - destruct (deq mp t (cs s)) as [x|] eqn:Eq; injection Ef as <- <-; auto.
      unfold deq in Eq. destruct (q (cs s)) as [|y r]; [discriminate|]. destruct (hold_ y); [discriminate|].
      injection Eq as <-. simpl. split; auto. discriminate.
  Qed.
  Lemma FInv_reach s : np = producers cons NT -> reachable cstep s0 s -> FInv s.
  Proof.
    intros Hp. apply (reach_ind mp cap np NT cons Hnt).
    - intros t _. simpl. now destruct (cons t).
    - intros s1 t c s2 R Ie I Ht F _. pose proof (CI_reach mp cap np NT cons Hnt s1 R) as Ci.
      effd F.
      + destruct (atom_q s1 t c l f c' l' Ci Hp Ht E Ec Ef) as [A1 A2]. intros u Hu. rewrite M, Hc.
        destruct (Nat.eqb_spec u t) as [->|Hut].
        * simpl. specialize (I t Ht). rewrite E in I. simpl in I.
          destruct l; simpl in Ec; try discriminate; injection Ec as <-; try discriminate; try (injection Ef as <- <-); simpl; auto.
          -- destruct c; injection Ef as <- <-; auto.
          -- destruct (enq mp cap t v (cs s1)) as [x|]; injection Ef as <- <-; destruct mp, p; auto.
          -- now destruct c.
          -- destruct (deq mp t (cs s1)) as [x|] eqn:Eq; injection Ef as <- <-; destruct p; simpl; auto; try (now destruct mp).
             ++ destruct mp; simpl; auto. lia.
             ++ split; auto. unfold deq in Eq. destruct (q (cs s1)) as [|y r] eqn:Eqq; auto. exfalso.
                destruct (hold_ y) as [v|] eqn:Ey; [|discriminate].
                assert (Hi : In y (q (cs s1))) by (rewrite Eqq; now left).
                destruct (c_hold _ _ _ _ _ Ci y v Hi Ey) as [p Ev].
                pose proof (proj1 (c_lt _ _ _ _ _ Ci) y v Hi Ey) as Hv. pose proof (c_role _ _ _ _ _ Ci v) as Ro.
                rewrite Ev in Ro. pose proof (over_shut s1 Ci Hp I v Hv (eq_sym Ro)) as Sh. rewrite Ev in Sh. discriminate.
          -- now destruct p.
          -- destruct (np <=? closing (cs s1)) eqn:El; auto. apply Nat.leb_le. auto.
        * specialize (I u Hu). destruct (loc (pc (th s1 u))); auto; try (destruct p; auto; try (destruct I; split; auto); lia);
          destruct I; split; auto; lia.
      + intros u Hu. rewrite M, Hc. destruct (Nat.eqb_spec u t) as [->|Hut]; [|now apply I].
        destruct l; simpl in Ec; try discriminate; injection Ec as <- <-; simpl; auto.
      + intros u Hu. rewrite M, Hc. destruct (Nat.eqb_spec u t) as [->|Hut]; [|now apply I].
        specialize (I t Ht). rewrite E in I. destruct l; simpl in Ec; try discriminate; injection Ec as <-; simpl in *; auto.
      + intros u Hu. rewrite Hc. destruct D as [M|[M _]]; rewrite M; (destruct (Nat.eqb_spec u t) as [->|Hut]; [|now apply I]);
        specialize (I t Ht); rewrite E in I; destruct l; simpl in Ec; try discriminate; injection Ec as <- <- <-; simpl in *; auto;
        now destruct p.
      + intros u Hu. specialize (I u Hu) as Iu. rewrite M, Hc. destruct (Nat.eqb_spec u t) as [->|Hut].
        { rewrite E in Iu. now destruct all. }
        destruct (Nat.eqb_spec u n) as [->|]; auto. now rewrite En in Iu.
      + intros u Hu. specialize (I u Hu) as Iu. rewrite M, Hc. destruct (Nat.eqb_spec u t) as [->|Hut]; auto. now rewrite E in Iu.
      + intros u Hu. specialize (I u Hu) as Iu. rewrite M, Hc. destruct (Nat.eqb_spec u t) as [->|Hut]; auto. now rewrite E in Iu.
      + intros u Hu. specialize (I u Hu) as Iu. rewrite M, Hc. destruct (Nat.eqb_spec u t) as [->|Hut]; auto.
        destruct Si as [l k Ec|e all k|e k|l|l|l|l k Ec|l|l b|l b k Ec]; simpl in *; auto;
        destruct l; simpl in Ec; try discriminate; injection Ec as <-; auto.
  Qed.
  Lemma channel_closed_pf s t : np = producers cons NT -> reachable cstep s0 s -> t < NT -> pop_failed s t ->
    (forall u, u < NT -> cons u = false -> has_closed s u) /\ sent s = received s.
  Proof.
    intros Hp R Ht H. pose proof (FInv_reach s Hp R t Ht) as F. rewrite H in F. destruct F as [Ho Hq].
    pose proof (CI_reach mp cap np NT cons Hnt s R) as I. split.
    - intros u Hu Hc. pose proof (over_shut s I Hp Ho u Hu Hc) as S. unfold shut in S. unfold has_closed.
      destruct (loc (pc (th s u))); auto; discriminate.
    - rewrite (c_cont _ _ _ _ _ I), Hq. simpl. now rewrite app_nil_r.
  Qed.

  (** ** Wake-ups *)
  Definition AK (l : cloc) : bool := match l with KN Loop | KChk | KWait => true | _ => false end.
  Definition AW (l : cloc) : bool := match l with KWait => true | _ => false end.
  Definition AP (l : cloc) : bool := match l with PWait _ => true | _ => false end.
  Lemma cl_AK : closed_pts code AK.
  Proof. intros t l. destruct l; simpl; auto; destruct p; auto. Qed.
  Lemma cl_AW : closed_pts code AW.
  Proof. intros t l. destruct l; simpl; auto; destruct p; auto; discriminate. Qed.
  Lemma cl_AP : closed_pts code AP.
  Proof. intros t l. destruct l; simpl; auto; destruct p; auto; discriminate. Qed.

  Lemma nokeys_wq s e : Inv s -> (forall u ky, u < NT -> key (th s u) = Some ky -> ke ky <> e) -> wq (ec s e) = [].
  Proof.
    intros I H. destruct (wq (ec s e)) as [|u r] eqn:Eq; auto. exfalso.
    assert (Hi : In u (wq (ec s e))) by (rewrite Eq; now left).
    pose proof (linked_lt NT code cholds s u e I Hi) as Hu. apply (e_wq _ _ _ _ I) in Hi as [_ Hk].
    destruct (key (th s u)) as [ky|] eqn:K; [|discriminate]. injection Hk as Hk. now apply (H u ky).
  Qed.
  Lemma wait_key s t l ky : Inv s -> (pc (th s t) = WCheck l \/ pc (th s t) = Parked l) -> key (th s t) = Some ky ->
    (ke ky = 1 /\ l = KWait) \/ (ke ky = 0 /\ exists v, l = PWait v).
  Proof.
    intros I E K. pose proof (e_key _ _ _ _ I t) as Hk. pose proof (e_wc _ _ _ _ I t) as Hw.
    rewrite K in Hk. destruct E as [E|E]; rewrite E in *; specialize (Hw eq_refl); simpl in *; unfold is_wait in Hw;
    destruct l; simpl in *; try tauto; injection Hk as ->; eauto.
  Qed.

  (** Weights: a closer about to notify; a closer notifying; a pusher about to notify; a pusher
      notifying; a consumer that will look at the queue. *)
  Definition fc1 (p : pct cloc) : nat := match p with Run PNAll => 1 | _ => 0 end.
  Definition fc2 (p : pct cloc) : nat := match p with NLock 1 true _ | NWork 1 true _ => 1 | _ => 0 end.
  Definition fd (p : pct cloc) : nat := match p with Run (PNtf _) => 1 | _ => 0 end.
  Definition fp (p : pct cloc) : nat := match p with NLock 1 false _ | NWork 1 false _ => 1 | _ => 0 end.
  Definition fa (p : pct cloc) : nat :=
    match p with
    | Run (KTry _ | KPrep | KAgain)
    | Woken KWait | FLock KWait _ | FUnl KWait _ | WUnl KWait false => 1
    | _ => 0
    end.

  Definition CW (s : st chan cloc) : Prop := aba s = false -> np <= closing (cs s) ->
    (wq (ec s 1) <> [] -> 0 < tot NT fc1 s + tot NT fc2 s) /\ (forall u, fresh 1 AW s u -> 0 < tot NT fc1 s).
  Lemma CW_reach s : reachable cstep s0 s -> CW s.
  Proof.
    apply (reach_ind mp cap np NT cons Hnt).
    - intros _ _. simpl. split. congruence. intros u [(ky & K & _) _]. discriminate.
    - intros s1 t c s2 R Ie I Ht F Ab A Ho. specialize (I (Ab A)).
      assert (FB := fun u => fresh_back NT code cholds 1 AW s1 t c s2 u cl_AW Ie F).
      assert (FN := fun u => fresh_ntf NT code cholds 1 AW s1 t c s2 u Ie F).
      effd F.
      + rewrite Hc in Ho. rewrite Wq.
        pose proof (tot_moves NT fc1 s1 s2 t _ Ht M) as T1. pose proof (tot_moves NT fc2 s1 s2 t _ Ht M) as T2. rewrite E in T1, T2.
        assert (Z : tot NT fc1 s2 = S (tot NT fc1 s1) \/ tot NT fc1 s2 = tot NT fc1 s1 /\ np <= closing (cs s1) /\ (l' = KWait -> False)).
        { destruct l; simpl in Ec; try discriminate; injection Ec as <-; try discriminate; try (injection Ef as <- <-); simpl in *; try lia.
          - right. destruct c; injection Ef as <- <-; simpl in *; repeat split; try lia; discriminate.
          - right. destruct (enq mp cap t v (cs s1)) as [x|] eqn:Eq; injection Ef as <- <-.
            + unfold enq in Eq. destruct (_ || _); [discriminate|]. injection Eq as <-. simpl in *.
              destruct mp; simpl in *; repeat split; try lia; discriminate.
            + destruct p; simpl in *; repeat split; try lia; discriminate.
          - right. destruct p; repeat split; try lia; discriminate.
          - right. repeat split; try lia; discriminate.
          - right. destruct (deq mp t (cs s1)) as [x|] eqn:Eq; injection Ef as <- <-.
            + unfold deq in Eq. destruct (q (cs s1)) as [|y r]; [discriminate|]. destruct (hold_ y); [discriminate|]. injection Eq as <-.
              simpl in *. destruct mp, p; simpl in *; repeat split; try lia; discriminate.
            + destruct p; simpl in *; repeat split; try lia; discriminate.
          - right. destruct p; simpl in *; repeat split; try lia; discriminate.
          - right. apply Nat.leb_le in Ho as Ho'. rewrite Ho' in *. simpl in *. repeat split; try lia; discriminate.
          - right. repeat split; try lia; discriminate. }
        destruct Z as [Z|(Z & Ho' & Z2)]; [split; intros; lia|].
        destruct (I Ho') as [I1 I2].
        assert (T2' : tot NT fc2 s2 = tot NT fc2 s1) by (simpl in T2; lia).
        rewrite Z, T2'. split; auto. intros u Fu. destruct (FB u Fu) as [X|(-> & l1 & f1 & c1 & l2 & P1 & P2 & P3 & P4 & P5)]; eauto.
        exfalso. apply Z2. rewrite E in P1. injection P1 as <-. rewrite Ec in P2. injection P2 as <-. rewrite Ef in P3. injection P3 as <- <-.
        destruct l'; simpl in P4; congruence.
      + rewrite Hc in Ho. destruct (I Ho) as [I1 I2]. rewrite Wq.
        pose proof (tot_moves NT fc1 s1 s2 t _ Ht M) as T1. pose proof (tot_moves NT fc2 s1 s2 t _ Ht M) as T2. rewrite E in T1, T2.
        assert (tot NT fc1 s2 = tot NT fc1 s1) by (destruct l; simpl in Ec; try discriminate; injection Ec as <- <-; simpl in *; lia).
        assert (tot NT fc2 s2 = tot NT fc2 s1) by (simpl in *; lia).
        rewrite H, H0. split; auto. intros u Fu. destruct (FB u Fu) as [X|(_ & l1 & f1 & c1 & l2 & P1 & P2 & _)]; eauto; congruence.
      + rewrite Hc in Ho. destruct (I Ho) as [I1 I2]. rewrite Wq.
        pose proof (tot_moves NT fc1 s1 s2 t _ Ht M) as T1. pose proof (tot_moves NT fc2 s1 s2 t _ Ht M) as T2. rewrite E in T1, T2.
        assert (tot NT fc1 s2 = tot NT fc1 s1) by (destruct l; simpl in Ec; try discriminate; injection Ec as <-; simpl in *; lia).
        assert (tot NT fc2 s2 = tot NT fc2 s1) by (simpl in *; lia).
        rewrite H, H0. split; auto. intros u Fu. destruct (FB u Fu) as [X|(_ & l1 & f1 & c1 & l2 & P1 & P2 & _)]; eauto; congruence.
      + rewrite Hc in Ho. destruct (I Ho) as [I1 I2]. rewrite Wq.
        assert (Fb : forall u, fresh 1 AW s2 u -> fresh 1 AW s1 u).
        { intros u Fu. destruct (FB u Fu) as [X|(_ & l1 & f1 & c1 & l2 & P1 & P2 & _)]; auto; congruence. }
        destruct D as [M|[M Nk]];
        pose proof (tot_moves NT fc1 s1 s2 t _ Ht M) as T1; pose proof (tot_moves NT fc2 s1 s2 t _ Ht M) as T2; rewrite E in T1, T2;
        destruct l; simpl in Ec; try discriminate; injection Ec as <- <- <-; cbn [fc1 fc2 push_ec pop_ec] in T1, T2.
        * split; [intros W; specialize (I1 W); lia|intros u Fu; specialize (I2 u (Fb u Fu)); lia].
        * split; [intros W; specialize (I1 W); lia|]. intros u Fu. exfalso. apply (FN u); auto. rewrite Ep. unfold pop_ec. simpl. lia.
        * split; [intros W; specialize (I1 W); lia|intros u Fu; specialize (I2 u (Fb u Fu)); lia].
        * assert (fc1 (Run (pdone p)) = 0) by (now destruct p).
          split; [intros W; specialize (I1 W); lia|intros u Fu; specialize (I2 u (Fb u Fu)); lia].
        * rewrite (nokeys_wq s1 1 Ie Nk). split; [congruence|]. intros u Fu. exfalso. apply (FN u); auto. rewrite Ep. unfold pop_ec. simpl. lia.
        * destruct p; simpl in T1; (split; [intros W; specialize (I1 W); lia|intros u Fu; specialize (I2 u (Fb u Fu)); lia]).
      + rewrite Hc in Ho. destruct (I Ho) as [I1 I2].
        assert (Fb : forall u, fresh 1 AW s2 u -> fresh 1 AW s1 u).
        { intros u Fu. destruct (FB u Fu) as [X|(_ & l1 & f1 & c1 & l2 & P1 & P2 & _)]; auto; congruence. }
        pose proof (tot_wake NT fc1 s1 s2 t n _ _ Ht Hn N M) as T1. pose proof (tot_wake NT fc2 s1 s2 t n _ _ Ht Hn N M) as T2.
        rewrite E, En in T1, T2. rewrite Wq. cbn [fc1] in T1.
        assert (fc1 (if all then NWork e1 all k else NUnl e1 k) = 0) by (now destruct all).
        assert (Tq : e1 <> 1 \/ all = true -> tot NT fc2 s2 = tot NT fc2 s1).
        { intros X. destruct all; simpl in T2; [lia|]. destruct X as [X|X]; [|discriminate].
          destruct e1 as [|[|e1]]; simpl in T2; try lia; congruence. }
        split.
        * intros W. destruct e1 as [|[|e1]]; simpl in W.
          -- specialize (I1 W). rewrite Tq by (left; discriminate). lia.
          -- specialize (I1 ltac:(rewrite Eq; discriminate)). destruct all; [rewrite Tq by auto; lia|].
             simpl in T2. lia.
          -- specialize (I1 W). rewrite Tq by (left; discriminate). lia.
        * intros u Fu. specialize (I2 u (Fb u Fu)). lia.
      + rewrite Hc in Ho. destruct (I Ho) as [I1 I2].
        assert (Fb : forall u, fresh 1 AW s2 u -> fresh 1 AW s1 u).
        { intros u Fu. destruct (FB u Fu) as [X|(_ & l1 & f1 & c1 & l2 & P1 & P2 & _)]; auto; congruence. }
        pose proof (tot_moves NT fc1 s1 s2 t _ Ht M) as T1. pose proof (tot_moves NT fc2 s1 s2 t _ Ht M) as T2. rewrite E in T1, T2.
        rewrite Wq. cbn [fc1] in T1. split; [|intros u Fu; specialize (I2 u (Fb u Fu)); lia].
        intros W. specialize (I1 W). destruct e1 as [|[|e1]]; simpl in T2; try lia. congruence.
      + rewrite Hc in Ho. destruct (I Ho) as [I1 I2].
        assert (Fb : forall u, fresh 1 AW s2 u -> fresh 1 AW s1 u).
        { intros u Fu. destruct (FB u Fu) as [X|(_ & l1 & f1 & c1 & l2 & P1 & P2 & _)]; auto; congruence. }
        pose proof (tot_moves NT fc1 s1 s2 t _ Ht M) as T1. pose proof (tot_moves NT fc2 s1 s2 t _ Ht M) as T2. rewrite E in T1, T2.
        rewrite Wq. cbn [fc1 fc2] in T1, T2. split; [|intros u Fu; specialize (I2 u (Fb u Fu)); lia].
        destruct (wait_key s1 t l kyt Ie (or_introl E) Kt) as [[K1 ->]|[K1 _]]; rewrite K1 in *; simpl.
        * intros _. assert (0 < tot NT fc1 s1); [|lia]. apply (I2 t). split; [|now rewrite E]. exists kyt. rewrite <- K1 at 2. rewrite K1. auto.
        * intros W. specialize (I1 W). lia.
      + rewrite Hc in Ho. destruct (I Ho) as [I1 I2].
        assert (Fb : forall u, fresh 1 AW s2 u -> fresh 1 AW s1 u).
        { intros u Fu. destruct (FB u Fu) as [X|(_ & l1 & f1 & c1 & l2 & P1 & P2 & _)]; auto.
          rewrite P1 in Si. inversion Si. subst. congruence. }
        pose proof (tot_moves NT fc1 s1 s2 t _ Ht M) as T1. pose proof (tot_moves NT fc2 s1 s2 t _ Ht M) as T2.
        assert (tot NT fc1 s1 <= tot NT fc1 s2 /\ tot NT fc2 s1 <= tot NT fc2 s2).
        { destruct Si as [l k Ec|e all k|e k|l|l|l|l k Ec|l|l b|l b k Ec]; cbn [fc1 fc2] in T1, T2; try lia;
          destruct l; simpl in Ec; try discriminate; simpl in *; lia. }
        rewrite Wq. split; [intros W; specialize (I1 W); lia|intros u Fu; specialize (I2 u (Fb u Fu)); lia].
  Qed.
End ChannelWake.
