(** No wake-up of a Pop is lost, and the channel does not deadlock. *)
From Verif Require Import Util Conc EcModel EcProof EcWake EcLoc EcEff AwaitSpec ChannelModel ChannelSpec ChannelProof ChannelWake.

Section ChannelPop.
  Variable mp : bool.
  Variable cap np NT : nat.
  Variable cons : nat -> bool.
  Hypothesis Hnt : (N.of_nat NT < two32)%N.
  Notation code := (ccode mp cap np).
  Notation cstep := (step NT code).
  Notation s0 := (cinit cons).
  Notation Inv s := (EcInv NT code cholds s).
  Notation effc := (eff NT code cholds).
  Notation CI := (CI mp cap NT cons).
  Ltac effd F := destruct F as [l f c' l' E Ec Ef Hc M Ks Wq Ep | l e1 k E Ec Hc M Wq Ep Kn [w Ks] | l k E Ec Hc M Wq Ep Ks
      | l e1 all k E Ec Hc Ks Wq Ep D | e1 all k n r l E Eq Hc En N Hn Hh M Ks Wq Ep
      | e1 all k E Eq Hc M Ks Wq Ep | l kyt E Kt Hc M Ks Ep Wq Ha | p' Si Hc M Ks Wq Ep].

  (** ** The single-step queue: as many consumers are on their way as there are elements *)
  Definition PI (s : st chan cloc) : Prop := aba s = false ->
    (tot NT fp s < length (wq (ec s 1)) -> length (q (cs s)) <= tot NT fa s + tot NT fd s + tot NT fp s) /\
    (forall u, fresh 1 AK s u ->
       length (q (cs s)) <= tot NT fa s + tot NT fd s + Nat.min (tot NT fp s) (length (wq (ec s 1)))).
  Lemma deq_none s t : CI s -> mp = false -> deq mp t (cs s) = None -> q (cs s) = [].
  Proof.
    intros I Hm H. destruct (q (cs s)) as [|x r] eqn:E; auto. exfalso. unfold deq in H. rewrite E in H.
    rewrite (proj1 (c_mp _ _ _ _ _ I Hm) x) in H by (rewrite E; now left). discriminate.
  Qed.
  Lemma PI_reach s : mp = false -> reachable cstep s0 s -> PI s.
  Proof.
    intros Hm. apply (reach_ind mp cap np NT cons Hnt).
    - intros _. simpl. split; [lia|]. intros u [(ky & K & _) _]. discriminate.
    - intros s1 t c s2 R Ie I Ht F Ab A. destruct (I (Ab A)) as [I1 I2]. clear I.
      pose proof (CI_reach mp cap np NT cons Hnt s1 R) as Ci.
      assert (FB := fun u => fresh_back NT code cholds 1 AK s1 t c s2 u (cl_AK mp cap np) Ie F).
      assert (FN := fun u => fresh_ntf NT code cholds 1 AK s1 t c s2 u Ie F).
      effd F.
      + rewrite Hc, Wq.
        pose proof (tot_moves NT fa s1 s2 t _ Ht M) as T1. pose proof (tot_moves NT fd s1 s2 t _ Ht M) as T2.
        pose proof (tot_moves NT fp s1 s2 t _ Ht M) as T3. rewrite E in T1, T2, T3. cbn [fp] in T3.
        assert (Z : length (q c') = 0 \/ ((forall u, fresh 1 AK s2 u -> fresh 1 AK s1 u) /\
                      length (q c') + (tot NT fa s1 + tot NT fd s1) <= length (q (cs s1)) + (tot NT fa s2 + tot NT fd s2))).
        { assert (FB' : AK l' = false \/ AK l = true -> forall u, fresh 1 AK s2 u -> fresh 1 AK s1 u).
          { intros Hl u Fu. destruct (FB u Fu) as [X|(-> & l1 & f1 & c1 & l2 & P1 & P2 & P3 & P4 & P5)]; auto. exfalso.
            rewrite E in P1. injection P1 as <-. rewrite Ec in P2. injection P2 as <-. rewrite Ef in P3. injection P3 as <- <-.
            destruct Hl; congruence. }
          destruct l; simpl in Ec; try discriminate; injection Ec as <-; try discriminate; try (injection Ef as <- <-).
          - right. destruct c; injection Ef as <- <-; (split; [apply FB'; now left|]); simpl in *; lia.
          - right. destruct (enq mp cap t v (cs s1)) as [x|] eqn:Eq; injection Ef as <- <-.
            + unfold enq in Eq. destruct (_ || _); [discriminate|]. injection Eq as <-. rewrite Hm in *.
              split; [apply FB'; now left|]. simpl in *. rewrite app_length. simpl. lia.
            + split; [apply FB'; left; now destruct p|]. destruct p; simpl in *; lia.
          - right. split; [apply FB'; now left|]. simpl in *. rewrite map_length. lia.
          - right. split; [apply FB'; now left|]. simpl in *. lia.
          - right. split; [apply FB'; now left|]. simpl in *. lia.
          - destruct (deq mp t (cs s1)) as [x|] eqn:Eq; injection Ef as <- <-.
            + right. unfold deq in Eq. destruct (q (cs s1)) as [|y r]; [discriminate|]. destruct (hold_ y); [discriminate|].
              injection Eq as <-. rewrite Hm in *. split; [apply FB'; left; now destruct p|]. destruct p; simpl in *; lia.
            + left. now rewrite (deq_none s1 t Ci Hm Eq).
          - right. split; [apply FB'; left; now destruct p|]. destruct p; simpl in *; lia.
          - right. split; [apply FB'; right; reflexivity|]. destruct (np <=? _); simpl in *; lia.
          - right. split; [apply FB'; now left|]. simpl in *. lia. }
        destruct Z as [Z|[Z1 Z2]]; [rewrite Z; split; intros; lia|].
        split; [intros W; specialize (I1 ltac:(lia)); lia|]. intros u Fu. specialize (I2 u (Z1 u Fu)). lia.
      + rewrite Hc, Wq.
        pose proof (tot_moves NT fa s1 s2 t _ Ht M) as T1. pose proof (tot_moves NT fd s1 s2 t _ Ht M) as T2.
        pose proof (tot_moves NT fp s1 s2 t _ Ht M) as T3. rewrite E in T1, T2, T3. cbn [fp] in T3.
        assert (tot NT fa s1 <= tot NT fa s2 /\ tot NT fd s2 = tot NT fd s1).
        { destruct l; simpl in Ec; try discriminate; injection Ec as <- <-; simpl in *; lia. }
        split; [intros W; specialize (I1 ltac:(lia)); lia|]. intros u Fu.
        destruct (FB u Fu) as [X|(_ & l1 & f1 & c1 & l2 & P1 & P2 & _)]; [|congruence]. specialize (I2 u X). lia.
      + rewrite Hc, Wq.
        pose proof (tot_moves NT fa s1 s2 t _ Ht M) as T1. pose proof (tot_moves NT fd s1 s2 t _ Ht M) as T2.
        pose proof (tot_moves NT fp s1 s2 t _ Ht M) as T3. rewrite E in T1, T2, T3. cbn [fp] in T3.
        assert (tot NT fa s1 <= tot NT fa s2 /\ tot NT fd s2 = tot NT fd s1).
        { destruct l; simpl in Ec; try discriminate; injection Ec as <-; simpl in *; lia. }
        split; [intros W; specialize (I1 ltac:(lia)); lia|]. intros u Fu.
        destruct (FB u Fu) as [X|(_ & l1 & f1 & c1 & l2 & P1 & P2 & _)]; [|congruence]. specialize (I2 u X). lia.
      + assert (Fb : forall u, fresh 1 AK s2 u -> fresh 1 AK s1 u).
        { intros u Fu. destruct (FB u Fu) as [X|(_ & l1 & f1 & c1 & l2 & P1 & P2 & _)]; auto; congruence. }
        assert (Hw := nokeys_wq mp cap np NT s1 1 Ie).
        rewrite Hc, Wq. unfold pop_ec, push_ec in *.
        destruct D as [M|[M Nk]];
        pose proof (tot_moves NT fa s1 s2 t _ Ht M) as T1; pose proof (tot_moves NT fd s1 s2 t _ Ht M) as T2;
        pose proof (tot_moves NT fp s1 s2 t _ Ht M) as T3; rewrite E in T1, T2, T3;
        destruct l; simpl in Ec; try discriminate; injection Ec as <- <- <-; unfold pop_ec, push_ec in *; cbn [fa fd fp] in T1, T2, T3.
        * split; [intros W; specialize (I1 ltac:(lia)); lia|]. intros u Fu. exfalso. apply (FN u); auto. rewrite Ep. simpl. lia.
        * split; [intros W; specialize (I1 ltac:(lia)); lia|]. intros u Fu. exfalso. apply (FN u); auto. rewrite Ep. simpl. lia.
        * split; [intros W; specialize (I1 ltac:(lia)); lia|]. intros u Fu. specialize (I2 u (Fb u Fu)). lia.
        * rewrite (Hw Nk). split; [simpl; lia|]. intros u Fu. exfalso. apply (FN u); auto. rewrite Ep. simpl. lia.
        * rewrite (Hw Nk). split; [simpl; lia|]. intros u Fu. exfalso. apply (FN u); auto. rewrite Ep. simpl. lia.
        * destruct p; simpl in T1, T2; (split; [intros W; specialize (I1 ltac:(lia)); lia|]); intros u Fu; specialize (I2 u (Fb u Fu)); lia.
      + assert (Fb : forall u, fresh 1 AK s2 u -> fresh 1 AK s1 u).
        { intros u Fu. destruct (FB u Fu) as [X|(_ & l1 & f1 & c1 & l2 & P1 & P2 & _)]; auto; congruence. }
        pose proof (tot_wake NT fa s1 s2 t n _ _ Ht Hn N M) as T1. pose proof (tot_wake NT fd s1 s2 t n _ _ Ht Hn N M) as T2.
        pose proof (tot_wake NT fp s1 s2 t n _ _ Ht Hn N M) as T3.
        rewrite E, En in T1, T2, T3. rewrite Wq, Hc.
        assert (Y1 : tot NT fd s2 = tot NT fd s1) by (destruct all; simpl in T2; lia).
        assert (Y0 : fa (if all then NWork e1 all k else NUnl e1 k) = 0) by (now destruct all).
        destruct e1 as [|[|e1]]; simpl (1 =? _).
        * assert (tot NT fp s2 = tot NT fp s1) by (destruct all; simpl in T3; lia).
          assert (tot NT fa s1 <= tot NT fa s2) by (simpl in T1; lia).
          split; [intros W; specialize (I1 ltac:(lia)); lia|]. intros u Fu. specialize (I2 u (Fb u Fu)). lia.
        * assert (l = KWait).
          { destruct (e_wq _ _ _ _ Ie 1 n ltac:(rewrite Eq; now left)) as [_ Hk]. destruct (key (th s1 n)) as [ky|] eqn:Kn; [|discriminate].
            injection Hk as Hk. destruct (wait_key mp cap np NT cons s1 n l ky Ie (or_intror En) Kn) as [[_ ?]|[? _]]; auto. congruence. }
          subst l. simpl in T1. rewrite Eq in I1, I2. simpl in I1, I2.
          assert (tot NT fp s2 + (if all then 0 else 1) = tot NT fp s1) by (destruct all; simpl in T3; lia).
          split; [intros W; specialize (I1 ltac:(destruct all; lia)); destruct all; lia|]. intros u Fu. specialize (I2 u (Fb u Fu)). destruct all; lia.
        * assert (tot NT fp s2 = tot NT fp s1) by (destruct all; simpl in T3; lia).
          assert (tot NT fa s1 <= tot NT fa s2) by (simpl in T1; lia).
          split; [intros W; specialize (I1 ltac:(lia)); lia|]. intros u Fu. specialize (I2 u (Fb u Fu)). lia.
      + assert (Fb : forall u, fresh 1 AK s2 u -> fresh 1 AK s1 u).
        { intros u Fu. destruct (FB u Fu) as [X|(_ & l1 & f1 & c1 & l2 & P1 & P2 & _)]; auto; congruence. }
        rewrite Hc, Wq.
        pose proof (tot_moves NT fa s1 s2 t _ Ht M) as T1. pose proof (tot_moves NT fd s1 s2 t _ Ht M) as T2.
        pose proof (tot_moves NT fp s1 s2 t _ Ht M) as T3. rewrite E in T1, T2, T3. cbn [fa fd] in T1, T2.
        destruct e1 as [|[|e1]]; simpl in T3.
        * split; [intros W; specialize (I1 ltac:(lia)); lia|]. intros u Fu. specialize (I2 u (Fb u Fu)). lia.
        * rewrite Eq in *. simpl in *. split; [lia|]. intros u Fu. specialize (I2 u (Fb u Fu)). lia.
        * split; [intros W; specialize (I1 ltac:(lia)); lia|]. intros u Fu. specialize (I2 u (Fb u Fu)). lia.
      + assert (Fb : forall u, fresh 1 AK s2 u -> fresh 1 AK s1 u).
        { intros u Fu. destruct (FB u Fu) as [X|(_ & l1 & f1 & c1 & l2 & P1 & P2 & _)]; auto; congruence. }
        rewrite Hc, Wq.
        pose proof (tot_moves NT fa s1 s2 t _ Ht M) as T1. pose proof (tot_moves NT fd s1 s2 t _ Ht M) as T2.
        pose proof (tot_moves NT fp s1 s2 t _ Ht M) as T3. rewrite E in T1, T2, T3. cbn [fa fd fp] in T1, T2, T3.
        destruct (wait_key mp cap np NT cons s1 t l kyt Ie (or_introl E) Kt) as [[K1 ->]|[K1 [v ->]]]; simpl in T1; rewrite K1 in *; simpl (_ =? _); cbv iota.
        * assert (Ft : fresh 1 AK s1 t). { split; [|now rewrite E]. exists kyt. auto. }
          pose proof (I2 t Ft) as It. rewrite app_length. simpl. split; intros; lia.
        * split; [intros W; specialize (I1 ltac:(lia)); lia|]. intros u Fu. specialize (I2 u (Fb u Fu)). lia.
      + assert (Fb : forall u, fresh 1 AK s2 u -> fresh 1 AK s1 u).
        { intros u Fu. destruct (FB u Fu) as [X|(_ & l1 & f1 & c1 & l2 & P1 & P2 & _)]; auto.
          rewrite P1 in Si. inversion Si. subst. congruence. }
        rewrite Hc, Wq.
        pose proof (tot_moves NT fa s1 s2 t _ Ht M) as T1. pose proof (tot_moves NT fd s1 s2 t _ Ht M) as T2.
        pose proof (tot_moves NT fp s1 s2 t _ Ht M) as T3.
        assert (tot NT fa s1 <= tot NT fa s2 /\ tot NT fd s1 <= tot NT fd s2 /\ tot NT fp s1 = tot NT fp s2).
        { destruct Si as [l k Ec|e all k|e k|l|l|l|l k Ec|l|l b|l b k Ec]; simpl in T1, T2, T3; try (destruct l; simpl in *; try discriminate; try (injection Ec as <-); simpl in *; lia).
          - destruct e as [|[|e]], all; simpl in *; lia.
          - lia. }
        split; [intros W; specialize (I1 ltac:(lia)); lia|]. intros u Fu. specialize (I2 u (Fb u Fu)). lia.
  Qed.
End ChannelPop.
