(** SimpleChannel does not deadlock, whatever the queue. *)
From Verif Require Import Util Conc EcModel EcProof EcWake EcLoc EcEff AwaitSpec ChannelModel ChannelSpec ChannelProof ChannelWake ChannelPop.

Section ChannelDead.
  Variable mp : bool.
  Variable cap np NT : nat.
  Variable cons : nat -> bool.
  Hypothesis Hnt : (N.of_nat NT < two32)%N.
  Notation code := (ccode mp cap np).
  Notation cstep := (step NT code).
  Notation s0 := (cinit cons).
  Notation Inv s := (EcInv NT code cholds s).
  Notation effc := (eff NT code cholds).
  Notation CI := (CI mp cap NT cons).
  Ltac effd F := destruct F as [l f c' l' E Ec Ef Hc M Ks Wq Ep | l e1 k E Ec Hc M Wq Ep Kn [w Ks] | l k E Ec Hc M Wq Ep Ks
      | l e1 all k E Ec Hc Ks Wq Ep D | e1 all k n r l E Eq Hc En N Hn Hh M Ks Wq Ep
      | e1 all k E Eq Hc M Ks Wq Ep | l kyt E Kt Hc M Ks Ep Wq Ha | p' Si Hc M Ks Wq Ep].

  (** ** Consumers *)
  Definition asleep (s : st chan cloc) (u : nat) : Prop := In u (wq (ec s 1)) \/ fresh 1 AK s u.
  Definition ready (x : chan) : Prop := match q x with y :: _ => hold_ y = None | [] => False end.
  Definition JP (s : st chan cloc) : Prop := aba s = false ->
    (forall u, u < NT -> cons u = true -> asleep s u) -> ready (cs s) ->
    0 < tot NT fd s \/ (0 < tot NT fp s /\ forall u, ~ fresh 1 AK s u).
  Lemma asleep_back s t c s' u : Inv s -> effc s t c s' -> aba s' = false -> asleep s' u ->
    asleep s u \/ (u = t /\ pc (th s t) = Run (KTry Loop) /\ deq mp t (cs s) = None /\ cs s' = cs s).
  Proof.
    intros I F A [Hi|Hf].
    - left. effd F; rewrite ?Wq in Hi; unfold asleep; auto.
      + destruct (Nat.eqb_spec 1 e1) as [<-|]; auto. left. rewrite Eq. now right.
      + destruct (Nat.eqb_spec 1 (ke kyt)) as [X|]; auto. rewrite <- X in Hi. apply in_app_or in Hi as [Hi|[<-|[]]]; auto.
        right. split; [exists kyt; rewrite X; auto|]. rewrite E.
        destruct (wait_key mp cap np NT cons s t l kyt I (or_introl E) Kt) as [[_ ->]|[? _]]; [reflexivity|congruence].
    - destruct (fresh_back NT code cholds 1 AK s t c s' u (cl_AK mp cap np) I F Hf) as [X|(-> & l & f & c' & l' & E & Ec & Ef & A1 & A2)].
      { left. now right. }
      right. split; auto.
      assert (Hcs : cs s' = c').
      { destruct F as [l0 f0 c0 l0' E0 Ec0 Ef0 Hc M|l0 ? ? E0 Ec0|l0 ? E0 Ec0|l0 ? ? ? E0 Ec0|? ? ? ? ? ? E0|? ? ? E0|? ? E0|p' Si].
        all: try congruence.
        rewrite E in Si. inversion Si; subst; congruence. }
      destruct l; simpl in Ec; try discriminate; injection Ec as <-; try discriminate; try (injection Ef as <- <-); try discriminate.
      + destruct c; injection Ef as <- <-; discriminate.
      + destruct (enq mp cap t v (cs s)); injection Ef as <- <-; destruct mp, p; discriminate.
      + destruct (deq mp t (cs s)) eqn:Eq; injection Ef as <- <-; destruct mp, p; try discriminate; auto.
      + now destruct p.
  Qed.
  Lemma JP_reach s : (exists u, u < NT /\ cons u = true) -> reachable cstep s0 s -> JP s.
  Proof.
    intros (u0 & Hu0 & Cu0). apply (reach_ind2 mp cap np NT cons Hnt).
    - intros _ _ []. 
    - intros s1 t c s2 R Ie I Ht F Ab Ie2 A Hall Hr. specialize (I (Ab A)).
      pose proof (CI_reach mp cap np NT cons Hnt s1 R) as Ci.
      assert (SB := fun u => asleep_back s1 t c s2 u Ie F A).
      assert (FB := fun u => fresh_back NT code cholds 1 AK s1 t c s2 u (cl_AK mp cap np) Ie F).
      assert (FN := fun u => fresh_ntf NT code cholds 1 AK s1 t c s2 u Ie F).
      assert (Hno : deq mp t (cs s1) = None -> cs s2 = cs s1 -> False).
      { intros Hd Hc. rewrite Hc in Hr. unfold ready in Hr. unfold deq in Hd. destruct (q (cs s1)); auto. rewrite Hr in Hd. discriminate. }
      assert (Hall' : forall u, u < NT -> cons u = true -> asleep s1 u).
      { intros u Hu Cu. destruct (SB u (Hall u Hu Cu)) as [X|(-> & _ & Hd & Hc)]; auto. now destruct Hno. }
      specialize (I Hall').
      assert (Key : forall s u, Inv s -> asleep s u -> exists ky, key (th s u) = Some ky /\ ke ky = 1).
      { clear. intros s u Ie [Hi|[(ky & K & Ke & _) _]]; eauto.
        apply (e_wq _ _ _ _ Ie) in Hi as [_ Hk]. destruct (key (th s u)) as [ky|]; [|discriminate]. injection Hk as Hk. eauto. }
      assert (NR : forall s l, Inv s -> pc (th s t) = Run l -> AK l = false -> asleep s t -> False).
      { clear. intros s l Ie E Al [Hi|[_ P]].
        - apply (e_wq _ _ _ _ Ie) in Hi as [Hm _]. now rewrite E in Hm.
        - rewrite E in P. congruence. }
      assert (Cside : forall l, pc (th s1 t) = Run l -> side l = true -> AK l = false -> False).
      { intros l E Hs Al. apply (NR s1 l Ie E Al). apply Hall'; auto. rewrite <- (c_role _ _ _ _ _ Ci t), E. auto. }
      effd F.
      + pose proof (tot_moves NT fd s1 s2 t _ Ht M) as T2. pose proof (tot_moves NT fp s1 s2 t _ Ht M) as T3.
        rewrite E in T2, T3. cbn [fp] in T3. rewrite Hc in Hr.
        assert (Z : 0 < tot NT fd s2 \/ (ready (cs s1) /\ AK l' = AK l /\ tot NT fd s2 = tot NT fd s1)).
        { specialize (Cside l E).
          destruct l; simpl in Ec; try discriminate; injection Ec as <-; try discriminate; try (exfalso; apply Cside; reflexivity); try (injection Ef as <- <-).
          - right. destruct c; injection Ef as <- <-; simpl in *; repeat split; auto; lia.
          - destruct (enq mp cap t v (cs s1)) as [x|] eqn:Eq; injection Ef as <- <-.
            + unfold enq in Eq. destruct (_ || _); [discriminate|]. injection Eq as <-. unfold ready in *. simpl in *. destruct mp; simpl in *.
              * right. destruct (q (cs s1)); simpl in *; [discriminate|]. repeat split; auto. lia.
              * left. lia.
            + right. destruct p; simpl in *; repeat split; auto; lia.
          - left. simpl in *. lia.
          - right. simpl in *. repeat split; auto. lia.
          - right. destruct (np <=? closing (cs s1)) eqn:El.
            + exfalso. assert (Hs : side KChk = true) by reflexivity.
              apply (NR s2 (KTry Last) Ie2).
              * now rewrite M, Nat.eqb_refl.
              * reflexivity.
              * apply Hall; auto. rewrite <- (c_role _ _ _ _ _ Ci t), E. auto.
            + simpl in *. repeat split; auto. lia. }
        destruct Z as [Z|(Z1 & Z2 & Z3)]; [now left|].
        destruct (I Z1) as [J|[J1 J2]]; [left; lia|]. right. split; [lia|].
        intros u Fu. destruct (FB u Fu) as [X|(-> & l1 & f1 & c1 & l2 & P1 & P2 & P3 & P4 & P5)]; [now apply (J2 u)|].
        rewrite E in P1. injection P1 as <-. rewrite Ec in P2. injection P2 as <-. rewrite Ef in P3. injection P3 as <- <-. congruence.
      + (* PrepareWait *) rewrite Hc in Hr. specialize (I Hr).
        pose proof (tot_moves NT fd s1 s2 t _ Ht M) as T2. pose proof (tot_moves NT fp s1 s2 t _ Ht M) as T3.
        rewrite E in T2, T3. cbn [fp] in T3.
        assert (tot NT fd s2 = tot NT fd s1) by (destruct l; simpl in Ec; try discriminate; injection Ec as <- <-; simpl in *; lia).
        destruct I as [J|[J1 J2]]; [left; lia|]. right. split; [lia|].
        intros u Fu. destruct (FB u Fu) as [X|(_ & l1 & f1 & c1 & l2 & P1 & P2 & _)]; [now apply (J2 u)|congruence].
      + (* DropKey *) rewrite Hc in Hr. specialize (I Hr).
        pose proof (tot_moves NT fd s1 s2 t _ Ht M) as T2. pose proof (tot_moves NT fp s1 s2 t _ Ht M) as T3.
        rewrite E in T2, T3. cbn [fp] in T3.
        assert (tot NT fd s2 = tot NT fd s1) by (destruct l; simpl in Ec; try discriminate; injection Ec as <-; simpl in *; lia).
        destruct I as [J|[J1 J2]]; [left; lia|]. right. split; [lia|].
        intros u Fu. destruct (FB u Fu) as [X|(_ & l1 & f1 & c1 & l2 & P1 & P2 & _)]; [now apply (J2 u)|congruence].
      + (* Notify *) rewrite Hc in Hr. specialize (I Hr).
        assert (Fb : forall u, fresh 1 AK s2 u -> fresh 1 AK s1 u).
        { intros u Fu. destruct (FB u Fu) as [X|(_ & l1 & f1 & c1 & l2 & P1 & P2 & _)]; auto; congruence. }
        destruct (Key s1 u0 Ie (Hall' u0 Hu0 Cu0)) as (ky0 & K0 & Ke0).
        destruct D as [M|[M Nk]];
        pose proof (tot_moves NT fd s1 s2 t _ Ht M) as T2; pose proof (tot_moves NT fp s1 s2 t _ Ht M) as T3; rewrite E in T2, T3;
        destruct l; simpl in Ec; try discriminate; injection Ec as <- <- <-; unfold pop_ec, push_ec in *; cbn [fd fp] in T2, T3.
        * right. split; [lia|]. intros u. apply FN. rewrite Ep. simpl. lia.
        * destruct I as [J|[J1 J2]]; [left; lia|]. right. split; [lia|]. intros u Fu. apply (J2 u); auto.
        * destruct I as [J|[J1 J2]]; [left; lia|]. right. split; [lia|]. intros u Fu. apply (J2 u); auto.
        * now destruct (Nk u0 ky0 Hu0 K0).
        * now destruct (Nk u0 ky0 Hu0 K0).
        * assert (fd (Run match p with NB => KIdle | Fast => KPrep | Loop => KChk | Last => KDropF end) = 0) by (now destruct p).
          destruct I as [J|[J1 J2]]; [left; lia|]. right. split; [lia|]. intros u Fu. apply (J2 u); auto.
      + (* wake *) rewrite Hc in Hr. specialize (I Hr).
        assert (Fb : forall u, fresh 1 AK s2 u -> fresh 1 AK s1 u).
        { intros u Fu. destruct (FB u Fu) as [X|(_ & l1 & f1 & c1 & l2 & P1 & P2 & _)]; auto; congruence. }
        pose proof (tot_wake NT fd s1 s2 t n _ _ Ht Hn N M) as T2. pose proof (tot_wake NT fp s1 s2 t n _ _ Ht Hn N M) as T3.
        rewrite E, En in T2, T3.
        assert (Y1 : tot NT fd s2 = tot NT fd s1) by (destruct all; simpl in T2; lia).
        destruct (Nat.eq_dec e1 1) as [->|He].
        * exfalso. assert (l = KWait).
          { destruct (e_wq _ _ _ _ Ie 1 n ltac:(rewrite Eq; now left)) as [_ Hk]. destruct (key (th s1 n)) as [ky|] eqn:Kn; [|discriminate].
            injection Hk as Hk. destruct (wait_key mp cap np NT cons s1 n l ky Ie (or_intror En) Kn) as [[_ ?]|[? _]]; auto. congruence. }
          subst l. assert (Cn : cons n = true). { rewrite <- (c_role _ _ _ _ _ Ci n), En. reflexivity. }
          assert (Pn : pc (th s2 n) = Woken KWait). { rewrite M. apply Nat.eqb_neq in N. now rewrite N, Nat.eqb_refl. }
          destruct (Hall n Hn Cn) as [Hi|[_ Pf]].
          -- apply (e_wq _ _ _ _ Ie2) in Hi as [Hm _]. now rewrite Pn in Hm.
          -- now rewrite Pn in Pf.
        * assert (tot NT fp s2 = tot NT fp s1) by (destruct e1 as [|[|e1]], all; simpl in T3; lia).
          destruct I as [J|[J1 J2]]; [left; lia|]. right. split; [lia|]. intros u Fu. apply (J2 u); auto.
      + (* nobody to wake *) rewrite Hc in Hr. specialize (I Hr).
        assert (Fb : forall u, fresh 1 AK s2 u -> fresh 1 AK s1 u).
        { intros u Fu. destruct (FB u Fu) as [X|(_ & l1 & f1 & c1 & l2 & P1 & P2 & _)]; auto; congruence. }
        pose proof (tot_moves NT fd s1 s2 t _ Ht M) as T2. pose proof (tot_moves NT fp s1 s2 t _ Ht M) as T3.
        rewrite E in T2, T3. cbn [fd] in T2.
        destruct I as [J|[J1 J2]]; [left; lia|]. right. split; [|intros u Fu; apply (J2 u); auto].
        destruct e1 as [|[|e1]]; simpl in T3; try lia. exfalso.
        destruct (Hall' u0 Hu0 Cu0) as [Hi|Hf]; [now rewrite Eq in Hi|now apply (J2 u0)].
      + (* link *) rewrite Hc in Hr. specialize (I Hr).
        assert (Fb : forall u, fresh 1 AK s2 u -> fresh 1 AK s1 u).
        { intros u Fu. destruct (FB u Fu) as [X|(_ & l1 & f1 & c1 & l2 & P1 & P2 & _)]; auto; congruence. }
        pose proof (tot_moves NT fd s1 s2 t _ Ht M) as T2. pose proof (tot_moves NT fp s1 s2 t _ Ht M) as T3.
        rewrite E in T2, T3. cbn [fd fp] in T2, T3.
        destruct I as [J|[J1 J2]]; [left; lia|]. right. split; [lia|]. intros u Fu. apply (J2 u); auto.
      + rewrite Hc in Hr. specialize (I Hr).
        assert (Fb : forall u, fresh 1 AK s2 u -> fresh 1 AK s1 u).
        { intros u Fu. destruct (FB u Fu) as [X|(_ & l1 & f1 & c1 & l2 & P1 & P2 & _)]; auto.
          rewrite P1 in Si. inversion Si. subst. congruence. }
        pose proof (tot_moves NT fd s1 s2 t _ Ht M) as T2. pose proof (tot_moves NT fp s1 s2 t _ Ht M) as T3.
        assert (tot NT fd s1 <= tot NT fd s2 /\ tot NT fp s1 = tot NT fp s2).
        { destruct Si as [l k Ec|e all k|e k|l|l|l|l k Ec|l|l b|l b k Ec]; simpl in T2, T3; try (destruct l; simpl in *; try discriminate; try (injection Ec as <-); simpl in *; lia).
          - destruct e as [|[|e]], all; simpl in *; lia.
          - lia. }
        destruct I as [J|[J1 J2]]; [left; lia|]. right. split; [lia|]. intros u Fu. apply (J2 u); auto.
  Qed.

  (** ** Producers *)
  (** A consumer that is past the notification of push_ec_ after its last look at the queue. *)
  Definition asl2 (p : pct cloc) : bool :=
    match p with
    | Run (KChk | KWait) | NLock _ _ (KChk | KWait) | NWork _ _ (KChk | KWait) | NUnl _ (KChk | KWait)
    | WLock KWait | WCheck KWait | WUnl KWait true | Parked KWait => true
    | _ => false
    end.
  Definition fk (p : pct cloc) : nat := if side (loc p) && negb (asl2 p) then 1 else 0.
  Definition fq (p : pct cloc) : nat := match p with NLock 0 _ _ | NWork 0 _ _ => 1 | _ => 0 end.
  Definition fw (p : pct cloc) : nat :=
    match p with
    | Run (PTry _ _ | PPrep _ | PAgain _)
    | Woken (PWait _) | FLock (PWait _) _ | FUnl (PWait _) _ | WUnl (PWait _) false => 1
    | _ => 0
    end.
  Definition JQ (s : st chan cloc) : Prop := aba s = false -> tot NT fk s = 0 -> q (cs s) = [] ->
    (forall u, ~ fresh 0 AP s u) /\ (wq (ec s 0) = [] \/ 0 < tot NT fq s + tot NT fw s).
  Lemma JQ_reach s : 0 < cap -> reachable cstep s0 s -> JQ s.
  Proof.
    intros Hcap. apply (reach_ind2 mp cap np NT cons Hnt).
    - intros _ _ _. split; [|now left]. intros u [(ky & K & _) _]. discriminate.
    - intros s1 t c s2 R Ie I Ht F Ab Ie2 A Hk Hq. specialize (I (Ab A)).
      pose proof (CI_reach mp cap np NT cons Hnt s1 R) as Ci.
      assert (FB := fun u => fresh_back NT code cholds 0 AP s1 t c s2 u (cl_AP mp cap np) Ie F).
      assert (FN := fun u => fresh_ntf NT code cholds 0 AP s1 t c s2 u Ie F).
      assert (Kt2 : fk (pc (th s2 t)) = 0). { pose proof (tot_pos NT fk s2 t Ht). lia. }
      effd F.
      + rewrite Hc in Hq. rewrite Wq. assert (Mt : pc (th s2 t) = Run l') by (now rewrite M, Nat.eqb_refl). rewrite Mt in Kt2.
        pose proof (tot_moves NT fk s1 s2 t _ Ht M) as T1. pose proof (tot_moves NT fq s1 s2 t _ Ht M) as T2.
        pose proof (tot_moves NT fw s1 s2 t _ Ht M) as T3. rewrite E in T1, T2, T3. cbn [fq] in T2.
        assert (Z : AP l' = AP l /\ tot NT fk s1 = 0 /\ q (cs s1) = [] /\ tot NT fw s1 <= tot NT fw s2).
        { destruct l; simpl in Ec; try discriminate; injection Ec as <-; try discriminate; try (injection Ef as <- <-); try discriminate.
          - destruct c; injection Ef as <- <-; unfold fk in *; simpl in *; repeat split; auto; lia.
          - exfalso. destruct (enq mp cap t v (cs s1)) as [x|] eqn:Eq; injection Ef as <- <-.
            + unfold enq in Eq. destruct (_ || _); [discriminate|]. injection Eq as <-. simpl in Hq. now destruct (q (cs s1)).
            + unfold enq in Eq. destruct (_ || _) eqn:Eb; [|discriminate]. apply orb_true_iff in Eb as [Eb|Eb].
              * apply Nat.leb_le in Eb. rewrite Hq in Eb. simpl in Eb. lia.
              * apply existsb_exists in Eb as ([n b] & Hb & _). destruct (c_busy _ _ _ _ _ Ci n b Hb) as [p' Pb].
                pose proof (proj2 (c_lt _ _ _ _ _ Ci) n b Hb) as Hlt.
                assert (Hbt : b <> t) by (intros ->; congruence). apply Nat.eqb_neq in Hbt.
                pose proof (tot_pos NT fk s2 b Hlt) as X. rewrite M, Hbt, Pb in X. unfold fk at 1 in X. simpl in X. lia.
          - simpl in Hq. apply map_eq_nil in Hq. unfold fk in *; simpl in *; repeat split; auto; lia.
          - unfold fk in *; simpl in *; repeat split; auto; lia.
          - exfalso. destruct (deq mp t (cs s1)) as [x|] eqn:Eq; injection Ef as <- <-; destruct mp, p; discriminate.
          - exfalso. destruct p; discriminate.
          - destruct (np <=? closing (cs s1)); [discriminate|]. unfold fk in *; simpl in *; repeat split; auto; lia. }
        destruct Z as (Z1 & Z2 & Z3 & Z4). destruct (I Z2 Z3) as [I1 I2]. split.
        * intros u Fu. destruct (FB u Fu) as [X|(-> & l1 & f1 & c1 & l2 & P1 & P2 & P3 & P4 & P5)]; [now apply (I1 u)|].
          rewrite E in P1. injection P1 as <-. rewrite Ec in P2. injection P2 as <-. rewrite Ef in P3. injection P3 as <- <-. congruence.
        * destruct I2; [now left|]. right. lia.
      + rewrite Hc in Hq. rewrite Wq. assert (Mt : pc (th s2 t) = Run k) by (now rewrite M, Nat.eqb_refl). rewrite Mt in Kt2.
        pose proof (tot_moves NT fk s1 s2 t _ Ht M) as T1. pose proof (tot_moves NT fq s1 s2 t _ Ht M) as T2.
        pose proof (tot_moves NT fw s1 s2 t _ Ht M) as T3. rewrite E in T1, T2, T3. cbn [fq] in T2.
        assert (Z : tot NT fk s1 = 0 /\ tot NT fw s1 <= tot NT fw s2).
        { destruct l; simpl in Ec; try discriminate; injection Ec as <- <-; try discriminate; unfold fk in *; simpl in *; split; lia. }
        destruct Z as [Z2 Z4]. destruct (I Z2 Hq) as [I1 I2]. split; [|destruct I2; [now left|right; lia]].
        intros u Fu. destruct (FB u Fu) as [X|(_ & l1 & f1 & c1 & l2 & P1 & P2 & _)]; [now apply (I1 u)|congruence].
      + rewrite Hc in Hq. rewrite Wq. assert (Mt : pc (th s2 t) = Run k) by (now rewrite M, Nat.eqb_refl). rewrite Mt in Kt2.
        pose proof (tot_moves NT fk s1 s2 t _ Ht M) as T1. pose proof (tot_moves NT fq s1 s2 t _ Ht M) as T2.
        pose proof (tot_moves NT fw s1 s2 t _ Ht M) as T3. rewrite E in T1, T2, T3. cbn [fq] in T2.
        assert (Z : tot NT fk s1 = 0 /\ tot NT fw s1 <= tot NT fw s2).
        { destruct l; simpl in Ec; try discriminate; injection Ec as <-; try discriminate; unfold fk in *; simpl in *; split; lia. }
        destruct Z as [Z2 Z4]. destruct (I Z2 Hq) as [I1 I2]. split; [|destruct I2; [now left|right; lia]].
        intros u Fu. destruct (FB u Fu) as [X|(_ & l1 & f1 & c1 & l2 & P1 & P2 & _)]; [now apply (I1 u)|congruence].
      + rewrite Hc in Hq. rewrite Wq.
        assert (Fb : forall u, fresh 0 AP s2 u -> fresh 0 AP s1 u).
        { intros u Fu. destruct (FB u Fu) as [X|(_ & l1 & f1 & c1 & l2 & P1 & P2 & _)]; auto; congruence. }
        destruct D as [M|[M Nk]];
        pose proof (tot_moves NT fk s1 s2 t _ Ht M) as T1; pose proof (tot_moves NT fq s1 s2 t _ Ht M) as T2;
        pose proof (tot_moves NT fw s1 s2 t _ Ht M) as T3; rewrite E in T1, T2, T3; rewrite M, Nat.eqb_refl in Kt2;
        destruct l; simpl in Ec; try discriminate; injection Ec as <- <- <-; unfold pop_ec, push_ec in *; cbn [fq fw] in T2, T3.
        * destruct (I ltac:(unfold fk in *; destruct p; simpl in *; lia) Hq) as [I1 I2]. split; [intros u Fu; apply (I1 u); auto|].
          destruct I2; [now left|right; lia].
        * destruct (I ltac:(unfold fk in *; simpl in *; lia) Hq) as [I1 I2]. split; [intros u Fu; apply (I1 u); auto|].
          destruct I2; [now left|right; lia].
        * split; [|right; lia]. intros u. apply FN. rewrite Ep. simpl. lia.
        * destruct (I ltac:(unfold fk in *; destruct p; simpl in *; lia) Hq) as [I1 I2]. split; [intros u Fu; apply (I1 u); auto|].
          destruct I2; [now left|right; lia].
        * destruct (I ltac:(unfold fk in *; simpl in *; lia) Hq) as [I1 I2]. split; [intros u Fu; apply (I1 u); auto|].
          destruct I2; [now left|right; lia].
        * split; [|left; apply (nokeys_wq mp cap np NT s1 0 Ie); auto]. intros u. apply FN. rewrite Ep. simpl. lia.
      + rewrite Hc in Hq. rewrite Wq.
        assert (Fb : forall u, fresh 0 AP s2 u -> fresh 0 AP s1 u).
        { intros u Fu. destruct (FB u Fu) as [X|(_ & l1 & f1 & c1 & l2 & P1 & P2 & _)]; auto; congruence. }
        pose proof (tot_wake NT fk s1 s2 t n _ _ Ht Hn N M) as T1. pose proof (tot_wake NT fq s1 s2 t n _ _ Ht Hn N M) as T2.
        pose proof (tot_wake NT fw s1 s2 t n _ _ Ht Hn N M) as T3.
        rewrite E, En in T1, T2, T3.
        assert (Wk : (e1 = 1 /\ l = KWait) \/ (e1 = 0 /\ exists v, l = PWait v)).
        { destruct (e_wq _ _ _ _ Ie e1 n ltac:(rewrite Eq; now left)) as [_ Hk']. destruct (key (th s1 n)) as [ky|] eqn:Kn; [|discriminate].
          injection Hk' as <-. apply (wait_key mp cap np NT cons s1 n l ky Ie (or_intror En) Kn). }
        assert (Y : fk (if all then NWork e1 all k else NUnl e1 k) = fk (NWork e1 all k)) by (now destruct all).
        destruct Wk as [[-> ->]|[-> [v ->]]].
        * exfalso. pose proof (tot_pos NT fk s2 n Hn) as X. rewrite M in X. apply Nat.eqb_neq in N. rewrite N, Nat.eqb_refl in X.
          unfold fk at 1 in X. simpl in X. lia.
        * assert (Z : tot NT fk s1 = 0) by (unfold fk at 3 6 in T1; simpl in T1; lia).
          destruct (I Z Hq) as [I1 I2]. split; [intros u Fu; apply (I1 u); auto|]. right.
          assert (fw (if all then NWork 0 all k else NUnl 0 k) = 0) by (now destruct all).
          simpl in T3. lia.
      + rewrite Hc in Hq. rewrite Wq.
        assert (Fb : forall u, fresh 0 AP s2 u -> fresh 0 AP s1 u).
        { intros u Fu. destruct (FB u Fu) as [X|(_ & l1 & f1 & c1 & l2 & P1 & P2 & _)]; auto; congruence. }
        pose proof (tot_moves NT fk s1 s2 t _ Ht M) as T1. pose proof (tot_moves NT fq s1 s2 t _ Ht M) as T2.
        pose proof (tot_moves NT fw s1 s2 t _ Ht M) as T3. rewrite E in T1, T2, T3. cbn [fw] in T3.
        assert (Z : tot NT fk s1 = 0) by (unfold fk in *; simpl in T1; destruct k; simpl in *; lia).
        destruct (I Z Hq) as [I1 I2]. split; [intros u Fu; apply (I1 u); auto|].
        destruct e1 as [|e1]; [left; auto|]. destruct I2; [now left|]. right. simpl in T2. lia.
      + rewrite Hc in Hq. rewrite Wq.
        assert (Fb : forall u, fresh 0 AP s2 u -> fresh 0 AP s1 u).
        { intros u Fu. destruct (FB u Fu) as [X|(_ & l1 & f1 & c1 & l2 & P1 & P2 & _)]; auto; congruence. }
        pose proof (tot_moves NT fk s1 s2 t _ Ht M) as T1. pose proof (tot_moves NT fq s1 s2 t _ Ht M) as T2.
        pose proof (tot_moves NT fw s1 s2 t _ Ht M) as T3. rewrite E in T1, T2, T3. cbn [fq fw] in T2, T3.
        assert (Z : tot NT fk s1 = 0) by (unfold fk in *; simpl in T1; destruct l; simpl in *; lia).
        destruct (I Z Hq) as [I1 I2]. split; [intros u Fu; apply (I1 u); auto|].
        destruct (wait_key mp cap np NT cons s1 t l kyt Ie (or_introl E) Kt) as [[K1 ->]|[K1 [v ->]]]; rewrite K1 in *; simpl (_ =? _); cbv iota.
        * simpl in T3. destruct I2; [now left|]. right. lia.
        * exfalso. apply (I1 t). split; [|now rewrite E]. exists kyt. auto.
      + rewrite Hc in Hq. rewrite Wq.
        assert (Fb : forall u, fresh 0 AP s2 u -> fresh 0 AP s1 u).
        { intros u Fu. destruct (FB u Fu) as [X|(_ & l1 & f1 & c1 & l2 & P1 & P2 & _)]; auto.
          rewrite P1 in Si. inversion Si. subst. congruence. }
        pose proof (tot_moves NT fk s1 s2 t _ Ht M) as T1. pose proof (tot_moves NT fq s1 s2 t _ Ht M) as T2.
        pose proof (tot_moves NT fw s1 s2 t _ Ht M) as T3. rewrite M, Nat.eqb_refl in Kt2.
        assert (Z : fk (pc (th s1 t)) = 0 /\ tot NT fq s1 = tot NT fq s2 /\ tot NT fw s1 <= tot NT fw s2).
        { destruct Si as [l k Ec|e all k|e k|l|l|l|l k Ec|l|l b|l b k Ec]; unfold fk in *; simpl in T2, T3;
            try (destruct l; simpl in *; try discriminate; try (injection Ec as <-); simpl in *; repeat split; try lia; discriminate).
          - destruct e as [|e]; simpl in *; repeat split; auto; lia.
          - simpl in *. split; [|lia]. destruct k; auto. }
        destruct Z as (Z1 & Z2 & Z3). destruct (I ltac:(lia) Hq) as [I1 I2]. split; [intros u Fu; apply (I1 u); auto|].
        destruct I2; [now left|right; lia].
  Qed.

  (** ** The theorems *)
  Lemma timely_aba ls s : exec cstep s0 ls = Next s -> timely cstep s0 ls -> aba s = false.
  Proof.
    intros E T. destruct (aba s) eqn:A; auto. exfalso.
    revert s E A. induction ls as [|lab ls IH] using rev_ind; intros s E A. { injection E as <-. discriminate. }
    rewrite exec_app in E. destruct (exec cstep s0 ls) as [| |s1] eqn:E1; try discriminate. simpl in E.
    destruct (cstep s1 lab) as [| |s2] eqn:E2; try discriminate. injection E as <-.
    assert (R : reachable cstep s0 s1) by (now exists ls). pose proof (ec_inv mp cap np NT cons Hnt _ R) as I.
    assert (T' : timely cstep s0 ls).
    { intros n s3 u E3. apply (T (Nat.min n (length ls)) s3 u).
      rewrite firstn_app. replace (Nat.min n (length ls) - length ls) with 0 by lia. simpl. rewrite app_nil_r.
      destruct (Nat.le_gt_cases n (length ls)).
      - now rewrite Nat.min_l.
      - rewrite Nat.min_r by lia. rewrite firstn_all. rewrite firstn_all2 in E3 by lia. auto. }
    destruct (aba s1) eqn:A1; [now apply (IH T' s1)|].
    destruct (aba_stale NT code cholds Hnt s1 lab s2 I A1 E2 A) as (t & l & ky & P & K & B).
    apply (T (length ls) s1 t).
    - rewrite firstn_app, firstn_all, Nat.sub_diag. simpl. now rewrite app_nil_r.
    - exists l, ky. auto.
  Qed.
  Lemma parked_linked s t l : Inv s -> pc (th s t) = Parked l -> exists e, cholds t l = Some e /\ In t (wq (ec s e)).
  Proof.
    intros I E. pose proof (e_key _ _ _ _ I t) as Hk. pose proof (e_wc _ _ _ _ I t) as Hw. rewrite E in Hk, Hw. specialize (Hw eq_refl).
    simpl in *. destruct (key (th s t)) as [ky|] eqn:K.
    - exists (ke ky). split; auto. eapply (e_wq2 _ _ _ _ I); eauto. now rewrite E.
    - unfold is_wait in Hw. destruct l; simpl in *; try tauto; discriminate.
  Qed.
  Lemma count_tot (f : nat -> bool) (w : pct cloc -> nat) n (s : st chan cloc) : (forall u, (if f u then 1 else 0) = w (pc (th s u))) -> count f n = sumn (fun u => w (pc (th s u))) n.
  Proof. intros H. induction n; cbn [count sumn]; [reflexivity|]. rewrite IHn, H. reflexivity. Qed.

  (** Who is inside which notification. *)
  Definition NA (s : st chan cloc) : Prop := forall u,
    match pc (th s u) with
    | NLock e all k | NWork e all k =>
      (all = true -> k = PClosed) /\ (all = false -> e = 1 /\ (k = PIdle \/ k = PDrop) \/ e = 0 /\ (k = KIdle \/ k = KPrep \/ k = KChk \/ k = KDropF))
    | _ => True
    end.
  Lemma NA_reach s : reachable cstep s0 s -> NA s.
  Proof.
    apply (reach_ind2 mp cap np NT cons Hnt).
    - intros u. simpl. auto.
    - intros s1 t c s2 R Ie I Ht F Ab Ie2 u. specialize (I u) as Iu.
      effd F; try (rewrite M; destruct (Nat.eqb_spec u t) as [->|]; auto; fail).
      + destruct D as [M|[M _]]; rewrite M; (destruct (Nat.eqb_spec u t) as [->|]; auto).
        destruct l; simpl in Ec; try discriminate; injection Ec as <- <- <-; (split; try discriminate); auto;
        intros _; unfold push_ec, pop_ec; [left|right]; split; auto; destruct p; auto.
      + rewrite M. destruct (Nat.eqb_spec u t) as [->|]. { rewrite E in Iu. now destruct all. }
        destruct (Nat.eqb_spec u n); auto.
      + rewrite M. destruct (Nat.eqb_spec u t) as [->|]; auto. destruct Si; auto.
  Qed.

  Lemma channel_close_wakes_pf ls s t : exec cstep s0 ls = Next s -> timely cstep s0 ls ->
    pop_suspended s t -> np <= closing (cs s) -> exists u, u < NT /\ has_closed s u /\ working s u.
  Proof.
    intros E T P Ho. assert (R : reachable cstep s0 s) by (now exists ls). pose proof (ec_inv mp cap np NT cons Hnt _ R) as I.
    destruct (CW_reach mp cap np NT cons Hnt s R (timely_aba ls s E T) Ho) as [H _].
    destruct (parked_linked s t KWait I P) as (e & He & Hi). injection He as <-.
    specialize (H ltac:(intros X; now rewrite X in Hi)).
    assert (X : exists u, u < NT /\ 0 < fc1 (pc (th s u)) + fc2 (pc (th s u))).
    { destruct (Nat.eq_dec (tot NT fc1 s) 0).
      - destruct (tot_ex NT fc2 s ltac:(lia)) as (u & Hu & Hp). exists u. split; auto. lia.
      - destruct (tot_ex NT fc1 s ltac:(lia)) as (u & Hu & Hp). exists u. split; auto. lia. }
    destruct X as (u & Hu & Hp). exists u. split; auto.
    assert (Nt := NA_reach s R u).
    destruct (pc (th s u)) eqn:Eu; simpl in Hp; try lia.
    - destruct l; simpl in Hp; try lia. unfold has_closed, working, outside, push_suspended, pop_suspended. rewrite Eu.
      split; [now left|]. repeat split; [intuition discriminate|intros [v X]; discriminate|discriminate].
    - destruct e as [|[|e]]; simpl in Hp; try lia. destruct all; simpl in Hp; try lia. destruct Nt as [Nt _]; specialize (Nt eq_refl); subst k.
      unfold has_closed, working, outside, push_suspended, pop_suspended. rewrite Eu.
      split; [now right|]. repeat split; [intuition discriminate|intros [v X]; discriminate|discriminate].
    - destruct e as [|[|e]]; simpl in Hp; try lia. destruct all; simpl in Hp; try lia. destruct Nt as [Nt _]; specialize (Nt eq_refl); subst k.
      unfold has_closed, working, outside, push_suspended, pop_suspended. rewrite Eu.
      split; [now right|]. repeat split; [intuition discriminate|intros [v X]; discriminate|discriminate].
  Qed.

  Lemma rest_weights s u : ~ working s u ->
    fd (pc (th s u)) = 0 /\ fp (pc (th s u)) = 0 /\ fa (pc (th s u)) = 0 /\ fq (pc (th s u)) = 0 /\ fw (pc (th s u)) = 0 /\
    (forall p, pc (th s u) <> Run (PPub p)).
  Proof.
    intros H. unfold working, outside, push_suspended, pop_suspended in H.
    destruct (pc (th s u)) eqn:E; simpl;
      try (exfalso; apply H; repeat split; [intuition discriminate|intros [? ?]; discriminate|discriminate]).
    - destruct l; simpl; try (exfalso; apply H; repeat split; [intuition discriminate|intros [? ?]; discriminate|discriminate]);
      repeat split; discriminate.
    - repeat split; discriminate.
  Qed.
  Lemma tot_zero (f : pct cloc -> nat) (s : st chan cloc) : (forall u, u < NT -> f (pc (th s u)) = 0) -> tot NT f s = 0.
  Proof.
    intros H. destruct (Nat.eq_dec (tot NT f s) 0) as [|X]; auto. exfalso.
    destruct (tot_ex NT f s ltac:(lia)) as (u & Hu & Hp). rewrite H in Hp; auto. lia.
  Qed.
  Lemma channel_no_deadlock_pf ls s : 0 < cap -> exec cstep s0 ls = Next s -> timely cstep s0 ls ->
    (exists u, u < NT /\ cons u = true) -> (forall u, u < NT -> cons u = true -> pop_suspended s u) ->
    (forall u, u < NT -> ~ working s u) ->
    size s = 0 /\ forall u, u < NT -> ~ push_suspended s u.
  Proof.
    intros Hcap E T Hex Hall Hrest. assert (R : reachable cstep s0 s) by (now exists ls).
    pose proof (ec_inv mp cap np NT cons Hnt _ R) as I. pose proof (timely_aba ls s E T) as A.
    pose proof (CI_reach mp cap np NT cons Hnt s R) as Ci.
    assert (Hq : q (cs s) = []).
    { destruct (q (cs s)) as [|x r] eqn:Eq; auto. exfalso.
      assert (Hi : In x (q (cs s))) by (rewrite Eq; now left).
      destruct (hold_ x) as [v|] eqn:Hx.
      - destruct (c_hold _ _ _ _ _ Ci x v Hi Hx) as [p Ev]. pose proof (proj1 (c_lt _ _ _ _ _ Ci) x v Hi Hx) as Hv.
        now apply (rest_weights s v (Hrest v Hv)) in Ev.
      - destruct (JP_reach s Hex R A) as [X|[X _]].
        + intros u Hu Cu. left. destruct (parked_linked s u KWait I (Hall u Hu Cu)) as (e & He & Hin). now injection He as <-.
        + unfold ready. now rewrite Eq.
        + rewrite tot_zero in X; [lia|]. intros u Hu. apply (rest_weights s u (Hrest u Hu)).
        + rewrite tot_zero in X; [lia|]. intros u Hu. apply (rest_weights s u (Hrest u Hu)). }
    split; [unfold size; now rewrite Hq|]. intros u Hu [v Pv].
    destruct (JQ_reach s Hcap R A) as [_ X]; auto.
    - apply tot_zero. intros w Hw. unfold fk. destruct (side (loc (pc (th s w)))) eqn:Es; auto.
      rewrite (c_role _ _ _ _ _ Ci w) in Es. rewrite (Hall w Hw Es). reflexivity.
    - destruct (parked_linked s u _ I Pv) as (e & He & Hin). injection He as <-.
      destruct X as [X|X]; [now rewrite X in Hin|].
      rewrite !tot_zero in X; [lia| |]; intros w Hw; apply (rest_weights s w (Hrest w Hw)).
  Qed.

  Lemma channel_pop_wakes_pf ls s t : mp = false -> exec cstep s0 ls = Next s -> timely cstep s0 ls ->
    pop_suspended s t ->
    size s <= count (popping s) NT + count (announcing s) NT \/
    count (in_pop s) NT <= count (announcing s) NT.
  Proof.
    intros Hm E T P. assert (R : reachable cstep s0 s) by (now exists ls).
    destruct (PI_reach mp cap np NT cons Hnt s Hm R (timely_aba ls s E T)) as [H _].
    assert (Ea : count (popping s) NT = tot NT fa s).
    { apply count_tot. intros u. unfold popping. destruct (pc (th s u)) as [l| | | | | |l b| |l|l b|l b]; simpl; auto; destruct l; auto; now destruct b. }
    assert (Ed : count (announcing s) NT = tot NT fd s + tot NT fp s).
    { assert (Es : forall f g n, sumn (fun u => f u + g u) n = sumn f n + sumn g n).
      { induction n; simpl; auto. rewrite IHn. lia. }
      unfold tot. rewrite <- Es.
      assert (X : forall n, count (announcing s) n = sumn (fun u => fd (pc (th s u)) + fp (pc (th s u))) n); [|apply X].
      induction n; cbn [count sumn]; [reflexivity|]. rewrite IHn. f_equal.
      pose proof (NA_reach s R n) as Na. unfold announcing. destruct (pc (th s n)) as [l|e all k|e all k| | | | | | | | ]; simpl; auto.
      - now destruct l.
      - destruct Na as [_ Na]. destruct all. { destruct e as [|[|e]]; auto. }
        destruct (Na eq_refl) as [[-> [-> | ->]]|[-> [-> |[-> |[-> | ->]]]]]; auto.
      - destruct Na as [_ Na]. destruct all. { destruct e as [|[|e]]; auto. }
        destruct (Na eq_refl) as [[-> [-> | ->]]|[-> [-> |[-> |[-> | ->]]]]]; auto. }
    assert (Ew : count (in_pop s) NT <= length (wq (ec s 1))).
    { pose proof (ec_inv mp cap np NT cons Hnt _ R) as I.
      assert (X : forall n, count (in_pop s) n = length (filter (in_pop s) (seq 0 n))).
      { induction n; auto. rewrite seq_S, filter_app, app_length. cbn [count]. rewrite IHn. simpl. now destruct (in_pop s n). }
      rewrite X. apply NoDup_incl_length. { apply NoDup_filter, seq_NoDup. }
      intros u Hu. apply filter_In in Hu as [_ Hu]. unfold in_pop in Hu.
      destruct (pc (th s u)) as [| | | | | | |l| | | ] eqn:Eu; try discriminate. destruct l; try discriminate.
      destruct (parked_linked s u KWait I Eu) as (e & He & Hin). now injection He as <-. }
    rewrite Ea, Ed. unfold size.
    destruct (Nat.lt_ge_cases (tot NT fp s) (length (wq (ec s 1)))) as [L|L]; [left; specialize (H L); lia|right; lia].
  Qed.
  Lemma channel_pop_not_stuck_pf ls s t : mp = false -> exec cstep s0 ls = Next s -> timely cstep s0 ls ->
    t < NT -> pop_suspended s t -> (forall u, u < NT -> ~ working s u) -> size s = 0.
  Proof.
    intros Hm E T Ht P Hr. pose proof (channel_pop_wakes_pf ls s t Hm E T P) as H.
    assert (Z : forall f, (forall u, f u = true -> working s u) -> count f NT = 0).
    { intros f Hf. assert (X : forall n, n <= NT -> count f n = 0); [|now apply X].
      induction n; cbn [count]; auto. intros Hn. rewrite IHn by lia. destruct (f n) eqn:Ef; auto. now destruct (Hr n Hn (Hf n Ef)). }
    assert (Z1 : count (popping s) NT = 0).
    { apply Z. intros u. unfold popping, working, outside, push_suspended, pop_suspended.
      destruct (pc (th s u)); try discriminate; destruct l; try discriminate; intros _; repeat split; try (intuition discriminate); intros [v X]; discriminate. }
    assert (Z2 : count (announcing s) NT = 0).
    { apply Z. intros u. unfold announcing, working, outside, push_suspended, pop_suspended.
      destruct (pc (th s u)); try discriminate; try (destruct all; try discriminate; destruct k; try discriminate); try (destruct l; try discriminate);
      intros _; repeat split; try (intuition discriminate); intros [v X]; discriminate. }
    assert (Z3 : 0 < count (in_pop s) NT).
    { assert (X : forall n, t < n -> 0 < count (in_pop s) n); [|now apply X]. induction n; intros Hn; [lia|]. cbn [count].
      destruct (Nat.eq_dec t n) as [<-|]; [|specialize (IHn ltac:(lia)); lia]. unfold in_pop at 2. rewrite P. lia. }
    lia.
  Qed.
End ChannelDead.
