From Verif Require Import Util Conc EcModel EcProof EcWake EcLoc EcEff AwaitSpec ChannelModel ChannelSpec.

Definition cholds (t : nat) (l : cloc) : option nat :=
  match l with
  | PTry _ (Loop|Last) | PPub (Loop|Last) | PNtf (Loop|Last) | PWait _ | PAgain _ | PDrop => Some 0
  | KTry (Loop|Last) | KRel (Loop|Last) | KN (Loop|Last) | KChk | KWait | KAgain | KDrop | KDropF => Some 1
  | _ => None
  end.

Section ChannelProof.
  Variable mp : bool.
  Variable cap np NT : nat.
  Variable cons : nat -> bool.
  Hypothesis Hnt : (N.of_nat NT < two32)%N.
  Notation code := (ccode mp cap np).
  Notation cstep := (step NT code).
  Notation s0 := (cinit cons).

  Lemma ckey_ok : key_ok code cholds.
  Proof.
    intros t l. destruct l; simpl; try (split; [discriminate|reflexivity]); try (split; reflexivity).
    - intros x c x' l'. destruct c; intros [= <- <-]; auto. simpl. now destruct (Nat.odd c).
    - intros x c x' l'. destruct (enq mp cap t v x); intros [= <- <-]; destruct mp, p; auto.
    - intros x c x' l' [= <- <-]. now destruct p.
    - now destruct p.
    - intros x c x' l' [= <- <-]. auto.
    - discriminate.
    - intros x c x' l' [= <- <-]. simpl. now destruct c.
    - intros x c x' l'. destruct (deq mp t x); intros [= <- <-]; destruct mp, p; auto.
    - intros x c x' l' [= <- <-]. now destruct p.
    - now destruct p.
    - intros x c x' l' [= <- <-]. now destruct (_ <=? _).
    - intros x c x' l' [= <- <-]. auto.
  Qed.
  Lemma cuntimed t l : timed code t l = false.
  Proof. unfold timed. now destruct l. Qed.

  Lemma ec_inv s : reachable cstep s0 s -> EcInv NT code cholds s.
  Proof.
    intros [ls E]. revert E. assert (I : EcInv NT code cholds s0).
    { apply inv_init. intros t. now destruct (cons t). }
    revert I. generalize s0. induction ls as [|lab ls IH]; simpl; intros s1 I E. { now injection E as <-. }
    destruct (cstep s1 lab) as [| |s2] eqn:Es; try discriminate. apply (IH s2); auto.
    pose proof (inv_step NT code cholds ckey_ok Hnt s1 lab I) as X. now rewrite Es in X.
  Qed.
  Lemma channel_safe_pf : safe cstep s0.
  Proof.
    intros ls Hub.
    assert (I : EcInv NT code cholds s0). { apply inv_init. intros t. now destruct (cons t). }
    revert I Hub. generalize s0. induction ls as [|lab ls IH]; simpl; intros s1 I E; [discriminate|].
    pose proof (inv_step NT code cholds ckey_ok Hnt s1 lab I) as X.
    destruct (cstep s1 lab) eqn:Es; try discriminate; eauto.
    destruct X as (l & f & P & Ec & U). clear - Ec U.
    destruct l; simpl in Ec; try discriminate; injection Ec as <-; try discriminate.
    - destruct (snd lab); discriminate.
    - destruct (enq _ _ _ _ _); discriminate.
    - destruct (deq _ _ _); discriminate.
  Qed.

  Lemma reach_ind2 (P : st chan cloc -> Prop) : P s0 ->
    (forall s t c s', reachable cstep s0 s -> EcInv NT code cholds s -> P s -> t < NT -> eff NT code cholds s t c s' ->
       (aba s' = false -> aba s = false) -> EcInv NT code cholds s' -> P s') ->
    forall s, reachable cstep s0 s -> P s.
  Proof.
    intros H0 Hs s [ls E]. revert s E. induction ls as [|[t c] ls IH] using rev_ind; intros s E.
    - injection E as <-. auto.
    - pose proof (ec_inv s (ex_intro _ _ E)) as I2.
      rewrite exec_app in E. destruct (exec cstep s0 ls) as [| |s1] eqn:E1; try discriminate. simpl in E.
      destruct (cstep s1 (t, c)) as [| |s2] eqn:E2; try discriminate. injection E as <-.
      assert (R : reachable cstep s0 s1) by (now exists ls). pose proof (ec_inv _ R) as I.
      destruct (step_eff NT code cholds Hnt cuntimed s1 t c s2 I E2) as [Ht F].
      apply (Hs s1 t c s2); auto. apply (aba_mono NT code s1 (t, c) s2 E2).
  Qed.
  Lemma reach_ind (P : st chan cloc -> Prop) : P s0 ->
    (forall s t c s', reachable cstep s0 s -> EcInv NT code cholds s -> P s -> t < NT -> eff NT code cholds s t c s' ->
       (aba s' = false -> aba s = false) -> P s') ->
    forall s, reachable cstep s0 s -> P s.
  Proof.
    intros H0 Hs. apply reach_ind2; eauto.
  Qed.

  Definition side (l : cloc) : bool :=
    match l with
    | KIdle | KTry _ | KRel _ | KN _ | KPrep | KChk | KWait | KAgain | KDrop | KDropF | KRet => true
    | _ => false
    end.
  Definition shut (p : pct cloc) : nat := match loc p with PNAll | PClosed => 1 | _ => 0 end.
  Definition tagv (c : cell) : nat * nat := (by_ c, v_ c).
  Record CI (s : st chan cloc) : Prop := mkCI {
    c_cont : sent s = received s ++ map tagv (q (cs s));
    c_len : length (q (cs s)) <= cap;
    c_hold : forall x u, In x (q (cs s)) -> hold_ x = Some u -> exists p, pc (th s u) = Run (PPub p);
    c_busy : forall n u, In (n, u) (busy (cs s)) -> exists p, pc (th s u) = Run (KRel p);
    c_mp : mp = false -> (forall x, In x (q (cs s)) -> hold_ x = None) /\ busy (cs s) = [];
    c_role : forall t, side (loc (pc (th s t))) = cons t;
    c_shut : closing (cs s) = tot NT shut s;
    c_lt : (forall x u, In x (q (cs s)) -> hold_ x = Some u -> u < NT) /\ (forall n u, In (n, u) (busy (cs s)) -> u < NT) }.

  (** The client's state and the program points of a move that is not a client step. *)
  Lemma CI_frame s s' : CI s -> cs s' = cs s ->
    (forall u p, pc (th s u) = Run (PPub p) -> pc (th s' u) = pc (th s u)) ->
    (forall u p, pc (th s u) = Run (KRel p) -> pc (th s' u) = pc (th s u)) ->
    (forall u, side (loc (pc (th s' u))) = side (loc (pc (th s u)))) ->
    (forall u, shut (pc (th s' u)) = shut (pc (th s u))) -> CI s'.
  Proof.
    intros [] Hc H1 H2 H3 H4. split; unfold sent, received in *; rewrite ?Hc; auto.
    - intros x u Hi Hh. destruct (c_hold0 x u Hi Hh) as [p E]. exists p. now rewrite (H1 u p).
    - intros n u Hi. destruct (c_busy0 n u Hi) as [p E]. exists p. now rewrite (H2 u p).
    - intros t. now rewrite H3.
    - rewrite c_shut0. unfold tot. apply sumn_ext. intros i _. now rewrite H4.
  Qed.
  Lemma CI_step s t c s' : CI s -> t < NT -> eff NT code cholds s t c s' -> CI s'.
  Proof.
    intros I Ht F.
    destruct F as [l f c' l' E Ec Ef Hc M Ks Wq Ep | l e1 k E Ec Hc M Wq Ep Kn [w Ks] | l k E Ec Hc M Wq Ep Ks
      | l e1 all k E Ec Hc Ks Wq Ep D | e1 all k n r l E Eq Hc En N Hn Hh M Ks Wq Ep
      | e1 all k E Eq Hc M Ks Wq Ep | l kyt E Kt Hc M Ks Ep Wq Ha | p' Si Hc M Ks Wq Ep].
    2: { apply (CI_frame s); auto; intros u; try intros p Eu; rewrite M; destruct (Nat.eqb_spec u t) as [->|]; auto;
         destruct l; simpl in Ec; try discriminate; injection Ec as <- <-; rewrite E in *; auto; discriminate. }
    2: { apply (CI_frame s); auto; intros u; try intros p Eu; rewrite M; destruct (Nat.eqb_spec u t) as [->|]; auto;
         destruct l; simpl in Ec; try discriminate; injection Ec as <-; rewrite E in *; auto; discriminate. }
    2: { apply (CI_frame s); auto; intros u; try intros p' Eu; destruct D as [M|[M _]]; rewrite M;
         destruct (Nat.eqb_spec u t) as [->|]; auto;
         destruct l; simpl in Ec; try discriminate; injection Ec as <- <- <-; rewrite E in *; try destruct p; auto; discriminate. }
    2: { apply (CI_frame s); auto; intros u; try intros p Eu; rewrite M; destruct (Nat.eqb_spec u t) as [->|];
         try (destruct (Nat.eqb_spec u n) as [->|]); auto; rewrite ?E, ?En in *; try discriminate; destruct all; auto. }
    2: { apply (CI_frame s); auto; intros u; try intros p Eu; rewrite M; destruct (Nat.eqb_spec u t) as [->|];
         auto; rewrite ?E in *; try discriminate; auto. }
    2: { apply (CI_frame s); auto; intros u; try intros p Eu; rewrite M; destruct (Nat.eqb_spec u t) as [->|];
         auto; rewrite ?E in *; try discriminate; auto. }
    2: { assert (Sl : (forall p, pc (th s t) <> Run (PPub p) /\ pc (th s t) <> Run (KRel p)) /\
           side (loc p') = side (loc (pc (th s t))) /\ shut p' = shut (pc (th s t))).
         { destruct Si as [l k Ec|e all k|e k|l|l|l|l k Ec|l|l b|l b k Ec]; simpl; (split; [intros p; split; try discriminate|]); try (split; reflexivity);
           try (intros [= ->]; discriminate Ec); destruct l; simpl in Ec; try discriminate; injection Ec as <-; auto. }
         destruct Sl as (S1 & S2 & S3).
         apply (CI_frame s); auto; intros u; try intros p Eu; rewrite M; destruct (Nat.eqb_spec u t) as [->|]; auto;
         exfalso; now apply (S1 p) in Eu. }
    pose proof (tot_moves NT shut s s' t _ Ht M) as Tt.
    assert (Fr : forall (h : cell -> Prop), True) by auto. clear Fr.
    destruct I as [I1 I2 I3 I4 I5 I6 I7 [I8 I9]].
    assert (Io : forall u, u <> t -> pc (th s' u) = pc (th s u)).
    { intros u Hu. rewrite M. apply Nat.eqb_neq in Hu. now rewrite Hu. }
    assert (It : pc (th s' t) = Run l'). { now rewrite M, Nat.eqb_refl. }
    assert (R : side l' = side l -> forall u, side (loc (pc (th s' u))) = cons u).
    { intros Hs u. destruct (Nat.eq_dec u t) as [->|Hu]; [|now rewrite Io]. rewrite <- I6, It, E. exact Hs. }
    assert (H3 : (forall p, l <> PPub p) -> forall x u, In x (q (cs s)) -> hold_ x = Some u -> u <> t /\ exists p, pc (th s' u) = Run (PPub p)).
    { intros Hl x u Hx Hu. destruct (I3 x u Hx Hu) as [p Ep']. assert (u <> t) by (intros ->; rewrite E in Ep'; injection Ep' as ->; now apply (Hl p)).
      split; auto. exists p. now rewrite Io. }
    assert (H4 : (forall p, l <> KRel p) -> forall n u, In (n, u) (busy (cs s)) -> u <> t /\ exists p, pc (th s' u) = Run (KRel p)).
    { intros Hl n u Hx. destruct (I4 n u Hx) as [p Ep']. assert (u <> t) by (intros ->; rewrite E in Ep'; injection Ep' as ->; now apply (Hl p)).
      split; auto. exists p. now rewrite Io. }
    rewrite E in Tt.
    assert (Same : c' = cs s -> (forall p, l <> PPub p) -> (forall p, l <> KRel p) -> side l' = side l -> shut (Run l') = shut (Run l) -> CI s').
    { intros -> L1 L2 L3 L4. rewrite L4 in Tt. split; unfold sent, received in *; rewrite ?Hc; auto.
      - intros x u Hx Hu. now apply (H3 L1 x u).
      - intros n u Hx. now apply (H4 L2 n u).
      - lia. }
    destruct l; simpl in Ec; try discriminate; injection Ec as <-; try discriminate.
    - (* PIdle *) destruct c; injection Ef as <- <-; apply Same; auto; discriminate.
    - (* PTry *) destruct (enq mp cap t v (cs s)) as [x|] eqn:Eq; injection Ef as <- <-.
      2: { apply Same; try discriminate; auto; destruct p; auto. }
      unfold enq in Eq. destruct (_ || _) eqn:Eb; [discriminate|]. injection Eq as <-.
      apply orb_false_iff in Eb as [Eb _]. apply Nat.leb_gt in Eb.
      specialize (H3 ltac:(discriminate)). specialize (H4 ltac:(discriminate)).
      split; unfold sent, received in *; rewrite ?Hc; simpl in *.
      + rewrite I1, map_app, app_assoc. reflexivity.
      + rewrite app_length. simpl. lia.
      + intros x u Hx Hu. apply in_app_or in Hx as [Hx|[<-|[]]]. { now apply (H3 x u). }
        simpl in Hu. destruct mp; [|discriminate]. injection Hu as <-. exists p. exact It.
      + intros n u Hx. now apply (H4 n u).
      + intros Hm. destruct (I5 Hm) as [J1 J2]. split; auto. intros x Hx. apply in_app_or in Hx as [Hx|[<-|[]]]; auto.
        simpl. now rewrite Hm.
      + apply R. now destruct mp.
      + unfold shut at 2 4 in Tt. simpl in Tt. replace (match (if mp then PPub p else PNtf p) with PNAll | PClosed => 1 | _ => 0 end) with 0 in Tt by (now destruct mp). lia.
      + split; auto. intros x u Hx Hu. apply in_app_or in Hx as [Hx|[<-|[]]]; eauto. simpl in Hu. destruct mp; congruence.
    - (* PPub *) injection Ef as <- <-. specialize (H4 ltac:(discriminate)).
      split; unfold sent, received in *; rewrite ?Hc; simpl in *.
      + rewrite I1, map_map. reflexivity.
      + now rewrite map_length.
      + intros x u Hx Hu. apply in_map_iff in Hx as (y & <- & Hy). simpl in Hu.
        destruct (hold_ y) as [w|] eqn:Ey; [|discriminate]. destruct (Nat.eqb_spec w t); [discriminate|]. injection Hu as <-.
        rewrite Io by auto. eauto.
      + intros n u Hx. now apply (H4 n u).
      + intros Hm. destruct (I5 Hm) as [J1 J2]. split; auto. intros x Hx. apply in_map_iff in Hx as (y & <- & Hy). simpl.
        now rewrite (J1 y Hy).
      + now apply R.
      + unfold shut at 2 4 in Tt. simpl in Tt. lia.
      + split; auto. intros x u Hx Hu. apply in_map_iff in Hx as (y & <- & Hy). simpl in Hu.
        destruct (hold_ y) as [w|] eqn:Ey; [|discriminate]. destruct (Nat.eqb_spec w t); [discriminate|]. injection Hu as <-. eauto.
    - (* PClose *) injection Ef as <- <-. specialize (H3 ltac:(discriminate)). specialize (H4 ltac:(discriminate)).
      split; unfold sent, received in *; rewrite ?Hc; simpl in *; auto.
      + intros x u Hx Hu. now apply (H3 x u).
      + intros n u Hx. now apply (H4 n u).
      + unfold shut at 2 4 in Tt. simpl in Tt. lia.
    - (* KIdle *) injection Ef as <- <-; apply Same; auto; discriminate.
    - (* KTry *) destruct (deq mp t (cs s)) as [x|] eqn:Eq; injection Ef as <- <-.
      2: { apply Same; auto; discriminate. }
      unfold deq in Eq. destruct (q (cs s)) as [|y r] eqn:Eqq; [discriminate|]. destruct (hold_ y) eqn:Ey; [discriminate|].
      injection Eq as <-. specialize (H3 ltac:(discriminate)). specialize (H4 ltac:(discriminate)).
      split; unfold sent, received in *; rewrite ?Hc; simpl in *.
      + rewrite I1, map_app, <- app_assoc. reflexivity.
      + lia.
      + intros x u Hx Hu. now apply (H3 x u); auto.
      + intros n u. destruct mp.
        * intros [[= <- <-]|Hx]. { exists p. exact It. } now apply (H4 n u).
        * intros Hx. now apply (H4 n u).
      + intros Hm. destruct (I5 Hm) as [J1 J2]. rewrite Hm. split; auto.
      + apply R. now destruct mp, p.
      + unfold shut at 2 4 in Tt. simpl in Tt. replace (match (if mp then KRel p else kdone p) with PNAll | PClosed => 1 | _ => 0 end) with 0 in Tt by (now destruct mp, p). lia.
      + split; eauto. intros n u. destruct mp; eauto. intros [[= <- <-]|Hx]; eauto.
    - (* KRel *) injection Ef as <- <-. specialize (H3 ltac:(discriminate)).
      split; unfold sent, received in *; rewrite ?Hc; simpl in *; auto.
      + intros x u Hx Hu. now apply (H3 x u).
      + intros n u Hx. apply filter_In in Hx as [Hx Hn]. simpl in Hn. apply negb_true_iff, Nat.eqb_neq in Hn.
        rewrite Io by auto. eauto.
      + intros Hm. destruct (I5 Hm) as [J1 J2]. split; auto. rewrite J2. reflexivity.
      + apply R. now destruct p.
      + unfold shut at 2 4 in Tt. simpl in Tt. replace (match kdone p with PNAll | PClosed => 1 | _ => 0 end) with 0 in Tt by (now destruct p). lia.
      + split; auto. intros n u Hx. apply filter_In in Hx as [Hx _]. eauto.
    - (* KChk *) injection Ef as <- <-; apply Same; auto; try discriminate; now destruct (_ <=? _).
    - (* KRet *) injection Ef as <- <-; apply Same; auto; discriminate.
  Qed.
  Lemma tot_init0 (f : pct cloc -> nat) : f (Run KIdle) = 0 -> f (Run PIdle) = 0 -> tot NT f s0 = 0.
  Proof. intros H1 H2. unfold tot.
    assert (X : forall n, sumn (fun u => f (pc (th s0 u))) n = 0); [|apply X].
    induction n; cbn [sumn]; auto. rewrite IHn. simpl. now destruct (cons n).
  Qed.
  Lemma CI_reach s : reachable cstep s0 s -> CI s.
  Proof.
    apply reach_ind.
    - split; simpl; auto; try tauto; try lia.
      + intros t. now destruct (cons t).
      + symmetry. now apply tot_init0.
    - intros s1 t c s2 R I C Ht F _. eapply CI_step; eauto.
  Qed.
  Lemma channel_fifo_pf s : reachable cstep s0 s -> exists rest, sent s = received s ++ rest /\ length rest = size s /\ size s <= cap.
  Proof.
    intros R. destruct (CI_reach s R). exists (map tagv (q (cs s))). unfold size. rewrite map_length. auto.
  Qed.
End ChannelProof.
