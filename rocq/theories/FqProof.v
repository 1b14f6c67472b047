From Verif Require Import Util Conc EcModel EcProof EcWake EcLoc EcEff AwaitSpec FqModel FqSpec.

Definition fholds (t : nat) (l : floc) : option nat :=
  match l with
  | PTry _ Loop | PPub Loop | PNtf Loop | PWait _ | PAgain _ | PDrop => Some 1
  | KLook true | KFree true | KClosed true | KWait | KAgain | KDrop | KDropX => Some 0
  | _ => None
  end.

Section FqProof.
  Variable cap NT : nat.
  Hypothesis Hnt : (N.of_nat NT < two32)%N.
  Notation code := (fcode cap).
  Notation fstep := (step NT code).

  Ltac dcode l := unfold fcode; match goal with |- context [?t =? 0] => destruct (Nat.eqb_spec t 0) end; destruct l; cbn [kcode pcode].

  Lemma take_some x l x' l' : take_head x l = Next (x', l') -> exists c r, q x = c :: r /\ ready c = true /\
    x' = mk_fq r (batch x ++ [(by_ c, v_ c)]) (closed x) (acc x) (done_ x) (seen x) (at_close x) (asked x) (refused x) /\ l' = l.
  Proof.
    unfold take_head. destruct (q x) as [|c r]; try discriminate. destruct (ready c) eqn:R; try discriminate.
    intros [= <- <-]. eauto 8.
  Qed.
  Lemma fkey_ok : key_ok code fholds.
  Proof.
    intros t l. dcode l; try (intros x c x' l' H; discriminate); simpl; try (split; [discriminate|reflexivity]); try (split; reflexivity).
    - intros x c x' l'. destruct (head_ready x); intros [= <- <-]; destruct lp; reflexivity.
    - intros x c x' l' H. apply take_some in H as (c0 & r & _ & _ & _ & ->). destruct lp; reflexivity.
    - intros x c x' l' [= <- <-]. destruct (closed x), lp; reflexivity.
    - intros x c x' l' [= <- <-]. destruct (_ && _); reflexivity.
    - intros x c x' l' H. apply take_some in H as (c0 & r & _ & _ & _ & ->). reflexivity.
    - intros x c x' l'. destruct (batch x); intros [= <- <-]; reflexivity.
    - intros x c x' l'. destruct c; intros [= <- <-]; auto. simpl. now destruct (Nat.odd c).
    - intros x c x' l'. destruct (claim cap t v x), h; intros [= <- <-]; reflexivity.
    - intros x c x' l' [= <- <-]. destruct h; reflexivity.
    - destruct h; reflexivity.
    - intros x c x' l' [= <- <-]. reflexivity.
  Qed.
  Lemma funtimed t l : timed code t l = false.
  Proof. unfold timed. dcode l; reflexivity. Qed.
  Lemma f_init0 t : fholds t (if t =? 0 then KLook false else PIdle) = None.
  Proof. now destruct (t =? 0). Qed.
  Lemma fec_inv s : reachable fstep finit s -> EcInv NT code fholds s.
  Proof.
    intros [ls E]. revert E. assert (I : EcInv NT code fholds finit) by (apply inv_init, f_init0).
    revert I. generalize finit. induction ls as [|lab ls IH]; simpl; intros s1 I E. { now injection E as <-. }
    destruct (fstep s1 lab) as [| |s2] eqn:Es; try discriminate. apply (IH s2); auto.
    pose proof (inv_step NT code fholds fkey_ok Hnt s1 lab I) as X. now rewrite Es in X.
  Qed.
  Definition side (l : floc) : bool :=
    match l with
    | PIdle | PTry _ _ | PPub _ | PNtf _ | PPrep _ | PWait _ | PAgain _ | PDrop | SClose | SNtf => false
    | _ => true
    end.
  Definition tagv (c : cell) : nat * nat := (by_ c, v_ c).
  (** No batch is held at these points. *)
  Definition idle (l : floc) : bool :=
    match l with KLook _ | KFree _ | KClosed _ | KPrep | KWait | KAgain | KDropX | KExit => true | _ => false end.
  (** The points after a look that found nothing. *)
  Definition looked (l : floc) : bool :=
    match l with KClosed _ | KPrep | KWait | KAgain | KDropX | KExit => true | KLook true => true | _ => false end.
  Record FI (s : st fq floc) : Prop := mkFI {
    f_cont : acc (cs s) = done_ (cs s) ++ batch (cs s) ++ map tagv (q (cs s));
    f_len : length (q (cs s)) <= cap;
    f_hold : forall x, In x (q (cs s)) -> ready x = false -> by_ x < NT /\ exists h, at_ s (by_ x) = PPub h;
    f_role : forall t, side (at_ s t) = (t =? 0);
    f_idle : 0 < NT -> idle (at_ s 0) = true -> batch (cs s) = [];
    f_head : 0 < NT -> (exists lp, at_ s 0 = KFree lp) \/ at_ s 0 = KMoreFree -> head_ready (cs s) = true;
    f_seen : 0 < NT -> looked (at_ s 0) = true -> fst (seen (cs s)) = done_ (cs s) ++ map tagv (snd (seen (cs s))) /\
      match snd (seen (cs s)) with c :: _ => ready c = false | [] => True end;
    f_exit : 0 < NT -> at_ s 0 = KExit \/ at_ s 0 = KDropX -> closed (cs s) = true;
    f_bat : length (batch (cs s)) <= kBatch;
    f_bat2 : 0 < NT -> at_ s 0 = KMoreFree -> length (batch (cs s)) < kBatch }.

  Lemma FI_step s t c s' : EcInv NT code fholds s -> FI s -> fstep s (t, c) = Next s' -> FI s'.
  Proof.
    intros E I H. destruct (step_loc NT code fholds s t c s' E H) as (Ht & Ho & M).
    destruct I as [I1 I2 I3 I4 I5 I6 I7 I8 I9 I10]. pose proof (I4 t) as Rt.
    assert (H0 : 0 < NT) by lia. specialize (I5 H0). specialize (I6 H0). specialize (I7 H0). specialize (I8 H0). specialize (I10 H0).
    destruct M as [(l & f & x' & l' & Pl & Cl & Fl & Ec & Pl')|[Ec Em]].
    - assert (Al : at_ s t = l) by (unfold at_; now rewrite Pl). assert (Al' : at_ s' t = l') by (unfold at_; now rewrite Pl').
      rewrite Al in Rt.
      assert (Oth : forall u, u <> t -> at_ s' u = at_ s u) by auto.
      unfold fcode in Cl. destruct (Nat.eqb_spec t 0) as [T0|T0].
      + subst t. rewrite Al in *. assert (Hold : forall x, In x (q (cs s)) -> ready x = false -> by_ x < NT /\ exists h, at_ s' (by_ x) = PPub h).
        { intros x Hx Hr. destruct (I3 x Hx Hr) as (A & h & B). split; auto. exists h. rewrite Oth; auto. intros Z. rewrite Z, Al in B. rewrite B in Rt. discriminate. }
        assert (Rl : forall u, side l' = true -> side (at_ s' u) = (u =? 0)).
        { intros u Sl. destruct (Nat.eqb_spec u 0) as [->|N]; [now rewrite Al'|]. rewrite Oth by auto. rewrite I4. now apply Nat.eqb_neq. }
        destruct l; try discriminate Rt; cbn [kcode] in Cl; try discriminate Cl; injection Cl as <-; cbn beta in Fl.
        * (* KLook *) destruct (head_ready (cs s)) eqn:Eh; injection Fl as <- <-; rewrite <- ?Ec in *.
          -- split; rewrite ?Ec, ?Al' in *; auto; try (intros; discriminate); try (intros; intuition discriminate); try (intros _ [[? A]|A]; discriminate).
          -- split; rewrite ?Ec, ?Al' in *; simpl; auto; try (intros; intuition discriminate); try (intros _ [[? A]|A]; discriminate).
             
             intros _ _. rewrite I1, I5 by reflexivity. split; auto. unfold head_ready in Eh. now destruct (q (cs s)).
        * (* KFree *) apply take_some in Fl as (c0 & r & Eq & Hh & Ex & El).
          pose proof (I5 eq_refl) as Eb. rewrite Eq in *.
          split; rewrite ?Ec, ?Al', ?Ex, ?El in *; simpl in *; auto; try (intros; destruct lp; intuition discriminate).
          { rewrite I1, Eb. reflexivity. } { lia. }
          { intros u. apply Rl; auto. now destruct lp. } { intros _ [[? A]|A]; destruct lp; discriminate. } { rewrite Eb. unfold kBatch. simpl. lia. }
        * (* KClosed *) injection Fl as <- <-. rewrite <- ?Ec in *.
          split; rewrite ?Ec, ?Al' in *; simpl in *; auto; try (destruct (closed (cs s)), lp; intros; intuition discriminate).
          { intros u. apply Rl; auto. destruct (closed (cs s)), lp; reflexivity. }
          { intros _ [[? A]|A]; destruct (closed (cs s)), lp; discriminate. }
        * (* KMore *) destruct ((length (batch (cs s)) <? kBatch) && head_ready (cs s)) eqn:Eb; injection Fl as <- <-.
          -- apply andb_true_iff in Eb as [Lb Eh]. apply Nat.ltb_lt in Lb.
             split; rewrite ?Ec, ?Al' in *; simpl in *; auto; try (intros; intuition discriminate); try (intros _ [[? A]|A]; discriminate).
          -- split; rewrite ?Ec, ?Al' in *; simpl in *; auto; try (intros; intuition discriminate); try (intros _ [[? A]|A]; discriminate).
        * (* KMoreFree *) apply take_some in Fl as (c0 & r & Eq & Hh & Ex & El).
          pose proof (I10 eq_refl) as Lb. rewrite Eq in *.
          split; rewrite ?Ec, ?Al', ?Ex, ?El in *; simpl in *; auto; try (intros; intuition discriminate); try (intros _ [[? A]|A]; discriminate).
          { rewrite I1, <- app_assoc. reflexivity. } { lia. }  { rewrite app_length. simpl. lia. }
        * (* KRun *) destruct (batch (cs s)) as [|b r] eqn:Eb; injection Fl as <- <-.
          -- split; rewrite ?Ec, ?Al' in *; simpl in *; auto; try (intros; intuition discriminate); try (intros _ [[? A]|A]; discriminate); rewrite ?Eb in *; simpl; auto; try lia.
             
          -- split; rewrite ?Ec, ?Al' in *; simpl in *; auto; try (intros; intuition discriminate); try (intros _ [[? A]|A]; discriminate).
             { rewrite I1, <- app_assoc. reflexivity. }  { lia. }
        * discriminate.
      + assert (A0 : at_ s' 0 = at_ s 0) by (apply Oth; auto). rewrite <- A0 in *.
        assert (Hold : forall x, In x (q (cs s)) -> ready x = false -> (forall h, l <> PPub h) -> by_ x < NT /\ exists h, at_ s' (by_ x) = PPub h).
        { intros x Hx Hr Nl. destruct (I3 x Hx Hr) as (A & h & B). split; auto. exists h. rewrite Oth; auto. intros Z. rewrite Z, Al in B. now apply (Nl h). }
        assert (Rl : forall u, side l' = false -> side (at_ s' u) = (u =? 0)).
        { intros u Sl. destruct (Nat.eq_dec u t) as [->|N]; [rewrite Al'; rewrite Sl; symmetry; now apply Nat.eqb_neq|]. rewrite Oth by auto. now apply I4. }
        apply Nat.eqb_neq in T0 as T1.
        destruct l; try discriminate Rt; cbn [pcode] in Cl; try discriminate Cl; injection Cl as <-; cbn beta in Fl.
        * destruct c; injection Fl as <- <-; (split; rewrite ?Ec in *; simpl in *; auto; [intros x Hx Hr; apply Hold; auto; discriminate]).
        * unfold claim in Fl. destruct (Nat.leb_spec cap (length (q (cs s)))); [destruct h|]; injection Fl as <- <-.
          -- split; rewrite ?Ec in *; simpl in *; auto; intros x Hx Hr; apply Hold; auto; discriminate.
          -- split; rewrite ?Ec in *; simpl in *; auto; intros x Hx Hr; apply Hold; auto; discriminate.
          -- split; rewrite ?Ec in *; simpl in *; auto; intros x Hx Hr; apply Hold; auto; discriminate.
          -- split; rewrite ?Ec in *; simpl in *; auto.
             { rewrite I1, map_app, !app_assoc. reflexivity. }
             { rewrite app_length. simpl. lia. }
             { intros x Hx Hr. apply in_app_or in Hx as [Hx|[<-|[]]]. apply Hold; auto; discriminate. simpl. split; auto. eauto. }
             { intros _ A. specialize (I6 A). unfold head_ready in *. simpl. now destruct (q (cs s)). }
        * injection Fl as <- <-. split; rewrite ?Ec in *; simpl in *; auto.
          { rewrite I1. rewrite map_map. reflexivity. }
          { now rewrite map_length. }
          { intros x Hx Hr. apply in_map_iff in Hx as (y & <- & Hy). simpl in *. apply orb_false_iff in Hr as [R1 R2].
            apply Nat.eqb_neq in R2. destruct (I3 y Hy R1) as (B & h0 & C). split; auto. exists h0. rewrite Oth; auto. }
          { intros _ A. specialize (I6 A). unfold head_ready in *. simpl. destruct (q (cs s)); simpl; auto. now rewrite I6. }
        * injection Fl as <- <-. split; rewrite ?Ec in *; simpl in *; auto. intros x Hx Hr; apply Hold; auto; discriminate.
    - assert (Fo : (at_ s' t = at_ s t) \/ follows code t (at_ s t) (at_ s' t)) by exact Em.
      assert (P : (forall h, at_ s t <> PPub h) \/ at_ s' t = at_ s t).
      { destruct Fo as [->|F]; auto. left. intros h Z. rewrite Z in F. unfold follows, fcode in F. now destruct (t =? 0). }
      assert (K : t = 0 -> at_ s' t = at_ s t \/
         (at_ s t = KPrep /\ at_ s' t = KLook true) \/ (at_ s t = KWait /\ at_ s' t = KAgain) \/ (at_ s t = KAgain /\ at_ s' t = KPrep) \/
         (at_ s t = KDrop /\ at_ s' t = KMore) \/ (at_ s t = KDropX /\ at_ s' t = KExit) \/ (at_ s t = KNtf /\ at_ s' t = KRun)).
      { intros T0. destruct Fo as [->|F]; auto. unfold follows, fcode in F. rewrite T0 in *. simpl in F.
        destruct (at_ s 0); simpl in F; try tauto; rewrite F; tauto. }
      assert (S' : side (at_ s' t) = side (at_ s t)).
      { destruct (Nat.eq_dec t 0) as [T0|T0]. { destruct (K T0) as [->|[[-> ->]|[[-> ->]|[[-> ->]|[[-> ->]|[[-> ->]|[-> ->]]]]]]]; reflexivity. }
        destruct Fo as [->|F]; auto. unfold follows, fcode in F. apply Nat.eqb_neq in T0. rewrite T0 in F.
        destruct (at_ s t); simpl in F; try tauto; rewrite F; auto. now destruct h. }
      assert (K2 : at_ s' 0 = at_ s 0 \/
         (at_ s 0 = KPrep /\ at_ s' 0 = KLook true) \/ (at_ s 0 = KWait /\ at_ s' 0 = KAgain) \/ (at_ s 0 = KAgain /\ at_ s' 0 = KPrep) \/
         (at_ s 0 = KDrop /\ at_ s' 0 = KMore) \/ (at_ s 0 = KDropX /\ at_ s' 0 = KExit) \/ (at_ s 0 = KNtf /\ at_ s' 0 = KRun)).
      { destruct (Nat.eq_dec t 0) as [T0|T0]; [rewrite T0 in *; auto|]. left. apply Ho; auto. }
      split; rewrite ?Ec; auto.
      + intros x Hx Hr. destruct (I3 x Hx Hr) as (A & h & B). split; auto. destruct (Nat.eq_dec (by_ x) t) as [Z|Z].
        * rewrite Z in *. destruct P as [P|P]; [now destruct (P h)|]. exists h. now rewrite P.
        * exists h. now rewrite Ho.
      + intros u. destruct (Nat.eq_dec u t) as [->|N]; [rewrite S'; auto|rewrite Ho by auto; auto].
      + intros _. destruct K2 as [->|[[A ->]|[[A ->]|[[A ->]|[[A ->]|[[A ->]|[A ->]]]]]]]; auto; rewrite A in *; simpl in *; auto; try discriminate.
      + intros _. destruct K2 as [->|[[A ->]|[[A ->]|[[A ->]|[[A ->]|[[A ->]|[A ->]]]]]]]; auto; intros [[? X]|X]; discriminate.
      + intros _. destruct K2 as [->|[[A ->]|[[A ->]|[[A ->]|[[A ->]|[[A ->]|[A ->]]]]]]]; auto; rewrite A in *; simpl in *; auto; try discriminate.
      + intros _. destruct K2 as [->|[[A ->]|[[A ->]|[[A ->]|[[A ->]|[[A ->]|[A ->]]]]]]]; auto; rewrite A in *; simpl in *; auto; try (intros [X|X]; discriminate).
      + intros _. destruct K2 as [->|[[A ->]|[[A ->]|[[A ->]|[[A ->]|[[A ->]|[A ->]]]]]]]; auto; discriminate.
  Qed.
  Lemma FI_reach s : reachable fstep finit s -> FI s.
  Proof.
    intros R. pose proof R as [ls E]. revert s R E. induction ls as [|[t c] ls IH] using rev_ind; intros s R E.
    - injection E as <-. split; simpl; auto; try lia; try (intros; tauto); try (intros; discriminate); try (intros _ [[? A]|A]; discriminate); try (intros _ [A|A]; discriminate).
      intros t. unfold at_. simpl. now destruct (t =? 0).
    - rewrite exec_app in E. destruct (exec fstep finit ls) as [| |s1] eqn:E1; try discriminate. simpl in E.
      destruct (fstep s1 (t, c)) as [| |s2] eqn:E2; try discriminate. injection E as <-.
      assert (R1 : reachable fstep finit s1) by (now exists ls).
      apply (FI_step s1 t c s2); auto. now apply fec_inv.
  Qed.

  Lemma exec_ub_last ls : exec fstep finit ls = Ub -> exists l1 lab s1, exec fstep finit l1 = Next s1 /\ fstep s1 lab = Ub.
  Proof.
    induction ls as [|lab ls IH] using rev_ind; intros E; [discriminate|].
    rewrite exec_app in E. destruct (exec fstep finit ls) as [| |s1] eqn:E1; try discriminate; auto.
    simpl in E. destruct (fstep s1 lab) eqn:E2; try discriminate. eauto.
  Qed.
  Lemma fq_safe_pf : safe fstep finit.
  Proof.
    intros ls Hub. destruct (exec_ub_last ls Hub) as (l1 & [t c] & s1 & E1 & Es).
    assert (R : reachable fstep finit s1) by now exists l1.
    pose proof (inv_step NT code fholds fkey_ok Hnt s1 (t, c) (fec_inv _ R)) as X. rewrite Es in X.
    destruct X as (l & f & P & Ec & U). cbn [fst snd] in *.
    assert (Ht : t < NT). { unfold step in Es. cbn [fst] in Es. destruct (Nat.leb_spec NT t); [discriminate|auto]. }
    destruct (FI_reach s1 R) as [_ _ _ _ _ I6 _ _ _ _]. unfold at_ in I6.
    revert Ec. dcode l; intros Ec; try discriminate; injection Ec as <-; try discriminate.
    - destruct (head_ready _); discriminate.
    - subst t. rewrite P in I6. specialize (I6 Ht (or_introl (ex_intro _ lp eq_refl))). unfold head_ready, take_head in *.
      destruct (q (cs s1)); [discriminate|]. now rewrite I6 in U.
    - subst t. rewrite P in I6. specialize (I6 Ht (or_intror eq_refl)). unfold head_ready, take_head in *.
      destruct (q (cs s1)); [discriminate|]. now rewrite I6 in U.
    - destruct (batch _); discriminate.
    - destruct c; discriminate.
    - destruct (claim _ _ _ _), h; discriminate.
  Qed.
  Lemma fq_fifo_pf s : reachable fstep finit s -> exists rest, accepted s = ran s ++ rest /\ length rest <= size s + kBatch /\ size s <= cap.
  Proof.
    intros R. destruct (FI_reach s R). exists (batch (cs s) ++ map tagv (q (cs s))). split; [exact f_cont0|].
    rewrite app_length, map_length. unfold size. split; auto. lia.
  Qed.
  Lemma fq_returns_pf s : reachable fstep finit s -> 0 < NT -> run_returned s ->
    closed (cs s) = true /\ accepted_at_last_look s = ran s ++ overtaken s /\
    (overtaken s = [] \/ exists c, hd_error (snd (seen (cs s))) = Some c /\ ready c = false).
  Proof.
    intros R H0 P. destruct (FI_reach s R) as [_ _ _ _ _ _ I7 I8 _ _].
    assert (A : at_ s 0 = KExit) by (unfold at_; now rewrite P). rewrite A in *.
    destruct (I7 H0 eq_refl) as [B C]. split; [apply I8; auto|]. split; [exact B|].
    unfold overtaken. destruct (snd (seen (cs s))) as [|c r] eqn:Es; auto. right. exists c. auto.
  Qed.

  (** ** Every call is answered *)
  Definition pend (l : floc) (v : nat) : nat :=
    match l with PTry w _ | PPrep w | PWait w | PAgain w => if v =? w then 1 else 0 | _ => 0 end.
  Lemma times_app a l m : times a (l ++ m) = times a l + times a m.
  Proof. unfold times. now rewrite filter_app, app_length. Qed.
  Lemma times_one t v u w : times (t, v) [(u, w)] = if (t =? u) && (v =? w) then 1 else 0.
  Proof. unfold times, eqb2. simpl. now destruct ((t =? u) && (v =? w)). Qed.
  Definition CT (s : st fq floc) : Prop := forall t v,
    times (t, v) (asked (cs s)) = times (t, v) (acc (cs s)) + times (t, v) (refused (cs s)) + pend (at_ s t) v.
  Lemma CT_step s t c s' : EcInv NT code fholds s -> CT s -> fstep s (t, c) = Next s' -> CT s'.
  Proof.
    intros E I H. destruct (step_loc NT code fholds s t c s' E H) as (Ht & Ho & M).
    intros u v. specialize (I u v).
    destruct M as [(l & f & x' & l' & Pl & Cl & Fl & Ec & Pl')|[Ec Em]].
    - assert (Al : at_ s t = l) by (unfold at_; now rewrite Pl). assert (Al' : at_ s' t = l') by (unfold at_; now rewrite Pl').
      assert (X : times (u, v) (asked x') + (if u =? t then pend l v else 0) + times (u, v) (acc (cs s)) + times (u, v) (refused (cs s)) =
                  times (u, v) (asked (cs s)) + (if u =? t then pend l' v else 0) + times (u, v) (acc x') + times (u, v) (refused x')).
      { revert Cl. dcode l; intros Cl; try discriminate Cl; injection Cl as <-; cbn beta in Fl; try discriminate Fl.
        - destruct (head_ready (cs s)); injection Fl as <- <-; simpl; lia.
        - apply take_some in Fl as (c0 & r & Eq & Hh & -> & ->). destruct lp; simpl; lia.
        - injection Fl as <- <-. destruct (closed (cs s)), lp; simpl; lia.
        - injection Fl as <- <-. destruct (_ && _); simpl; lia.
        - apply take_some in Fl as (c0 & r & Eq & Hh & -> & ->). simpl; lia.
        - destruct (batch (cs s)); injection Fl as <- <-; simpl; lia.
        - destruct c; injection Fl as <- <-; simpl; [destruct (u =? t); lia|]. rewrite times_app, times_one. destruct (u =? t), (v =? Nat.div2 c); simpl; lia.
        - unfold claim in Fl. destruct (cap <=? length (q (cs s))), h; injection Fl as <- <-; simpl; rewrite ?times_app, ?times_one; destruct (u =? t), (v =? v0); simpl; lia.
        - injection Fl as <- <-. simpl. lia.
        - injection Fl as <- <-. simpl. lia. }
      rewrite Ec. destruct (Nat.eqb_spec u t) as [->|N]; [rewrite Al'; rewrite Al in I; lia|rewrite Ho by auto; lia].
    - rewrite Ec. destruct (Nat.eq_dec u t) as [->|N]; [|rewrite Ho by auto; auto].
      destruct Em as [->|F]; auto. unfold follows in F. revert F. unfold fcode. destruct (t =? 0); destruct (at_ s t); simpl; try tauto; intros ->; auto; destruct h; auto.
  Qed.
  Lemma fq_answered_pf s t v : reachable fstep finit s -> outside s t ->
    times (t, v) (asked (cs s)) = times (t, v) (accepted s) + times (t, v) (refused (cs s)).
  Proof.
    intros R Ho. assert (C : CT s).
    { pose proof R as [ls E]. clear Ho. revert s R E. induction ls as [|[u c] ls IH] using rev_ind; intros s R E.
      - injection E as <-. intros u w. unfold at_. simpl. now destruct (u =? 0).
      - rewrite exec_app in E. destruct (exec fstep finit ls) as [| |s1] eqn:E1; try discriminate. simpl in E.
        destruct (fstep s1 (u, c)) as [| |s2] eqn:E2; try discriminate. injection E as <-.
        assert (R1 : reachable fstep finit s1) by (now exists ls).
        apply (CT_step s1 u c s2); auto. now apply fec_inv. }
    rewrite (C t v). unfold at_, accepted. rewrite Ho. simpl. lia.
  Qed.

  (** ** Wake-ups *)
  (** Producers in Add wait for room. *)
  Definition awants (t : nat) (l : floc) (x : fq) : Prop := match l with PWait _ => length (q x) < cap | _ => False end.
  Definition aarmed (t : nat) (l : floc) : option floc := match l with PWait _ => Some l | _ => None end.
  Definition adebt (t : nat) (l : floc) : Prop := match l with KDrop | KMore | KMoreFree | KNtf => True | _ => False end.
  (** Run waits for an element, ... *)
  Definition rwants (t : nat) (l : floc) (x : fq) : Prop := match l with KWait => head_ready x = true | _ => False end.
  Definition rarmed (t : nat) (l : floc) : option floc := match l with KClosed true | KWait => Some KWait | _ => None end.
  Definition rdebt (t : nat) (l : floc) : Prop := match l with PNtf _ => True | _ => False end.
  (** ... or for Shutdown. *)
  Definition cwants (t : nat) (l : floc) (x : fq) : Prop := match l with KWait => closed x = true | _ => False end.
  Definition carmed (t : nat) (l : floc) : option floc := match l with KWait => Some KWait | _ => None end.
  Definition cdebt (t : nat) (l : floc) : Prop := l = SNtf.

  Lemma solo_pull : solo code 0.
  Proof. exists 0. intros t l k. dcode l; try discriminate; auto. Qed.

  Lemma aclient_ok : client_ok code fholds 1 awants aarmed adebt.
  Proof.
    intros t l. split. { destruct l; simpl; try discriminate; auto. }
    dcode l; try (intros x c x' l' H; discriminate H); try (simpl; intuition discriminate).
    - intros x c x' l'. destruct (head_ready x); intros [= <- <-]; (split; [|split]); try (intros; discriminate); try (destruct lp; simpl; tauto); intros u []; simpl; auto.
    - intros x c x' l' H. apply take_some in H as (c0 & r & Eq & Hh & Ex & ->). (split; [|split]); try (intros; destruct lp; discriminate); try (destruct lp; simpl; tauto).
    - intros x c x' l' [= <- <-]. (split; [|split]); try (intros; destruct (closed x), lp; discriminate); try (destruct (closed x), lp; simpl; tauto); intros u []; simpl; auto.
    - intros x c x' l' [= <- <-]. (split; [|split]); try (intros; destruct (_ && _); discriminate); auto. intros _; destruct (_ && _); exact I.
    - intros x c x' l' H. apply take_some in H as (c0 & r & Eq & Hh & Ex & ->). (split; [|split]); try (intros; discriminate); simpl; auto.
    - intros x c x' l'. destruct (batch x); intros [= <- <-]; (split; [|split]); try (intros; discriminate); simpl; auto; intros u []; simpl; auto.
    - intros x c x' l'. destruct c; intros [= <- <-]; (split; [|split]); try (intros; discriminate); simpl; auto.
    - intros x c x' l'. unfold claim. destruct (Nat.leb_spec cap (length (q x))), h; intros [= <- <-]; (split; [|split]); auto; simpl; try tauto; try discriminate.
      + intros w Hw. right. injection Hw as <-. simpl. lia.
      + intros u []; simpl; auto; rewrite app_length; simpl; intros; left; lia.
      + intros u []; simpl; auto; rewrite app_length; simpl; intros; left; lia.
      + intros u []; simpl; auto; rewrite app_length; simpl; intros; left; lia.
    - intros x c x' l' [= <- <-]. (split; [|split]); simpl; try discriminate; try tauto. intros u []; simpl; rewrite ?map_length; auto.
    - destruct h; simpl; intuition discriminate.
    - intros x c x' l' [= <- <-]. (split; [|split]); simpl; try discriminate; auto.
  Qed.
  Lemma rclient_ok : client_ok code fholds 0 rwants rarmed rdebt.
  Proof.
    pose proof solo_pull as Solo.
    intros t l. split. { destruct l; simpl; try discriminate; auto; destruct lp; auto; discriminate. }
    dcode l; try (intros x c x' l' H; discriminate H); try (simpl; intuition discriminate).
    - intros x c x' l'. destruct (head_ready x) eqn:Eh; intros [= <- <-]; (split; [|split]); simpl; try tauto; try discriminate; auto.
      intros w Hw. right. destruct lp; try discriminate. injection Hw as <-. simpl. unfold head_ready in *. simpl. congruence.
    - intros x c x' l' H. apply take_some in H as (c0 & r & Eq & Hh & Ex & ->). (split; [|split]); try (intros; destruct lp; discriminate); try (destruct lp; simpl; tauto); intros u []; simpl; try tauto.
      intros _. left. unfold head_ready. now rewrite Eq.
    - intros x c x' l' [= <- <-]. (split; [|split]); try (simpl; tauto); destruct (closed x), lp; simpl; auto; try discriminate; tauto.
    - intros x c x' l' [= <- <-]. (split; [|split]); try (intros; destruct (_ && _); discriminate); auto; intros; destruct (_ && _); simpl in *; tauto.
    - intros x c x' l' H. apply take_some in H as (c0 & r & Eq & Hh & Ex & ->). (split; [|split]); try (intros; discriminate); try (simpl; tauto); intros u []; simpl; try tauto.
      intros _. left. unfold head_ready. now rewrite Eq.
    - intros x c x' l'. destruct (batch x); intros [= <- <-]; (split; [|split]); simpl; try tauto; try discriminate; auto. 
    - intros x c x' l'. destruct c; intros [= <- <-]; (split; [|split]); simpl; auto; try discriminate; try tauto. 
    - intros x c x' l'. unfold claim. destruct (Nat.leb_spec cap (length (q x))), h; intros [= <- <-]; (split; [|split]); auto; simpl; try tauto; try discriminate.
      all: intros u []; simpl; auto; unfold head_ready; simpl; destruct (q x); simpl; auto.
    - intros x c x' l' [= <- <-]. (split; [|split]); simpl; try discriminate; try tauto. 
    - destruct h; simpl; intuition discriminate.
    - intros x c x' l' [= <- <-]. (split; [|split]); simpl; try discriminate; auto.
  Qed.
  Lemma cclient_ok : client_ok code fholds 0 cwants carmed cdebt.
  Proof.
    pose proof solo_pull as Solo.
    intros t l. split. { destruct l; simpl; try discriminate; auto. }
    dcode l; try (intros x c x' l' H; discriminate H); try (simpl; unfold cdebt; intuition discriminate).
    - intros x c x' l'. destruct (head_ready x) eqn:Eh; intros [= <- <-]; (split; [|split]); simpl; try tauto; try discriminate; auto.
    - intros x c x' l' H. apply take_some in H as (c0 & r & Eq & Hh & -> & ->). (split; [|split]); try (intros; destruct lp; discriminate); auto; discriminate.
    - intros x c x' l' [= <- <-]. (split; [|split]); try (simpl; tauto); try discriminate. destruct (closed x) eqn:Ex, lp; simpl; auto; try discriminate.
      intros w [= <-]. right. simpl. congruence.
    - intros x c x' l' [= <- <-]. (split; [|split]); try (intros; destruct (_ && _); discriminate); auto; discriminate.
    - intros x c x' l' H. apply take_some in H as (c0 & r & Eq & Hh & -> & ->). (split; [|split]); try (intros; discriminate); auto; discriminate.
    - intros x c x' l'. destruct (batch x); intros [= <- <-]; (split; [|split]); simpl; try tauto; try discriminate; auto. 
    - intros x c x' l'. destruct c; intros [= <- <-]; (split; [|split]); simpl; auto; try discriminate; try tauto. 
    - intros x c x' l'. unfold claim. destruct (Nat.leb_spec cap (length (q x))), h; intros [= <- <-]; (split; [|split]); auto; simpl; try tauto; try discriminate.
    - intros x c x' l' [= <- <-]. (split; [|split]); simpl; try discriminate; try tauto; auto.
    - destruct h; simpl; unfold cdebt; intuition discriminate.
    - intros x c x' l' [= <- <-]. (split; [|split]); simpl; try discriminate; auto. intros. right. reflexivity.
  Qed.
  Lemma f_aba ls s : exec fstep finit ls = Next s -> timely fstep finit ls -> aba s = false.
  Proof.
    intros E T. apply (aba_window NT code fholds 1 awants aarmed adebt fkey_ok Hnt aclient_ok fq0 _ f_init0 ls s E).
    intros m s1 u l ky E1 P K. apply N.nle_gt. intros B. apply (T m s1 u E1). exists l, ky. auto.
  Qed.
  Lemma f_lt s t l : reachable fstep finit s -> pc (th s t) = Parked l -> t < NT.
  Proof.
    intros R P. pose proof (fec_inv s R) as I. 
    assert (Wc := e_wc _ _ _ _ I t). rewrite P in Wc. specialize (Wc eq_refl). simpl in Wc.
    assert (Ek := e_key _ _ _ _ I t). rewrite P in Ek. simpl in Ek.
    destruct (key (th s t)) as [ky|] eqn:K.
    - apply (linked_lt NT code fholds s t (ke ky) I). eapply (e_wq2 _ _ _ _ I); eauto. now rewrite P.
    - exfalso. simpl in Ek. now apply (wait_key NT code fholds fkey_ok t l Wc).
  Qed.
  Lemma f_out s u : reachable fstep finit s -> NT <= u -> pc (th s u) = Run (if u =? 0 then KLook false else PIdle).
  Proof.
    intros [ls E] G. revert s E. induction ls as [|[t c] ls IH] using rev_ind; intros s E. { now injection E as <-. }
    rewrite exec_app in E. destruct (exec fstep finit ls) as [| |s1] eqn:E1; try discriminate. simpl in E.
    destruct (fstep s1 (t, c)) as [| |s2] eqn:E2; try discriminate. injection E as <-. specialize (IH s1 eq_refl).
    assert (I : EcInv NT code fholds s1) by (apply fec_inv; now exists ls).
    destruct (step_eff NT code fholds Hnt funtimed s1 t c s2 I E2) as [Ht F].
    assert (N : (u =? t) = false) by (apply Nat.eqb_neq; lia).
    destruct F as [l f c' l' E Ec Ef Hc M Ks Wq Ep | l e1 k E Ec Hc M Wq Ep Kn [w Ks] | l k E Ec Hc M Wq Ep Ks
      | l e1 all k E Ec Hc Ks Wq Ep D | e1 all k n r l E Eq Hc En Nn Hn Hh M Ks Wq Ep
      | e1 all k E Eq Hc M Ks Wq Ep | l kyt E Kt Hc M Ks Ep Wq Ha | p' Si Hc M Ks Wq Ep]; try destruct D as [M|[M _]]; rewrite M, N; auto.
    destruct (Nat.eqb_spec u n) as [->|]; auto. lia.
  Qed.
  (** The notifier is fiber 0 for Add, another fiber for Run. *)
  Lemma fq_add_wakes_pf ls s t : exec fstep finit ls = Next s -> timely fstep finit ls ->
    add_suspended s t -> size s < cap -> run_taking s.
  Proof.
    intros E T [v P] Hs. assert (R : reachable fstep finit s) by now exists ls.
    pose proof (wake_reach NT code fholds 1 awants aarmed adebt fkey_ok Hnt aclient_ok fq0 _ f_init0 s R) as W.
    destruct (no_lost_wakeup NT code fholds 1 awants aarmed adebt aclient_ok s t (PWait v) W (f_aba ls s E T) P eq_refl Hs) as [u O].
    pose proof (w_ntf _ _ _ _ _ _ _ _ W u) as N. pose proof (FI_reach s R) as F.
    unfold run_taking. destruct O as [O|O].
    - pose proof (f_role s F u) as Rl. unfold owes, adebt in O. unfold at_ in Rl.
      assert (U0 : u = 0).
      { destruct (Nat.eqb_spec u 0); auto. exfalso.
        destruct (pc (th s u)) eqn:Eu; try tauto; simpl in Rl; try (destruct l; try tauto; discriminate); try (destruct k; try tauto; discriminate). }
      subst u. destruct (pc (th s 0)) eqn:Eu; try tauto; try (destruct l; tauto); exfalso.
      + destruct N as [l N]. unfold fcode in N. simpl in N. destruct l; simpl in N; try discriminate; injection N as <- <- <-; tauto.
      + destruct N as [l N]. unfold fcode in N. simpl in N. destruct l; simpl in N; try discriminate; injection N as <- <- <-; tauto.
      + destruct N as (l & all & N). unfold fcode in N. simpl in N. destruct l; simpl in N; try discriminate; injection N as <- <- <-; tauto.
    - unfold pending in O. destruct (pc (th s u)) eqn:Eu; try tauto; destruct N as [l N]; subst e; revert N; dcode l; try discriminate; intros [= <- <-];
      subst u; now rewrite Eu.
  Qed.
  Lemma fq_run_wakes_pf ls s : exec fstep finit ls = Next s -> timely fstep finit ls ->
    run_suspended s -> (head_ready (cs s) = true \/ closed (cs s) = true) -> exists u, 0 < u < NT /\ telling_run s u.
  Proof.
    intros E T P Hs. assert (R : reachable fstep finit s) by now exists ls.
    pose proof (wake_reach NT code fholds 0 rwants rarmed rdebt fkey_ok Hnt rclient_ok fq0 _ f_init0 s R) as W.
    pose proof (wake_reach NT code fholds 0 cwants carmed cdebt fkey_ok Hnt cclient_ok fq0 _ f_init0 s R) as W'.
    assert (X : exists u, telling_run s u).
    { destruct Hs as [Hs|Hs].
      - destruct (no_lost_wakeup NT code fholds 0 rwants rarmed rdebt rclient_ok s 0 KWait W (f_aba ls s E T) P eq_refl Hs) as [u O].
        exists u. pose proof (w_ntf _ _ _ _ _ _ _ _ W u) as N. unfold owes, pending, rdebt, telling_run in *.
        destruct (pc (th s u)) as [l| | | | | | | | | |]; try tauto; [destruct l; tauto| | |];
        (destruct N as [l N] + destruct N as (l & all & N)); revert N; dcode l; try discriminate; intros N; injection N; intros; subst; try tauto;
        try destruct h; try tauto; destruct O as [O|O]; try tauto; discriminate.
      - destruct (no_lost_wakeup NT code fholds 0 cwants carmed cdebt cclient_ok s 0 KWait W' (f_aba ls s E T) P eq_refl Hs) as [u O].
        exists u. pose proof (w_ntf _ _ _ _ _ _ _ _ W' u) as N. unfold owes, pending, cdebt, telling_run in *.
        destruct (pc (th s u)) as [l| | | | | | | | | |]; try tauto; [destruct O as [->|[]]; exact I| | |];
        (destruct N as [l N] + destruct N as (l & all & N)); revert N; dcode l; try discriminate; intros N; injection N; intros; subst; try tauto;
        try destruct h; try tauto; destruct O as [O|O]; try tauto; discriminate. }
    destruct X as [u X]. assert (U0 : u <> 0) by (intros ->; unfold telling_run in X; now rewrite P in X). exists u. split; auto.
    split; [lia|]. destruct (Nat.lt_ge_cases u NT) as [|G]; auto. exfalso. unfold telling_run in X. rewrite (f_out s u R G) in X. now destruct (u =? 0).
  Qed.
  Lemma telling_works s u : telling_run s u -> working s u.
  Proof.
    unfold telling_run, working, outside, add_suspended. intros X. split.
    - intros E. now rewrite E in X.
    - intros [v E]. now rewrite E in X.
  Qed.
  (** When nothing moves any more and Run is waiting, every accepted callback has run, nobody waits
      in Add, and the queue is not closed. *)
  Lemma fq_quiescent_pf ls s : 0 < cap -> exec fstep finit ls = Next s -> timely fstep finit ls ->
    run_suspended s -> (forall u, 0 < u < NT -> ~ working s u) ->
    accepted s = ran s /\ closed (cs s) = false /\ forall t, ~ add_suspended s t.
  Proof.
    intros Hc E T P Hw. assert (R : reachable fstep finit s) by now exists ls.
    assert (H0 : 0 < NT) by (eapply f_lt; eauto).
    assert (A0 : at_ s 0 = KWait) by (unfold at_; now rewrite P).
    pose proof (FI_reach s R) as [I1 I2 I3 I4 I5 _ _ _ _ _].
    assert (NW : ~ exists u, u < NT /\ u <> 0 /\ working s u) by (intros (u & Hu & U0 & W); apply (Hw u); auto; lia).
    assert (NR : ~ (head_ready (cs s) = true \/ closed (cs s) = true)).
    { intros Hs. destruct (fq_run_wakes_pf ls s E T P Hs) as (u & Hu & W). apply (Hw u); auto. now apply telling_works. }
    assert (Q : q (cs s) = []).
    { destruct (q (cs s)) as [|x r] eqn:Eq; auto. exfalso. destruct (ready x) eqn:Er.
      - apply NR. left. unfold head_ready. now rewrite Eq.
      - destruct (I3 x (or_introl eq_refl) Er) as (Hb & h & B). apply NW. exists (by_ x). split; auto. split.
        + intros Z. rewrite Z, A0 in B. discriminate.
        + unfold working, outside, add_suspended. unfold at_ in B. split; [intros Z|intros [v Z]]; rewrite Z in B; discriminate. }
    split; [|split].
    - unfold accepted, ran. rewrite I1, Q, (I5 H0) by (now rewrite A0). simpl. now rewrite app_nil_r.
    - destruct (closed (cs s)); auto. exfalso. auto.
    - intros t Ht. assert (X : run_taking s). { apply (fq_add_wakes_pf ls s t E T Ht). unfold size. rewrite Q. auto. } unfold run_taking in X. now rewrite P in X.
  Qed.
End FqProof.
