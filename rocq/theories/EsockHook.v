(** Proofs about EpollSocket: timeouts, results, the recv hook and the error callback. *)
From Verif Require Import Util Conc EsockModel EsockSpec EsockProof.
Open Scope N_scope.

Definition plain_ev (e : ev) : Prop := match e with Ret _ _ _ | Tried _ _ | TriedR _ | Start _ | Cb _ _ _ => True | _ => False end.
(** A step that tells nobody, and after which there is no more to read. *)
Record plain (s s' : st) : Prop := {
  p_hist : exists l, hist s' = hist s ++ l /\ Forall plain_ev l;
  p_ep : ep s' = ep s; p_armed : armed s' = armed s; p_rhook : rhook s' = rhook s; p_rnotif : rnotif s' = rnotif s;
  p_errcb : errcb s' = errcb s; p_kfin : kfin s' = kfin s; p_krst : krst s' = krst s; p_kin : kin s' <> [] -> kin s <> [] }.
Definition plain_lab (l : lab) : Prop :=
  match l with
  | LCall _ _ _ | LResume _ _ | LTimer _ | LTrySend _ _ | LTryRecv _ _ | LAsync _ _ _ | LTimeout _ | LBrief => True
  | _ => False
  end.
Lemma plain_refl s : plain s s.
Proof. constructor; auto. exists []. rewrite app_nil_r. auto. Qed.
Lemma plain_trans a b c : plain a b -> plain b c -> plain a c.
Proof.
  intros [H1 ? ? ? ? ? ? ? ?] [H2 ? ? ? ? ? ? ? ?]. constructor; try congruence; auto.
  destruct H1 as [l1 [E1 F1]], H2 as [l2 [E2 F2]]. exists (l1 ++ l2). rewrite E2, E1, app_assoc. split; auto. now apply Forall_app.
Qed.
Lemma plain_log e s : plain_ev e -> plain s (log e s).
Proof. intros H. constructor; auto. exists [e]. cbn. auto. Qed.
Lemma plain_att c s r s1 : att c s r s1 -> plain s s1.
Proof.
  intros [? ? [] Hi ? ? ? ? ? ?]. constructor; auto.
  - exists []. rewrite app_nil_r. auto.
  - intros X Y. rewrite Y in Hi. symmetry in Hi. apply app_eq_nil in Hi. tauto.
Qed.
Lemma plain_slot f x c p s : plain s (w_fib f x (w_slot c p s)).
Proof. unfold w_slot. destruct (is_write c); constructor; auto; exists []; rewrite app_nil_r; auto. Qed.
Lemma plain_iter f c k s : core s -> okcall c -> plain s (iter f c k s).
Proof.
  intros C Ok. pose proof (attempt_ok c k s C Ok) as T. unfold iter. destruct (attempt c k s) as [r s1]; cbn [fst snd] in T. apply plain_att in T.
  assert (G : plain s (log (Ret f c r) s1)) by (eapply plain_trans; [exact T|]; now apply plain_log).
  destruct r as [b|a|e]; auto. destruct e; auto. eapply plain_trans; [exact T|]. apply plain_slot.
Qed.
Lemma start_iter f c k s s' : polite s (LCall f c k) -> start_call f c k s = Next s' -> s' = iter f c k s /\ okcall c.
Proof.
  intros P E. destruct c as [n| |bs]; cbn [start_call polite] in *.
  - destruct (fd s <? 0)%Z; try discriminate. destruct (rslot s); try discriminate. injection E as <-. split; cbn; tauto.
  - destruct (rslot s); try discriminate. injection E as <-. split; cbn; tauto.
  - destruct (fd s <? 0)%Z; try discriminate. injection E as <-. split; cbn; tauto.
Qed.
Lemma plain_step s l s' : inv s -> polite s l -> step s l = Next s' -> plain_lab l -> plain s s'.
Proof.
  intros I P E L. pose proof I as [C [A D]]. destruct l as [g c1 k|g k|g|bs k|n k|id bs k|rd wr k| | | | | |b| |k|bs| | |n|]; try contradiction; cbn [step] in *.
  - destruct (fib s g) eqn:Eg; try discriminate. destruct (start_iter _ _ _ _ _ P E) as [-> Ok]. now apply plain_iter.
  - unfold resume in E. destruct (fib s g) as [| |c1 ec t] eqn:Eg; try discriminate.
    destruct (resume_inv g c1 ec t s I Eg) as [[C1 _] [S1 [O1 [B1 F1]]]]. pose proof (plain_slot g Idle c1 Null s) as X.
    destruct (if t then Some Canceled else ec) as [e|]; injection E as <-; (eapply plain_trans; [exact X|]).
    + now apply plain_log.
    + now apply plain_iter.
  - destruct (fib s g) as [|c1 t|]; try discriminate. destruct t; try discriminate. injection E as <-. constructor; auto. exists []. rewrite app_nil_r. auto.
  - destruct P as [P _]. pose proof (try_send_ok bs k s C P) as T. destruct (try_send bs k s) as [r1 s1]. injection E as <-. cbn [fst snd] in T.
    eapply plain_trans; [exact (plain_att _ _ _ _ T)|]. now apply plain_log.
  - unfold try_recv in E. destruct (is_shut (fd s)) eqn:Es. { injection E as <-. now apply plain_log. }
    pose proof (recv_att n k s C P Es) as X. destruct (sys_recv n k s) as [r1 s1]. cbn [fst snd] in X. injection E as <-.
    eapply plain_trans; [exact (plain_att _ _ _ _ X)|]. now apply plain_log.
  - unfold async_write in E. destruct P as [P1 P2]. pose proof (try_send_ok bs k (log (Start id) s) (core_log _ s C) P1) as X.
    destruct (try_send bs k (log (Start id) s)) as [r1 s1]. cbn [fst snd] in X. apply plain_att in X.
    assert (Y : plain s s1) by (eapply plain_trans; [|exact X]; now apply plain_log).
    assert (B : forall v, plain s (w_brief v s1)).
    { intros v. eapply plain_trans; [exact Y|]. constructor; auto. exists []. rewrite app_nil_r. auto. }
    destruct r1 as [b|a|e]; try (injection E as <-; apply B). destruct e; try (injection E as <-; apply B). destruct (wslot s); try discriminate. injection E as <-.
    eapply plain_trans; [exact Y|]. constructor; auto. exists []. rewrite app_nil_r. auto.
  - injection E as <-. constructor; auto. exists []. rewrite app_nil_r. auto.
  - destruct (brief s) as [|[[id bs] r1] t]; try discriminate. injection E as <-. constructor; auto. exists [Cb id bs r1]. split; auto.
Qed.

(** The steps that go through Wakey. *)
Record via (s : st) (l : lab) (s' : st) (m : mask) (k : N) (s1 : st) : Prop := {
  v_wakey : wakey m k s1 = Next s'; v_woken : woken m s1 s'; v_core : core s1;
  v_hist : hist s1 = hist s; v_fib : fib s1 = fib s; v_rhook : rhook s1 = rhook s; v_rnotif : rnotif s1 = rnotif s; v_errcb : errcb s1 = errcb s;
  v_kin : kin s1 = kin s; v_kfin : kfin s1 = kfin s; v_krst : krst s1 = krst s; v_tmo : tmo s1 = tmo s; v_armed : armed s1 = armed s; v_rslot : rslot s1 = rslot s;
  v_wslot : wslot s1 = wslot s; v_awp : awp s1 = awp s; v_kerr : kerr s1 = kerr s;
  v_how : match l with
          | LEvent _ => m = levels s /\ ep s1 = false
          | LShutdown _ _ _ => m = mkM true true false false false /\ (ep s1 = ep s \/ ep s1 = armed s)
          | _ => False end }.
Lemma via_shutdown s rd wr k s' : inv s -> step s (LShutdown rd wr k) = Next s' -> exists s1 m, via s (LShutdown rd wr k) s' m k s1.
Proof.
  intros [C [A D]] E. cbn [step] in E. unfold shutdown in E.
  set (s1 := if (fd s <? 0)%Z then s else if is_shut (fd s) then s
     else w_fd (Z.lor (fd s) 1) (w_ep (armed s) (w_shut (krd s || rd) (kwr s || wr) s))) in *.
  assert (C1 : core s1).
  { unfold s1. destruct (fd s <? 0)%Z eqn:Ef; auto. destruct (is_shut (fd s)) eqn:Es; auto.
    destruct C as [Hr Hw Hrs Hws Hok Hk Ha He1 He2 Hfd]. constructor; try assumption.
    - intros _. apply lor1_shut.
    - cbn [armed fd w_fd w_ep w_shut]. now rewrite lor1_neg.
    - cbn. auto.
    - cbn [fd w_fd w_ep w_shut]. intros X. exfalso. pose proof (lor1_neg (fd s)). lia. }
  destruct (wakey_ok (mkM true true false false false) k s1 C1) as [s2 [E2 W]]; [intros X; discriminate X|]. pose proof E as E0. rewrite E2 in E0. injection E0 as <-.
  exists s1, (mkM true true false false false). constructor; auto; try (unfold s1; destruct (fd s <? 0)%Z; auto; destruct (is_shut (fd s)); auto; fail).
Qed.
Lemma via_event s k s' : inv s -> step s (LEvent k) = Next s' -> ep s = true /\ armed s = true /\
  ((exists s1 m, via s (LEvent k) s' m k s1) \/ (s' = w_ep false s /\ mi (levels s) = false /\ merr (levels s) = false)).
Proof.
  intros [C [A D]] E. cbn [step] in E. unfold event in E. destruct (ep s); try discriminate. destruct (armed s) eqn:Ea; try discriminate. cbn [andb] in E.
  split; auto. split; auto. destruct (mi (levels s) || mo (levels s) || merr (levels s)) eqn:L.
  - left. destruct (wakey_ok _ k (w_ep false s) (core_ep0 s C) (event_errs s C A)) as [s2 [E2 W]]. pose proof E as E0. rewrite E2 in E0. injection E0 as <-.
    exists (w_ep false s), (levels s). constructor; auto. now apply core_ep0.
  - right. injection E as <-. split; auto. destruct (mi (levels s)), (mo (levels s)), (merr (levels s)); cbn in L; auto; discriminate.
Qed.

(** ** Timeouts. *)
Definition fib_ok (s : st) (l : lab) (f : nat) (x : fiber) : Prop :=
  match x with
  | Ready c ec true => fib s f = x \/ (l = LTimer f /\ fib s f = Parked c true)
  | Parked c true => fib s f = x \/ (tmo s = true /\ c <> CAccept)
  | _ => True
  end.
Lemma fib_same s l f x : fib s f = x -> fib_ok s l f x.
Proof. intros <-. unfold fib_ok. destruct (fib s f) as [|c []|c e []]; auto. Qed.
Lemma fib_iter g c k s f l s0 : core s -> okcall c -> tmo s = tmo s0 -> (fib s f = fib s0 f \/ fib s f = Idle) -> fib_ok s0 l f (fib (iter g c k s) f).
Proof.
  intros C Ok Ht Hf. pose proof (attempt_ok c k s C Ok) as T. unfold iter. destruct (attempt c k s) as [r s1]; cbn [fst snd] in T. destruct T as [_ _ [] _ _ _ _ _ _ _].
  assert (G : fib_ok s0 l f (fib (log (Ret g c r) s1) f)). { cbn [fib log]. rewrite q_fib. destruct Hf as [->| ->]; [now apply fib_same|exact Logic.I]. }
  destruct r as [b|a|e]; auto. destruct e; auto. cbn [fib w_fib]. unfold upd. destruct (Nat.eq_dec g f) as [->|N].
  - rewrite Nat.eqb_refl. unfold fib_ok. destruct c; auto; destruct (tmo s) eqn:X; auto; right; rewrite <- Ht; auto; split; auto; discriminate.
  - replace (Nat.eqb f g) with false by (symmetry; apply Nat.eqb_neq; auto). unfold w_slot. destruct (is_write c); cbn [fib w_rslot w_wslot]; rewrite q_fib; (destruct Hf as [->| ->]; [now apply fib_same|exact Logic.I]).
Qed.
Lemma fib_via s l s' m k s1 f : via s l s' m k s1 -> fib_ok s l f (fib s' f).
Proof.
  intros V. destruct (wk_fewer _ _ _ (v_woken _ _ _ _ _ _ V) f) as [E|[c [t [ec [E1 E2]]]]].
  - rewrite E, (v_fib _ _ _ _ _ _ V). now apply fib_same.
  - rewrite E2. exact Logic.I.
Qed.
Lemma fib_step s l s' f : inv s -> polite s l -> step s l = Next s' -> fib_ok s l f (fib s' f).
Proof.
  intros I P E. pose proof I as [C [A D]]. destruct l as [g c1 k|g k|g|bs k|n k|id bs k|rd wr k| | | | | |b| |k|bs| | |n|].
  - cbn [step] in E. destruct (fib s g) eqn:Eg; try discriminate. destruct (start_iter _ _ _ _ _ P E) as [-> Ok]. apply fib_iter; auto.
  - cbn [step] in E. unfold resume in E. destruct (fib s g) as [| |c1 ec t] eqn:Eg; try discriminate.
    destruct (resume_inv g c1 ec t s I Eg) as [[C1 _] [S1 [O1 [B1 F1]]]].
    assert (X : fib (w_fib g Idle (w_slot c1 Null s)) f = fib s f \/ fib (w_fib g Idle (w_slot c1 Null s)) f = Idle).
    { cbn [fib w_fib]. unfold upd. destruct (Nat.eqb f g); auto. left. unfold w_slot. destruct (is_write c1); reflexivity. }
    destruct (if t then Some Canceled else ec) as [e|]; injection E as <-.
    + cbn [fib log]. destruct X as [->| ->]; [now apply fib_same|exact Logic.I].
    + apply fib_iter; auto. unfold w_slot. destruct (is_write c1); reflexivity.
  - cbn [step] in E. destruct (fib s g) as [|c1 t|] eqn:Eg; try discriminate. destruct t; try discriminate. injection E as <-. cbn [fib w_fib]. unfold upd.
    destruct (Nat.eqb_spec f g) as [->|N]; [|now apply fib_same]. right. auto.
  - cbn [step] in E. destruct P as [P _]. pose proof (try_send_ok bs k s C P) as T. destruct (try_send bs k s) as [r1 s1]. injection E as <-. cbn [fst snd] in T.
    apply fib_same. cbn. now rewrite (q_fib _ _ (at_same _ _ _ _ T)).
  - cbn [step] in E. unfold try_recv in E. destruct (is_shut (fd s)) eqn:Es. { injection E as <-. now apply fib_same. }
    pose proof (recv_att n k s C P Es) as X. destruct (sys_recv n k s) as [r1 s1]. cbn [fst snd] in X. injection E as <-.
    apply fib_same. cbn. now rewrite (q_fib _ _ (at_same _ _ _ _ X)).
  - cbn [step] in E. unfold async_write in E. destruct P as [P1 P2]. pose proof (try_send_ok bs k (log (Start id) s) (core_log _ s C) P1) as X.
    destruct (try_send bs k (log (Start id) s)) as [r1 s1]. cbn [fst snd] in X. pose proof (q_fib _ _ (at_same _ _ _ _ X)) as Y. cbn in Y.
    apply fib_same. destruct r1 as [b|a|e]; try (injection E as <-; cbn; now rewrite Y). destruct e; try (injection E as <-; cbn; now rewrite Y). destruct (wslot s); try discriminate. injection E as <-. cbn. now rewrite Y.
  - destruct (via_shutdown _ _ _ _ _ I E) as [s1 [m V]]. eapply fib_via; eauto.
  - cbn [step] in E. unfold close in E. destruct (fd s <? 0)%Z. { injection E as <-. now apply fib_same. } apply fib_same.
    cbn [awp wslot rhook rslot w_fd w_ep w_armed] in E. destruct (awp s).
    + destruct (wslot s); try discriminate. cbn in E. destruct (rhook s); [destruct (rslot s); try discriminate|]; injection E as <-; reflexivity.
    + cbn in E. destruct (rhook s); [destruct (rslot s); try discriminate|]; injection E as <-; reflexivity.
  - cbn [step] in E. unfold register_hook in E. destruct (rhook s || (fd s <? 0)%Z); [discriminate|]. injection E as <-. apply fib_same. cbn. destruct (rnotif s); reflexivity.
  - cbn [step] in E. unfold reset_hook in E. apply fib_same. destruct (rhook s); [destruct (rslot s); try discriminate|]; injection E as <-; reflexivity.
  - injection E as <-. now apply fib_same.
  - injection E as <-. now apply fib_same.
  - injection E as <-. now apply fib_same.
  - cbn [step] in E. destruct (brief s) as [|[[id bs] r1] t]; try discriminate. injection E as <-. now apply fib_same.
  - destruct (via_event _ _ _ I E) as [_ [_ [[s1 [m V]]|[-> _]]]]; [eapply fib_via; eauto|now apply fib_same].
  - cbn [step] in E. destruct (_ || _); try discriminate. injection E as <-. now apply fib_same.
  - cbn [step] in E. destruct (_ || _); try discriminate. injection E as <-. now apply fib_same.
  - cbn [step] in E. destruct (krst s); try discriminate. injection E as <-. now apply fib_same.
  - injection E as <-. now apply fib_same.
  - injection E as <-. now apply fib_same.
Qed.
Lemma tmo_step s l s' : inv s -> polite s l -> step s l = Next s' -> tmo s' = tmo s \/ l = LTimeout (tmo s').
Proof.
  intros I P E. pose proof I as [C [A D]]. 
  assert (It : forall g c k s0, core s0 -> okcall c -> tmo (iter g c k s0) = tmo s0).
  { intros g c k s0 C0 Ok. pose proof (attempt_ok c k s0 C0 Ok) as T. unfold iter. destruct (attempt c k s0) as [r s1]; cbn [fst snd] in T. destruct T as [_ _ [] _ _ _ _ _ _ _].
    destruct r as [b|a|e]; auto. destruct e; auto. unfold w_slot. destruct (is_write c); auto. }
  destruct l as [g c1 k|g k|g|bs k|n k|id bs k|rd wr k| | | | | |b| |k|bs| | |n|].
  - cbn [step] in E. destruct (fib s g) eqn:Eg; try discriminate. destruct (start_iter _ _ _ _ _ P E) as [-> Ok]. left. auto.
  - cbn [step] in E. unfold resume in E. destruct (fib s g) as [| |c1 ec t] eqn:Eg; try discriminate. left.
    destruct (resume_inv g c1 ec t s I Eg) as [[C1 _] [S1 [O1 [B1 F1]]]].
    assert (X : tmo (w_fib g Idle (w_slot c1 Null s)) = tmo s) by (unfold w_slot; destruct (is_write c1); reflexivity).
    destruct (if t then Some Canceled else ec) as [e|]; injection E as <-; [exact X|]. now rewrite It.
  - cbn [step] in E. destruct (fib s g) as [|c1 t|] eqn:Eg; try discriminate. destruct t; try discriminate. injection E as <-. auto.
  - cbn [step] in E. destruct P as [P _]. pose proof (try_send_ok bs k s C P) as T. destruct (try_send bs k s) as [r1 s1]. injection E as <-. cbn [fst snd] in T.
    left. exact (q_tmo _ _ (at_same _ _ _ _ T)).
  - cbn [step] in E. unfold try_recv in E. destruct (is_shut (fd s)) eqn:Es. { injection E as <-. auto. }
    pose proof (recv_att n k s C P Es) as X. destruct (sys_recv n k s) as [r1 s1]. cbn [fst snd] in X. injection E as <-. left. exact (q_tmo _ _ (at_same _ _ _ _ X)).
  - cbn [step] in E. unfold async_write in E. destruct P as [P1 P2]. pose proof (try_send_ok bs k (log (Start id) s) (core_log _ s C) P1) as X.
    destruct (try_send bs k (log (Start id) s)) as [r1 s1]. cbn [fst snd] in X. pose proof (q_tmo _ _ (at_same _ _ _ _ X)) as Y. cbn in Y. left.
    destruct r1 as [b|a|e]; try (injection E as <-; exact Y). destruct e; try (injection E as <-; exact Y). destruct (wslot s); try discriminate. injection E as <-. exact Y.
  - destruct (via_shutdown _ _ _ _ _ I E) as [s1 [m V]]. left. rewrite (k_tmo _ _ (wk_kept _ _ _ (v_woken _ _ _ _ _ _ V))). apply V.
  - cbn [step] in E. unfold close in E. left. destruct (fd s <? 0)%Z. { injection E as <-. auto. }
    cbn [awp wslot rhook rslot w_fd w_ep w_armed] in E. destruct (awp s).
    + destruct (wslot s); try discriminate. cbn in E. destruct (rhook s); [destruct (rslot s); try discriminate|]; injection E as <-; reflexivity.
    + cbn in E. destruct (rhook s); [destruct (rslot s); try discriminate|]; injection E as <-; reflexivity.
  - cbn [step] in E. unfold register_hook in E. destruct (rhook s || (fd s <? 0)%Z); [discriminate|]. injection E as <-. cbn. left. destruct (rnotif s); reflexivity.
  - cbn [step] in E. unfold reset_hook in E. left. destruct (rhook s); [destruct (rslot s); try discriminate|]; injection E as <-; reflexivity.
  - injection E as <-. auto.
  - injection E as <-. auto.
  - injection E as <-. auto.
  - cbn [step] in E. destruct (brief s) as [|[[id bs] r1] t]; try discriminate. injection E as <-. auto.
  - destruct (via_event _ _ _ I E) as [_ [_ [[s1 [m V]]|[-> _]]]]; auto. left. rewrite (k_tmo _ _ (wk_kept _ _ _ (v_woken _ _ _ _ _ _ V))). apply V.
  - cbn [step] in E. destruct (_ || _); try discriminate. injection E as <-. auto.
  - cbn [step] in E. destruct (_ || _); try discriminate. injection E as <-. auto.
  - cbn [step] in E. destruct (krst s); try discriminate. injection E as <-. auto.
  - injection E as <-. auto.
  - injection E as <-. auto.
Qed.

(** What a step adds to the history: at most one return, as the last event. *)
Definition noret (e : ev) : Prop := match e with Ret _ _ _ => False | _ => True end.
Lemma hist_step s l s' : inv s -> polite s l -> step s l = Next s' ->
  exists h, hist s' = hist s ++ h /\ (Forall noret h \/ exists f c r, h = [Ret f c r]).
Proof.
  intros I P E. pose proof I as [C [A D]].
  assert (W : forall m k s1, via s l s' m k s1 -> exists h, hist s' = hist s ++ h /\ (Forall noret h \/ exists f c r, h = [Ret f c r])).
  { intros m k s1 V. destruct (wk_hist _ _ _ (v_woken _ _ _ _ _ _ V)) as [l2 [X Y]]. rewrite (v_hist _ _ _ _ _ _ V) in X. eexists. split; [exact X|]. left.
    apply Forall_app. split; [clear; destruct (_ && _); repeat constructor|]. apply Forall_app. split; [|clear; destruct (_ && _); repeat constructor].
    destruct Y as [->|[id [bs [r ->]]]]; repeat constructor. }
  assert (Z : hist s' = hist s -> exists h, hist s' = hist s ++ h /\ (Forall noret h \/ exists f c r, h = [Ret f c r])).
  { intros X. exists []. rewrite app_nil_r. auto. }
  assert (O : forall e, hist s' = hist s ++ [e] -> exists h, hist s' = hist s ++ h /\ (Forall noret h \/ exists f c r, h = [Ret f c r])).
  { intros e X. exists [e]. split; auto. destruct e; eauto; left; repeat constructor. }
  assert (It : forall g c k s0, hist s0 = hist s -> core s0 -> okcall c -> s' = iter g c k s0 -> exists h, hist s' = hist s ++ h /\ (Forall noret h \/ exists f c r, h = [Ret f c r])).
  { intros g c k s0 H0 C0 Ok ->. pose proof (attempt_ok c k s0 C0 Ok) as T. unfold iter in *. destruct (attempt c k s0) as [r s1]; cbn [fst snd] in T. destruct T as [_ _ [] _ _ _ _ _ _ _].
    rewrite H0 in q_hist. destruct r as [b|a|e]; try (eapply O; cbn [hist log]; rewrite q_hist; reflexivity). destruct e; try (eapply O; cbn [hist log]; rewrite q_hist; reflexivity).
    apply Z. unfold w_slot. destruct (is_write c); cbn; exact q_hist. }
  destruct l as [g c1 k|g k|g|bs k|n k|id bs k|rd wr k| | | | | |b| |k|bs| | |n|].
  - cbn [step] in E. destruct (fib s g) eqn:Eg; try discriminate. destruct (start_iter _ _ _ _ _ P E) as [X Ok]. eapply It; eauto.
  - cbn [step] in E. unfold resume in E. destruct (fib s g) as [| |c1 ec t] eqn:Eg; try discriminate.
    destruct (resume_inv g c1 ec t s I Eg) as [[C1 _] [S1 [O1 [B1 F1]]]].
    assert (X : hist (w_fib g Idle (w_slot c1 Null s)) = hist s) by (unfold w_slot; destruct (is_write c1); reflexivity).
    destruct (if t then Some Canceled else ec) as [e|]; injection E as E.
    + eapply O. rewrite <- E. cbn [hist log]. rewrite X. reflexivity.
    + eapply It; eauto.
  - cbn [step] in E. destruct (fib s g) as [|c1 t|] eqn:Eg; try discriminate. destruct t; try discriminate. injection E as E. apply Z. now rewrite <- E.
  - cbn [step] in E. destruct P as [P _]. pose proof (try_send_ok bs k s C P) as T. destruct (try_send bs k s) as [r1 s1]. injection E as E. cbn [fst snd] in T.
    eapply O. rewrite <- E. cbn [hist log]. rewrite (q_hist _ _ (at_same _ _ _ _ T)). reflexivity.
  - cbn [step] in E. unfold try_recv in E. destruct (is_shut (fd s)) eqn:Es. { injection E as E. eapply O. rewrite <- E. reflexivity. }
    pose proof (recv_att n k s C P Es) as X. destruct (sys_recv n k s) as [r1 s1]. cbn [fst snd] in X. injection E as E. eapply O. rewrite <- E. cbn [hist log]. rewrite (q_hist _ _ (at_same _ _ _ _ X)). reflexivity.
  - cbn [step] in E. unfold async_write in E. destruct P as [P1 P2]. pose proof (try_send_ok bs k (log (Start id) s) (core_log _ s C) P1) as X.
    destruct (try_send bs k (log (Start id) s)) as [r1 s1]. cbn [fst snd] in X. pose proof (q_hist _ _ (at_same _ _ _ _ X)) as Y. cbn in Y.
    eapply O. destruct r1 as [b|a|e]; try (injection E as <-; exact Y). destruct e; try (injection E as <-; exact Y). destruct (wslot s); try discriminate. injection E as <-. exact Y.
  - destruct (via_shutdown _ _ _ _ _ I E) as [s1 [m V]]. eauto.
  - cbn [step] in E. unfold close in E. destruct (fd s <? 0)%Z. { injection E as <-. auto. }
    cbn [awp wslot rhook rslot w_fd w_ep w_armed] in E. destruct (awp s).
    + destruct (wslot s); try discriminate. cbn in E. eapply O. destruct (rhook s); [destruct (rslot s); try discriminate|]; injection E as <-; reflexivity.
    + cbn in E. apply Z. destruct (rhook s); [destruct (rslot s); try discriminate|]; injection E as <-; reflexivity.
  - cbn [step] in E. unfold register_hook in E. destruct (rhook s || (fd s <? 0)%Z); [discriminate|]. injection E as E. cbn in E. destruct (rnotif s).
    + exists [Hook; Notify true]. rewrite <- E. cbn. rewrite <- app_assoc. split; auto. left. repeat constructor.
    + eapply O. rewrite <- E. reflexivity.
  - cbn [step] in E. unfold reset_hook in E. apply Z. destruct (rhook s); [destruct (rslot s); try discriminate|]; injection E as <-; reflexivity.
  - injection E as E. eapply O. rewrite <- E. reflexivity.
  - injection E as E. apply Z. now rewrite <- E.
  - injection E as E. apply Z. now rewrite <- E.
  - cbn [step] in E. destruct (brief s) as [|[[id bs] r1] t]; try discriminate. injection E as E. eapply O. rewrite <- E. reflexivity.
  - destruct (via_event _ _ _ I E) as [_ [_ [[s1 [m V]]|[X _]]]]; eauto. apply Z. now rewrite X.
  - cbn [step] in E. destruct (_ || _); try discriminate. injection E as E. eapply O. rewrite <- E. reflexivity.
  - cbn [step] in E. destruct (_ || _); try discriminate. injection E as E. eapply O. rewrite <- E. reflexivity.
  - cbn [step] in E. destruct (krst s); try discriminate. injection E as E. eapply O. rewrite <- E. reflexivity.
  - injection E as E. apply Z. now rewrite <- E.
  - injection E as E. apply Z. now rewrite <- E.
Qed.

Lemma run_mono (P Q : lab -> Prop) n room s : (forall l, P l -> Q l) -> run_of P n room s -> run_of Q n room s.
Proof. intros H. induction 1; [constructor|]. eapply run_step; eauto. Qed.
Lemma canceled_how f c s : how f c (Fail Canceled) s -> exists ec, fib s f = Ready c ec true.
Proof.
  intros [[X _]|[[_ X]|[X _]]]; auto; [|discriminate]. cbn in X. exfalso.
  destruct X as [X|[[X _]|[[_ [X _]]|[_ [[X _]|[X _]]]]]]; discriminate.
Qed.
Lemma epoll_no_timeout_pf n room s f c : (0 <= n)%Z -> run_of (fun l => l <> LTimeout true) n room s -> ~ In (Ret f c (Fail Canceled)) (hist s).
Proof.
  intros Hn R. assert (G : tmo s = false /\ (forall f, match fib s f with Parked _ true | Ready _ _ true => False | _ => True end) /\ ~ In (Ret f c (Fail Canceled)) (hist s)).
  2:{ tauto. }
  induction R as [|s l s' R [IH1 [IH2 IH3]] P L E].
  - split; auto. split; cbn; auto.
  - pose proof (run_inv _ n room s Hn R) as I. split; [|split].
    + destruct (tmo_step _ _ _ I P E) as [X|X]; [congruence|]. destruct (tmo s'); auto. contradiction.
    + intros g. pose proof (fib_step _ _ _ g I P E) as X. pose proof (IH2 g) as Y. unfold fib_ok in X. destruct (fib s' g) as [|c0 []|c0 e []]; auto.
      * destruct X as [X|[X _]]; [rewrite X in Y; contradiction|congruence].
      * destruct X as [X|[_ X]]; rewrite X in Y; contradiction.
    + intros H. destruct (hist_step _ _ _ I P E) as [h [Eh [F|[f1 [c1 [r1 ->]]]]]].
      * rewrite Eh in H. apply in_app_or in H. destruct H as [H|H]; auto. rewrite Forall_forall in F. exact (F _ H).
      * rewrite Eh in H. apply in_app_or in H. destruct H as [H|[H|[]]]; auto. injection H as -> -> ->.
        destruct (ret_how _ _ _ _ _ _ I P E Eh) as [X _]. apply canceled_how in X. destruct X as [ec X]. pose proof (IH2 f) as Y. rewrite X in Y. exact Y.
Qed.
Lemma epoll_accept_timeout_pf n room s f : (0 <= n)%Z -> run n room s -> ~ In (Ret f CAccept (Fail Canceled)) (hist s).
Proof.
  intros Hn R. assert (G : (forall f, match fib s f with Parked CAccept true | Ready CAccept _ true => False | _ => True end) /\ ~ In (Ret f CAccept (Fail Canceled)) (hist s)).
  2:{ tauto. }
  induction R as [|s l s' R [IH2 IH3] P L E].
  - split; cbn; auto.
  - pose proof (run_inv _ n room s Hn R) as I. split.
    + intros g. pose proof (fib_step _ _ _ g I P E) as X. pose proof (IH2 g) as Y. unfold fib_ok in X. destruct (fib s' g) as [|[] []|[] e []]; auto.
      * destruct X as [X|[_ X]]; [rewrite X in Y; contradiction|congruence].
      * destruct X as [X|[_ X]]; rewrite X in Y; contradiction.
    + intros H. destruct (hist_step _ _ _ I P E) as [h [Eh [F|[f1 [c1 [r1 ->]]]]]].
      * rewrite Eh in H. apply in_app_or in H. destruct H as [H|H]; auto. rewrite Forall_forall in F. exact (F _ H).
      * rewrite Eh in H. apply in_app_or in H. destruct H as [H|[H|[]]]; auto. injection H as -> -> ->.
        destruct (ret_how _ _ _ _ _ _ I P E Eh) as [X _]. apply canceled_how in X. destruct X as [ec X]. pose proof (IH2 f) as Y. rewrite X in Y. exact Y.
Qed.
Lemma epoll_timeout_returns_pf n room s f c k : (0 <= n)%Z -> run n room s -> fib s f = Parked c true ->
  exists s1 s2, step s (LTimer f) = Next s1 /\ step s1 (LResume f k) = Next s2 /\ hist s2 = hist s ++ [Ret f c (Fail Canceled)] /\ fib s2 f = Idle.
Proof.
  intros Hn R E. exists (w_fib f (Ready c None true) s). eexists. cbn [step]. rewrite E. split; auto. unfold resume. cbn [fib w_fib]. rewrite upd_eq. split; [reflexivity|].
  cbn [hist fib log w_fib]. rewrite upd_eq. split; auto. unfold w_slot. destruct (is_write c); reflexivity.
Qed.
Lemma epoll_result_pf n room s l s' f c r : (0 <= n)%Z -> run n room s -> polite s l -> step s l = Next s' -> hist s' = hist s ++ [Ret f c r] ->
  match c, r with
  | CRecv m, Got [] => is_shut (fd s) = true \/ (kin s = [] /\ (kfin s = true \/ krst s = true))
  | CRecv m, Got b => len b <= m
  | CAccept, Got b => len b = 1
  | CWrite bs, Sent a => 0 < a <= len bs
  | _, Fail Canceled => exists ec, fib s f = Ready c ec true
  | _, Fail Reset => krst s = true
  | CWrite _, Fail Pipe => is_shut (fd s) = true \/ krst s = true
  | CAccept, Fail Inval => kfin s = true \/ krst s = true
  | CAccept, Fail Aborted => is_shut (fd s) = true \/ krst s = true
  | _, Fail Aborted => krst s = true
  | _, _ => False
  end.
Proof.
  intros Hn R P E H. destruct (ret_how _ _ _ _ _ _ (run_inv _ n room s Hn R) P E H) as [X _].
  destruct X as [[X N]|[[-> X]|[-> X]]]; [|destruct c; exact X|destruct c; tauto].
  destruct r as [[|b t]|a|e]; cbn [ends] in X.
  - destruct c; tauto.
  - destruct c; try tauto; try lia.
  - destruct c; tauto.
  - destruct X as [X|[[-> X]|[[X [-> Y]]|[-> [[-> X]|[-> X]]]]]]; try congruence; try destruct c; auto; discriminate.
Qed.

(** ** The recv hook. *)
Lemma news_app r b h1 h2 : news_from r b (h1 ++ h2) = news_from r (news_from r b h1) h2.
Proof. revert b. induction h1; intros b; cbn; auto. Qed.
Lemma news_plain r b h : Forall plain_ev h -> news_from r b h = b.
Proof. induction 1 as [|e h H]; cbn; auto. destruct e; cbn in H; try contradiction; auto. Qed.
Lemma fault_app b h1 h2 : fault_from b (h1 ++ h2) = fault_from (fault_from b h1) h2.
Proof. revert b. induction h1; intros b; cbn; auto. Qed.
Lemma fault_plain b h : Forall plain_ev h -> fault_from b h = b.
Proof. induction 1 as [|e h H]; cbn; auto. destruct e; cbn in H; try contradiction; auto. Qed.
Lemma plain_readable s s' : plain s s' -> readable s' -> readable s.
Proof. intros [] [X|[X|X]]; unfold readable; rewrite <- ?p_kfin0, <- ?p_krst0; auto. Qed.
Lemma via_news s l s' m k s1 r b : via s l s' m k s1 ->
  news_from r b (hist s') = (if (mi m || merr m) && rhook s then false else news_from r b (hist s)).
Proof.
  intros V. destruct (wk_hist _ _ _ (v_woken _ _ _ _ _ _ V)) as [l2 [X Y]]. rewrite X, (v_hist _ _ _ _ _ _ V), (v_rhook _ _ _ _ _ _ V), !news_app.
  assert (Z : forall q, news_from r q (if errcb s1 && merr m then [ErrCb] else []) = q) by (intros q; destruct (errcb s1 && merr m); reflexivity). rewrite Z. clear X Z.
  rewrite (news_plain _ _ l2) by (destruct Y as [->|[? [? [? ->]]]]; repeat constructor). destruct (_ && _); reflexivity.
Qed.
Lemma via_fault s l s' m k s1 b : via s l s' m k s1 ->
  fault_from b (hist s') = (if errcb s && merr m then false else fault_from b (hist s)).
Proof.
  intros V. destruct (wk_hist _ _ _ (v_woken _ _ _ _ _ _ V)) as [l2 [X Y]]. rewrite X, (v_hist _ _ _ _ _ _ V), (v_errcb _ _ _ _ _ _ V), !fault_app.
  assert (Z : forall q, fault_from q (if (mi m || merr m) && rhook s1 then [Notify (negb (negb (me m) && mh m))] else []) = q) by (intros q; destruct ((mi m || merr m) && rhook s1); reflexivity). rewrite Z. clear X Z.
  rewrite (fault_plain _ l2) by (destruct Y as [->|[? [? [? ->]]]]; repeat constructor). destruct (_ && _); reflexivity.
Qed.
Lemma via_readable s l s' m k s1 : via s l s' m k s1 -> (readable s' <-> readable s).
Proof.
  intros V. pose proof (wk_kept _ _ _ (v_woken _ _ _ _ _ _ V)) as K. unfold readable.
  rewrite (k_kin _ _ K), (k_kfin _ _ K), (k_krst _ _ K), (v_kin _ _ _ _ _ _ V), (v_kfin _ _ _ _ _ _ V), (v_krst _ _ _ _ _ _ V). tauto.
Qed.
Lemma levels_in s : readable s -> mi (levels s) = true.
Proof.
  intros [R|[R|R]]; cbn; try (rewrite R, ?orb_true_r; auto; fail). destruct (kin s); [congruence|]. rewrite len_cons. replace (1 + len l =? 0) with false by lia. reflexivity.
Qed.
Definition hookinv (s : st) : Prop := rhook s = true -> untold_since (hist s) = true -> readable s -> ep s = true.
Lemma hook_armed s : core s -> rhook s = true -> armed s = true.
Proof.
  intros C H. rewrite (i_arm s C). destruct (Z.leb_spec 0 (fd s)); auto. destruct (i_fd s C) as [_ [_ X]]; [lia|congruence].
Qed.
Lemma hook_step s l s' : inv s -> hookinv s -> polite s l -> step s l = Next s' -> hookinv s'.
Proof.
  intros I H P E. pose proof I as [C [A D]].
  assert (Pl : plain s s' -> hookinv s').
  { intros X R U Rd. pose proof (plain_readable _ _ X Rd) as Rd0. destruct X. destruct p_hist0 as [h [Hh F]]. rewrite p_ep0. apply H; auto; [congruence|].
    unfold untold_since in *. rewrite Hh, news_app, news_plain in U; auto. }
  destruct l as [g c1 k|g k|g|bs k|n k|id bs k|rd wr k| | | | | |b| |k|bs| | |n|]; try (apply Pl; eapply plain_step; eauto; exact Logic.I).
  - destruct (via_shutdown _ _ _ _ _ I E) as [s1 [m V]]. intros R U Rd. pose proof (k_rhook _ _ (wk_kept _ _ _ (v_woken _ _ _ _ _ _ V))) as K.
    rewrite (v_rhook _ _ _ _ _ _ V) in K. unfold untold_since in U. rewrite (via_news _ _ _ _ _ _ _ _ V) in U.
    destruct (v_how _ _ _ _ _ _ V) as [-> _]. rewrite <- K, R in U. discriminate U.
  - intros R. destruct (close_inv s I P) as [s2 [E2 [_ [_ [X _]]]]]. cbn [step] in E. rewrite E2 in E. injection E as <-. congruence.
  - cbn [step] in E. unfold register_hook in E. destruct (rhook s || (fd s <? 0)%Z); [discriminate|]. injection E as <-. intros R U Rd. exfalso. unfold untold_since in U.
    cbn [rnotif log w_rslot w_rhook] in U. destruct (rnotif s); cbn [hist log w_rnotif w_rslot w_rhook] in U; rewrite ?news_app in U; discriminate U.
  - cbn [step] in E. unfold reset_hook in E. intros R. exfalso. destruct (rhook s) eqn:X; [destruct (rslot s); try discriminate|]; injection E as <-; cbn in R; congruence.
  - injection E as <-. intros R U Rd. apply H; auto. unfold untold_since in *. cbn [hist log] in U. rewrite news_app in U. exact U.
  - injection E as <-. exact H.
  - destruct (via_event _ _ _ I E) as [Ee [Ea [[s1 [m V]]|[-> [X1 X2]]]]].
    + intros R U Rd. pose proof (k_rhook _ _ (wk_kept _ _ _ (v_woken _ _ _ _ _ _ V))) as K.
      rewrite (v_rhook _ _ _ _ _ _ V) in K. unfold untold_since in U. rewrite (via_news _ _ _ _ _ _ _ _ V) in U. apply (via_readable _ _ _ _ _ _ V) in Rd. apply levels_in in Rd.
      destruct (v_how _ _ _ _ _ _ V) as [-> _]. rewrite <- K, R, Rd in U. discriminate U.
    + intros R U Rd. apply (levels_in s) in Rd. congruence.
  - cbn [step] in E. destruct (_ || _); try discriminate. injection E as <-. intros R U Rd. cbn in *. now apply hook_armed.
  - cbn [step] in E. destruct (_ || _); try discriminate. injection E as <-. intros R U Rd. cbn in *. now apply hook_armed.
  - cbn [step] in E. destruct (krst s); try discriminate. injection E as <-. intros R U Rd. cbn in *. now apply hook_armed.
  - injection E as <-. intros R U Rd. cbn in *. now apply hook_armed.
  - injection E as <-. intros R U Rd. cbn in *. now apply hook_armed.
Qed.
Lemma event_notify n room s k : (0 <= n)%Z -> run n room s -> rhook s = true -> readable s -> ep s = true ->
  exists s' b h, step s (LEvent k) = Next s' /\ hist s' = hist s ++ [Notify b] ++ h.
Proof.
  intros Hn R Rh Rd Ep. pose proof (run_inv _ n room s Hn R) as I. pose proof I as [C [A D]].
  assert (X : exists s', step s (LEvent k) = Next s').
  { cbn [step]. unfold event. rewrite Ep, (hook_armed s C Rh). cbn [andb]. rewrite (levels_in s Rd). cbn [orb].
    destruct (wakey_ok _ k (w_ep false s) (core_ep0 s C) (event_errs s C A)) as [s2 [E2 W]]. eauto. }
  destruct X as [s' E]. destruct (via_event _ _ _ I E) as [_ [_ [[s1 [m V]]|[_ [X _]]]]]; [|rewrite (levels_in s Rd) in X; discriminate].
  exists s'. destruct (wk_hist _ _ _ (v_woken _ _ _ _ _ _ V)) as [l2 [X Y]]. rewrite (v_hist _ _ _ _ _ _ V), (v_rhook _ _ _ _ _ _ V), Rh in X. destruct (v_how _ _ _ _ _ _ V) as [-> _].
  rewrite (levels_in s Rd) in X. cbn [orb andb] in X. eauto.
Qed.
Lemma epoll_hook_told_pf n room s k : (0 <= n)%Z -> run n room s -> rhook s = true -> untold_since (hist s) = true -> readable s ->
  exists s' b h, step s (LEvent k) = Next s' /\ hist s' = hist s ++ [Notify b] ++ h.
Proof.
  intros Hn R Rh U Rd. assert (H : hookinv s).
  { clear Rh U Rd. induction R as [|s l s' R IH P L E]; [intros X; discriminate X|]. eapply hook_step; eauto. eapply run_inv; eauto. }
  eapply event_notify; eauto.
Qed.

(** Without blocking calls. *)
Lemma wakey_notif m k s s' : core s -> (forall f, fib s f = Idle) -> wakey m k s = Next s' ->
  (forall f, fib s' f = Idle) /\ (rhook s = false -> rnotif s' = rnotif s || mi m).
Proof.
  intros C Hf E. assert (Sl : rslot s = if rhook s then PHook else Null).
  { pose proof (i_rs s C) as X. destruct (rslot s) as [|f|id bs|]; try contradiction.
    - now rewrite X.
    - destruct X as [_ X]. rewrite Hf in X. contradiction.
    - now rewrite X. }
  assert (Wl : wslot s = Null /\ awp s = false \/ awp s = true).
  { pose proof (i_ws s C) as X. destruct (wslot s) as [|f|id bs|]; try contradiction; auto.
    - destruct X as [_ [_ X]]. rewrite Hf in X. contradiction.
    - tauto. }
  unfold wakey in E. destruct (handle_in m s) as [| |s1] eqn:E1; try discriminate.
  assert (X1 : (forall f, fib s1 f = Idle) /\ wslot s1 = wslot s /\ awp s1 = awp s /\ (rhook s = false -> rnotif s1 = rnotif s || mi m)).
  { unfold handle_in in E1. destruct (mi m) eqn:M; cbn [orb negb] in E1.
    - destruct (rhook s) eqn:Rh; rewrite Sl in E1.
      + injection E1 as <-. split; auto. split; auto. split; auto. discriminate.
      + cbn [wake_sync] in E1. rewrite M in E1. injection E1 as <-. split; auto. split; auto. split; auto. intros _. now rewrite orb_true_r.
    - destruct (merr m); cbn [negb] in E1.
      + destruct (rhook s) eqn:Rh; rewrite Sl in E1.
        * injection E1 as <-. split; auto. split; auto. split; auto. discriminate.
        * cbn [wake_sync] in E1. rewrite M in E1. injection E1 as <-. rewrite orb_false_r. auto.
      + injection E1 as <-. rewrite orb_false_r. auto. }
  destruct X1 as [F1 [W1 [A1 N1]]]. destruct (handle_out m k s1) as [| |s2] eqn:E2; try discriminate. injection E as <-.
  assert (X2 : (forall f, fib s2 f = Idle) /\ (rhook s = false -> rnotif s2 = rnotif s || mi m)).
  { unfold handle_out in E2. destruct (negb (mo m || merr m)). { injection E2 as <-. auto. }
    rewrite A1, W1 in E2. destruct (awp s) eqn:Ea.
    - destruct (wslot s); try discriminate. destruct (sys_send bs k s1) as [r s3] eqn:Es.
      assert (Y : fib s3 = fib s1 /\ rnotif s3 = rnotif s1).
      { unfold sys_send in Es. destruct (kerr s1); [injection Es as <- <-; auto|]. destruct (_ || _); [injection Es as <- <-; auto|]. destruct (len bs =? 0); [injection Es as <- <-; auto|].
        destruct (kroom s1 =? 0); injection Es as <- <-; auto. }
      destruct Y as [Y1 Y2]. assert (Z : fib s2 = fib s3 /\ rnotif s2 = rnotif s3).
      { destruct r as [b|a|e]; try (injection E2 as <-; auto; fail). destruct e; injection E2 as <-; auto. }
      destruct Z as [Z1 Z2]. rewrite Z1, Z2, Y1, Y2. auto.
    - destruct Wl as [[Wl _]|Wl]; [|discriminate]. rewrite Wl in E2. cbn [wake_sync] in E2. destruct (mi m) eqn:M; injection E2 as <-; auto.
      split; auto. intros _. cbn. now rewrite orb_true_r. }
  destruct X2 as [F2 N2]. destruct (_ && _); auto.
Qed.
Definition nbinv (s : st) : Prop := (forall f, fib s f = Idle) /\
  (armed s = true -> untold (hist s) = true -> readable s -> ep s = true \/ (rhook s = false /\ rnotif s = true)).
Lemma nb_step s l s' : inv s -> nbinv s -> polite s l -> no_blocking l -> step s l = Next s' -> nbinv s'.
Proof.
  intros I [Hf H] P Nb E. pose proof I as [C [A D]].
  assert (Pl : plain s s' -> fib s' = fib s -> nbinv s').
  { intros X Y. split; [now rewrite Y|]. intros Ar U Rd. pose proof (plain_readable _ _ X Rd) as Rd0. destruct X. destruct p_hist0 as [h [Hh F]]. rewrite p_ep0, p_rhook0, p_rnotif0.
    apply H; auto; [congruence|]. unfold untold in *. rewrite Hh, news_app, news_plain in U; auto. }
  assert (Vi : forall m k s1, via s l s' m k s1 -> (readable s -> mi m = true) -> nbinv s').
  { intros m k s1 V M. assert (Hf1 : forall f, fib s1 f = Idle) by (rewrite (v_fib _ _ _ _ _ _ V); exact Hf).
    destruct (wakey_notif m k s1 s' (v_core _ _ _ _ _ _ V) Hf1 (v_wakey _ _ _ _ _ _ V)) as [F N]. split; auto.
    intros Ar U Rd. apply (via_readable _ _ _ _ _ _ V) in Rd. specialize (M Rd). unfold untold in U. rewrite (via_news _ _ _ _ _ _ _ _ V), M in U. cbn [orb andb] in U.
    rewrite (k_rhook _ _ (wk_kept _ _ _ (v_woken _ _ _ _ _ _ V))), (v_rhook _ _ _ _ _ _ V). destruct (rhook s) eqn:Rh; [discriminate|]. right. split; auto.
    rewrite N by (rewrite (v_rhook _ _ _ _ _ _ V); exact Rh). rewrite M. apply orb_true_r. }
  destruct l as [g c1 k|g k|g|bs k|n k|id bs k|rd wr k| | | | | |b| |k|bs| | |n|]; try contradiction.
  - exfalso. cbn [step] in E. unfold resume in E. rewrite Hf in E. discriminate.
  - exfalso. cbn [step] in E. rewrite Hf in E. discriminate.
  - apply Pl; [eapply plain_step; eauto; exact Logic.I|]. cbn [step] in E. destruct P as [P _]. pose proof (try_send_ok bs k s C P) as T. destruct (try_send bs k s) as [r1 s1]. injection E as <-. cbn [fst snd] in T.
    cbn. now rewrite (q_fib _ _ (at_same _ _ _ _ T)).
  - apply Pl; [eapply plain_step; eauto; exact Logic.I|]. cbn [step] in E. unfold try_recv in E. destruct (is_shut (fd s)) eqn:Es. { injection E as <-. reflexivity. }
    pose proof (recv_att n k s C P Es) as X. destruct (sys_recv n k s) as [r1 s1]. cbn [fst snd] in X. injection E as <-. cbn. now rewrite (q_fib _ _ (at_same _ _ _ _ X)).
  - apply Pl; [eapply plain_step; eauto; exact Logic.I|]. cbn [step] in E. unfold async_write in E. destruct P as [P1 P2]. pose proof (try_send_ok bs k (log (Start id) s) (core_log _ s C) P1) as X.
    destruct (try_send bs k (log (Start id) s)) as [r1 s1]. cbn [fst snd] in X. pose proof (q_fib _ _ (at_same _ _ _ _ X)) as Y. cbn in Y.
    destruct r1 as [b|a|e]; try (injection E as <-; exact Y). destruct e; try (injection E as <-; exact Y). destruct (wslot s); try discriminate. injection E as <-. exact Y.
  - destruct (via_shutdown _ _ _ _ _ I E) as [s1 [m V]]. eapply Vi; [exact V|]. intros _. destruct (v_how _ _ _ _ _ _ V) as [-> _]. reflexivity.
  - destruct (close_inv s I P) as [s2 [E2 [[C2 _] [_ [X Y]]]]]. cbn [step] in E. rewrite E2 in E. injection E as <-. split.
    + intros f. assert (Z : fib_ok s LClose f (fib s2 f)) by (eapply fib_step; eauto). 
      clear - E2 Hf. unfold close in E2. destruct (fd s <? 0)%Z. { injection E2 as <-. auto. }
      cbn [awp wslot rhook rslot w_fd w_ep w_armed] in E2. destruct (awp s).
      * destruct (wslot s); try discriminate. cbn in E2. destruct (rhook s); [destruct (rslot s); try discriminate|]; injection E2 as <-; exact (Hf f).
      * cbn in E2. destruct (rhook s); [destruct (rslot s); try discriminate|]; injection E2 as <-; exact (Hf f).
    + intros Ar. rewrite (i_arm s2 C2) in Ar. lia.
  - cbn [step] in E. unfold register_hook in E. destruct (rhook s) eqn:Rh; [discriminate|]. destruct (fd s <? 0)%Z; [discriminate|]. injection E as <-.
    cbn [rnotif log w_rslot w_rhook]. destruct (rnotif s) eqn:Rn.
    + split; [exact Hf|]. intros Ar U Rd. unfold untold in U. cbn [hist log w_rnotif w_rslot w_rhook] in U. rewrite !news_app in U. discriminate U.
    + split; [exact Hf|]. intros Ar U Rd. unfold untold in U. cbn [hist log w_rnotif w_rslot w_rhook] in U. rewrite news_app in U. cbn in U.
      destruct (H Ar U Rd) as [X|[_ X]]; [left; exact X|congruence].
  - cbn [step] in E. unfold reset_hook in E. destruct (rhook s) eqn:X.
    + destruct (rslot s); try discriminate; injection E as <-. split; [exact Hf|]. intros Ar U Rd. left. destruct (H Ar U Rd) as [Y|[Y _]]; [exact Y|congruence].
    + injection E as <-. split; [exact Hf|]. rewrite X. exact H.
  - injection E as <-. split; [exact Hf|]. intros Ar U Rd. unfold untold in U. cbn [hist log w_errcb] in U. rewrite news_app in U. exact (H Ar U Rd).
  - injection E as <-. split; [exact Hf|exact H].
  - injection E as <-. split; [exact Hf|exact H].
  - apply Pl; [eapply plain_step; eauto; exact Logic.I|]. cbn [step] in E. destruct (brief s) as [|[[id bs] r1] t]; try discriminate. injection E as <-. reflexivity.
  - destruct (via_event _ _ _ I E) as [Ee [Ea [[s1 [m V]]|[-> [X1 X2]]]]].
    + eapply Vi; [exact V|]. intros Rd. destruct (v_how _ _ _ _ _ _ V) as [-> _]. now apply levels_in.
    + split; [exact Hf|]. intros Ar U Rd. apply (levels_in s) in Rd. congruence.
  - cbn [step] in E. destruct (_ || _); try discriminate. injection E as <-. split; [exact Hf|]. intros Ar U Rd. left. exact Ar.
  - cbn [step] in E. destruct (_ || _); try discriminate. injection E as <-. split; [exact Hf|]. intros Ar U Rd. left. exact Ar.
  - cbn [step] in E. destruct (krst s); try discriminate. injection E as <-. split; [exact Hf|]. intros Ar U Rd. left. exact Ar.
  - injection E as <-. split; [exact Hf|]. intros Ar U Rd. left. exact Ar.
  - injection E as <-. split; [exact Hf|]. intros Ar U Rd. left. exact Ar.
Qed.
Lemma epoll_hook_all_pf n room s k : (0 <= n)%Z -> run_of no_blocking n room s -> rhook s = true -> untold (hist s) = true -> readable s ->
  exists s' b h, step s (LEvent k) = Next s' /\ hist s' = hist s ++ [Notify b] ++ h.
Proof.
  intros Hn R Rh U Rd. assert (H : nbinv s).
  { clear Rh U Rd. induction R as [|s l s' R IH P L E].
    - split; [reflexivity|]. intros _ X. discriminate X.
    - eapply nb_step; eauto. eapply run_inv; eauto. }
  pose proof (run_inv _ n room s Hn R) as [C _]. destruct H as [_ H]. destruct (H (hook_armed s C Rh) U Rd) as [X|[X _]]; [|congruence].
  eapply event_notify; eauto. eapply run_mono; [|exact R]. cbn; auto.
Qed.

(** ** The error callback. *)
Definition errinv (s : st) : Prop :=
  (errcb s = true -> fault_since (hist s) = true -> armed s = true -> ep s = true)
  /\ (fault_since (hist s) = true -> kfin s = true \/ krst s = true)
  /\ (count_errcb (hist s) + Nat.b2n (errcb s) <= count_reg (hist s))%nat.
Lemma reg_app a b : count_reg (a ++ b) = (count_reg a + count_reg b)%nat.
Proof. unfold count_reg. now rewrite filter_app, app_length. Qed.
Lemma errcb_app a b : count_errcb (a ++ b) = (count_errcb a + count_errcb b)%nat.
Proof. unfold count_errcb. now rewrite filter_app, app_length. Qed.
Lemma plain_counts h : Forall plain_ev h -> count_reg h = 0%nat /\ count_errcb h = 0%nat.
Proof. induction 1 as [|e h H]; cbn; auto. destruct e; cbn in H; try contradiction; auto. Qed.
Lemma err_step s l s' : inv s -> errinv s -> polite s l -> step s l = Next s' -> errinv s'.
Proof.
  intros I H P E. pose proof I as [C [A D]].
  assert (Pl : plain s s' -> errinv s').
  { intros X. destruct X. destruct p_hist0 as [h [Hh F]]. unfold errinv, fault_since in *. rewrite Hh, fault_app, fault_plain, p_errcb0, p_armed0, p_ep0, p_kfin0, p_krst0, reg_app, errcb_app by auto.
    destruct (plain_counts h F) as [-> ->]. rewrite !Nat.add_0_r. exact H. }
  destruct H as [H1 [H2 H3]].
  assert (Vi : forall m k s1, via s l s' m k s1 -> (kfin s = true \/ krst s = true -> merr m = true \/ (armed s = true -> ep s = true -> ep s1 = true)) -> errinv s').
  { intros m k s1 V M. pose proof (wk_kept _ _ _ (v_woken _ _ _ _ _ _ V)) as K. pose proof (wk_errcb _ _ _ (v_woken _ _ _ _ _ _ V)) as Q. rewrite (v_errcb _ _ _ _ _ _ V) in Q.
    unfold errinv. unfold fault_since in *. rewrite (via_fault _ _ _ _ _ _ _ V), (k_ep _ _ K), (k_armed _ _ K), (k_kfin _ _ K), (k_krst _ _ K), Q, (v_kfin _ _ _ _ _ _ V), (v_krst _ _ _ _ _ _ V), (v_armed _ _ _ _ _ _ V).
    split; [|split].
    - intros X Y Z. destruct (errcb s); [|discriminate]. destruct (merr m); [discriminate|]. cbn [andb] in *.
      destruct (M (H2 Y)) as [W|W]; [discriminate|]. auto.
    - destruct (errcb s && merr m); [intros X; discriminate X|]. auto.
    - destruct (wk_hist _ _ _ (v_woken _ _ _ _ _ _ V)) as [l2 [X Y]]. rewrite X, (v_hist _ _ _ _ _ _ V), (v_errcb _ _ _ _ _ _ V), !reg_app, !errcb_app.
      assert (Z : forall b r, count_reg (if b : bool then [Notify r] else []) = 0%nat /\ count_errcb (if b then [Notify r] else []) = 0%nat) by (intros []; auto).
      destruct (Z ((mi m || merr m) && rhook s1) (negb (negb (me m) && mh m))) as [-> ->].
      assert (Y' : Forall plain_ev l2) by (destruct Y as [->|[? [? [? ->]]]]; repeat constructor). destruct (plain_counts l2 Y') as [-> ->].
      destruct (errcb s), (merr m); cbn in *; lia. }
  destruct l as [g c1 k|g k|g|bs k|n k|id bs k|rd wr k| | | | | |b| |k|bs| | |n|]; try (apply Pl; eapply plain_step; eauto; exact Logic.I).
  - destruct (via_shutdown _ _ _ _ _ I E) as [s1 [m V]]. eapply Vi; [exact V|]. intros _. right. intros Ar Ep. destruct (v_how _ _ _ _ _ _ V) as [_ [->| ->]]; auto.
  - destruct (close_inv s I P) as [s2 [E2 [[C2 _] [_ [X Y]]]]]. cbn [step] in E. rewrite E2 in E. injection E as <-.
    assert (Z : errcb s2 = errcb s /\ kfin s2 = kfin s /\ krst s2 = krst s /\ exists h, hist s2 = hist s ++ h /\ Forall plain_ev h).
    { clear - E2. assert (Nil : exists h : list ev, hist s = hist s ++ h /\ Forall plain_ev h) by (exists []; rewrite app_nil_r; auto).
      unfold close in E2. destruct (fd s <? 0)%Z. { injection E2 as <-. auto. }
      cbn [awp wslot rhook rslot w_fd w_ep w_armed] in E2. destruct (awp s).
      - destruct (wslot s); try discriminate. cbn in E2. assert (One : exists h : list ev, hist s ++ [Cb id bs (Fail Canceled)] = hist s ++ h /\ Forall plain_ev h) by (eexists; split; [reflexivity|repeat constructor]).
        destruct (rhook s); [destruct (rslot s); try discriminate|]; injection E2 as <-; auto.
      - cbn in E2. destruct (rhook s); [destruct (rslot s); try discriminate|]; injection E2 as <-; auto. }
    destruct Z as [Z1 [Z2 [Z3 [h [Z4 Z5]]]]]. unfold errinv. unfold fault_since in *. rewrite Z4, fault_app, fault_plain, Z1, Z2, Z3, reg_app, errcb_app by auto.
    destruct (plain_counts h Z5) as [-> ->]. rewrite !Nat.add_0_r. split; [|split; auto]. intros _ _ Ar. rewrite (i_arm s2 C2) in Ar. lia.
  - cbn [step] in E. unfold register_hook in E. destruct (rhook s || (fd s <? 0)%Z); [discriminate|]. injection E as <-. unfold errinv. unfold fault_since in *.
    cbn [rnotif log w_rslot w_rhook]. destruct (rnotif s); cbn [hist log w_rnotif w_rslot w_rhook errcb armed ep kfin krst]; rewrite ?fault_app, ?reg_app, ?errcb_app; cbn [fault_from]; (split; [exact H1|]; split; [exact H2|]; cbn; lia).
  - cbn [step] in E. unfold reset_hook in E. destruct (rhook s) eqn:X; [destruct (rslot s); try discriminate|]; injection E as <-; split; auto.
  - injection E as <-. unfold errinv. unfold fault_since in *. cbn [hist log w_errcb errcb]. rewrite fault_app, reg_app, errcb_app. cbn [fault_from]. split; [discriminate|]. split; [discriminate|]. cbn. destruct (errcb s); cbn in H3; lia.
  - injection E as <-. unfold errinv. cbn [hist errcb w_errcb kfin krst Nat.b2n]. split; [discriminate|]. split; auto. destruct (errcb s); cbn in H3; lia.
  - destruct (via_event _ _ _ I E) as [Ee [Ea [[s1 [m V]]|[-> [X1 X2]]]]].
    + eapply Vi; [exact V|]. intros X. left. destruct (v_how _ _ _ _ _ _ V) as [-> _]. unfold merr, levels. cbn. destruct X as [->| ->]; rewrite ?orb_true_r; reflexivity.
    + split; [|split; auto]. intros X Y _. cbn in *. destruct (H2 Y) as [Z|Z]; rewrite Z in X1; cbn in X1; rewrite ?orb_true_r in X1; discriminate.
  - cbn [step] in E. destruct (_ || _); try discriminate. injection E as <-. unfold errinv. unfold fault_since in *. cbn [hist log w_ep w_karr w_kin errcb armed ep kfin krst]. rewrite fault_app, reg_app, errcb_app. cbn [fault_from].
    split; auto. split; auto. cbn. lia.
  - cbn [step] in E. destruct (_ || _); try discriminate. injection E as <-. unfold errinv. unfold fault_since in *. cbn [hist log w_ep w_kfin errcb armed ep kfin krst]. rewrite fault_app, reg_app, errcb_app. cbn [fault_from].
    split; auto. split; auto. cbn. lia.
  - cbn [step] in E. destruct (krst s); try discriminate. injection E as <-. unfold errinv. unfold fault_since in *. cbn [hist log w_ep w_krst w_kerr errcb armed ep kfin krst]. rewrite fault_app, reg_app, errcb_app. cbn [fault_from].
    split; auto. split; auto. cbn. lia.
  - injection E as <-. split; auto.
  - injection E as <-. split; auto.
Qed.
Lemma run_err n room s : (0 <= n)%Z -> run n room s -> errinv s.
Proof.
  intros Hn R. induction R as [|s l s' R IH P L E].
  - split; [discriminate|]. split; [discriminate|]. cbn. auto.
  - eapply err_step; eauto. eapply run_inv; eauto.
Qed.
Lemma epoll_errcb_told_pf n room s k : (0 <= n)%Z -> run n room s -> errcb s = true -> fault_since (hist s) = true -> (0 <= fd s)%Z ->
  exists s' h, step s (LEvent k) = Next s' /\ hist s' = hist s ++ h ++ [ErrCb].
Proof.
  intros Hn R Ec F Hf. pose proof (run_inv _ n room s Hn R) as I. pose proof I as [C [A D]]. destruct (run_err n room s Hn R) as [H1 [H2 _]].
  assert (Ar : armed s = true) by (rewrite (i_arm s C); lia). specialize (H1 Ec F Ar). specialize (H2 F).
  assert (M : mi (levels s) = true /\ merr (levels s) = true) by (unfold merr, levels; cbn; destruct H2 as [->| ->]; rewrite ?orb_true_r; auto). destruct M as [M1 M2].
  cbn [step]. unfold event. rewrite H1, Ar. cbn [andb]. rewrite M1. cbn [orb].
  destruct (wakey_ok _ k (w_ep false s) (core_ep0 s C) (event_errs s C A)) as [s2 [E2 W]]. exists s2. destruct (wk_hist _ _ _ W) as [l2 [X Y]]. cbn [hist w_ep errcb] in X. rewrite Ec, M2 in X. cbn [andb] in X.
  rewrite (app_assoc _ l2) in X. eexists. split; [exact E2|exact X].
Qed.
Lemma epoll_errcb_once_pf n room s : (0 <= n)%Z -> run n room s -> (count_errcb (hist s) + Nat.b2n (errcb s) <= count_reg (hist s))%nat.
Proof. intros Hn R. apply (run_err n room s Hn R). Qed.
