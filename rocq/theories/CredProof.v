(** Proofs about the refresh of AWS credentials. *)
From Verif Require Import Util Conc CredSpec CredModel.
From Coq Require Import Lia.
Local Open Scope N_scope.

Lemma expiring_iff c w : IsExpiring c w = true <-> expiring c w.
Proof.
  unfold IsExpiring, expiring. rewrite andb_true_iff, Z.ltb_lt, Z.leb_le. reflexivity.
Qed.

Definition inside (p : pc) : bool :=
  match p with ImplRead _ | Fetching _ _ | Installing _ _ _ | Clearing _ _ => true | _ => false end.
Definition who (e : ev) : nat :=
  match e with ECall t _ _ => t | ERet t _ _ _ _ => t | EAsk t _ => t | EGot t _ => t | ESign t _ => t end.
Definition got (e : ev) : bool := match e with EGot _ _ => true | _ => false end.

Lemma since_other u e h : who e <> u -> since u (e :: h) = e :: since u h.
Proof. destruct e; simpl; auto. intros H. now rewrite (proj2 (Nat.eqb_neq _ _) H). Qed.
Lemma called_other u e h : who e <> u -> called u (e :: h) = called u h.
Proof. destruct e; simpl; auto; intros H; now rewrite (proj2 (Nat.eqb_neq _ _) H). Qed.
Lemma newest_other e h : got e = false -> newest (e :: h) = newest h.
Proof. destruct e; simpl; try discriminate; auto. Qed.
Lemma newest_since t : forall h x, newest (since t h) = Some x -> newest h = Some x.
Proof.
  induction h as [|e h IH]; simpl; [discriminate|]. intros x H. destruct e; simpl in H; auto.
  destruct (Nat.eqb t0 t); simpl in H; [discriminate|]. auto.
Qed.

Section Inv.
  Variables (c0 : creds) (s0 : src).
  Hypothesis Hb : begun c0 s0.

  Definition other_ret (t : nat) (h : list ev) : Prop :=
    exists t' k' r' ms' w', t' <> t /\ List.In (ERet t' k' r' ms' w') (since t h).
  Definition pc_ok (f : nat -> pc) (ms : N) (h : list ev) (t : nat) : Prop :=
    match f t with
    | Idle => called t h = None
    | TokCas => exists m, called t h = Some (CTok, m) /\ m <= ms
    | TokWait dl | TokSleep dl => exists m, called t h = Some (CTok, m) /\ m + 30000 <= dl /\ dl <= ms + 30000
        /\ ((exists u, u <> t /\ inside (f u) = true) \/ other_ret t h)
    | ExpCheck dl | ExpSleep dl | ExpTime dl =>
        exists m, called t h = Some (CExp, m) /\ m + 30000 <= dl /\ dl <= ms + 30000
    | ExpCas dl => dynamic s0 /\ exists m, called t h = Some (CExp, m) /\ m + 30000 <= dl /\ dl <= ms + 30000
    | ImplRead k => (k = CExp -> dynamic s0) /\ exists m, called t h = Some (k, m)
    | Fetching k x => x = s0 /\ dynamic s0 /\ exists m, called t h = Some (k, m)
    | Installing k x c => x = s0 /\ dynamic s0 /\ newest (since t h) = Some (t, inl c) /\ exists m, called t h = Some (k, m)
    | Clearing k e => (exists m, called t h = Some (k, m)) /\
        match e with
        | None => (k = CTok /\ static s0) \/ exists c, newest (since t h) = Some (t, inl c)
        | Some e => newest (since t h) = Some (t, inr e) \/ (e = Denied /\ s0 = NoSrc)
        end
    end.
  Definition ev_ok (h : list ev) (e : ev) : Prop :=
    match e with
    | ECall _ _ _ | EGot _ _ => True
    | ERet t k r ms w => told c0 s0 h t k r ms w
    | EAsk t x => x = s0 /\ dynamic x
    | ESign t c => in_force c0 h c
    end.
  Fixpoint good (h : list ev) : Prop := match h with [] => True | e :: h' => ev_ok h' e /\ good h' end.
  Definition fetching (p : pc) : bool := match p with Fetching _ _ => true | _ => false end.
  Definition installing (p : pc) : option creds := match p with Installing _ _ c => Some c | _ => None end.
  (** Which credentials are in place. *)
  Definition cur_ok (f : nat -> pc) (c : creds) (h : list ev) : Prop :=
    (forall t d, installing (f t) = Some d -> exists r, received c0 h = d :: c :: r)
    /\ ((forall t, installing (f t) = None) -> exists r, received c0 h = c :: r).
  Record Inv (s : state) : Prop := {
    v_own : exists o : option nat, (s_flag s = true <-> o <> None) /\ forall t, inside (s_pc s t) = true <-> o = Some t;
    v_src : s_source s = s0;
    v_old : ~ dynamic s0 -> s_creds s = c0;
    v_cur : cur_ok (s_pc s) (s_creds s) (s_log s);
    v_pc : forall t, pc_ok (s_pc s) (s_ms s) (s_log s) t;
    v_ask : exists o, asking (s_log s) o /\ forall t, fetching (s_pc s t) = true <-> o = Some t;
    v_good : good (s_log s) }.

  Lemma upd_eq f t p : upd f t p t = p. Proof. unfold upd. now rewrite Nat.eqb_refl. Qed.
  Lemma upd_neq f t p u : u <> t -> upd f t p u = f u.
  Proof. intros H. unfold upd. now rewrite (proj2 (Nat.eqb_neq _ _) H). Qed.

  Lemma inst_inside p d : installing p = Some d -> inside p = true.
  Proof. destruct p; simpl; congruence. Qed.
  Lemma fetch_inside p : fetching p = true -> inside p = true.
  Proof. destruct p; simpl; congruence. Qed.

  (** The fibers that do not move. *)
  Lemma frame f ms h t p' ms' h' u : u <> t -> ms <= ms' -> pc_ok f ms h u ->
    (h' = h \/ exists e, h' = e :: h /\ who e = t /\ (got e = true -> inside (f u) = false)) ->
    (inside (f t) = true -> inside p' = true \/ exists k r m w, h' = ERet t k r m w :: h) ->
    pc_ok (upd f t p') ms' h' u.
  Proof.
    intros N M P H1 H2. unfold pc_ok in *. rewrite (upd_neq f t p' u N).
    assert (C : called u h' = called u h).
    { destruct H1 as [->|[e [-> [W _]]]]; auto. apply called_other. congruence. }
    assert (X : inside (f u) = true -> newest (since u h') = newest (since u h)).
    { intros I. destruct H1 as [->|[e [-> [W G]]]]; auto. rewrite since_other by congruence.
      apply newest_other. destruct (got e); auto. rewrite G in I; auto. }
    rewrite C.
    assert (Y : (exists v, v <> u /\ inside (f v) = true) \/ other_ret u h ->
      (exists v, v <> u /\ inside (upd f t p' v) = true) \/ other_ret u h').
    { intros [[v [Nv Iv]]|[t' [k [r [m [w [Nt L]]]]]]].
      - destruct (Nat.eq_dec v t) as [->|Nvt].
        + destruct (H2 Iv) as [Ip|[k [r [m [w ->]]]]].
          * left. exists t. now rewrite upd_eq.
          * right. exists t, k, r, m, w. split; auto. rewrite since_other by (simpl; congruence). now left.
        + left. exists v. now rewrite upd_neq.
      - right. exists t', k, r, m, w. split; auto.
        destruct H1 as [->|[e [-> [W _]]]]; auto. rewrite since_other by congruence. now right. }
    destruct (f u) eqn:E; auto; simpl in X.
    - destruct P as [m [P1 P2]]. exists m. split; auto. lia.
    - destruct P as [m [P1 [P2 [P3 P4]]]]. exists m. split; [auto|split; [auto|split; [lia|auto]]].
    - destruct P as [m [P1 [P2 [P3 P4]]]]. exists m. split; [auto|split; [auto|split; [lia|auto]]].
    - destruct P as [m [P1 [P2 P3]]]. exists m. split; [auto|split; [auto|lia]].
    - destruct P as [P0 [m [P1 [P2 P3]]]]. split; auto. exists m. split; [auto|split; [auto|lia]].
    - destruct P as [m [P1 [P2 P3]]]. exists m. split; [auto|split; [auto|lia]].
    - destruct P as [m [P1 [P2 P3]]]. exists m. split; [auto|split; [auto|lia]].
    - rewrite X by auto. auto.
    - rewrite X by auto. auto.
  Qed.

  (** Those that move without touching the flag, outside the refresh. *)
  Lemma inv_out s t p' h' : Inv s -> inside (s_pc s t) = false -> inside p' = false ->
    (h' = s_log s \/ exists e, h' = e :: s_log s /\ who e = t /\ got e = false /\ ev_ok (s_log s) e
       /\ match e with EAsk _ _ => False | _ => True end) ->
    pc_ok (upd (s_pc s) t p') (s_ms s) h' t ->
    Inv (St (s_creds s) (s_source s) (s_flag s) (s_ms s) (s_wall s) (upd (s_pc s) t p') h').
  Proof.
    intros V I I' H P. destruct V as [[o [O1 O2]] V2 V3 [V4 V4'] V5 [a [A1 A2]] V7].
    assert (R : received c0 h' = received c0 (s_log s)).
    { destruct H as [->|[e [-> [_ [G _]]]]]; auto. destruct e; simpl in *; auto; discriminate. }
    assert (K : forall u, inside (upd (s_pc s) t p' u) = inside (s_pc s u)).
    { intros u. destruct (Nat.eq_dec u t) as [->|Nu]; [rewrite upd_eq; congruence|now rewrite upd_neq]. }
    assert (K2 : forall u, installing (upd (s_pc s) t p' u) = installing (s_pc s u)).
    { intros u. destruct (Nat.eq_dec u t) as [->|Nu]; [|now rewrite upd_neq]. rewrite upd_eq.
      destruct p', (s_pc s t); simpl in *; congruence. }
    assert (K3 : forall u, fetching (upd (s_pc s) t p' u) = fetching (s_pc s u)).
    { intros u. destruct (Nat.eq_dec u t) as [->|Nu]; [|now rewrite upd_neq]. rewrite upd_eq.
      destruct p', (s_pc s t); simpl in *; congruence. }
    constructor; cbn [s_creds s_source s_flag s_ms s_wall s_pc s_log]; auto.
    - exists o. split; auto. intros u. rewrite K. auto.
    - split; intros; rewrite R; [eapply V4|apply V4']; [rewrite <- K2; eauto|]. intros u. now rewrite <- K2.
    - intros u. destruct (Nat.eq_dec u t) as [->|Nu]; auto.
      apply frame with (ms := s_ms s) (h := s_log s); auto; [lia| |congruence].
      destruct H as [->|[e [-> [W [G _]]]]]; auto. right. exists e. split; [auto|split; [auto|congruence]].
    - exists a. split; [|intros u; rewrite K3; auto].
      destruct H as [->|[e [-> [W [G [_ Ne]]]]]]; auto. destruct e; simpl in *; try contradiction; try discriminate.
      + now constructor.
      + constructor; auto. intros ->. subst t0. pose proof (proj2 (A2 t) eq_refl) as Q. apply fetch_inside in Q. congruence.
      + now constructor.
    - destruct H as [->|[e [-> [_ [_ [G _]]]]]]; auto. now split.
  Qed.

  Lemma force s : Inv s -> in_force c0 (s_log s) (s_creds s).
  Proof.
    intros [[o [O1 O2]] V2 V3 [V4 V4'] V5 V6 V7]. unfold in_force.
    assert (D : (exists t d, installing (s_pc s t) = Some d) \/ forall t, installing (s_pc s t) = None).
    { destruct o as [t|].
      - destruct (installing (s_pc s t)) eqn:E; [left; eauto|]. right. intros u.
        destruct (installing (s_pc s u)) eqn:E2; auto. apply inst_inside in E2 as I. apply O2 in I.
        injection I as ->. congruence.
      - right. intros u. destruct (installing (s_pc s u)) eqn:E2; auto.
        apply inst_inside in E2. apply O2 in E2. discriminate. }
    destruct D as [[t [d E]]|D].
    - right. destruct (V4 t d E) as [r ->]. split; [|reflexivity].
      specialize (V5 t). unfold pc_ok in V5. destruct (s_pc s t); simpl in E; try discriminate. injection E as ->.
      destruct V5 as [_ [_ [V5 [m V6']]]]. exists t, d. split; [exact (newest_since _ _ _ V5)|]. split; [congruence|auto].
    - left. destruct (V4' D) as [r ->]. reflexivity.
  Qed.

  Lemma dyn_dec : dynamic s0 \/ ~ dynamic s0.
  Proof. unfold dynamic. destruct s0; [right|right|right|left|left|left]; auto; intros [H|[H|H]]; discriminate. Qed.

  (** Fibers that move within the refresh. *)
  Lemma inv_in s t p' c' h' : Inv s -> inside (s_pc s t) = true -> inside p' = true ->
    (h' = s_log s \/ exists e, h' = e :: s_log s /\ who e = t /\ ev_ok (s_log s) e) ->
    (~ dynamic s0 -> c' = c0) -> cur_ok (upd (s_pc s) t p') c' h' ->
    (exists a, asking h' a /\ forall u, fetching (upd (s_pc s) t p' u) = true <-> a = Some u) ->
    pc_ok (upd (s_pc s) t p') (s_ms s) h' t ->
    Inv (St c' (s_source s) (s_flag s) (s_ms s) (s_wall s) (upd (s_pc s) t p') h').
  Proof.
    intros V I I' H C1 C2 A P. destruct V as [[o [O1 O2]] V2 V3 V4 V5 V6 V7].
    assert (K : forall u, inside (upd (s_pc s) t p' u) = inside (s_pc s u)).
    { intros u. destruct (Nat.eq_dec u t) as [->|Nu]; [rewrite upd_eq; congruence|now rewrite upd_neq]. }
    constructor; cbn [s_creds s_source s_flag s_ms s_wall s_pc s_log]; auto.
    - exists o. split; auto. intros u. rewrite K. auto.
    - intros u. destruct (Nat.eq_dec u t) as [->|Nu]; auto.
      apply frame with (ms := s_ms s) (h := s_log s); auto; [lia|].
      destruct H as [->|[e [-> [W G]]]]; auto. right. exists e. split; [auto|split; [auto|]]. intros _.
      destruct (inside (s_pc s u)) eqn:Iu; auto. apply O2 in Iu. apply O2 in I. congruence.
    - destruct H as [->|[e [-> [_ G]]]]; auto. now split.
  Qed.

  Lemma only s t u : Inv s -> inside (s_pc s t) = true -> inside (s_pc s u) = true -> u = t.
  Proof. intros [[o [O1 O2]] _ _ _ _ _ _] A B. apply O2 in A. apply O2 in B. congruence. Qed.

  Lemma cur_same s t p' : Inv s -> inside (s_pc s t) = true -> installing (s_pc s t) = None -> installing p' = None ->
    cur_ok (upd (s_pc s) t p') (s_creds s) (s_log s).
  Proof.
    intros V I E E'. destruct V as [_ _ _ [V4 V4'] _ _ _].
    assert (K2 : forall u, installing (upd (s_pc s) t p' u) = installing (s_pc s u)).
    { intros u. destruct (Nat.eq_dec u t) as [->|Nu]; [rewrite upd_eq; congruence|now rewrite upd_neq]. }
    split; [intros u d Hu; eapply V4; rewrite <- K2; eauto|]. intros H. apply V4'. intros u. now rewrite <- K2.
  Qed.

  Lemma no_fetch s t p' : Inv s -> inside (s_pc s t) = true -> fetching (s_pc s t) = false ->
    fetching p' = false -> exists a, asking (s_log s) a /\ forall u, fetching (upd (s_pc s) t p' u) = true <-> a = Some u.
  Proof.
    intros V I E E'. destruct V as [_ _ _ _ _ [a [A1 A2]] _]. exists a. split; auto.
    intros u. rewrite <- A2. destruct (Nat.eq_dec u t) as [->|Nu]; [rewrite upd_eq; rewrite E, E'; tauto|now rewrite upd_neq].
  Qed.

  Lemma step_inv s l s' : Inv s -> step s l = Next s' -> Inv s'.
  Proof.
    intros V H. pose proof V as W. destruct W as [[o [O1 O2]] V2 V3 V4 V5 [a [A1 A2]] V7].
    destruct l as [t k|t|t|t r|d|w]; cbn [step] in H.
    - (* call *)
      destruct (s_pc s t) eqn:E; try discriminate. injection H as <-.
      unfold goto, note. cbn [s_creds s_source s_flag s_ms s_wall s_pc s_log].
      apply inv_out; auto; [now rewrite E|destruct k; reflexivity| |].
      + right. exists (ECall t k (s_ms s)). repeat split; auto.
      + unfold pc_ok. rewrite upd_eq. destruct k; simpl.
        * exists (s_ms s). rewrite Nat.eqb_refl. split; auto. lia.
        * exists (s_ms s). rewrite Nat.eqb_refl. unfold wait_ms. split; auto. lia.
    - (* sign *)
      destruct (s_pc s t) eqn:E; try discriminate. injection H as <-.
      assert (X : Inv (St (s_creds s) (s_source s) (s_flag s) (s_ms s) (s_wall s) (upd (s_pc s) t Idle) (ESign t (s_creds s) :: s_log s))).
      { apply inv_out; auto; [now rewrite E| |].
        - right. exists (ESign t (s_creds s)). repeat split; auto. simpl. now apply force.
        - unfold pc_ok. rewrite upd_eq. simpl. specialize (V5 t). unfold pc_ok in V5. now rewrite E in V5. }
      clear -X E. destruct X as [X1 X2 X3 [X4 X4'] X5 [b [X6 X6']] X7]. unfold note.
      cbn [s_creds s_source s_flag s_ms s_wall s_pc s_log] in *.
      assert (K : forall u, upd (s_pc s) t Idle u = s_pc s u).
      { intros u. destruct (Nat.eq_dec u t) as [->|Nu]; [now rewrite upd_eq|now rewrite upd_neq]. }
      constructor; cbn [s_creds s_source s_flag s_ms s_wall s_pc s_log]; auto.
      + destruct X1 as [o [A B]]. exists o. split; auto. intros u. rewrite <- K. auto.
      + split; intros; [eapply X4; rewrite K; eauto|apply X4'; intros u; rewrite K; auto].
      + intros u. specialize (X5 u). unfold pc_ok in *. rewrite K in X5. destruct (s_pc s u); auto.
        * destruct X5 as [m [P1 [P2 [P3 [[v [Nv P4]]|P4]]]]]; exists m; repeat split; auto. left. exists v. now rewrite <- (K v).
        * destruct X5 as [m [P1 [P2 [P3 [[v [Nv P4]]|P4]]]]]; exists m; repeat split; auto. left. exists v. now rewrite <- (K v).
      + exists b. split; auto. intros u. rewrite <- K. auto.
    - (* a fiber goes on *)
      unfold fiber_step in H. pose proof (V5 t) as P. unfold pc_ok in P.
      destruct (s_pc s t) eqn:E; try discriminate.
      + destruct P as [m [P1 P2]]. destruct (s_flag s) eqn:F; injection H as <-.
        * unfold goto. apply inv_out; auto; [now rewrite E|].
          unfold pc_ok. rewrite upd_eq. exists m. unfold wait_ms. split; auto. split; [lia|]. split; [lia|]. left.
          destruct o as [u|]; [|exfalso; now apply O1]. exists u.
          assert (Iu : inside (s_pc s u) = true) by now apply O2.
          assert (Nu : u <> t) by (intros ->; rewrite E in Iu; discriminate). split; auto. now rewrite upd_neq.
        * unfold put_flag, goto. cbn [s_creds s_source s_flag s_ms s_wall s_pc s_log].
          assert (On : o = None) by (destruct o; auto; exfalso; assert (false = true) by (apply O1; discriminate); discriminate). subst o.
          constructor; cbn [s_creds s_source s_flag s_ms s_wall s_pc s_log]; auto.
          -- exists (Some t). split; [split; congruence|]. intros u.
             destruct (Nat.eq_dec u t) as [->|Nu]; [now rewrite upd_eq|]. rewrite upd_neq by auto. rewrite O2. split; congruence.
          -- destruct V4 as [V4 V4']. split.
             ++ intros u d Hu. destruct (Nat.eq_dec u t) as [->|Nu]; [rewrite upd_eq in Hu; discriminate|].
                rewrite upd_neq in Hu by auto. eapply V4; eauto.
             ++ intros _. apply V4'. intros u. destruct (installing (s_pc s u)) eqn:E2; auto. apply inst_inside in E2. apply O2 in E2. discriminate.
          -- intros u. destruct (Nat.eq_dec u t) as [->|Nu].
             ++ unfold pc_ok. rewrite upd_eq. split; [discriminate|]. eauto.
             ++ apply frame with (ms := s_ms s) (h := s_log s); auto. lia.
          -- exists a. split; auto. intros u. rewrite <- A2. destruct (Nat.eq_dec u t) as [->|Nu]; [rewrite upd_eq, E; simpl; tauto|now rewrite upd_neq].
      + destruct P as [m [P1 [P2 [P3 P4]]]]. destruct (s_flag s) eqn:F; [destruct (N.leb_spec dl (s_ms s))|]; injection H as <-.
        * unfold ret, note, goto. cbn [s_creds s_source s_flag s_ms s_wall s_pc s_log]. apply inv_out; auto; [now rewrite E| |].
          -- right. exists (ERet t CTok (RErr TimedOut) (s_ms s) (s_wall s)). repeat split; auto. simpl. right. left. split; auto.
             exists m. split; auto. lia.
          -- unfold pc_ok. rewrite upd_eq. simpl. now rewrite Nat.eqb_refl.
        * unfold goto. apply inv_out; auto; [now rewrite E|]. unfold pc_ok. rewrite upd_eq.
          exists m. split; auto. split; auto. split; auto. destruct P4 as [[u [Nu Iu]]|P4]; [left|now right].
          exists u. now rewrite upd_neq.
        * unfold ret, note, goto. cbn [s_creds s_source s_flag s_ms s_wall s_pc s_log]. apply inv_out; auto; [now rewrite E| |].
          -- right. exists (ERet t CTok ROk (s_ms s) (s_wall s)). repeat split; auto. simpl. right. right.
             destruct P4 as [[u [Nu Iu]]|P4]; auto. exfalso. apply O2 in Iu. rewrite Iu in O1. assert (false = true) by (apply O1; discriminate). discriminate.
          -- unfold pc_ok. rewrite upd_eq. simpl. now rewrite Nat.eqb_refl.
      + injection H as <-. unfold goto. apply inv_out; auto; [now rewrite E|]. unfold pc_ok. rewrite upd_eq.
        destruct P as [m [P1 [P2 [P3 P4]]]]. exists m. split; auto. split; auto. split; auto.
        destruct P4 as [[u [Nu Iu]]|P4]; [left|now right]. exists u. now rewrite upd_neq.
      + destruct (IsExpiring (s_creds s) (s_wall s)) eqn:X; injection H as <-.
        * unfold goto. apply inv_out; auto; [now rewrite E|]. unfold pc_ok. rewrite upd_eq. split; auto.
          destruct dyn_dec as [D|D]; auto. exfalso. destruct Hb as [D'|D']; auto. rewrite V3 in X by auto.
          apply expiring_iff in X. unfold expiring in X. lia.
        * unfold ret, note, goto. cbn [s_creds s_source s_flag s_ms s_wall s_pc s_log]. apply inv_out; auto; [now rewrite E| |].
          -- right. exists (ERet t CExp (RBool false) (s_ms s) (s_wall s)). repeat split; auto. simpl. exists (s_creds s).
             split; [now apply force|]. rewrite <- expiring_iff. congruence.
          -- unfold pc_ok. rewrite upd_eq. simpl. now rewrite Nat.eqb_refl.
      + destruct P as [D [m [P1 [P2 P3]]]]. destruct (s_flag s) eqn:F; injection H as <-.
        * unfold goto. apply inv_out; auto; [now rewrite E|]. unfold pc_ok. rewrite upd_eq. exists m. auto.
        * unfold put_flag, goto. cbn [s_creds s_source s_flag s_ms s_wall s_pc s_log].
          assert (On : o = None) by (destruct o; auto; exfalso; assert (false = true) by (apply O1; discriminate); discriminate). subst o.
          constructor; cbn [s_creds s_source s_flag s_ms s_wall s_pc s_log]; auto.
          -- exists (Some t). split; [split; congruence|]. intros u.
             destruct (Nat.eq_dec u t) as [->|Nu]; [now rewrite upd_eq|]. rewrite upd_neq by auto. rewrite O2. split; congruence.
          -- destruct V4 as [V4 V4']. split.
             ++ intros u d Hu. destruct (Nat.eq_dec u t) as [->|Nu]; [rewrite upd_eq in Hu; discriminate|].
                rewrite upd_neq in Hu by auto. eapply V4; eauto.
             ++ intros _. apply V4'. intros u. destruct (installing (s_pc s u)) eqn:E2; auto. apply inst_inside in E2. apply O2 in E2. discriminate.
          -- intros u. destruct (Nat.eq_dec u t) as [->|Nu].
             ++ unfold pc_ok. rewrite upd_eq. split; [auto|]. eauto.
             ++ apply frame with (ms := s_ms s) (h := s_log s); auto. lia.
          -- exists a. split; auto. intros u. rewrite <- A2. destruct (Nat.eq_dec u t) as [->|Nu]; [rewrite upd_eq, E; simpl; tauto|now rewrite upd_neq].
      + destruct P as [m [P1 [P2 P3]]]. destruct (N.leb_spec dl (s_ms s)); injection H as <-.
        * unfold ret, note, goto. cbn [s_creds s_source s_flag s_ms s_wall s_pc s_log]. apply inv_out; auto; [now rewrite E| |].
          -- right. exists (ERet t CExp (RErr TimedOut) (s_ms s) (s_wall s)). repeat split; auto. simpl. right. left. split; auto.
             exists m. split; auto. lia.
          -- unfold pc_ok. rewrite upd_eq. simpl. now rewrite Nat.eqb_refl.
        * unfold goto. apply inv_out; auto; [now rewrite E|]. unfold pc_ok. rewrite upd_eq. exists m. auto.
      + injection H as <-. unfold goto. apply inv_out; auto; [now rewrite E|]. unfold pc_ok. rewrite upd_eq. auto.
      + (* RefreshTokenImpl *)
        destruct P as [Pk [m P1]]. assert (I : inside (s_pc s t) = true) by now rewrite E.
        assert (Q : forall e, ~ dynamic s0 -> match e with None => static s0 | Some e => e = Denied /\ s0 = NoSrc end ->
          Inv (goto s t (Clearing k e))).
        { intros e D Q. unfold goto. apply inv_in; auto.
          - apply cur_same; auto. now rewrite E.
          - apply no_fetch; auto. now rewrite E.
          - unfold pc_ok. rewrite upd_eq. split; [eauto|]. destruct e; auto. left. split; auto.
            destruct k; auto. exfalso. auto. }
        assert (R : dynamic s0 -> Inv (note (goto s t (Fetching k s0)) (EAsk t s0))).
        { intros D. unfold goto, note. cbn [s_creds s_source s_flag s_ms s_wall s_pc s_log]. apply inv_in; auto.
          - right. exists (EAsk t s0). repeat split; auto.
          - pose proof (cur_same s t (Fetching k s0) V I) as C. rewrite E in C. exact (C eq_refl eq_refl).
          - exists (Some t). split.
            + constructor. destruct a as [u|]; auto. exfalso.
              assert (Fu : fetching (s_pc s u) = true) by now apply A2.
              rewrite (only s t u V I (fetch_inside _ Fu)) in Fu. rewrite E in Fu. discriminate.
            + intros u. destruct (Nat.eq_dec u t) as [->|Nu]; [rewrite upd_eq; tauto|]. rewrite upd_neq by auto. split; [|congruence].
              intros Fu. exfalso. apply Nu. exact (only s t u V I (fetch_inside _ Fu)).
          - unfold pc_ok. rewrite upd_eq. split; auto. split; auto. exists m. exact P1. }
        rewrite V2 in H. destruct s0; injection H as <-.
        * apply Q; auto. intros [D|[D|D]]; discriminate.
        * apply Q; [intros [D|[D|D]]; discriminate|now left].
        * apply Q; [intros [D|[D|D]]; discriminate|now right].
        * apply R. now left.
        * apply R. right. now left.
        * apply R. right. now right.
      + (* install *)
        injection H as <-. destruct P as [-> [D [P1 [m P2]]]]. assert (I : inside (s_pc s t) = true) by now rewrite E.
        unfold put_creds, goto. cbn [s_creds s_source s_flag s_ms s_wall s_pc s_log]. rewrite <- V2.
        apply inv_in; auto.
        * intros D'. contradiction.
        * destruct V4 as [V4 V4']. destruct (V4 t c) as [r R]; [now rewrite E|]. split.
          -- intros u d Hu. exfalso. destruct (Nat.eq_dec u t) as [->|Nu]; [rewrite upd_eq in Hu; discriminate|].
             rewrite upd_neq in Hu by auto. apply Nu. exact (only s t u V I (inst_inside _ _ Hu)).
          -- intros _. eauto.
        * apply no_fetch; auto. now rewrite E.
        * unfold pc_ok. rewrite upd_eq. split; eauto.
      + (* the end of the refresh *)
        destruct P as [[m P1] P2]. assert (I : inside (s_pc s t) = true) by now rewrite E.
        assert (Ot : o = Some t) by now apply O2. subst o.
        set (r := match e with Some e => RErr e | None => match k with CTok => ROk | CExp => RBool true end end) in *.
        assert (T : told c0 s0 (s_log s) t k r (s_ms s) (s_wall s)).
        { unfold r. destruct e as [e|].
          - destruct k; simpl; destruct P2; auto.
          - destruct k; simpl; destruct P2 as [[K Q]|Q]; auto. discriminate. }
        injection H as <-. unfold ret, note, goto, put_flag. cbn [s_creds s_source s_flag s_ms s_wall s_pc s_log].
        constructor; cbn [s_creds s_source s_flag s_ms s_wall s_pc s_log]; auto.
        * exists None. split; [split; congruence|]. intros u.
          destruct (Nat.eq_dec u t) as [->|Nu]; [rewrite upd_eq; simpl; split; congruence|]. rewrite upd_neq by auto.
          rewrite O2. split; congruence.
        * destruct V4 as [V4 V4']. split; simpl.
          -- intros u d Hu. exfalso. destruct (Nat.eq_dec u t) as [->|Nu]; [rewrite upd_eq in Hu; discriminate|].
             rewrite upd_neq in Hu by auto. apply Nu. exact (only s t u V I (inst_inside _ _ Hu)).
          -- intros _. apply V4'. intros u. destruct (installing (s_pc s u)) eqn:Hu; auto.
             rewrite (only s t u V I (inst_inside _ _ Hu)) in Hu. rewrite E in Hu. discriminate.
        * intros u. destruct (Nat.eq_dec u t) as [->|Nu].
          -- unfold pc_ok. rewrite upd_eq. simpl. now rewrite Nat.eqb_refl.
          -- apply frame with (ms := s_ms s) (h := s_log s); auto; [lia| |].
             ++ right. eexists. split; [reflexivity|]. split; [reflexivity|]. discriminate.
             ++ intros _. right. eauto.
        * exists None. split.
          -- constructor; [|discriminate]. destruct a as [u|]; auto. exfalso.
             assert (Fu : fetching (s_pc s u) = true) by now apply A2.
             rewrite (only s t u V I (fetch_inside _ Fu)) in Fu. rewrite E in Fu. discriminate.
          -- intros u. destruct (Nat.eq_dec u t) as [->|Nu]; [rewrite upd_eq; simpl; split; congruence|]. rewrite upd_neq by auto. split; [|congruence].
             intros Fu. exfalso. apply Nu. exact (only s t u V I (fetch_inside _ Fu)).
        * simpl. auto.
    - (* an answer *)
      destruct (s_pc s t) eqn:E; try discriminate. injection H as <-.
      assert (I : inside (s_pc s t) = true) by now rewrite E.
      pose proof (V5 t) as P. unfold pc_ok in P. rewrite E in P. destruct P as [-> [D [m P]]].
      unfold note, goto. cbn [s_creds s_source s_flag s_ms s_wall s_pc s_log].
      assert (At : a = Some t) by (apply A2; now rewrite E). subst a.
      apply inv_in; auto.
      + destruct r; reflexivity.
      + right. exists (EGot t r). repeat split.
      + destruct V4 as [V4 V4']. destruct V4' as [q Q].
        { intros u. destruct (installing (s_pc s u)) eqn:Hu; auto.
          rewrite (only s t u V I (inst_inside _ _ Hu)) in Hu. rewrite E in Hu. discriminate. }
        assert (No : forall u d p, u <> t -> installing (upd (s_pc s) t p u) = Some d -> False).
        { intros u d p Nu Hu. rewrite upd_neq in Hu by auto. apply Nu. exact (only s t u V I (inst_inside _ _ Hu)). }
        split.
        * intros u d Hu. destruct (Nat.eq_dec u t) as [->|Nu]; [|destruct (No _ _ _ Nu Hu)]. rewrite upd_eq in Hu.
          destruct r; simpl in Hu; [|discriminate]. injection Hu as <-. simpl. rewrite Q. eauto.
        * intros Hu. specialize (Hu t). rewrite upd_eq in Hu. destruct r; simpl in Hu; [discriminate|]. simpl. eauto.
      + exists None. split; [now constructor|]. intros u.
        destruct (Nat.eq_dec u t) as [->|Nu]; [rewrite upd_eq; destruct r; simpl; split; congruence|]. rewrite upd_neq by auto.
        rewrite A2. split; congruence.
      + unfold pc_ok. rewrite upd_eq. destruct r; simpl.
        * repeat split; auto. exists m. auto.
        * split; [|now left]. exists m. auto.
    - injection H as <-. constructor; cbn [s_creds s_source s_flag s_ms s_wall s_pc s_log]; auto.
      + exists o. auto.
      + intros u. specialize (V5 u). unfold pc_ok in *. destruct (s_pc s u); auto.
        * destruct V5 as [m [P1 P2]]. exists m. split; auto. lia.
        * destruct V5 as [m [P1 [P2 [P3 P4]]]]. exists m. split; auto. split; auto. split; auto. lia.
        * destruct V5 as [m [P1 [P2 [P3 P4]]]]. exists m. split; auto. split; auto. split; auto. lia.
        * destruct V5 as [m [P1 [P2 P3]]]. exists m. split; auto. split; auto. lia.
        * destruct V5 as [P0 [m [P1 [P2 P3]]]]. split; auto. exists m. split; auto. split; auto. lia.
        * destruct V5 as [m [P1 [P2 P3]]]. exists m. split; auto. split; auto. lia.
        * destruct V5 as [m [P1 [P2 P3]]]. exists m. split; auto. split; auto. lia.
      + exists a. auto.
    - injection H as <-. constructor; cbn [s_creds s_source s_flag s_ms s_wall s_pc s_log]; auto.
      + exists o. auto.
      + exists a. auto.
  Qed.

  Lemma start_inv ms w : Inv (start c0 s0 ms w).
  Proof.
    constructor; cbn [start s_creds s_source s_flag s_ms s_wall s_pc s_log]; auto.
    - exists None. split; [split; congruence|]. intros; simpl; split; discriminate.
    - split; [discriminate|]. intros _. exists []. reflexivity.
    - intros t. reflexivity.
    - exists None. split; [constructor|]. intros; simpl; split; discriminate.
    - exact Logic.I.
  Qed.

  Lemma inv ms w s : reachable step (start c0 s0 ms w) s -> Inv s.
  Proof. apply reach_step; [apply step_inv|apply start_inv]. Qed.

  Lemma good_at e h : forall l, good l -> happened e h l -> ev_ok h e.
  Proof.
    intros l G [x ->]. induction x as [|y x IH]; simpl in G; [tauto|]. apply IH. tauto.
  Qed.

  Lemma cred_serial_pf ms w s : reachable step (start c0 s0 ms w) s -> exists o, asking (s_log s) o.
  Proof. intros R. destruct (v_ask _ (inv _ _ _ R)) as [o [A _]]. eauto. Qed.
  Lemma cred_asks_pf ms w s t x h : reachable step (start c0 s0 ms w) s -> happened (EAsk t x) h (s_log s) ->
    x = s0 /\ dynamic x.
  Proof. intros R H. exact (good_at _ _ _ (v_good _ (inv _ _ _ R)) H). Qed.
  Lemma cred_sign_pf ms w s t c h : reachable step (start c0 s0 ms w) s -> happened (ESign t c) h (s_log s) ->
    in_force c0 h c.
  Proof. intros R H. exact (good_at _ _ _ (v_good _ (inv _ _ _ R)) H). Qed.
  Lemma cred_returns_pf ms w s t k r m v h : reachable step (start c0 s0 ms w) s ->
    happened (ERet t k r m v) h (s_log s) -> told c0 s0 h t k r m v.
  Proof. intros R H. exact (good_at _ _ _ (v_good _ (inv _ _ _ R)) H). Qed.

  (** ** Nobody blocks for ever *)
  Definition soon (t n : nat) (s : state) : Prop :=
    exists m s', (m <= n)%nat /\ exec step s (repeat (LStep t) m) = Next s' /\ settled t (s_log s').
  Lemma soon_now t n s : settled t (s_log s) -> soon t n s.
  Proof. intros H. exists 0%nat, s. split; [lia|]. split; auto. Qed.
  Lemma soon_step t n s s1 : fiber_step s t = Next s1 -> soon t n s1 -> soon t (S n) s.
  Proof.
    intros H [m [s' [L [X Y]]]]. exists (S m), s'. split; [lia|]. split; auto. cbn [repeat exec step]. now rewrite H.
  Qed.
  Lemma soon_more t n m s : (n <= m)%nat -> soon t n s -> soon t m s.
  Proof. intros L [k [s' [L' X]]]. exists k, s'. split; [lia|auto]. Qed.
  Lemma soon_clear t s k e : s_pc s t = Clearing k e -> soon t 1 s.
  Proof.
    intros E. eapply soon_step; [unfold fiber_step; rewrite E; reflexivity|]. apply soon_now. reflexivity.
  Qed.
  Lemma soon_read t s k : s_pc s t = ImplRead k -> soon t 2 s.
  Proof.
    intros E. destruct (s_source s) eqn:X;
      (eapply soon_step; [unfold fiber_step; rewrite E, X; reflexivity|]); try (apply soon_now; reflexivity);
      eapply soon_clear; cbn [goto s_pc]; apply upd_eq.
  Qed.
  Lemma soon_inst t s k x c : s_pc s t = Installing k x c -> soon t 2 s.
  Proof.
    intros E. eapply soon_step; [unfold fiber_step; rewrite E; reflexivity|]. eapply soon_clear. cbn [goto put_creds s_pc]. apply upd_eq.
  Qed.
  Lemma soon_time t s dl : s_pc s t = ExpTime dl -> dl <= s_ms s -> soon t 1 s.
  Proof.
    intros E L. apply N.leb_le in L. eapply soon_step; [unfold fiber_step; rewrite E, L; reflexivity|]. apply soon_now. reflexivity.
  Qed.
  Lemma soon_cas t s dl : s_pc s t = ExpCas dl -> dl <= s_ms s -> soon t 3 s.
  Proof.
    intros E L. destruct (s_flag s) eqn:F; (eapply soon_step; [unfold fiber_step; rewrite E, F; reflexivity|]).
    - eapply soon_more with 1%nat; [lia|]. eapply soon_time; cbn [goto s_pc s_ms]; [apply upd_eq|auto].
    - eapply soon_read. cbn [goto put_flag s_pc]. apply upd_eq.
  Qed.
  Lemma soon_check t s dl : s_pc s t = ExpCheck dl -> dl <= s_ms s -> soon t 4 s.
  Proof.
    intros E L. destruct (IsExpiring (s_creds s) (s_wall s)) eqn:F; (eapply soon_step; [unfold fiber_step; rewrite E, F; reflexivity|]).
    - eapply soon_cas; cbn [goto s_pc s_ms]; [apply upd_eq|auto].
    - apply soon_now. reflexivity.
  Qed.
  Lemma soon_wait t s dl : s_pc s t = TokWait dl -> dl <= s_ms s -> soon t 1 s.
  Proof.
    intros E L. apply N.leb_le in L. destruct (s_flag s) eqn:F; (eapply soon_step; [unfold fiber_step; rewrite E, F, ?L; reflexivity|]);
      apply soon_now; reflexivity.
  Qed.
  Definition tick (s : state) (d : N) : state := St (s_creds s) (s_source s) (s_flag s) (s_ms s + d) (s_wall s) (s_pc s) (s_log s).
  Lemma first s t s1 n : fiber_step s t = Next s1 -> soon t n (tick s1 30000) -> (n <= 5)%nat ->
    exists n s', (n <= 5)%nat /\ exec step s (LStep t :: LTick 30000 :: repeat (LStep t) n) = Next s' /\ settled t (s_log s').
  Proof.
    intros H [m [s' [L [X Y]]]] L5. exists m, s'. split; [lia|]. split; auto. cbn [exec step]. rewrite H. exact X.
  Qed.
  Lemma cred_bounded_pf ms w s t : reachable step (start c0 s0 ms w) s -> called t (s_log s) <> None ->
    (forall o, asking (s_log s) o -> o <> Some t) ->
    exists n s', (n <= 5)%nat /\ exec step s (LStep t :: LTick 30000 :: repeat (LStep t) n) = Next s' /\ settled t (s_log s').
  Proof.
    intros R C A. apply inv in R. destruct R as [_ V2 _ _ V5 [a [A1 A2]] _]. specialize (V5 t). unfold pc_ok in V5.
    assert (Na : fetching (s_pc s t) = false).
    { destruct (fetching (s_pc s t)) eqn:F; auto. exfalso. apply (A _ A1). now apply A2. }
    destruct (s_pc s t) eqn:E; try discriminate.
    - contradiction.
    - destruct (s_flag s) eqn:F.
      + eapply first with (n := 1%nat); [unfold fiber_step; rewrite E, F; reflexivity| |lia].
        eapply soon_wait; cbn [tick goto s_pc s_ms]; [apply upd_eq|]. unfold wait_ms. lia.
      + eapply first with (n := 2%nat); [unfold fiber_step; rewrite E, F; reflexivity| |lia].
        eapply soon_read. cbn [tick goto put_flag s_pc s_ms]. apply upd_eq.
    - destruct V5 as [m [_ [_ [P _]]]].
      destruct (s_flag s) eqn:F; [destruct (dl <=? s_ms s) eqn:L|].
      + eapply first with (n := 0%nat); [unfold fiber_step; rewrite E, F, L; reflexivity| |lia]. now apply soon_now.
      + eapply first with (n := 2%nat); [unfold fiber_step; rewrite E, F, L; reflexivity| |lia].
        eapply soon_step; [unfold fiber_step; cbn [tick goto s_pc s_ms]; rewrite upd_eq; reflexivity|].
        eapply soon_wait; cbn [tick goto s_pc s_ms]; [apply upd_eq|]. lia.
      + eapply first with (n := 0%nat); [unfold fiber_step; rewrite E, F; reflexivity| |lia]. now apply soon_now.
    - destruct V5 as [m [_ [_ [P _]]]]. eapply first with (n := 1%nat); [unfold fiber_step; rewrite E; reflexivity| |lia].
      eapply soon_wait; cbn [tick goto s_pc s_ms]; [apply upd_eq|]. lia.
    - destruct V5 as [m [_ [_ P]]].
      destruct (IsExpiring (s_creds s) (s_wall s)) eqn:F.
      + eapply first with (n := 3%nat); [unfold fiber_step; rewrite E, F; reflexivity| |lia].
        eapply soon_cas; cbn [tick goto s_pc s_ms]; [apply upd_eq|]. lia.
      + eapply first with (n := 0%nat); [unfold fiber_step; rewrite E, F; reflexivity| |lia]. now apply soon_now.
    - destruct V5 as [_ [m [_ [_ P]]]]. destruct (s_flag s) eqn:F.
      + eapply first with (n := 1%nat); [unfold fiber_step; rewrite E, F; reflexivity| |lia].
        eapply soon_time; cbn [tick goto s_pc s_ms]; [apply upd_eq|]. lia.
      + eapply first with (n := 2%nat); [unfold fiber_step; rewrite E, F; reflexivity| |lia].
        eapply soon_read. cbn [tick goto put_flag s_pc s_ms]. apply upd_eq.
    - destruct V5 as [m [_ [_ P]]]. destruct (dl <=? s_ms s) eqn:L.
      + eapply first with (n := 0%nat); [unfold fiber_step; rewrite E, L; reflexivity| |lia]. now apply soon_now.
      + eapply first with (n := 5%nat); [unfold fiber_step; rewrite E, L; reflexivity| |lia].
        eapply soon_step; [unfold fiber_step; cbn [tick goto s_pc s_ms]; rewrite upd_eq; reflexivity|].
        eapply soon_check; cbn [tick goto s_pc s_ms]; [apply upd_eq|]. lia.
    - destruct V5 as [m [_ [_ P]]]. eapply first with (n := 4%nat); [unfold fiber_step; rewrite E; reflexivity| |lia].
      eapply soon_check; cbn [tick goto s_pc s_ms]; [apply upd_eq|]. lia.
    - destruct (s_source s) eqn:X;
        (eapply first with (n := 1%nat); [unfold fiber_step; rewrite E, X; reflexivity| |lia]); try (apply soon_now; reflexivity);
        eapply soon_clear; cbn [tick goto s_pc]; apply upd_eq.
    - eapply first with (n := 1%nat); [unfold fiber_step; rewrite E; reflexivity| |lia].
      eapply soon_clear. cbn [tick goto put_creds s_pc]. apply upd_eq.
    - eapply first with (n := 0%nat); [unfold fiber_step; rewrite E; reflexivity| |lia]. now apply soon_now.
  Qed.

  (** With no call under way, a call of RefreshToken asks for credentials. *)
  Lemma cred_available_pf ms w s t : reachable step (start c0 s0 ms w) s -> dynamic s0 ->
    (forall u, called u (s_log s) = None) ->
    exists s', exec step s [LCall t CTok; LStep t; LStep t] = Next s' /\ s_log s' = EAsk t s0 :: ECall t CTok (s_ms s) :: s_log s.
  Proof.
    intros R D A. apply inv in R. destruct R as [[o [O1 O2]] V2 _ _ V5 _ _].
    assert (I : forall u, s_pc s u = Idle).
    { intros u. specialize (V5 u). unfold pc_ok in V5. specialize (A u).
      destruct (s_pc s u); auto; exfalso; repeat match goal with
        | H : _ /\ _ |- _ => destruct H | H : exists _, _ |- _ => destruct H end; congruence. }
    assert (F : s_flag s = false).
    { destruct (s_flag s) eqn:F; auto. destruct o as [u|]; [|exfalso; now apply O1].
      pose proof (proj2 (O2 u) eq_refl) as X. rewrite I in X. discriminate. }
    cbn [exec step]. rewrite I. unfold fiber_step at 1. cbn [goto note s_pc s_flag]. rewrite upd_eq, F.
    unfold fiber_step. cbn [goto put_flag note s_pc s_source]. rewrite upd_eq, V2.
    destruct D as [D|[D|D]]; rewrite D; eexists; split; reflexivity.
  Qed.
End Inv.

(** ** Runs *)
Definition no_creds : creds := Creds [] [] [] 0.
Definition old : creds := Creds [1] [2] [3] 100.
Definition new : creds := Creds [4] [5] [6] 1000.
Definition lapse : list label :=
  [LCall 1 CTok; LStep 1; LStep 1; LCall 2 CTok; LStep 2; LAns 1 (inr (Other 5)); LStep 1; LStep 2].
Definition twice : list label :=
  [LCall 1 CExp; LCall 2 CExp; LStep 1; LStep 2; LStep 2; LStep 2; LAns 2 (inl new); LStep 2; LStep 2; LStep 1; LStep 1].

Lemma cred_wait_refuted_pf : exists ls s, exec step (start old ImdsSrc 0 90) ls = Next s
  /\ List.In (ERet 2 CTok ROk 0 90) (s_log s) /\ (forall t c, ~ List.In (EGot t (inl c)) (s_log s)) /\ expiring old 90.
Proof.
  exists lapse. eexists. split; [vm_compute; reflexivity|]. cbn [s_log]. split; [now left|]. split.
  - intros t c H. repeat (destruct H as [H|H]; [discriminate H|]). exact H.
  - unfold expiring. simpl. lia.
Qed.
Lemma cred_twice_refuted_pf : exists ls s h, exec step (start old ImdsSrc 0 90) ls = Next s
  /\ s_log s = EAsk 1 ImdsSrc :: h /\ called 1 h = Some (CExp, 0) /\ received old h = [new; old] /\ ~ arriving h
  /\ ~ expiring new (s_wall s) /\ (forall w, ~ List.In (LWall w) ls).
Proof.
  exists twice. eexists. eexists. split; [vm_compute; reflexivity|]. cbn [s_log]. split; [reflexivity|].
  split; [reflexivity|]. split; [reflexivity|]. split; [|split].
  - intros [t [c [H1 [H2 H3]]]]. vm_compute in H1. injection H1 as <- <-. vm_compute in H2. now apply H2.
  - unfold expiring. simpl. lia.
  - intros w H. repeat (destruct H as [H|H]; [discriminate H|]). exact H.
Qed.
