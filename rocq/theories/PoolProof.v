From Verif Require Import Util Conc PoolModel PoolSpec.

Fixpoint tot (f : nat -> nat) (n : nat) : nat := match n with O => 0 | S n => tot f n + f n end.
Lemma tot_ext f g n : (forall i, i < n -> f i = g i) -> tot f n = tot g n.
Proof. induction n as [|n IH]; intros H; cbn; [reflexivity|]. rewrite IH, H; auto. Qed.
Lemma tot_const c n : tot (fun _ => c) n = c * n.
Proof. induction n as [|n IH]; cbn; [lia|]. rewrite IH. lia. Qed.
(** Changing one summand. *)
Lemma tot_chg f g k n : k < n -> (forall i, i <> k -> f i = g i) -> tot f n + g k = tot g n + f k.
Proof.
  intros L H. induction n as [|n IH]; [lia|]. cbn. destruct (Nat.eq_dec k n) as [->|N].
  - rewrite (tot_ext f g n) by (intros; apply H; lia). lia.
  - rewrite (H n) by lia. assert (k < n) by lia. specialize (IH H0). lia.
Qed.
Lemma tot_zero f n : tot f n = 0 -> forall i, i < n -> f i = 0.
Proof. induction n as [|n IH]; cbn; [lia|]. intros H i L. destruct (Nat.eq_dec i n) as [->|]; [lia|]. apply IH; lia. Qed.
Lemma tot_pos f n : tot f n <> 0 -> exists i, i < n /\ f i <> 0.
Proof. induction n as [|n IH]; cbn; [lia|]. intros H. destruct (Nat.eq_dec (f n) 0) as [E|E]; [destruct IH as (i & A & B); [lia|]; exists i; split; [lia|exact B]|exists n; split; [lia|exact E]]. Qed.

Lemma set2_spec f c i x d j : set2 f c i x d j = if Nat.eqb d c && Nat.eqb j i then x else f d j.
Proof. unfold set2, upd. destruct (Nat.eqb_spec d c) as [->|]; [|reflexivity]. now destruct (Nat.eqb j i). Qed.
Lemma set2_eq f c i x : set2 f c i x c i = x. Proof. now rewrite set2_spec, !Nat.eqb_refl. Qed.
Lemma set2_neq f c i x d j : d <> c \/ j <> i -> set2 f c i x d j = f d j.
Proof. intros H. rewrite set2_spec. destruct (Nat.eqb_spec d c), (Nat.eqb_spec j i); cbn; auto. destruct H; contradiction. Qed.
Lemma times_app e a b : times e (a ++ b) = times e a + times e b. Proof. unfold times. apply count_occ_app. Qed.
Lemma times_one e x : times e [x] = if ev_dec x e then 1 else 0. Proof. unfold times. cbn. reflexivity. Qed.

Lemma nodup_snoc {A} (l : list A) x : NoDup l -> ~ In x l -> NoDup (l ++ [x]).
Proof.
  induction l as [|y l IH]; intros N H; cbn; [constructor; [intros []|constructor]|]. inversion N; subst. constructor.
  - rewrite in_app_iff. intros [X|[X|[]]]; [contradiction|]. apply H. now left.
  - apply IH; [assumption|]. intros X. apply H. now right.
Qed.

Section S.
Variables n cap : nat.
Hypothesis cap_pos : 0 < cap.

Definition notdone (x : stage) : nat := match x with Done => 0 | _ => 1 end.
Definition began (b : bool) (x : stage) : nat := match x with Run => if b then 1 else 0 | FRun | Done => 1 | _ => 0 end.
Definition ended (x : stage) : nat := match x with Done => 1 | _ => 0 end.
Definition okcall (s : st) (c : nat) : Prop :=
  match calls s c with
  | Absent => nextc s <= c /\ forall j, share s c j = NotYet
  | Disp i _ => c < nextc s /\ i < n /\ forall j, share s c j = NotYet <-> i <= j
  | Wait | Returned => c < nextc s /\ forall j, share s c j = NotYet <-> n <= j
  end.
Record inv (s : st) : Prop := {
  i_call : forall c, okcall s c;
  i_q : forall i c, In c (q s i) <-> share s c i = Queued;
  i_nd : forall i, NoDup (q s i);
  i_lp : forall i c, lp s i = Running c <-> share s c i = Run;
  i_kind : forall c i, share s c i = Spawned \/ share s c i = FRun -> brief s c = false;
  i_cnt : forall c, c < nextc s -> cnt s c = tot (fun j => notdone (share s c j)) n;
  i_beg : forall c j, times (Begin c j) (hist s) = began (brief s c) (share s c j);
  i_end : forall c j, times (End c j) (hist s) = ended (share s c j);
  i_hret : forall pre c post, hist s = pre ++ Ret c :: post -> all_once n c pre;
  i_one : forall c, times (Ret c) (hist s) = match calls s c with Returned => 1 | _ => 0 end;
  i_rdone : forall c i, calls s c = Returned -> i < n -> share s c i = Done;
  i_fifo : forall i, subm s i = taken s i ++ q s i;
  i_ep : forall c i e, calls s c = Disp i (Sleep e) \/ calls s c = Disp i (Again e) -> e <= epoch s i;
  i_wake : forall c i, calls s c = Disp i (Sleep (epoch s i)) -> q s i <> [] \/ lp s i <> Idle }.

Lemma init_inv : inv init.
Proof.
  split; cbn.
  - intros c. unfold okcall. cbn. split; [lia|reflexivity].
  - intros i c. split; [contradiction|discriminate].
  - constructor.
  - intros i c. split; discriminate.
  - intros c i [X|X]; discriminate.
  - lia.
  - reflexivity.
  - reflexivity.
  - intros pre c post H. destruct pre; discriminate.
  - reflexivity.
  - discriminate.
  - reflexivity.
  - intros c i e [X|X]; discriminate.
  - discriminate.
Qed.

Lemma share_lt s c i : inv s -> share s c i <> NotYet -> i < n /\ c < nextc s /\ calls s c <> Absent.
Proof.
  intros I H. pose proof (i_call s I c) as K. unfold okcall in K. destruct (calls s c) as [|k d| |].
  - destruct K as [_ K]. now rewrite K in H.
  - destruct K as (A & B & C). destruct (Nat.lt_ge_cases i k); [split; [lia|]; split; [exact A|discriminate]|]. apply C in H0. contradiction.
  - destruct K as (A & C). destruct (Nat.lt_ge_cases i n); [split; [lia|]; split; [exact A|discriminate]|]. apply C in H0. contradiction.
  - destruct K as (A & C). destruct (Nat.lt_ge_cases i n); [split; [lia|]; split; [exact A|discriminate]|]. apply C in H0. contradiction.
Qed.

(** A share moves on from one stage to another one, neither of them [NotYet]: what does not depend on which. *)
Lemma okcall_share s c i x cs' : share s c i <> NotYet -> x <> NotYet -> (forall d, okcall s d) ->
  calls cs' = calls s -> nextc cs' = nextc s -> share cs' = set2 (share s) c i x -> forall d, okcall cs' d.
Proof.
  intros H X K E1 E2 E3 d. specialize (K d). unfold okcall in *. rewrite E1, E2, E3.
  assert (Q : forall j, set2 (share s) c i x d j = NotYet <-> share s d j = NotYet).
  { intros j. rewrite set2_spec. destruct (Nat.eqb_spec d c) as [->|]; cbn; [|tauto]. destruct (Nat.eqb_spec j i) as [->|]; [tauto|tauto]. }
  destruct (calls s d).
  - destruct K as [A B]. split; [exact A|]. intros j. apply Q. apply B.
  - destruct K as (A & B & C). repeat split; auto; intros Y; [apply C; now apply Q|apply Q; now apply C].
  - destruct K as (A & C). repeat split; auto; intros Y; [apply C; now apply Q|apply Q; now apply C].
  - destruct K as (A & C). repeat split; auto; intros Y; [apply C; now apply Q|apply Q; now apply C].
Qed.

Lemma setcall_inv s c i d d' : inv s -> calls s c = Disp i d ->
  (forall e, d' = Sleep e \/ d' = Again e -> e <= epoch s i) -> (d' = Sleep (epoch s i) -> q s i <> [] \/ lp s i <> Idle) ->
  inv (setcall c (Disp i d') s).
Proof.
  intros [Ca Q Nd Lp Ki Cn Be En Hr On Rd Ff Ep Wk] E H1 H2. constructor; cbn [setcall calls nextc brief cnt q lp epoch share subm taken hist]; auto.
  - intros x. specialize (Ca x). unfold okcall in *. cbn [setcall calls nextc share]. unfold upd. destruct (Nat.eqb_spec x c) as [->|]; [rewrite E in Ca; exact Ca|exact Ca].
  - intros x. rewrite On. unfold upd. destruct (Nat.eqb_spec x c) as [->|]; [rewrite E; reflexivity|reflexivity].
  - intros x j. unfold upd. destruct (Nat.eqb_spec x c) as [->|]; [discriminate|apply Rd].
  - intros x j e. unfold upd. destruct (Nat.eqb_spec x c) as [->|]; [|apply Ep]. intros [X|X]; injection X as <- ->; apply H1; auto.
  - intros x j. unfold upd. destruct (Nat.eqb_spec x c) as [->|]; [|apply Wk]. intros X. injection X as <- X. auto.
Qed.
Lemma enqueue_inv s c i d f : inv s -> calls s c = Disp i d -> (f = Disp i Prep \/ exists e, f = Disp i (Sleep e) /\ e <= epoch s i) -> inv (enqueue n cap c i f s).
Proof.
  intros I E F. unfold enqueue. destruct (Nat.ltb_spec (length (q s i)) cap) as [L|L].
  - destruct I as [Ca Q Nd Lp Ki Cn Be En Hr On Rd Ff Ep Wk]. pose proof (Ca c) as Kc. unfold okcall in Kc. rewrite E in Kc. destruct Kc as (C1 & C2 & C3).
    assert (Sn : share s c i = NotYet) by (apply C3; lia).
    constructor; cbn [setcall calls nextc brief cnt q lp epoch share subm taken hist].
    + intros x. specialize (Ca x). unfold okcall in *. cbn [calls nextc share]. unfold upd at 1. destruct (Nat.eqb_spec x c) as [->|Nx].
      * assert (Y : forall j, set2 (share s) c i Queued c j = NotYet <-> S i <= j).
        { intros j. rewrite set2_spec, Nat.eqb_refl. cbn. destruct (Nat.eqb_spec j i) as [->|Nj]; [split; [discriminate|lia]|]. rewrite C3. lia. }
        unfold after. destruct (Nat.ltb_spec (S i) n); [repeat split; auto; apply Y|]. split; [exact C1|]. intros j. rewrite Y. lia.
      * assert (Y : forall j, set2 (share s) c i Queued x j = share s x j) by (intros j; apply set2_neq; auto). destruct (calls s x); setoid_rewrite Y; exact Ca.
    + intros j x. unfold upd. destruct (Nat.eqb_spec j i) as [->|Nj].
      * rewrite in_app_iff, Q. rewrite set2_spec, Nat.eqb_refl, andb_true_r. destruct (Nat.eqb_spec x c) as [->|Nx]; [split; [auto|intros _; right; now left]|].
        split; [intros [X|[X|[]]]; [exact X|congruence]|auto].
      * rewrite set2_neq by auto. apply Q.
    + intros j. unfold upd. destruct (Nat.eqb_spec j i) as [->|]; [|apply Nd]. apply nodup_snoc; [apply Nd|]. intros X. apply Q in X. congruence.
    + intros j x. rewrite Lp, set2_spec. destruct (Nat.eqb_spec x c) as [->|]; cbn; [|tauto]. destruct (Nat.eqb_spec j i) as [->|]; [|tauto]. rewrite Sn. split; discriminate.
    + intros x j. rewrite set2_spec. destruct (_ && _); [intros [X|X]; discriminate|apply Ki].
    + intros x Hx. rewrite (Cn x Hx). apply tot_ext. intros j _. rewrite set2_spec. destruct (Nat.eqb_spec x c) as [->|]; cbn; [|reflexivity]. destruct (Nat.eqb_spec j i) as [->|]; [now rewrite Sn|reflexivity].
    + intros x j. rewrite Be, set2_spec. destruct (Nat.eqb_spec x c) as [->|]; cbn; [|reflexivity]. destruct (Nat.eqb_spec j i) as [->|]; [now rewrite Sn|reflexivity].
    + intros x j. rewrite En, set2_spec. destruct (Nat.eqb_spec x c) as [->|]; cbn; [|reflexivity]. destruct (Nat.eqb_spec j i) as [->|]; [now rewrite Sn|reflexivity].
    + exact Hr.
    + intros x. rewrite On. unfold upd. destruct (Nat.eqb_spec x c) as [->|]; [rewrite E; unfold after; now destruct (Nat.ltb (S i) n)|reflexivity].
    + intros x j. unfold upd. destruct (Nat.eqb_spec x c) as [->|Nx]; [unfold after; destruct (Nat.ltb (S i) n); discriminate|]. rewrite set2_neq by auto. apply Rd.
    + intros j. unfold upd. destruct (Nat.eqb_spec j i) as [->|]; [rewrite Ff; now rewrite app_assoc|apply Ff].
    + intros x j e. unfold upd. destruct (Nat.eqb_spec x c) as [->|]; [unfold after; destruct (Nat.ltb (S i) n); intros [X|X]; discriminate|apply Ep].
    + intros x j. unfold upd at 1. destruct (Nat.eqb_spec x c) as [->|]; [unfold after; destruct (Nat.ltb (S i) n); discriminate|]. intros X. destruct (Wk x j X) as [Y|Y]; [left|now right].
      unfold upd. destruct (Nat.eqb_spec j i) as [->|]; [|exact Y]. now destruct (q s i).
  - assert (X : exists d', f = Disp i d') by (destruct F as [->|(e & -> & _)]; eauto). destruct X as (d' & ->). apply (setcall_inv s c i d d' I E).
    + intros e He. destruct F as [F|(e' & F & Le)]; injection F as ->; destruct He as [He|He]; try discriminate. injection He as <-. exact Le.
    + intros _. left. intros Z. rewrite Z in L. cbn in L. lia.
Qed.

(** A share moves on, without a change of queues: [x] to [y], recorded as [h]. *)
Lemma advance_inv s c i y h lp' k : inv s ->
  share s c i = Run \/ share s c i = Spawned \/ share s c i = FRun -> y = Done \/ y = Spawned \/ y = FRun ->
  (y <> Done -> brief s c = false) ->
  (share s c i = Run -> lp' = upd (lp s) i InBatch) -> (share s c i <> Run -> lp' = lp s) ->
  k = (if notdone y then upd (cnt s) c (cnt s c - 1) else cnt s) ->
  (forall d j, times (Begin d j) h + began (brief s d) (share s d j) = began (brief s d) (set2 (share s) c i y d j)) ->
  (forall d j, times (End d j) h + ended (share s d j) = ended (set2 (share s) c i y d j)) ->
  (forall d, ~ In (Ret d) h) ->
  inv (mkS (calls s) (nextc s) (brief s) k (q s) lp' (epoch s) (set2 (share s) c i y) (subm s) (taken s) (hist s ++ h)).
Proof.
  intros I X Y B L1 L2 K H1 H2 H3. assert (Sn : share s c i <> NotYet) by (destruct X as [X|[X|X]]; congruence).
  assert (Yn : y <> NotYet) by (destruct Y as [->|[->| ->]]; discriminate). destruct (share_lt s c i I Sn) as (Li & Lc & Ab).
  pose proof I as [Ca Q Nd Lp Ki Cn Be En Hr On Rd Ff Ep Wk].
  constructor; cbn [calls nextc brief cnt q lp epoch share subm taken hist]; auto.
  - refine (okcall_share s c i y _ Sn Yn Ca _ _ _); reflexivity.
  - intros j x. rewrite Q, set2_spec. destruct (Nat.eqb_spec x c) as [->|]; cbn; [|tauto]. destruct (Nat.eqb_spec j i) as [->|]; [|tauto].
    split; intros Z; [destruct X as [X|[X|X]]; congruence|destruct Y as [->|[->| ->]]; discriminate].
  - intros j x. destruct X as [X|X].
    + rewrite (L1 X). unfold upd. rewrite set2_spec. destruct (Nat.eqb_spec j i) as [->|Nj].
      * rewrite andb_true_r. destruct (Nat.eqb_spec x c) as [->|Nx]; [split; [discriminate|destruct Y as [->|[->| ->]]; discriminate]|].
        split; [discriminate|]. intros Z. apply Lp in Z. apply Lp in X. congruence.
      * rewrite andb_false_r. apply Lp.
    + rewrite L2 by (destruct X; congruence). rewrite Lp, set2_spec. destruct (Nat.eqb_spec x c) as [->|]; cbn; [|tauto]. destruct (Nat.eqb_spec j i) as [->|]; [|tauto].
      split; intros Z; [destruct X; congruence|destruct Y as [->|[->| ->]]; discriminate].
  - intros x j. rewrite set2_spec. destruct (Nat.eqb_spec x c) as [->|]; cbn; [|apply Ki]. destruct (Nat.eqb_spec j i) as [->|]; [|apply Ki]. intros Z. apply B. destruct Z; congruence.
  - intros x Hx. rewrite K. destruct (Nat.eq_dec x c) as [->|Nx].
    + pose proof (tot_chg (fun j => notdone (set2 (share s) c i y c j)) (fun j => notdone (share s c j)) i n Li) as T. cbn beta in T. rewrite set2_eq in T.
      specialize (T ltac:(intros j Nj; cbn beta; rewrite set2_neq by auto; reflexivity)). pose proof (Cn c Lc) as C0.
      assert (O : notdone (share s c i) = 1) by (destruct X as [X|[X|X]]; rewrite X; reflexivity). rewrite O in T.
      destruct Y as [->|[->| ->]]; cbn in T |- *; rewrite ?upd_eq; lia.
    + assert (Z : (if notdone y then upd (cnt s) c (cnt s c - 1) else cnt s) x = cnt s x) by (destruct (notdone y); rewrite ?upd_neq by auto; reflexivity). rewrite Z, (Cn x Hx).
      apply tot_ext. intros j _. rewrite set2_neq by auto. reflexivity.
  - intros x j. rewrite times_app, Be, <- H1. lia.
  - intros x j. rewrite times_app, En, <- H2. lia.
  - intros pre x post E. assert (Z : exists post', hist s = pre ++ Ret x :: post').
    { clear -E H3. revert post E. induction h as [|e h IH] using rev_ind; intros post E; [rewrite app_nil_r in E; eauto|].
      destruct post as [|p0 post _] using rev_ind; [rewrite app_assoc in E; apply app_inj_tail in E as [_ ->]; exfalso; apply (H3 x); apply in_app_iff; right; now left|].
      rewrite app_comm_cons, !app_assoc in E. apply app_inj_tail in E as [E _]. eapply IH; [|exact E]. intros d Z. apply (H3 d). apply in_app_iff. now left. }
    destruct Z as (post' & Z). exact (Hr _ _ _ Z).
  - intros x. rewrite times_app, On. assert (Z : times (Ret x) h = 0) by (apply count_occ_not_In; auto). lia.
  - intros x j Hx Hj. rewrite set2_spec. destruct (Nat.eqb_spec x c) as [->|]; cbn; [|now apply Rd]. destruct (Nat.eqb_spec j i) as [->|]; [|now apply Rd].
    pose proof (Rd c i Hx Hj) as Z. destruct X as [X|[X|X]]; congruence.
  - intros x j Hx. destruct (Wk x j Hx) as [Z|Z]; [now left|right]. destruct X as [X|X]; [rewrite (L1 X)|now rewrite L2 by (destruct X; congruence)].
    unfold upd. destruct (Nat.eqb j i); [discriminate|exact Z].
Qed.

Lemma began_chg b x y c i d j f : f c i = x -> (d = c -> j = i -> began b y = began b x) -> began b (set2 f c i y d j) = began b (f d j).
Proof. intros H E. rewrite set2_spec. destruct (Nat.eqb_spec d c) as [->|]; cbn; [|reflexivity]. destruct (Nat.eqb_spec j i) as [->|]; [rewrite H; auto|reflexivity]. Qed.
Lemma ended_chg x y c i d j f : f c i = x -> ended y = ended x -> ended (set2 f c i y d j) = ended (f d j).
Proof. intros H E. rewrite set2_spec. destruct (Nat.eqb_spec d c) as [->|]; cbn; [|reflexivity]. destruct (Nat.eqb_spec j i) as [->|]; [rewrite H; auto|reflexivity]. Qed.
Lemma times_end c i d j : times (End d j) [End c i] = if Nat.eqb d c && Nat.eqb j i then 1 else 0.
Proof. rewrite times_one. destruct (ev_dec (End c i) (End d j)) as [E|E]; destruct (Nat.eqb_spec d c), (Nat.eqb_spec j i); cbn; try reflexivity; congruence. Qed.
Lemma times_begin c i d j : times (Begin d j) [Begin c i] = if Nat.eqb d c && Nat.eqb j i then 1 else 0.
Proof. rewrite times_one. destruct (ev_dec (Begin c i) (Begin d j)) as [E|E]; destruct (Nat.eqb_spec d c), (Nat.eqb_spec j i); cbn; try reflexivity; congruence. Qed.
Lemma ret_mid (h e : list ev) : (forall d, ~ In (Ret d) e) -> forall pre x post, h ++ e = pre ++ Ret x :: post -> exists post', h = pre ++ Ret x :: post'.
Proof.
  induction e as [|y e IH] using rev_ind; intros H pre x post E; [rewrite app_nil_r in E; eauto|].
  destruct post as [|p0 post _] using rev_ind; [rewrite app_assoc in E; apply app_inj_tail in E as [_ ->]; exfalso; apply (H x); apply in_app_iff; right; now left|].
  rewrite app_comm_cons, !app_assoc in E. apply app_inj_tail in E as [E _]. eapply IH; [|exact E]. intros d Z. apply (H d). apply in_app_iff. now left.
Qed.

Lemma step_inv s l s' : inv s -> step n cap s l = Next s' -> inv s'.
Proof.
  intros I E. pose proof I as [Ca Q Nd Lp Ki Cn Be En Hr On Rd Ff Ep Wk]. destruct l as [b|c|i|i|i|c i|c i|c]; cbn [step] in E.
  - (* a new call *)
    injection E as <-. assert (Nw : calls s (nextc s) = Absent /\ forall j, share s (nextc s) j = NotYet).
    { pose proof (Ca (nextc s)) as K. unfold okcall in K. destruct (calls s (nextc s)); destruct K as (K & K'); [auto|lia|lia|lia]. }
    destruct Nw as (N1 & N2). set (x := if Nat.ltb 0 n then Disp 0 First else Wait).
    assert (Xs : (x = Disp 0 First /\ 0 < n) \/ (x = Wait /\ n = 0)) by (unfold x; destruct (Nat.ltb_spec 0 n); [left|right]; split; auto; lia).
    constructor; cbn [calls nextc brief cnt q lp epoch share subm taken hist]; auto.
    + intros c. specialize (Ca c). unfold okcall in *. cbn [calls nextc share]. unfold upd. destruct (Nat.eqb_spec c (nextc s)) as [->|Nc].
      * destruct Xs as [(-> & P)|(-> & P)]; [split; [lia|]; split; [exact P|]|split; [lia|]]; intros j; split; intros; try lia; apply N2.
      * destruct (calls s c); [destruct Ca; split; [lia|auto]|destruct Ca; split; [lia|auto]|destruct Ca; split; [lia|auto]|destruct Ca; split; [lia|auto]].
    + intros c i H. unfold upd. destruct (Nat.eqb_spec c (nextc s)) as [->|Nc]; [rewrite N2 in H; destruct H; discriminate|eauto].
    + intros c Hc. unfold upd. destruct (Nat.eqb_spec c (nextc s)) as [->|Nc]; [|apply Cn; lia]. rewrite (tot_ext _ (fun _ => 1)); [rewrite tot_const; lia|]. intros j _. now rewrite N2.
    + intros c j. rewrite Be. unfold upd. destruct (Nat.eqb_spec c (nextc s)) as [->|Nc]; [now rewrite N2|reflexivity].
    + intros c. rewrite On. unfold upd. destruct (Nat.eqb_spec c (nextc s)) as [->|Nc]; [|reflexivity]. rewrite N1. destruct Xs as [(-> & _)|(-> & _)]; reflexivity.
    + intros c i. unfold upd. destruct (Nat.eqb_spec c (nextc s)) as [->|Nc]; [|apply Rd]. destruct Xs as [(-> & _)|(-> & _)]; discriminate.
    + intros c i e. unfold upd. destruct (Nat.eqb_spec c (nextc s)) as [->|Nc]; [|apply Ep]. destruct Xs as [(-> & _)|(-> & _)]; intros [X|X]; discriminate.
    + intros c i. unfold upd. destruct (Nat.eqb_spec c (nextc s)) as [->|Nc]; [|apply Wk]. destruct Xs as [(-> & _)|(-> & _)]; discriminate.
  - (* DispatchBrief *)
    destruct (calls s c) as [|i d| |] eqn:Ec; try discriminate. destruct d as [| |e|e].
    + injection E as <-. apply (enqueue_inv s c i First _ I Ec). now left.
    + injection E as <-. apply (setcall_inv s c i Prep _ I Ec); [intros e [X|X]; [discriminate|injection X as <-; lia]|discriminate].
    + injection E as <-. apply (enqueue_inv s c i (Again e) _ I Ec). right. exists e. split; [reflexivity|]. apply (Ep c i e). now right.
    + destruct (Nat.eqb e (epoch s i)); [discriminate|]. injection E as <-. apply (setcall_inv s c i (Sleep e) _ I Ec); [intros e' [X|X]; discriminate|discriminate].
  - (* a task is taken *)
    destruct (q s i) as [|c t] eqn:Eq; [discriminate|].
    assert (Id : lp s i = Idle \/ lp s i = InBatch) by (destruct (lp s i); auto; discriminate).
    assert (E' : s' = mkS (calls s) (nextc s) (brief s) (cnt s) (upd (q s) i t) (upd (lp s) i (Running c)) (epoch s) (set2 (share s) c i Run) (subm s) (upd (taken s) i (taken s i ++ [c])) (hist s ++ (if brief s c then [Begin c i] else []))) by (destruct Id as [Id|Id]; rewrite Id in E; injection E as <-; reflexivity).
    subst s'. clear E. assert (Sq : share s c i = Queued) by (apply Q; rewrite Eq; now left). assert (Sn : share s c i <> NotYet) by congruence.
    destruct (share_lt s c i I Sn) as (Li & Lc & Ab). pose proof (Nd i) as Ndi. rewrite Eq in Ndi. inversion Ndi as [|? ? Nc Ndt]; subst.
    constructor; cbn [calls nextc brief cnt q lp epoch share subm taken hist]; auto.
    + refine (okcall_share s c i Run _ Sn _ Ca _ _ _); [discriminate|reflexivity|reflexivity|reflexivity].
    + intros j x. unfold upd. rewrite set2_spec. destruct (Nat.eqb_spec j i) as [->|Nj].
      * rewrite andb_true_r. destruct (Nat.eqb_spec x c) as [->|Nx]; [split; [contradiction|discriminate]|]. rewrite <- Q, Eq. cbn. split; [auto|intros [X|X]; [congruence|exact X]].
      * rewrite andb_false_r. apply Q.
    + intros j. unfold upd. destruct (Nat.eqb_spec j i) as [->|]; [exact Ndt|apply Nd].
    + intros j x. unfold upd. rewrite set2_spec. destruct (Nat.eqb_spec j i) as [->|Nj].
      * rewrite andb_true_r. destruct (Nat.eqb_spec x c) as [->|Nx]; [tauto|]. split; [congruence|]. intros X. apply Lp in X. destruct Id; congruence.
      * rewrite andb_false_r. apply Lp.
    + intros x j. rewrite set2_spec. destruct (_ && _); [intros [X|X]; discriminate|apply Ki].
    + intros x Hx. rewrite (Cn x Hx). apply tot_ext. intros j _. rewrite set2_spec. destruct (Nat.eqb_spec x c) as [->|]; cbn; [|reflexivity]. destruct (Nat.eqb_spec j i) as [->|]; [now rewrite Sq|reflexivity].
    + intros x j. rewrite times_app, Be, set2_spec. destruct (brief s c) eqn:Bc.
      * rewrite times_begin. destruct (Nat.eqb_spec x c) as [->|]; cbn; [|lia]. destruct (Nat.eqb_spec j i) as [->|]; [rewrite Sq, Bc; reflexivity|lia].
      * change (times (Begin x j) []) with 0. destruct (Nat.eqb_spec x c) as [->|]; cbn; [|lia]. destruct (Nat.eqb_spec j i) as [->|]; [rewrite Sq, Bc; reflexivity|lia].
    + intros x j. rewrite times_app, En. rewrite (ended_chg Queued Run c i x j (share s) Sq eq_refl). destruct (brief s c); [rewrite times_one; destruct (ev_dec (Begin c i) (End x j)); [discriminate|lia]|change (times (End x j) []) with 0; lia].
    + intros pre x post E. apply ret_mid in E; [destruct E as (post' & E); eauto|]. intros d H. destruct (brief s c); [destruct H as [H|[]]; discriminate|destruct H].
    + intros x. rewrite times_app, On. destruct (brief s c); [rewrite times_one; destruct (ev_dec (Begin c i) (Ret x)); [discriminate|lia]|change (times (Ret x) []) with 0; lia].
    + intros x j Hx Hj. rewrite set2_spec. destruct (Nat.eqb_spec x c) as [->|]; cbn; [|now apply Rd]. destruct (Nat.eqb_spec j i) as [->|]; [|now apply Rd].
      pose proof (Rd c i Hx Hj). congruence.
    + intros j. unfold upd. destruct (Nat.eqb_spec j i) as [->|]; [|apply Ff]. rewrite Ff, Eq, <- app_assoc. reflexivity.
    + intros x j Hx. unfold upd. destruct (Nat.eqb_spec j i) as [->|]; [right; discriminate|now apply (Wk x)].
  - (* the end of a task *)
    destruct (lp s i) as [|c|] eqn:El; try discriminate. assert (Sr : share s c i = Run) by (now apply Lp). destruct (brief s c) eqn:Bc; injection E as <-.
    + apply (advance_inv s c i Done [End c i]); auto; try congruence.
      * intros d j. rewrite times_one. destruct (ev_dec (End c i) (Begin d j)); [discriminate|]. cbn [Nat.add]. symmetry. apply (began_chg _ Run); [exact Sr|]. intros -> ->. now rewrite Bc.
      * intros d j. rewrite times_end, set2_spec. destruct (Nat.eqb_spec d c) as [->|]; cbn; [|reflexivity]. destruct (Nat.eqb_spec j i) as [->|]; [now rewrite Sr|reflexivity].
      * intros d [X|[]]. discriminate.
    + rewrite <- (app_nil_r (hist s)). apply (advance_inv s c i Spawned []); auto; try congruence.
      * intros d j. change (times (Begin d j) []) with 0. cbn [Nat.add]. symmetry. apply (began_chg _ Run); [exact Sr|]. intros -> ->. now rewrite Bc.
      * intros d j. change (times (End d j) []) with 0. cbn [Nat.add]. symmetry. now apply (ended_chg Run).
  - (* the end of a batch *)
    destruct (lp s i) eqn:El; try discriminate. injection E as <-. constructor; cbn [calls nextc brief cnt q lp epoch share subm taken hist]; auto.
    + intros j c. unfold upd. destruct (Nat.eqb_spec j i) as [->|]; [|apply Lp]. split; [discriminate|]. intros X. apply Lp in X. congruence.
    + intros c j e H. specialize (Ep c j e H). unfold upd. destruct (Nat.eqb_spec j i) as [->|]; lia.
    + intros c j. unfold upd. destruct (Nat.eqb_spec j i) as [->|]; [|apply Wk]. intros X. specialize (Ep c i _ (or_introl X)). lia.
  - (* a fiber begins *)
    destruct (share s c i) eqn:Es; try discriminate. injection E as <-. assert (Bc : brief s c = false) by (apply (Ki c i); auto).
    apply (advance_inv s c i FRun [Begin c i]); auto; try congruence.
    + intros d j. rewrite times_begin, set2_spec. destruct (Nat.eqb_spec d c) as [->|]; cbn; [|reflexivity]. destruct (Nat.eqb_spec j i) as [->|]; [now rewrite Es|reflexivity].
    + intros d j. rewrite times_one. destruct (ev_dec (Begin c i) (End d j)); [discriminate|]. cbn [Nat.add]. symmetry. now apply (ended_chg Spawned).
    + intros d [X|[]]. discriminate.
  - (* a fiber ends *)
    destruct (share s c i) eqn:Es; try discriminate. injection E as <-. assert (Bc : brief s c = false) by (apply (Ki c i); auto).
    apply (advance_inv s c i Done [End c i]); auto; try congruence.
    + intros d j. rewrite times_one. destruct (ev_dec (End c i) (Begin d j)); [discriminate|]. cbn [Nat.add]. symmetry. now apply (began_chg _ FRun).
    + intros d j. rewrite times_end, set2_spec. destruct (Nat.eqb_spec d c) as [->|]; cbn; [|reflexivity]. destruct (Nat.eqb_spec j i) as [->|]; [now rewrite Es|reflexivity].
    + intros d [X|[]]. discriminate.
  - (* the call returns *)
    destruct (calls s c) eqn:Ec; try discriminate. destruct (Nat.eqb_spec (cnt s c) 0) as [Z|]; [|discriminate]. injection E as <-.
    pose proof (Ca c) as Kc. unfold okcall in Kc. rewrite Ec in Kc. destruct Kc as (C1 & C2). rewrite (Cn c C1) in Z.
    assert (Dn : forall j, j < n -> share s c j = Done).
    { intros j Hj. pose proof (tot_zero _ n Z j Hj) as X. cbn beta in X. destruct (share s c j); cbn in X; try discriminate. reflexivity. }
    constructor; cbn [calls nextc brief cnt q lp epoch share subm taken hist]; auto.
    + intros x. specialize (Ca x). unfold okcall in *. cbn [calls nextc share]. unfold upd. destruct (Nat.eqb_spec x c) as [->|]; [rewrite Ec in Ca; exact Ca|exact Ca].
    + intros x j. rewrite times_app, times_one, Be. destruct (ev_dec (Ret c) (Begin x j)); [discriminate|lia].
    + intros x j. rewrite times_app, times_one, En. destruct (ev_dec (Ret c) (End x j)); [discriminate|lia].
    + intros pre x post E. destruct post as [|p0 post _] using rev_ind.
      * apply app_inj_tail in E as [<- E]. injection E as <-. intros j Hj. rewrite Be, En, Dn by exact Hj. auto.
      * rewrite app_comm_cons, app_assoc in E. apply app_inj_tail in E as [E _]. eauto.
    + intros x. rewrite times_app, times_one, On. unfold upd. destruct (Nat.eqb_spec x c) as [->|Nx]; [rewrite Ec; destruct (ev_dec (Ret c) (Ret c)); [reflexivity|congruence]|]. destruct (ev_dec (Ret c) (Ret x)); [congruence|lia].
    + intros x j. unfold upd. destruct (Nat.eqb_spec x c) as [->|]; [auto|apply Rd].
    + intros x j e. unfold upd. destruct (Nat.eqb_spec x c) as [->|]; [intros [X|X]; discriminate|apply Ep].
    + intros x j. unfold upd. destruct (Nat.eqb_spec x c) as [->|]; [discriminate|apply Wk].
Qed.
Lemma no_ub s l : step n cap s l <> Ub.
Proof.
  destruct l; cbn [step]; try discriminate.
  - destruct (calls s c) as [|i [| |e|e]| |]; try discriminate. destruct (Nat.eqb _ _); discriminate.
  - destruct (q s i); [discriminate|]. destruct (lp s i); discriminate.
  - destruct (lp s i); try discriminate. destruct (brief s c); discriminate.
  - destruct (lp s i); discriminate.
  - destruct (share s c i); discriminate.
  - destruct (share s c i); discriminate.
  - destruct (calls s c); try discriminate. destruct (Nat.eqb _ _); discriminate.
Qed.
Lemma reach_inv' s : reachable (step n cap) init s -> inv s.
Proof. apply (reach_inv (step n cap) inv init); [|apply init_inv]. intros s0 l I. pose proof (step_inv s0 l) as H. pose proof (no_ub s0 l). destruct (step n cap s0 l); auto. Qed.

Lemma pool_await_pf s pre c post : reachable (step n cap) init s -> hist s = pre ++ Ret c :: post ->
  all_once n c pre /\ all_once n c (hist s) /\ times (Ret c) (hist s) = 1.
Proof.
  intros R E. pose proof (reach_inv' s R) as I. split; [exact (i_hret s I _ _ _ E)|].
  assert (Rc : calls s c = Returned).
  { pose proof (i_one s I c) as O. assert (P : In (Ret c) (hist s)) by (rewrite E; apply in_app_iff; right; now left). apply (count_occ_In ev_dec) in P. fold (times (Ret c) (hist s)) in P.
    destruct (calls s c); try reflexivity; lia. }
  split; [|rewrite (i_one s I), Rc; reflexivity]. intros i Hi. rewrite (i_beg s I), (i_end s I), (i_rdone s I c i Rc Hi). auto.
Qed.
Lemma pool_fifo_pf s i : reachable (step n cap) init s -> subm s i = taken s i ++ q s i.
Proof. intros R. apply (i_fifo s (reach_inv' s R)). Qed.
Lemma pool_awake_pf s c i e : reachable (step n cap) init s -> calls s c = Disp i (Sleep e) -> e <> epoch s i \/ q s i <> [] \/ lp s i <> Idle.
Proof. intros R E. destruct (Nat.eq_dec e (epoch s i)) as [->|]; [right; apply (i_wake s (reach_inv' s R) c); exact E|now left]. Qed.

(** ** Progress *)
Lemma lp_step s i : lp s i <> Idle -> exists l s', is_call l = false /\ step n cap s l = Next s'.
Proof.
  destruct (lp s i) as [|c|] eqn:E; [congruence| |]; intros _.
  - exists (LTaskEnd i). cbn. rewrite E. destruct (brief s c); eauto.
  - exists (LBatchEnd i). cbn. rewrite E. eauto.
Qed.
Lemma q_step s i : q s i <> [] -> exists l s', is_call l = false /\ step n cap s l = Next s'.
Proof.
  intros H. destruct (lp s i) eqn:E; try (apply (lp_step s i); congruence).
  destruct (q s i) as [|c t] eqn:Q; [congruence|]. exists (LPop i). cbn. rewrite Q, E. eauto.
Qed.
Lemma pool_progress_pf s c : reachable (step n cap) init s -> calls s c <> Absent -> calls s c <> Returned ->
  exists l s', is_call l = false /\ step n cap s l = Next s'.
Proof.
  intros R A B. pose proof (reach_inv' s R) as I. destruct (calls s c) as [|i d| |] eqn:Ec; try congruence.
  - destruct d as [| |e|e].
    1-3: exists (LDisp c); cbn; rewrite Ec; eauto.
    destruct (Nat.eqb_spec e (epoch s i)) as [->|Ne].
    + destruct (i_wake s I c i Ec) as [H|H]; [now apply (q_step s i)|now apply (lp_step s i)].
    + exists (LDisp c). cbn. rewrite Ec. apply Nat.eqb_neq in Ne. rewrite Ne. eauto.
  - pose proof (i_call s I c) as Kc. unfold okcall in Kc. rewrite Ec in Kc. destruct Kc as (C1 & C2). pose proof (i_cnt s I c C1) as Cn.
    destruct (Nat.eq_dec (cnt s c) 0) as [Z|Z]; [exists (LRet c); cbn; rewrite Ec, Z; cbn; eauto|].
    rewrite Cn in Z. apply tot_pos in Z as (i & Hi & X). destruct (share s c i) eqn:Es; cbn in X; try congruence.
    + exfalso. apply C2 in Es. lia.
    + apply (q_step s i). apply (i_q s I) in Es. intros Y. rewrite Y in Es. destruct Es.
    + apply (lp_step s i). apply (i_lp s I) in Es. congruence.
    + exists (LFBegin c i). cbn. rewrite Es. eauto.
    + exists (LFEnd c i). cbn. rewrite Es. eauto.
Qed.

(** ** Termination *)
Definition wst (x : stage) : nat := match x with NotYet => 9 | Queued => 7 | Run => 4 | Spawned => 2 | FRun => 1 | Done => 0 end.
Definition wlp (x : loop) : nat := match x with Idle => 0 | InBatch => 1 | Running _ => 2 end.
Definition wcall (x : call) : nat := match x with Returned => 0 | _ => 1 end.
Definition wd (s : st) (c : nat) : nat :=
  match calls s c with
  | Disp i First => 4
  | Disp i Prep => 3
  | Disp i (Again e) => if Nat.eqb e (epoch s i) then 2 else 5
  | Disp i (Sleep e) => if Nat.eqb e (epoch s i) then 1 else 4
  | _ => 0
  end.
Definition dsum (f : nat -> nat -> stage) (m : nat) : nat := tot (fun c => tot (fun i => wst (f c i)) n) m.
Definition M1 (s : st) : nat := dsum (share s) (nextc s) + tot (fun i => wlp (lp s i)) n + tot (fun c => wcall (calls s c)) (nextc s).
Definition M2 (s : st) : nat := tot (wd s) (nextc s).
Definition mes (s : st) : nat := M1 s * (5 * nextc s + 1) + M2 s.
Lemma dsum_chg f c i y m : c < m -> i < n -> dsum (set2 f c i y) m + wst (f c i) = dsum f m + wst y.
Proof.
  intros Lc Li. unfold dsum.
  pose proof (tot_chg (fun d => tot (fun j => wst (set2 f c i y d j)) n) (fun d => tot (fun j => wst (f d j)) n) c m Lc) as A.
  specialize (A ltac:(intros d Nd; apply tot_ext; intros j _; rewrite set2_neq by auto; reflexivity)). cbn beta in A.
  pose proof (tot_chg (fun j => wst (set2 f c i y c j)) (fun j => wst (f c j)) i n Li) as B.
  specialize (B ltac:(intros j Nj; cbn beta; rewrite set2_neq by auto; reflexivity)). cbn beta in B. rewrite set2_eq in B. lia.
Qed.
Lemma lsum_chg f i x : i < n -> tot (fun j => wlp (upd f i x j)) n + wlp (f i) = tot (fun j => wlp (f j)) n + wlp x.
Proof.
  intros L. pose proof (tot_chg (fun j => wlp (upd f i x j)) (fun j => wlp (f j)) i n L) as A. specialize (A ltac:(intros j Nj; cbn beta; rewrite upd_neq by auto; reflexivity)). cbn beta in A. rewrite upd_eq in A. lia.
Qed.
Lemma csum_chg f c x m : c < m -> tot (fun j => wcall (upd f c x j)) m + wcall (f c) = tot (fun j => wcall (f j)) m + wcall x.
Proof.
  intros L. pose proof (tot_chg (fun j => wcall (upd f c x j)) (fun j => wcall (f j)) c m L) as A. specialize (A ltac:(intros j Nj; cbn beta; rewrite upd_neq by auto; reflexivity)). cbn beta in A. rewrite upd_eq in A. lia.
Qed.
Lemma M2_le s : M2 s <= 5 * nextc s.
Proof.
  unfold M2. assert (H : forall m, tot (wd s) m <= 5 * m); [|apply H]. induction m as [|m IH]; cbn [tot]; [lia|].
  assert (wd s m <= 5); [|lia]. unfold wd. destruct (calls s m) as [|i [| |e|e]| |]; try lia; destruct (Nat.eqb _ _); lia.
Qed.
Lemma mes_1 s s' : nextc s' = nextc s -> M1 s' < M1 s -> mes s' < mes s.
Proof. intros E H. unfold mes. rewrite E. pose proof (M2_le s') as L. rewrite E in L. nia. Qed.
Lemma mes_2 s s' : nextc s' = nextc s -> M1 s' = M1 s -> M2 s' < M2 s -> mes s' < mes s.
Proof. intros E H K. unfold mes. rewrite E, H. lia. Qed.
Lemma M2_chg s s' c : nextc s' = nextc s -> epoch s' = epoch s -> (forall d, d <> c -> calls s' d = calls s d) -> c < nextc s -> wd s' c < wd s c -> M2 s' < M2 s.
Proof.
  intros E1 E2 E3 L W. unfold M2. rewrite E1. pose proof (tot_chg (wd s') (wd s) c (nextc s) L) as A. specialize (A ltac:(intros d Nd; unfold wd; rewrite E2, E3 by exact Nd; reflexivity)). lia.
Qed.
Lemma call_lt s c i d : inv s -> calls s c = Disp i d -> c < nextc s /\ i < n /\ share s c i = NotYet.
Proof. intros I E. pose proof (i_call s I c) as K. unfold okcall in K. rewrite E in K. destruct K as (A & B & C). repeat split; auto. apply C. lia. Qed.
Lemma enqueue_mes s c i d fd : inv s -> calls s c = Disp i d -> (forall s', epoch s' = epoch s -> calls s' c = Disp i fd -> wd s' c < wd s c) -> mes (enqueue n cap c i (Disp i fd) s) < mes s.
Proof.
  intros I E W. destruct (call_lt s c i d I E) as (L1 & L2 & L3). unfold enqueue. destruct (Nat.ltb (length (q s i)) cap).
  - apply mes_1; [reflexivity|]. unfold M1. cbn [calls nextc lp share]. pose proof (dsum_chg (share s) c i Queued (nextc s) L1 L2) as A. rewrite L3 in A. cbn [wst] in A.
    pose proof (csum_chg (calls s) c (after n i) (nextc s) L1) as B. rewrite E in B. assert (wcall (after n i) = 1) by (unfold after; destruct (Nat.ltb (S i) n); reflexivity). cbn [wcall] in B. lia.
  - apply mes_2; [reflexivity| |].
    + unfold M1. cbn [calls nextc lp share]. pose proof (csum_chg (calls s) c (Disp i fd) (nextc s) L1) as B. rewrite E in B. cbn [wcall] in B. lia.
    + apply (M2_chg _ _ c); auto; [intros d' Nd; cbn; now apply upd_neq|]. apply W; [reflexivity|]. cbn. apply upd_eq.
Qed.
Lemma setcall_mes s c i d fd : inv s -> calls s c = Disp i d -> (forall s', epoch s' = epoch s -> calls s' c = Disp i fd -> wd s' c < wd s c) -> mes (setcall c (Disp i fd) s) < mes s.
Proof.
  intros I E W. destruct (call_lt s c i d I E) as (L1 & L2 & L3). apply mes_2; [reflexivity| |].
  + unfold M1. cbn [setcall calls nextc lp share]. pose proof (csum_chg (calls s) c (Disp i fd) (nextc s) L1) as B. rewrite E in B. cbn [wcall] in B. lia.
  + apply (M2_chg _ _ c); auto; [intros d' Nd; cbn; now apply upd_neq|]. apply W; [reflexivity|]. cbn. apply upd_eq.
Qed.
Lemma lp_lt s i : inv s -> lp s i <> Idle -> lp s i <> InBatch -> i < n.
Proof. intros I A B. destruct (lp s i) as [|c|] eqn:E; try congruence. apply (i_lp s I) in E. destruct (share_lt s c i I); [congruence|assumption]. Qed.
(** Batches are for proactors that exist. *)
Definition lp_ok (s : st) : Prop := forall i, n <= i -> lp s i = Idle.
Lemma step_lp s l s' : inv s -> lp_ok s -> step n cap s l = Next s' -> lp_ok s'.
Proof.
  intros I K E. destruct l as [b|c|i|i|i|c i|c i|c]; cbn [step] in E.
  - injection E as <-. exact K.
  - destruct (calls s c) as [|i [| |e|e]| |]; try discriminate; try (injection E as <-); try exact K; try (unfold enqueue; destruct (Nat.ltb _ _); exact K).
    destruct (Nat.eqb e (epoch s i)); [discriminate|]. injection E as <-. exact K.
  - destruct (q s i) as [|c t] eqn:Q; [discriminate|]. assert (L : i < n) by (apply (share_lt s c i I); assert (share s c i = Queued) by (apply (i_q s I); rewrite Q; now left); congruence).
    destruct (lp s i); try discriminate; injection E as <-; intros j Hj; cbn; rewrite upd_neq by lia; auto.
  - destruct (lp s i) as [|c|] eqn:El; try discriminate. assert (L : i < n) by (destruct (Nat.lt_ge_cases i n) as [|G]; [assumption|]; rewrite (K i G) in El; discriminate).
    destruct (brief s c); injection E as <-; intros j Hj; cbn; rewrite upd_neq by lia; auto.
  - destruct (lp s i) as [|c|] eqn:El; try discriminate. injection E as <-. intros j Hj. cbn. unfold upd. destruct (Nat.eqb j i); auto.
  - destruct (share s c i); try discriminate. injection E as <-. exact K.
  - destruct (share s c i); try discriminate. injection E as <-. exact K.
  - destruct (calls s c); try discriminate. destruct (Nat.eqb _ _); [|discriminate]. injection E as <-. exact K.
Qed.
Lemma step_mes s l s' : inv s -> lp_ok s -> is_call l = false -> step n cap s l = Next s' -> mes s' < mes s.
Proof.
  intros I K C E. destruct l as [b|c|i|i|i|c i|c i|c]; cbn [step] in E; [discriminate| | | | | | |].
  - destruct (calls s c) as [|i d| |] eqn:Ec; try discriminate. destruct d as [| |e|e].
    + injection E as <-. apply (enqueue_mes s c i First Prep I Ec). intros s1 E1 E2. unfold wd. rewrite E2, Ec. lia.
    + injection E as <-. apply (setcall_mes s c i Prep (Again (epoch s i)) I Ec). intros s1 E1 E2. unfold wd. rewrite E2, Ec, E1, Nat.eqb_refl. lia.
    + injection E as <-. apply (enqueue_mes s c i (Again e) (Sleep e) I Ec). intros s1 E1 E2. unfold wd. rewrite E2, Ec, E1. destruct (Nat.eqb e (epoch s i)); lia.
    + destruct (Nat.eqb e (epoch s i)) eqn:Ee; [discriminate|]. injection E as <-. apply (setcall_mes s c i (Sleep e) Prep I Ec). intros s1 E1 E2. unfold wd. rewrite E2, Ec, Ee. lia.
  - destruct (q s i) as [|c t] eqn:Q; [discriminate|]. assert (Sq : share s c i = Queued) by (apply (i_q s I); rewrite Q; now left).
    assert (Sn : share s c i <> NotYet) by congruence. destruct (share_lt s c i I Sn) as (Li & Lc & _).
    pose proof (dsum_chg (share s) c i Run (nextc s) Lc Li) as A. rewrite Sq in A. cbn [wst] in A. pose proof (lsum_chg (lp s) i (Running c) Li) as B.
    destruct (lp s i) eqn:El; try discriminate; injection E as <-; (apply mes_1; [reflexivity|]); unfold M1; cbn [calls nextc lp share]; cbn [wlp] in B; lia.
  - destruct (lp s i) as [|c|] eqn:El; try discriminate. assert (Sr : share s c i = Run) by (now apply (i_lp s I)). assert (Sn : share s c i <> NotYet) by congruence. destruct (share_lt s c i I Sn) as (Li & Lc & _).
    pose proof (lsum_chg (lp s) i InBatch Li) as B. rewrite El in B. cbn [wlp] in B.
    destruct (brief s c); injection E as <-; (apply mes_1; [reflexivity|]); unfold M1; cbn [calls nextc lp share].
    + pose proof (dsum_chg (share s) c i Done (nextc s) Lc Li) as A. rewrite Sr in A. cbn [wst] in A. lia.
    + pose proof (dsum_chg (share s) c i Spawned (nextc s) Lc Li) as A. rewrite Sr in A. cbn [wst] in A. lia.
  - destruct (lp s i) as [|c|] eqn:El; try discriminate. injection E as <-. assert (Li : i < n) by (destruct (Nat.lt_ge_cases i n) as [|G]; [assumption|]; rewrite (K i G) in El; discriminate).
    apply mes_1; [reflexivity|]. unfold M1. cbn [calls nextc lp share]. pose proof (lsum_chg (lp s) i Idle Li) as B. rewrite El in B. cbn [wlp] in B. lia.
  - destruct (share s c i) eqn:Es; try discriminate. injection E as <-. assert (Sn : share s c i <> NotYet) by congruence. destruct (share_lt s c i I Sn) as (Li & Lc & _).
    apply mes_1; [reflexivity|]. unfold M1. cbn [calls nextc lp share]. pose proof (dsum_chg (share s) c i FRun (nextc s) Lc Li) as A. rewrite Es in A. cbn [wst] in A. lia.
  - destruct (share s c i) eqn:Es; try discriminate. injection E as <-. assert (Sn : share s c i <> NotYet) by congruence. destruct (share_lt s c i I Sn) as (Li & Lc & _).
    apply mes_1; [reflexivity|]. unfold M1. cbn [calls nextc lp share]. pose proof (dsum_chg (share s) c i Done (nextc s) Lc Li) as A. rewrite Es in A. cbn [wst] in A. lia.
  - destruct (calls s c) eqn:Ec; try discriminate. destruct (Nat.eqb _ _); [|discriminate]. injection E as <-. pose proof (i_call s I c) as Kc. unfold okcall in Kc. rewrite Ec in Kc. destruct Kc as (L & _).
    apply mes_1; [reflexivity|]. unfold M1. cbn [calls nextc lp share]. pose proof (csum_chg (calls s) c Returned (nextc s) L) as B. rewrite Ec in B. cbn [wcall] in B. lia.
Qed.
Lemma exec_mes ls : forall s s', inv s -> lp_ok s -> forallb (fun l => negb (is_call l)) ls = true -> exec (step n cap) s ls = Next s' -> length ls <= mes s.
Proof.
  induction ls as [|l ls IH]; intros s s' I K F E; cbn in *; [lia|]. apply andb_true_iff in F as [F1 F2]. destruct (step n cap s l) as [| |s1] eqn:E1; try discriminate.
  apply negb_true_iff in F1. pose proof (step_mes s l s1 I K F1 E1). specialize (IH s1 s' (step_inv s l s1 I E1) (step_lp s l s1 I K E1) F2 E). lia.
Qed.
Lemma reach_lp s : reachable (step n cap) init s -> inv s /\ lp_ok s.
Proof.
  apply (reach_inv (step n cap) (fun s => inv s /\ lp_ok s) init); [|split; [apply init_inv|intros i _; reflexivity]].
  intros s0 l [I K]. pose proof (no_ub s0 l). destruct (step n cap s0 l) eqn:E; auto. split; [eapply step_inv; eauto|eapply step_lp; eauto].
Qed.
Lemma pool_terminates_pf s : reachable (step n cap) init s ->
  exists N, forall ls s', forallb (fun l => negb (is_call l)) ls = true -> exec (step n cap) s ls = Next s' -> length ls <= N.
Proof. intros R. destruct (reach_lp s R) as [I K]. exists (mes s). intros ls s' F E. exact (exec_mes ls s s' I K F E). Qed.
End S.
