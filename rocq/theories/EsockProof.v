(** Proofs about EsockModel. *)
From Verif Require Import Util Conc EsockModel EsockSpec.
Open Scope N_scope.

Definition parked (w : bool) (x : fiber) : Prop := match x with Parked c _ => is_write c = w | _ => False end.
Definition okcall (c : call) : Prop := match c with CRecv n => 0 < n | CWrite bs => bs <> [] | CAccept => True end.
Definition okfib (rst : bool) (x : fiber) : Prop :=
  match x with
  | Idle => True
  | Parked c _ => okcall c
  | Ready c ec _ => okcall c /\ match ec with Some e => e = Aborted /\ rst = true | None => True end
  end.
Definition quiet_in (s : st) : Prop := kin s = [] /\ kfin s = false /\ krst s = false.
Definition quiet_out (s : st) : Prop := kroom s = 0 /\ krst s = false.

Record core (s : st) : Prop := {
  i_r : forall f, calling false (fib s f) -> rslot s = PReq f;
  i_w : forall f, calling true (fib s f) -> wslot s = PReq f;
  i_rs : match rslot s with Null => rhook s = false | PReq f => rhook s = false /\ calling false (fib s f)
         | PHook => rhook s = true | PAsync _ _ => False end;
  i_ws : match wslot s with Null => awp s = false | PReq f => awp s = false /\ brief s = [] /\ calling true (fib s f)
         | PAsync _ bs => awp s = true /\ brief s = [] /\ bs <> [] | PHook => False end;
  i_f : forall f, okfib (krst s) (fib s f);
  i_kshut : krd s || kwr s = true -> is_shut (fd s) = true;
  i_arm : armed s = (0 <=? fd s)%Z;
  i_ep : ep s = true -> armed s = true;
  i_err : kerr s = true -> krst s = true;
  i_fd : (fd s < 0)%Z -> fd s = (-1)%Z /\ awp s = false /\ rhook s = false
}.
(** Nobody waits without reason. *)
Record awake (s : st) : Prop := {
  i_pr : forall f, parked false (fib s f) -> quiet_in s \/ ep s = true;
  i_pw : forall f, parked true (fib s f) -> quiet_out s \/ ep s = true;
  i_aw : awp s = true -> (quiet_out s /\ kwr s = false) \/ ep s = true;
  i_shut : is_shut (fd s) = true -> forall f c t, fib s f <> Parked c t
}.
(** Nothing is lost. *)
Record data (s : st) : Prop := {
  i_rx : karr s = got (hist s) ++ kin s;
  i_tx : kout s = sent (hist s) ++ sent_brief (brief s);
  i_cb : forall id, starts id (hist s) = (cbs id (hist s) + waiting id s)%nat
}.

Lemma got_app a b : got (a ++ b) = got a ++ got b. Proof. unfold got. now rewrite flat_map_app. Qed.
Lemma sent_app a b : sent (a ++ b) = sent a ++ sent b. Proof. unfold sent. now rewrite flat_map_app. Qed.
Lemma starts_app i a b : starts i (a ++ b) = (starts i a + starts i b)%nat.
Proof. unfold starts. now rewrite filter_app, app_length. Qed.
Lemma cbs_app i a b : cbs i (a ++ b) = (cbs i a + cbs i b)%nat.
Proof. unfold cbs. now rewrite filter_app, app_length. Qed.

Lemma mkfd_shut n : is_shut (mkfd n) = false.
Proof. unfold is_shut, mkfd. rewrite Z.shiftl_spec by lia. now rewrite Z.testbit_neg_r by lia. Qed.
Lemma lor1_shut z : is_shut (Z.lor z 1) = true.
Proof. unfold is_shut. rewrite Z.lor_spec. cbn. apply orb_true_r. Qed.
Lemma lor1_neg z : (0 <=? Z.lor z 1)%Z = (0 <=? z)%Z.
Proof.
  destruct (Z.leb_spec 0 z); destruct (Z.leb_spec 0 (Z.lor z 1)); auto; exfalso.
  - assert (0 <= Z.lor z 1)%Z by (apply Z.lor_nonneg; lia). lia.
  - apply Z.lor_nonneg in H0. lia.
Qed.

Lemma init_core n room : (0 <= n)%Z -> core (init n room) /\ awake (init n room) /\ data (init n room).
Proof.
  intros Hn. split; [|split]; constructor; cbn -[mkfd is_shut]; intros; try discriminate; try tauto; try contradiction; auto.
  - unfold mkfd. symmetry. apply Z.leb_le. apply Z.shiftl_nonneg. lia.
  - exfalso. assert (0 <= mkfd n)%Z by (unfold mkfd; apply Z.shiftl_nonneg; lia). lia.
Qed.

Definition slot (c : call) (s : st) : ptr := if is_write c then wslot s else rslot s.

Lemma got1_app f c r h : got (h ++ [Ret f c r]) = got h ++ got1 r.
Proof. rewrite got_app. cbn. now rewrite app_nil_r. Qed.

(** What the system calls do. *)
Inductive recv_spec (n : N) (s : st) : res -> st -> Prop :=
| rs_data b t : kin s = b ++ t -> b <> [] -> len b <= n -> recv_spec n s (Got b) (w_kin t s)
| rs_eof : kin s = [] -> kfin s = true \/ krst s = true \/ krd s = true -> recv_spec n s (Got []) s
| rs_err : kin s = [] -> kerr s = true -> recv_spec n s (Fail Reset) (w_kerr false s)
| rs_again : quiet_in s -> krd s = false -> recv_spec n s (Fail Eagain) s.
Lemma recv_ok n k s : 0 < n -> (kerr s = true -> krst s = true) -> recv_spec n s (fst (sys_recv n k s)) (snd (sys_recv n k s)).
Proof.
  intros Hn He. unfold sys_recv. replace (n =? 0) with false by lia. destruct (kin s) as [|x t] eqn:E; cbn [fst snd].
  - destruct (kfin s) eqn:Ef; cbn [fst snd]; [constructor 2; auto|].
    destruct (kerr s) eqn:Ee; cbn [fst snd]; [constructor 3; auto|].
    destruct (krst s) eqn:Er; cbn [fst snd orb]; [constructor 2; auto|].
    destruct (krd s) eqn:Ed; cbn [fst snd]; [constructor 2; auto|]. constructor 4; auto. now repeat split.
  - set (a := N.max 1 (N.min k (N.min n (len (x :: t))))). assert (len (x :: t) >= 1) by (rewrite len_cons; lia).
    assert (La : len (take a (x :: t)) = a) by (rewrite len_take; lia).
    constructor 1.
    + now rewrite take_drop.
    + intros Z. rewrite Z in La. change (len (@nil N)) with 0 in La. lia.
    + lia.
Qed.
Inductive accept_spec (s : st) : res -> st -> Prop :=
| as_conn x t : kin s = x :: t -> accept_spec s (Got [x]) (w_kin t s)
| as_err : kin s = [] -> kerr s = true -> accept_spec s (Fail Reset) (w_kerr false s)
| as_inval : kin s = [] -> kfin s = true \/ krst s = true \/ krd s = true -> accept_spec s (Fail Inval) s
| as_again : quiet_in s -> krd s = false -> accept_spec s (Fail Eagain) s.
Lemma accept_ok s : accept_spec s (fst (sys_accept s)) (snd (sys_accept s)).
Proof.
  unfold sys_accept. destruct (kin s) as [|x t] eqn:E; cbn [fst snd]; [|now constructor 1].
  destruct (kerr s) eqn:Ee; cbn [fst snd]; [now constructor 2|].
  destruct (kfin s) eqn:Ef; cbn [fst snd orb]; [constructor 3; auto|].
  destruct (krst s) eqn:Er; cbn [fst snd orb]; [constructor 3; auto|].
  destruct (krd s) eqn:Ed; cbn [fst snd orb]; [constructor 3; auto|]. constructor 4; auto. now repeat split.
Qed.
Inductive send_spec (bs : list N) (s : st) : res -> st -> Prop :=
| ss_err : kerr s = true -> send_spec bs s (Fail Reset) (w_kerr false s)
| ss_pipe : kwr s = true \/ krst s = true -> send_spec bs s (Fail Pipe) s
| ss_again : quiet_out s -> kwr s = false -> send_spec bs s (Fail Eagain) s
| ss_sent a : 0 < a <= len bs -> a <= kroom s -> krst s = false -> kwr s = false ->
    send_spec bs s (Sent a) (w_kroom (kroom s - a) (w_kout (kout s ++ take a bs) s)).
Lemma send_ok bs k s : bs <> [] -> send_spec bs s (fst (sys_send bs k s)) (snd (sys_send bs k s)).
Proof.
  intros Hb. assert (0 < len bs) by (destruct bs; [congruence|]; rewrite len_cons; lia). unfold sys_send.
  destruct (kerr s) eqn:E; cbn [fst snd]; [now constructor 1|].
  destruct (kwr s) eqn:Ew; cbn [fst snd orb]; [constructor 2; auto|].
  destruct (krst s) eqn:Er; cbn [fst snd orb]; [constructor 2; auto|].
  replace (len bs =? 0) with false by lia. destruct (N.eqb_spec (kroom s) 0); cbn [fst snd].
  - constructor 3; auto. now split.
  - constructor 4; auto; lia.
Qed.

Ltac same H := destruct H; constructor; assumption.
Lemma core_log e s : core s -> core (log e s). Proof. intros H. same H. Qed.
Lemma core_rnotif b s : core s -> core (w_rnotif b s). Proof. intros H. same H. Qed.
Lemma core_errcb b s : core s -> core (w_errcb b s). Proof. intros H. same H. Qed.
Lemma core_tmo b s : core s -> core (w_tmo b s). Proof. intros H. same H. Qed.
Lemma core_kin l s : core s -> core (w_kin l s). Proof. intros H. same H. Qed.
Lemma core_karr l s : core s -> core (w_karr l s). Proof. intros H. same H. Qed.
Lemma core_kfin l s : core s -> core (w_kfin l s). Proof. intros H. same H. Qed.
Lemma core_kroom l s : core s -> core (w_kroom l s). Proof. intros H. same H. Qed.
Lemma core_kout l s : core s -> core (w_kout l s). Proof. intros H. same H. Qed.
Lemma core_kerr s : core s -> core (w_kerr false s).
Proof. intros H. destruct H; constructor; try assumption. cbn. discriminate. Qed.
Lemma core_ep s : core s -> core (w_ep (armed s) s).
Proof. intros H. destruct H; constructor; try assumption. cbn. auto. Qed.
Lemma core_ep0 s : core s -> core (w_ep false s).
Proof. intros H. destruct H; constructor; try assumption. cbn. discriminate. Qed.
Lemma okfib_rst x b : okfib b x -> okfib true x.
Proof. destruct x as [|c t|c [e|] t]; cbn; tauto. Qed.
Lemma core_rst s : core s -> core (w_krst true (w_kerr true s)).
Proof. intros H. destruct H; constructor; try assumption; cbn; auto. intros f. eapply okfib_rst; eauto. Qed.

Ltac fcase f g := unfold upd; destruct (Nat.eqb_spec g f); subst.

Lemma core_ready f c t ec tm s : core s -> fib s f = Parked c t ->
  match ec with Some e => e = Aborted /\ krst s = true | None => True end ->
  core (w_fib f (Ready c ec tm) s).
Proof.
  intros H Hf He. destruct H as [Hr Hw Hrs Hws Hok Hk Ha He1 He2 Hfd]. constructor; try assumption; cbn [fib rslot wslot krst w_fib rhook awp brief].
  - intros g. fcase f g; auto. intros X. apply Hr. rewrite Hf. exact X.
  - intros g. fcase f g; auto. intros X. apply Hw. rewrite Hf. exact X.
  - destruct (rslot s) as [|g| |] eqn:E; auto. destruct Hrs as [H1 H2]. split; auto. fcase f g; auto. rewrite Hf in H2. exact H2.
  - destruct (wslot s) as [|g| |] eqn:E; auto. destruct Hws as [H1 [H2 H3]]. repeat split; auto. fcase f g; auto. rewrite Hf in H3. exact H3.
  - intros g. specialize (Hok g). fcase f g; auto. rewrite Hf in Hok. cbn. auto.
Qed.
Lemma core_idle f c ec tm s : core s -> fib s f = Ready c ec tm -> core (w_fib f Idle (w_slot c Null s)) /\ slot c s = PReq f.
Proof.
  intros H Hf. destruct H as [Hr Hw Hrs Hws Hok Hk Ha He1 He2 Hfd].
  assert (Sl : slot c s = PReq f).
  { unfold slot. destruct (is_write c) eqn:E; [apply Hw|apply Hr]; rewrite Hf; exact E. }
  split; auto. unfold slot, w_slot in *. destruct (is_write c) eqn:Ew.
  - rewrite Sl in Hws. destruct Hws as [H1 [H2 H3]].
    constructor; cbn [fib rslot wslot krst w_fib w_wslot rhook awp brief armed fd krd kwr ep kerr]; try assumption.
    + intros g. fcase f g; cbn; auto; try tauto.
    + intros g. fcase f g; cbn; [tauto|]. intros X. apply Hw in X. congruence.
    + destruct (rslot s) as [|g| |] eqn:E; auto. destruct Hrs as [A B]. split; auto. fcase f g; auto.
      rewrite Hf in B. cbn in B. congruence.
    + intros g. specialize (Hok g). fcase f g; cbn; auto.
  - rewrite Sl in Hrs. destruct Hrs as [H1 H2].
    constructor; cbn [fib rslot wslot krst w_fib w_rslot rhook awp brief armed fd krd kwr ep kerr]; try assumption.
    + intros g. fcase f g; cbn; [tauto|]. intros X. apply Hr in X. congruence.
    + intros g. fcase f g; cbn; auto; try tauto.
    + destruct (wslot s) as [|g| |] eqn:E; auto. destruct Hws as [A [B C]]. repeat split; auto. fcase f g; auto.
      rewrite Hf in C. cbn in C. congruence.
    + intros g. specialize (Hok g). fcase f g; cbn; auto.
Qed.
Lemma core_park f c t s : core s -> fib s f = Idle -> slot c s = Null -> okcall c -> (is_write c = true -> brief s = []) ->
  core (w_fib f (Parked c t) (w_slot c (PReq f) s)).
Proof.
  intros H Hf Sl Ok Br. destruct H as [Hr Hw Hrs Hws Hok Hk Ha He1 He2 Hfd]. unfold slot, w_slot in *. destruct (is_write c) eqn:Ew.
  - rewrite Sl in Hws.
    constructor; cbn [fib rslot wslot krst w_fib w_wslot rhook awp brief armed fd krd kwr ep kerr]; try assumption.
    + intros g. fcase f g; cbn; auto. congruence.
    + intros g. fcase f g; cbn; auto. intros X. apply Hw in X. congruence.
    + destruct (rslot s) as [|g| |] eqn:E; auto. destruct Hrs as [A B]. split; auto. fcase f g; auto. rewrite Hf in B. destruct B.
    + repeat split; auto. rewrite upd_eq. exact Ew.
    + intros g. specialize (Hok g). fcase f g; cbn; auto.
  - rewrite Sl in Hrs.
    constructor; cbn [fib rslot wslot krst w_fib w_rslot rhook awp brief armed fd krd kwr ep kerr]; try assumption.
    + intros g. fcase f g; cbn; auto. intros X. apply Hr in X. congruence.
    + intros g. fcase f g; cbn; auto. congruence.
    + repeat split; auto. rewrite upd_eq. exact Ew.
    + destruct (wslot s) as [|g| |] eqn:E; auto. destruct Hws as [A [B C]]. repeat split; auto. fcase f g; auto. rewrite Hf in C. destruct C.
    + intros g. specialize (Hok g). fcase f g; cbn; auto.
Qed.

Record kept (s s' : st) : Prop := {
  k_kin : kin s' = kin s; k_kfin : kfin s' = kfin s; k_krst : krst s' = krst s; k_krd : krd s' = krd s; k_kwr : kwr s' = kwr s;
  k_karr : karr s' = karr s; k_ep : ep s' = ep s; k_armed : armed s' = armed s; k_fd : fd s' = fd s; k_rhook : rhook s' = rhook s;
  k_rslot : rslot s' = rslot s; k_brief : brief s' = brief s; k_tmo : tmo s' = tmo s
}.
Lemma kept_refl s : kept s s. Proof. constructor; reflexivity. Qed.
Lemma kept_trans a b c : kept a b -> kept b c -> kept a c.
Proof. intros [] []. constructor; congruence. Qed.
Record kept_w (s s' : st) : Prop := {
  k_kroom : kroom s' = kroom s; k_kout : kout s' = kout s; k_kerr : kerr s' = kerr s; k_wslot : wslot s' = wslot s; k_awp : awp s' = awp s }.
Lemma kept_w_refl s : kept_w s s. Proof. constructor; reflexivity. Qed.
Definition fewer (s s' : st) : Prop := forall f,
  fib s' f = fib s f \/ exists c t ec, fib s f = Parked c t /\ fib s' f = Ready c ec false.
Lemma fewer_refl s : fewer s s. Proof. intros f; auto. Qed.
Lemma fewer_trans a b c : fewer a b -> fewer b c -> fewer a c.
Proof.
  intros H1 H2 f. destruct (H1 f) as [E|[x [t [ec [E1 E2]]]]]; destruct (H2 f) as [F|[y [u [ed [F1 F2]]]]].
  - left; congruence.
  - right. exists y, u, ed. split; congruence.
  - right. exists x, t, ec. split; congruence.
  - congruence.
Qed.
Lemma fewer_parked s s' f w : fewer s s' -> parked w (fib s' f) -> parked w (fib s f).
Proof. intros H. destruct (H f) as [->|[c [t [ec [E ->]]]]]; cbn; tauto. Qed.

(** An error is reported only after a reset, or when nobody waits. *)
Definition errs (m : mask) (s : st) : Prop := me m || mh m = true -> krst s = true \/ forall f c t, fib s f <> Parked c t.

Lemma wake_sync_ok (w : bool) m s :
  core s -> errs m s -> (if w then awp s = false else rhook s = false) ->
  exists s', wake_sync (if w then wslot s else rslot s) m s = Next s' /\ core s' /\ kept s s' /\ kept_w s s' /\ fewer s s'
    /\ hist s' = hist s /\ errcb s' = errcb s /\ (forall f, ~ parked w (fib s' f)).
Proof.
  intros C He Hh.
  assert (Other : (forall f, ~ parked w (fib s f)) -> exists s', Next (if mi m then w_rnotif true s else s) = Next s' /\ core s' /\ kept s s' /\ kept_w s s' /\ fewer s s'
    /\ hist s' = hist s /\ errcb s' = errcb s /\ (forall f, ~ parked w (fib s' f))).
  { intros Np. eexists. split; [reflexivity|]. destruct (mi m).
    - split; [now apply core_rnotif|]. split; [constructor; reflexivity|]. split; [constructor; reflexivity|]. split; [intros f; left; reflexivity|]. auto.
    - split; [auto|]. split; [apply kept_refl|]. split; [apply kept_w_refl|]. split; [apply fewer_refl|]. auto. }
  assert (Pk : forall f, parked w (fib s f) -> (if w then wslot s else rslot s) = PReq f).
  { intros f Hf. destruct w.
    - apply (i_w s C). destruct (fib s f); cbn in *; auto; tauto.
    - apply (i_r s C). destruct (fib s f); cbn in *; auto; tauto. }
  unfold wake_sync. destruct (if w then wslot s else rslot s) as [|f|id bs|] eqn:E.
  - apply Other. intros f Hf. apply Pk in Hf. discriminate.
  - unfold suspended. destruct (fib s f) as [|c t|c ec t] eqn:Ef.
    + apply Other. intros g Hg. assert (Hg2 := Pk g Hg). injection Hg2 as <-. now rewrite Ef in Hg.
    + eexists. split; [reflexivity|]. unfold activate. cbn [fib w_rnotif]. rewrite Ef.
      split. { eapply core_ready; [now apply core_rnotif|exact Ef|]. cbn. destruct (me m || mh m) eqn:Em; auto. split; auto. destruct (He Em) as [X|X]; auto. destruct (X f c t Ef). }
      split; [constructor; reflexivity|]. split; [constructor; reflexivity|].
      split. { intros g. cbn. fcase f g; auto. right. eauto. }
      split; [reflexivity|]. split; [reflexivity|].
      intros g. cbn. fcase f g; cbn; auto. intros Hg. assert (Hg2 := Pk g Hg). congruence.
    + apply Other. intros g Hg. assert (Hg2 := Pk g Hg). injection Hg2 as <-. now rewrite Ef in Hg.
  - exfalso. destruct w.
    + pose proof (i_ws s C) as X. rewrite E in X. destruct X. congruence.
    + pose proof (i_rs s C) as X. rewrite E in X. exact X.
  - exfalso. destruct w.
    + pose proof (i_ws s C) as X. rewrite E in X. exact X.
    + pose proof (i_rs s C) as X. rewrite E in X. congruence.
Qed.

Definition note (l : list ev) : Prop := l = [] \/ exists b, l = [Notify b].
Lemma handle_in_ok m s : core s -> errs m s ->
  exists s' l, handle_in m s = Next s' /\ core s' /\ kept s s' /\ kept_w s s' /\ fewer s s'
    /\ hist s' = hist s ++ l /\ note l /\ errcb s' = errcb s
    /\ (mi m || merr m = true -> forall f, ~ parked false (fib s' f))
    /\ (l = if (mi m || merr m) && rhook s then [Notify (negb (negb (me m) && mh m))] else []).
Proof.
  intros C He. unfold handle_in. destruct (mi m || merr m) eqn:Em; cbn [negb andb].
  - destruct (rhook s) eqn:Eh.
    + pose proof (i_rs s C) as X. destruct (rslot s) as [|g| |] eqn:Er; try contradiction; try congruence; try (destruct X; congruence).
      eexists. eexists. split; [reflexivity|]. split; [now apply core_log, core_rnotif|].
      split; [constructor; reflexivity|]. split; [constructor; reflexivity|]. split; [intros f; left; reflexivity|].
      split; [reflexivity|]. split; [right; eauto|]. split; [reflexivity|]. split; [|reflexivity].
      intros _ f Hf. assert (Y : rslot s = PReq f) by (apply (i_r s C); cbn in Hf; destruct (fib s f); cbn in *; tauto). congruence.
    + destruct (wake_sync_ok false m s C He Eh) as [s' [E [C' [K [KW [F [H1 [H2 P]]]]]]]].
      exists s', []. rewrite app_nil_r. repeat (split; auto). left; auto.
  - exists s, []. rewrite app_nil_r. split; auto. split; auto. split; [apply kept_refl|]. split; [apply kept_w_refl|]. split; [apply fewer_refl|].
    repeat (split; auto); [left; auto|discriminate].
Qed.

Definition called (s s' : st) : Prop := exists id bs r, wslot s = PAsync id bs /\ wslot s' = Null /\ awp s' = false
    /\ hist s' = hist s ++ [Cb id bs r] /\ kout s' = kout s ++ sent1 bs r.
Lemma handle_out_ok m k s : core s -> errs m s ->
  exists s', handle_out m k s = Next s' /\ core s' /\ kept s s' /\ fewer s s' /\ errcb s' = errcb s
    /\ (mo m || merr m = true -> (forall f, ~ parked true (fib s' f)) /\ (awp s' = true -> quiet_out s' /\ kwr s' = false))
    /\ ((kept_w s s' /\ hist s' = hist s) \/ called s s').
Proof.
  intros C He. unfold handle_out. destruct (mo m || merr m) eqn:Em; cbn [negb].
  - destruct (awp s) eqn:Ea.
    + pose proof (i_ws s C) as X. destruct (wslot s) as [|g|id bs|] eqn:Ew; try contradiction; try congruence; try (destruct X; congruence).
      assert (Np : forall f, ~ parked true (fib s f)).
      { intros f Hf. assert (Y : wslot s = PReq f) by (apply (i_w s C); destruct (fib s f); cbn in *; tauto). congruence. }
      destruct X as [X1 [X2 X3]]. pose proof (send_ok bs k s X3) as S.
      destruct (sys_send bs k s) as [r s1]; cbn [fst snd] in S. remember bs as bs0 eqn:Eb.
      assert (Fin : forall r s1, core s1 -> kept s s1 -> wslot s1 = PAsync id bs -> kout s1 = kout s ++ sent1 bs r -> hist s1 = hist s -> errcb s1 = errcb s ->
         (forall f, fib s1 f = fib s f) ->
         exists s', Next (log (Cb id bs r) (w_awp false (w_wslot Null s1))) = Next s' /\ core s' /\ kept s s' /\ fewer s s' /\ errcb s' = errcb s
         /\ (true = true -> (forall f, ~ parked true (fib s' f)) /\ (awp s' = true -> quiet_out s' /\ kwr s' = false))
         /\ ((kept_w s s' /\ hist s' = hist s) \/ called s s')).
      { clear r s1 S. intros r s1 C1 K1 W1 O1 H1 E1 F1. eexists. split; [reflexivity|]. split.
        { apply core_log. destruct C1 as [Hr Hw Hrs Hws Hok Hk Ha He1 He2 Hfd]. rewrite W1 in Hws. destruct Hws as [B1 [B2 B3]].
          constructor; try assumption; cbn.
          - intros f Hf. apply Hw in Hf. congruence.
          - reflexivity.
          - intros Hn. destruct (Hfd Hn) as [? [? ?]]; congruence. }
        split; [destruct K1; constructor; cbn; assumption|]. split; [intros f; left; cbn; auto|]. split; [cbn; auto|].
        split. { intros _. split; [|cbn; discriminate]. intros f. cbn. rewrite F1. apply Np. }
        right. exists id, bs, r. subst bs0. cbn. rewrite H1, O1. repeat split; auto. }
      subst bs0. destruct S as [Z|Z|Z1 Z2|a Z1 Z2 Z3 Z4].
      * apply Fin; try reflexivity; auto. now apply core_kerr. constructor; reflexivity. cbn. now rewrite app_nil_r.
      * apply Fin; try reflexivity; auto. apply kept_refl. cbn. now rewrite app_nil_r.
      * exists s. split; auto. split; auto. split; [apply kept_refl|]. split; [apply fewer_refl|]. split; auto. split.
        { intros _. split; auto. }
        left. split; [apply kept_w_refl|auto].
      * apply Fin; try reflexivity; auto. now apply core_kroom, core_kout. constructor; reflexivity.
    + destruct (wake_sync_ok true m s C He Ea) as [s' [E [C' [K [KW [F [H1 [H2 P]]]]]]]].
      exists s'. split; auto. split; auto. split; auto. split; auto. split; auto. split; [|left; auto].
      intros _. split; auto. rewrite (k_awp _ _ KW). congruence.
  - exists s. split; auto. split; auto. split; [apply kept_refl|]. split; [apply fewer_refl|]. split; auto. split; [discriminate|].
    left. split; [apply kept_w_refl|auto].
Qed.

Lemma note_data l : note l -> got l = [] /\ sent l = [] /\ (forall i, starts i l = 0%nat /\ cbs i l = 0%nat).
Proof. intros [->|[b ->]]; cbn; auto. Qed.
Lemma data_kept s s' l : data s -> kept s s' -> kept_w s s' -> hist s' = hist s ++ l -> got l = [] -> sent l = [] ->
  (forall i, starts i l = 0%nat /\ cbs i l = 0%nat) -> data s'.
Proof.
  intros [D1 D2 D3] K W H G S C. constructor.
  - rewrite H, got_app, G, app_nil_r, (k_karr _ _ K), (k_kin _ _ K). auto.
  - rewrite H, sent_app, S, app_nil_r, (k_kout _ _ W), (k_brief _ _ K). auto.
  - intros i. destruct (C i) as [C1 C2]. rewrite H, starts_app, cbs_app, C1, C2. unfold waiting. rewrite (k_brief _ _ K), (k_wslot _ _ W).
    specialize (D3 i). unfold waiting in D3. lia.
Qed.
Lemma called_data s s' : core s -> data s -> kept s s' -> called s s' -> data s'.
Proof.
  intros C [D1 D2 D3] K [id [bs [r [W [W' [A [H O]]]]]]]. pose proof (i_ws s C) as X. rewrite W in X. destruct X as [_ [B _]]. constructor.
  - rewrite H, got_app, (k_karr _ _ K), (k_kin _ _ K). cbn. rewrite app_nil_r. auto.
  - rewrite H, sent_app, O, (k_brief _ _ K), B, D2, B. cbn. now rewrite !app_nil_r.
  - intros i. rewrite H, starts_app, cbs_app. unfold waiting. rewrite (k_brief _ _ K), W', B. specialize (D3 i). unfold waiting in D3.
    rewrite B, W in D3. unfold starts at 2, cbs at 2. cbn in *. destruct (Nat.eqb id i); cbn; lia.
Qed.

(** What Wakey does. *)
Record woken (m : mask) (s s' : st) : Prop := {
  wk_core : core s'; wk_data : data s -> data s'; wk_kept : kept s s'; wk_fewer : fewer s s';
  wk_in : mi m || merr m = true -> forall f, ~ parked false (fib s' f);
  wk_out : mo m || merr m = true -> (forall f, ~ parked true (fib s' f)) /\ (awp s' = true -> quiet_out s' /\ kwr s' = false);
  wk_aw : awp s' = true -> awp s = true /\ kroom s' = kroom s;
  wk_slot : forall id bs, wslot s = PAsync id bs -> mo m || merr m = true -> ~ quiet_out s ->
     exists l1 l2 r, hist s' = hist s ++ l1 ++ [Cb id bs r] ++ l2;
  wk_room : awp s = false -> kroom s' = kroom s;
  wk_hist : exists l2, hist s' = hist s ++ (if (mi m || merr m) && rhook s then [Notify (negb (negb (me m) && mh m))] else []) ++ l2 ++ (if errcb s && merr m then [ErrCb] else [])
     /\ (l2 = [] \/ exists id bs r, l2 = [Cb id bs r]);
  wk_errcb : errcb s' = errcb s && negb (merr m)
}.
Lemma wakey_ok m k s : core s -> errs m s -> exists s', wakey m k s = Next s' /\ woken m s s'.
Proof.
  intros C He. unfold wakey.
  destruct (handle_in_ok m s C He) as [s1 [l [E1 [C1 [K1 [W1 [F1 [H1 [N1 [R1 [P1 L1]]]]]]]]]]]. rewrite E1.
  assert (He1 : errs m s1).
  { intros Em. rewrite (k_krst _ _ K1). destruct (He Em) as [X|X]; auto. right. intros f c t E. destruct (F1 f) as [Y|[c0 [t0 [e0 [Y1 Y2]]]]]; [|congruence]. rewrite Y in E. exact (X f c t E). }
  destruct (handle_out_ok m k s1 C1 He1) as [s2 [E2 [C2 [K2 [F2 [R2 [P2 X2]]]]]]]. rewrite E2.
  eexists. split; [reflexivity|]. set (s3 := if errcb s2 && merr m then log ErrCb (w_errcb false s2) else s2).
  assert (Qe : errcb s3 = errcb s && negb (merr m) /\ hist s3 = hist s2 ++ (if errcb s && merr m then [ErrCb] else [])).
  { rewrite <- R1, <- R2. unfold s3. destruct (errcb s2) eqn:X1, (merr m) eqn:X2'; cbn; rewrite ?app_nil_r; auto. }
  destruct Qe as [Qe1 Qe2].
  assert (Q : core s3 /\ kept s2 s3 /\ kept_w s2 s3 /\ (forall f, fib s3 f = fib s2 f) /\ exists l3, hist s3 = hist s2 ++ l3 /\ (l3 = [] \/ l3 = [ErrCb])).
  { unfold s3. destruct (errcb s2 && merr m).
    - split; [now apply core_log, core_errcb|]. split; [constructor; reflexivity|]. split; [constructor; reflexivity|]. split; auto. exists [ErrCb]. auto.
    - split; auto. split; [apply kept_refl|]. split; [apply kept_w_refl|]. split; auto. exists []. rewrite app_nil_r. auto. }
  destruct Q as [C3 [K3 [W3 [F3 [l3 [H3 L3]]]]]]. clearbody s3.
  assert (K : kept s s3) by (eapply kept_trans; [exact K1|]; eapply kept_trans; eauto).
  constructor; auto.
  - intros D. destruct (note_data l N1) as [G1 [G2 G3]]. assert (D1 : data s1) by (apply (data_kept s s1 l); auto).
    assert (D2 : data s2). { destruct X2 as [[Y1 Y2]|Y]; [|apply (called_data s1 s2); auto]. apply (data_kept s1 s2 []); auto. now rewrite app_nil_r. }
    apply (data_kept s2 s3 l3); auto; destruct L3 as [->| ->]; cbn; auto; now split.
  - intros f. rewrite F3. apply (fewer_trans s s1 s2 F1 F2).
  - intros Em f. rewrite F3. intros Hf. apply (P1 Em f). eapply fewer_parked; eauto.
  - intros Em. destruct (P2 Em) as [A B]. split.
    + intros f. rewrite F3. auto.
    + rewrite (k_awp _ _ W3). intros Ha. destruct (B Ha) as [[B1 B2] B3]. rewrite (k_kwr _ _ K3). split; auto. split; [rewrite (k_kroom _ _ W3)|rewrite (k_krst _ _ K3)]; auto.
  - rewrite (k_awp _ _ W3). intros Ha. destruct X2 as [[Y1 Y2]|[id [bs [r [_ [_ [Y _]]]]]]]; [|congruence].
    rewrite (k_awp _ _ Y1) in Ha. rewrite (k_awp _ _ W1) in Ha. split; auto.
    now rewrite (k_kroom _ _ W3), (k_kroom _ _ Y1), (k_kroom _ _ W1).
  - intros id bs Ws Em Nq. destruct (P2 Em) as [_ B]. destruct X2 as [[Y1 Y2]|[id' [bs' [r [Y1 [Y2 [Y3 [Y4 Y5]]]]]]]].
    + exfalso. apply Nq. assert (A : awp s2 = true).
      { rewrite (k_awp _ _ Y1), (k_awp _ _ W1). pose proof (i_ws s C) as X. rewrite Ws in X. tauto. }
      destruct (B A) as [[B1 B2] B3]. split; [now rewrite <- B1, (k_kroom _ _ Y1), (k_kroom _ _ W1)|].
      now rewrite <- B2, (k_krst _ _ K2), (k_krst _ _ K1).
    + rewrite (k_wslot _ _ W1), Ws in Y1. injection Y1 as <- <-. exists l, l3, r. now rewrite H3, Y4, H1, <- !app_assoc.
  - intros Ha. destruct X2 as [[Y1 Y2]|[id' [bs' [r [Y1 [Y2 [Y3 [Y4 Y5]]]]]]]].
    + now rewrite (k_kroom _ _ W3), (k_kroom _ _ Y1), (k_kroom _ _ W1).
    + exfalso. pose proof (i_ws s C) as X. rewrite <- (k_wslot _ _ W1), Y1 in X. destruct X. congruence.
  - rewrite Qe2. destruct X2 as [[_ Y2]|[id' [bs' [r [Y1 [Y2 [Y3 [Y4 Y5]]]]]]]].
    + exists []. rewrite Y2, H1, L1, <- app_assoc. auto.
    + exists [Cb id' bs' r]. rewrite Y4, H1, L1, <- !app_assoc. split; auto. right; eauto.
Qed.

Lemma awake_sub s s1 : awake s -> (quiet_in s -> quiet_in s1) -> (quiet_out s -> quiet_out s1) -> kwr s1 = kwr s -> awp s1 = awp s ->
  (ep s = true -> ep s1 = true) -> fib s1 = fib s -> fd s1 = fd s -> awake s1.
Proof.
  intros [A B C D] Qi Qo Kw Aw Ep F Fd. constructor; rewrite ?F, ?Aw, ?Kw, ?Fd; auto.
  - intros f Hf. destruct (A f Hf); auto.
  - intros f Hf. destruct (B f Hf); auto.
  - intros Ha. destruct (C Ha) as [[X Y]|X]; auto.
Qed.

Ltac aw s := apply (awake_sub s); try (let X := fresh in intros X; exact X); try reflexivity; auto.

Record same_sock (s s1 : st) : Prop := {
  q_fib : fib s1 = fib s; q_rslot : rslot s1 = rslot s; q_wslot : wslot s1 = wslot s; q_brief : brief s1 = brief s; q_hist : hist s1 = hist s;
  q_tmo : tmo s1 = tmo s; q_karr : karr s1 = karr s; q_awp : awp s1 = awp s; q_rhook : rhook s1 = rhook s; q_fd : fd s1 = fd s; q_ep : ep s1 = ep s;
  q_armed : armed s1 = armed s; q_kfin : kfin s1 = kfin s; q_krst : krst s1 = krst s; q_krd : krd s1 = krd s; q_kwr : kwr s1 = kwr s;
  q_rnotif : rnotif s1 = rnotif s; q_errcb : errcb s1 = errcb s }.
Definition offered (c : call) (r : res) : list N := match c with CWrite bs => sent1 bs r | _ => [] end.
(** How a call can end. *)
Definition ends (c : call) (r : res) (s : st) : Prop :=
  match r with
  | Got [] => match c with CRecv _ => is_shut (fd s) = true \/ (kin s = [] /\ (kfin s = true \/ krst s = true)) | _ => False end
  | Got b => match c with CRecv n => len b <= n | CAccept => len b = 1 | _ => False end
  | Sent a => match c with CWrite bs => 0 < a <= len bs | _ => False end
  | Fail e => e = Eagain \/ (e = Reset /\ krst s = true) \/ (is_write c = true /\ e = Pipe /\ (is_shut (fd s) = true \/ krst s = true))
              \/ (c = CAccept /\ (e = Aborted /\ is_shut (fd s) = true \/ e = Inval /\ (kfin s = true \/ krst s = true)))
  end.
Record att (c : call) (s : st) (r : res) (s1 : st) : Prop := {
  at_core : core s1; at_awake : awake s -> awake s1; at_same : same_sock s s1;
  at_in : kin s = got1 r ++ kin s1; at_out : kout s1 = kout s ++ offered c r;
  at_again : r = Fail Eagain -> s1 = s /\ is_shut (fd s) = false /\ (if is_write c then quiet_out s /\ kwr s = false else quiet_in s);
  at_end : ends c r s;
  at_room : kroom s1 <= kroom s; at_kin : is_write c = true -> kin s1 = kin s; at_kroom : is_write c = false -> kroom s1 = kroom s }.
Lemma same_refl s : same_sock s s. Proof. constructor; reflexivity. Qed.
Lemma att_id c s r : core s -> got1 r = [] -> offered c r = [] -> (r = Fail Eagain -> is_shut (fd s) = false /\ (if is_write c then quiet_out s /\ kwr s = false else quiet_in s)) ->
  ends c r s -> att c s r s.
Proof.
  intros C G O A E. constructor; auto; try lia. apply same_refl. now rewrite G. now rewrite O, app_nil_r.
Qed.
Lemma att_kerr c s : core s -> kerr s = true -> att c s (Fail Reset) (w_kerr false s).
Proof.
  intros C K. constructor; auto; try (cbn; lia).
  - now apply core_kerr.
  - intros A. aw s.
  - constructor; reflexivity.
  - destruct c; cbn; now rewrite app_nil_r.
  - discriminate.
  - cbn. right. left. split; auto. now apply (i_err s C).
Qed.
Lemma try_send_ok bs k s : core s -> bs <> [] -> att (CWrite bs) s (fst (try_send bs k s)) (snd (try_send bs k s)).
Proof.
  intros C Ok. unfold try_send.
  destruct (is_shut (fd s)) eqn:Es; cbn [fst snd].
  { apply att_id; auto. discriminate. cbn. right; right; left. auto. }
  assert (Kw : kwr s = false). { destruct (kwr s) eqn:E; auto. rewrite (i_kshut s C) in Es; [discriminate|]. rewrite E. apply orb_true_r. }
  destruct (send_ok bs k s Ok).
  - now apply att_kerr.
  - apply att_id; auto. discriminate. cbn. right; right; left. destruct H; [congruence|]. auto.
  - apply att_id; cbn; auto.
  - constructor; auto; try discriminate; try (cbn; lia).
    + now apply core_kroom, core_kout.
    + intros A. aw s. intros [Q1 Q2]. split; cbn; auto. lia.
    + constructor; reflexivity.
Qed.
Lemma recv_att n k s : core s -> 0 < n -> is_shut (fd s) = false -> att (CRecv n) s (fst (sys_recv n k s)) (snd (sys_recv n k s)).
Proof.
  intros C Hn Es. destruct (recv_ok n k s Hn (i_err s C)).
  - constructor; auto; try discriminate; try (cbn; lia).
    + now apply core_kin.
    + intros A. aw s. intros [Q1 [Q2 Q3]]. repeat split; auto. cbn. rewrite Q1 in H. destruct b; [congruence|discriminate].
    + constructor; reflexivity.
    + cbn. now rewrite app_nil_r.
    + cbn. destruct b; [congruence|auto].
  - apply att_id; auto. discriminate. cbn. right. split; auto. destruct H0 as [X|[X|X]]; auto.
    rewrite (i_kshut s C) in Es; [discriminate|]. now rewrite X.
  - now apply att_kerr.
  - apply att_id; cbn; auto.
Qed.
Lemma attempt_ok c k s : core s -> okcall c -> att c s (fst (attempt c k s)) (snd (attempt c k s)).
Proof.
  intros C Ok. destruct c as [n| |bs]; cbn [attempt].
  - destruct (is_shut (fd s)) eqn:Es; cbn [fst snd].
    { apply att_id; auto. discriminate. cbn. auto. }
    apply recv_att; auto.
  - destruct (is_shut (fd s)) eqn:Es; cbn [fst snd].
    { apply att_id; auto. discriminate. cbn. auto 7. }
    destruct (accept_ok s).
    + constructor; auto; try discriminate; try (cbn; lia).
      * now apply core_kin.
      * intros A. aw s. intros [Q1 [Q2 Q3]]. congruence.
      * constructor; reflexivity.
      * cbn. now rewrite app_nil_r.
      * reflexivity.
    + now apply att_kerr.
    + apply att_id; auto. discriminate. cbn. right; right; right. split; auto. right. split; auto. destruct H0 as [X|[X|X]]; auto.
      rewrite (i_kshut s C) in Es; [discriminate|]. now rewrite X.
    + apply att_id; cbn; auto.
  - now apply try_send_ok.
Qed.

Definition inv (s : st) : Prop := core s /\ awake s /\ data s.
Lemma iter_inv f c k s : inv s -> fib s f = Idle -> slot c s = Null -> okcall c -> (is_write c = true -> brief s = []) -> inv (iter f c k s).
Proof.
  intros [C [A D]] Hf Sl Ok Br. unfold iter. pose proof (attempt_ok c k s C Ok) as T. destruct (attempt c k s) as [r s1]; cbn [fst snd] in T.
  assert (Done : inv (log (Ret f c r) s1)).
  { destruct T. destruct at_same0. destruct D as [D1 D2 D3]. split; [now apply core_log|]. split; [aw s1|]. constructor; cbn [karr hist kin log kout brief].
    - rewrite q_hist0, got_app, q_karr0, D1, at_in0. cbn. now rewrite app_nil_r, <- app_assoc.
    - rewrite q_hist0, sent_app, q_brief0, at_out0, D2. destruct c as [n| |bs].
      + cbn. now rewrite !app_nil_r.
      + cbn. now rewrite !app_nil_r.
      + rewrite (Br eq_refl). cbn. now rewrite !app_nil_r.
    - intros i. rewrite q_hist0, starts_app, cbs_app. unfold waiting in *. cbn [brief wslot log]. rewrite q_brief0, q_wslot0. specialize (D3 i).
      unfold starts at 2, cbs at 2. cbn. lia. }
  destruct r as [b|a|e]; auto. destruct e; auto.
  destruct (at_again _ _ _ _ T eq_refl) as [-> [Es Q]]. clear Done. split; [now apply core_park|]. split.
  - destruct A as [A1 A2 A3 A4]. unfold w_slot. destruct (is_write c) eqn:Ew; constructor; cbn -[is_shut]; auto.
    + intros g. fcase f g; [cbn; congruence|exact (A1 g)].
    + intros g. fcase f g; [intros _; left; apply Q|exact (A2 g)].
    + intros X. congruence.
    + intros g. fcase f g; [cbn; congruence|exact (A2 g)].
    + intros X. congruence.
  - destruct D as [D1 D2 D3]. unfold w_slot. destruct (is_write c) eqn:Ew; constructor; auto.
    intros i. specialize (D3 i). unfold waiting in *. cbn [hist brief wslot w_fib w_wslot]. unfold slot in Sl. rewrite Ew in Sl. rewrite Sl in D3. lia.
Qed.

Definition mute (e : ev) : Prop := match e with Ret _ (CWrite bs) r => sent1 bs r = [] /\ got1 r = [] | Ret _ _ r | TriedR r => got1 r = []
  | Tried bs r => sent1 bs r = [] | Start _ | Cb _ _ _ => False | _ => True end.
Lemma mute_ok e : mute e -> got [e] = [] /\ sent [e] = [] /\ forall i, starts i [e] = 0%nat /\ cbs i [e] = 0%nat.
Proof.
  destruct e as [f c r|bs r|r|id|id bs r| |b| | | |]; cbn; rewrite ?app_nil_r; try tauto; try destruct c; cbn; rewrite ?app_nil_r; intros; repeat split; try tauto;
  try (destruct r; cbn in *; tauto).
Qed.
Lemma inv_log e s : mute e -> inv s -> inv (log e s).
Proof.
  intros M [C [A D]]. destruct (mute_ok e M) as [M1 [M2 M3]]. split; [now apply core_log|]. split; [aw s|].
  apply (data_kept s (log e s) [e]); auto; constructor; reflexivity.
Qed.

Lemma slot_null w s : core s -> no_call w s -> (if w then awp s = false else rhook s = false) -> (if w then wslot s else rslot s) = Null.
Proof.
  intros C N H. destruct w.
  - pose proof (i_ws s C) as X. destruct (wslot s) as [|f|id bs|]; auto; try contradiction.
    + destruct X as [_ [_ X]]. destruct (N f X).
    + destruct X. congruence.
  - pose proof (i_rs s C) as X. destruct (rslot s) as [|f|id bs|]; auto; try contradiction.
    + destruct X as [_ X]. destruct (N f X).
    + congruence.
Qed.

Lemma resume_inv f c ec tm s : inv s -> fib s f = Ready c ec tm ->
  let s1 := w_fib f Idle (w_slot c Null s) in inv s1 /\ slot c s1 = Null /\ okcall c /\ (is_write c = true -> brief s1 = []) /\ fib s1 f = Idle.
Proof.
  intros [C [A D]] Hf s1. destruct (core_idle f c ec tm s C Hf) as [C1 Sl]. split; [split; [exact C1|]|].
  - destruct A as [A1 A2 A3 A4]. destruct D as [D1 D2 D3]. unfold s1, w_slot. split.
    + destruct (is_write c) eqn:Ew; constructor; cbn -[is_shut]; auto; try (intros g; fcase f g; [intros []|]; auto).
      * exact (A1 g). * exact (A2 g). * intros X g c0 t. fcase f g; [discriminate|]. auto.
      * exact (A1 g). * exact (A2 g). * intros X g c0 t. fcase f g; [discriminate|]. auto.
    + destruct (is_write c) eqn:Ew; constructor; auto. intros i. specialize (D3 i). unfold waiting in *. unfold slot in Sl. rewrite Ew in Sl.
      rewrite Sl in D3. cbn [hist brief wslot w_fib w_wslot]. lia.
  - split; [unfold s1, slot, w_slot; destruct (is_write c); reflexivity|]. split.
    { pose proof (i_f s C f) as X. rewrite Hf in X. cbn in X. tauto. }
    split.
    { intros Ew. unfold s1, w_slot, slot in *. rewrite Ew in *. pose proof (i_ws s C) as X. rewrite Sl in X. cbn. tauto. }
    unfold s1. cbn. apply upd_eq.
Qed.

Lemma wake_awake m s s' : core s -> woken m s s' -> (forall f, parked false (fib s' f) -> quiet_in s \/ ep s = true) ->
  (forall f, parked true (fib s' f) -> quiet_out s \/ ep s = true) ->
  (awp s' = true -> quiet_out s /\ kwr s = false \/ ep s = true) ->
  (is_shut (fd s) = true -> forall f c t, fib s' f <> Parked c t) -> awake s'.
Proof.
  intros C W Hi Ho Ha Hs. pose proof (wk_kept _ _ _ W) as K. constructor.
  - intros f Hf. destruct (Hi f Hf) as [[Q1 [Q2 Q3]]|E]; [left|right; now rewrite (k_ep _ _ K)].
    repeat split; [rewrite (k_kin _ _ K)|rewrite (k_kfin _ _ K)|rewrite (k_krst _ _ K)]; auto.
  - intros f Hf. destruct (Ho f Hf) as [[Q1 Q2]|E]; [left|right; now rewrite (k_ep _ _ K)].
    split; [|rewrite (k_krst _ _ K); auto].
    assert (Hf2 : parked true (fib s f)) by (eapply fewer_parked; [exact (wk_fewer _ _ _ W)|exact Hf]).
    assert (Y : wslot s = PReq f) by (apply (i_w s C); destruct (fib s f); cbn in *; tauto).
    pose proof (i_ws s C) as X. rewrite Y in X. rewrite (wk_room _ _ _ W); tauto.
  - intros Aw. destruct (Ha Aw) as [[[Q1 Q2] Q3]|E]; [left|right; now rewrite (k_ep _ _ K)].
    destruct (wk_aw _ _ _ W Aw) as [_ R]. rewrite (k_kwr _ _ K). split; auto. split; [now rewrite R|now rewrite (k_krst _ _ K)].
  - rewrite (k_fd _ _ K). exact Hs.
Qed.
Lemma parked_some x c t : x = Parked c t -> parked (is_write c) x. Proof. intros ->. reflexivity. Qed.

Lemma event_inv k s : inv s -> match event k s with Next s' => inv s' | Ub => False | Stuck => True end.
Proof.
  intros [C [A D]]. unfold event. destruct (ep s && armed s) eqn:E; auto. apply andb_prop in E. destruct E as [Ee Ea].
  set (m := levels s).
  assert (Me : errs m (w_ep false s)).
  { intros X. cbn in X. apply orb_prop in X. destruct X as [X|X]; [left; now apply (i_err s C)|].
    apply orb_prop in X. destruct X as [X|X]; auto. apply andb_prop in X. destruct X as [_ X].
    right. apply (i_shut s A). apply (i_kshut s C); rewrite X; apply orb_true_r. }
  assert (Lin : mi m || merr m = false -> quiet_in s).
  { unfold m, merr, levels. cbn. intros X. repeat split.
    - destruct (N.eqb_spec (len (kin s)) 0) as [Z|Z]; [now apply len_zero|discriminate].
    - destruct (kfin s); auto. rewrite !orb_true_r in X. discriminate.
    - destruct (krst s); auto. rewrite !orb_true_r in X. discriminate. }
  assert (Lout : mo m || merr m = false -> quiet_out s /\ kwr s = false).
  { unfold m, merr, levels. cbn. intros X. destruct (krst s) eqn:Er; [rewrite !orb_true_r in X; discriminate|].
    destruct (kwr s); [rewrite !orb_true_r in X; discriminate|]. split; auto. split; auto. destruct (N.eqb_spec (kroom s) 0); auto. discriminate. }
  assert (Nobody : mi m || mo m || merr m = false -> awake (w_ep false s)).
  { intros X. assert (Q1 : quiet_in s) by (apply Lin; destruct (mi m), (mo m), (merr m); auto).
    assert (Q2 : quiet_out s /\ kwr s = false) by (apply Lout; destruct (mi m), (mo m), (merr m); auto).
    constructor; cbn -[is_shut]; auto. intros; left; apply Q2. apply (i_shut s A). }
  destruct (mi m || mo m || merr m) eqn:Em.
  2:{ split; [now apply core_ep0|]. split; auto. destruct D; constructor; auto. }
  destruct (wakey_ok m k (w_ep false s) (core_ep0 s C) Me) as [s' [E W]]. rewrite E.
  split; [exact (wk_core _ _ _ W)|]. split.
  2:{ apply (wk_data _ _ _ W). destruct D; constructor; auto. }
  apply (wake_awake m (w_ep false s)); auto.
  - now apply core_ep0.
  - intros f Hf. left. apply Lin. destruct (mi m || merr m) eqn:X; auto. destruct (wk_in _ _ _ W X f Hf).
  - intros f Hf. left. apply Lout. destruct (mo m || merr m) eqn:X; auto. destruct (wk_out _ _ _ W X) as [Y _]. destruct (Y f Hf).
  - intros Ha. left. destruct (mo m || merr m) eqn:X; [|now apply Lout]. destruct (wk_out _ _ _ W X) as [_ Y].
    destruct (wk_aw _ _ _ W Ha) as [_ R]. pose proof (wk_kept _ _ _ W) as K. destruct (Y Ha) as [[Y1 Y2] Y3].
    rewrite (k_kwr _ _ K) in Y3. split; auto. split; [now rewrite <- R|now rewrite <- (k_krst _ _ K)].
  - intros S f c t Ef. destruct (wk_fewer _ _ _ W f) as [Y|[c0 [t0 [e0 [Y1 Y2]]]]]; [|congruence]. rewrite Y in Ef. exact (i_shut s A S f c t Ef).
Qed.

Lemma shutdown_inv rd wr k s : inv s -> exists s', shutdown rd wr k s = Next s' /\ inv s' /\ is_shut (fd s') = true /\ forall f c t, fib s' f <> Parked c t.
Proof.
  intros [C [A D]]. unfold shutdown.
  set (s1 := if (fd s <? 0)%Z then s else if is_shut (fd s) then s
     else w_fd (Z.lor (fd s) 1) (w_ep (armed s) (w_shut (krd s || rd) (kwr s || wr) s))).
  set (m := mkM true true false false false).
  assert (C1 : core s1).
  { unfold s1. destruct (fd s <? 0)%Z eqn:Ef; auto. destruct (is_shut (fd s)) eqn:Es; auto.
    destruct C as [Hr Hw Hrs Hws Hok Hk Ha He1 He2 Hfd]. constructor; try assumption.
    - intros _. apply lor1_shut.
    - cbn [armed fd w_fd w_ep w_shut]. now rewrite lor1_neg.
    - cbn. auto.
    - cbn [fd w_fd w_ep w_shut]. intros X. exfalso. pose proof (lor1_neg (fd s)). lia. }
  assert (D1 : data s1). { unfold s1. destruct (fd s <? 0)%Z; auto. destruct (is_shut (fd s)); auto. destruct D; constructor; auto. }
  assert (Me : errs m s1) by (intros X; discriminate X).
  destruct (wakey_ok m k s1 C1 Me) as [s' [E W]]. exists s'. split; auto.
  assert (NP : forall f c t, fib s' f <> Parked c t).
  { intros f c t Ef. destruct (is_write c) eqn:Ew.
    - apply (proj1 (wk_out _ _ _ W eq_refl) f). rewrite Ef. exact Ew.
    - apply (wk_in _ _ _ W eq_refl f). rewrite Ef. exact Ew. }
  split; [|split; auto].
  2:{ rewrite (k_fd _ _ (wk_kept _ _ _ W)). unfold s1. destruct (Z.ltb_spec (fd s) 0) as [X|X]. { destruct (i_fd s C X) as [-> _]. reflexivity. }
      destruct (is_shut (fd s)) eqn:Es; auto. apply lor1_shut. }
  split; [exact (wk_core _ _ _ W)|]. split; [|exact (wk_data _ _ _ W D1)].
  constructor.
  - intros f Hf. exfalso. destruct (fib s' f) eqn:Ef; try contradiction. exact (NP f _ _ Ef).
  - intros f Hf. exfalso. destruct (fib s' f) eqn:Ef; try contradiction. exact (NP f _ _ Ef).
  - intros Ha. left. exact (proj2 (wk_out _ _ _ W eq_refl) Ha).
  - intros _. exact NP.
Qed.

Lemma close_inv s : inv s -> polite s LClose -> exists s', close s = Next s' /\ inv s' /\ awp s' = false /\ rhook s' = false /\ (fd s' < 0)%Z.
Proof.
  intros [C [A D]] P. unfold close. destruct (Z.ltb_spec (fd s) 0) as [Hn|Hn].
  { exists s. split; auto. split; [split; auto|]. destruct (i_fd s C Hn) as [_ [? ?]]. auto. }
  assert (NP : forall f c t, fib s f <> Parked c t).
  { destruct P as [P|[P1 P2]]; [exact (i_shut s A P)|]. intros f c t E. destruct (is_write c) eqn:Ew.
    - apply (P2 f). rewrite E. exact Ew.
    - apply (P1 f). rewrite E. exact Ew. }
  set (s1 := w_fd (-1)%Z (w_ep false (w_armed false s))). change (awp s1) with (awp s). change (wslot s1) with (wslot s).
  assert (X2 : exists s2, (if awp s then match wslot s with PAsync id bs => Next (w_awp false (w_wslot Null (log (Cb id bs (Fail Canceled)) s1))) | _ => Ub end else Next s1) = Next s2
    /\ (forall f, calling true (fib s2 f) -> wslot s2 = PReq f) /\ data s2 /\ awp s2 = false
    /\ fib s2 = fib s /\ rslot s2 = rslot s /\ rhook s2 = rhook s /\ krst s2 = krst s /\ kerr s2 = kerr s /\ ep s2 = false /\ armed s2 = false /\ fd s2 = (-1)%Z
    /\ match wslot s2 with Null => True | PReq f => brief s2 = [] /\ calling true (fib s2 f) | _ => False end).
  { pose proof (i_ws s C) as X. destruct (awp s) eqn:Ea.
    - destruct (wslot s) as [|f|id bs|] eqn:Ew; try contradiction; try congruence; try (destruct X; congruence).
      destruct X as [X1 [X2 X3]]. eexists. split; [reflexivity|]. split.
      { intros f Hf. exfalso. assert (Y : wslot s = PReq f) by (apply (i_w s C); exact Hf). congruence. }
      split.
      { destruct D as [D1 D2 D3]. constructor.
        - cbn [karr hist kin w_awp w_wslot log w_fd w_ep w_armed s1]. rewrite got_app. cbn. now rewrite app_nil_r.
        - cbn [kout hist brief w_awp w_wslot log w_fd w_ep w_armed s1]. rewrite sent_app. cbn. now rewrite app_nil_r.
        - intros i. specialize (D3 i). unfold waiting in *. cbn [hist brief wslot w_awp w_wslot log w_fd w_ep w_armed s1]. rewrite starts_app, cbs_app.
          rewrite Ew in D3. unfold starts at 2, cbs at 2. cbn. destruct (Nat.eqb id i); cbn; lia. }
      repeat split; auto.
    - eexists. split; [reflexivity|]. split; [exact (i_w s C)|]. split; [destruct D; constructor; auto|].
      repeat (split; [solve [auto]|]). change (wslot s1) with (wslot s). destruct (wslot s); auto; try tauto. destruct X; congruence. }
  destruct X2 as [s2 [E2 [Q1 [Q2 [Q3 [Q4 [Q5 [Q6 [Q7 [Q8 [Q9 [Q10 [Q11 Q12]]]]]]]]]]]]]. rewrite E2. clear E2.
  assert (Fin : forall s3, fib s3 = fib s2 -> wslot s3 = wslot s2 -> awp s3 = false -> brief s3 = brief s2 -> krst s3 = krst s2 -> kerr s3 = kerr s2 -> ep s3 = false ->
     armed s3 = false -> fd s3 = (-1)%Z -> rhook s3 = false -> rslot s3 = (if rhook s2 then Null else rslot s2) -> data s3 -> inv s3).
  { intros s3 F1 F2 F3 F4 F5 F6 F7 F8 F9 F10 F11 F12. split; [|split; auto].
    - pose proof (i_rs s C) as R. rewrite <- Q5, <- Q6, <- Q4 in R. constructor; rewrite ?F1, ?F2, ?F3, ?F4, ?F5, ?F6, ?F7, ?F8, ?F9, ?F10, ?F11; auto; try discriminate.
      + intros f Hf. rewrite Q4 in Hf. apply (i_r s C) in Hf. rewrite <- Q5 in Hf. rewrite Hf in R. destruct R as [R _]. now rewrite R.
      + destruct (rhook s2) eqn:Eh; auto.
      + destruct (wslot s2); tauto.
      + rewrite Q4, Q7. exact (i_f s C).
      + rewrite Q7, Q8. exact (i_err s C).
    - constructor; rewrite ?F1, ?F3, ?F9, ?Q4; try discriminate.
      + intros f Hf. exfalso. destruct (fib s f) eqn:Ef; try contradiction. exact (NP f _ _ Ef).
      + intros f Hf. exfalso. destruct (fib s f) eqn:Ef; try contradiction. exact (NP f _ _ Ef).
      + auto. }
  destruct (rhook s2) eqn:Eh.
  - pose proof (i_rs s C) as R. rewrite <- Q5, <- Q6 in R. destruct (rslot s2) as [|f|id bs|] eqn:Er; try contradiction; try congruence; try (destruct R; congruence).
    eexists. split; [reflexivity|]. split; [|cbn; rewrite Q11; auto with zarith].
    apply Fin; auto. destruct Q2; constructor; auto.
  - exists s2. split; auto. split; [|rewrite Q11; auto with zarith]. apply Fin; auto.
Qed.

Lemma parked_armed w f s : core s -> awake s -> parked w (fib s f) -> armed s = true.
Proof.
  intros C A Hf. rewrite (i_arm s C). apply Z.leb_le. destruct (Z.lt_ge_cases (fd s) 0) as [H|H]; auto. exfalso.
  destruct (i_fd s C H) as [X _]. destruct (fib s f) as [|c t|] eqn:E; try contradiction. apply (i_shut s A) in E; auto. rewrite X. reflexivity.
Qed.
Lemma awp_armed s : core s -> awp s = true -> armed s = true.
Proof.
  intros C Ha. rewrite (i_arm s C). apply Z.leb_le. destruct (Z.lt_ge_cases (fd s) 0) as [H|H]; auto. exfalso.
  destruct (i_fd s C H) as [_ [X _]]. congruence.
Qed.

Lemma step_inv s l : inv s -> polite s l -> match step s l with Next s' => inv s' | Ub => False | Stuck => True end.
Proof.
  intros I P. pose proof I as [C [A D]]. destruct l as [f c k|f k|f|bs k|n k|id bs k|rd wr k| | | | | |b| |k|bs| | |n|]; cbn [step polite] in *.
  - destruct (fib s f) eqn:Ef; auto. destruct c as [n| |bs]; cbn [start_call].
    + destruct P as [P1 [P2 [P3 P4]]]. replace (fd s <? 0)%Z with false by lia. pose proof (slot_null false s C P3 P4) as Sl. cbn in Sl. rewrite Sl.
      apply iter_inv; auto. discriminate.
    + destruct P as [P3 P4]. pose proof (slot_null false s C P3 P4) as Sl. cbn in Sl. rewrite Sl. apply iter_inv; auto; try discriminate. exact Logic.I.
    + destruct P as [P1 [P2 [P3 [P4 P5]]]]. replace (fd s <? 0)%Z with false by lia. pose proof (slot_null true s C P3 P4) as Sl. cbn in Sl. apply iter_inv; auto.
  - unfold resume. destruct (fib s f) as [| |c ec t] eqn:Ef; auto. destruct (resume_inv f c ec t s I Ef) as [I1 [S1 [O1 [B1 F1]]]].
    destruct (if t then Some Canceled else ec) as [e|]; [|now apply iter_inv]. apply inv_log; auto. cbn. destruct c; auto.
  - destruct (fib s f) as [|c t|] eqn:Ef; auto. destruct t; auto. split; [|split].
    + eapply core_ready; eauto.
    + destruct A as [A1 A2 A3 A4]. constructor; cbn -[is_shut]; auto.
      * intros g. fcase f g; [intros []|exact (A1 g)].
      * intros g. fcase f g; [intros []|exact (A2 g)].
      * intros X g c0 t. fcase f g; [discriminate|]. now apply A4.
    + destruct D; constructor; auto.
  - destruct P as [P1 [P2 P3]]. pose proof (try_send_ok bs k s C P1) as T. destruct (try_send bs k s) as [r s1]; cbn [fst snd] in T.
    destruct T. destruct at_same0. destruct D as [D1 D2 D3]. split; [now apply core_log|]. split; [aw s1|].
    constructor; cbn [karr hist kin log kout brief].
    + rewrite q_hist0, got_app, q_karr0, D1, (at_kin0 eq_refl). cbn. now rewrite app_nil_r.
    + rewrite q_hist0, sent_app, q_brief0, at_out0, D2, P3. cbn. now rewrite !app_nil_r.
    + intros i. rewrite q_hist0, starts_app, cbs_app. unfold waiting in *. cbn [brief wslot log]. rewrite q_brief0, q_wslot0. specialize (D3 i).
      unfold starts at 2, cbs at 2. cbn. lia.
  - unfold try_recv. destruct (is_shut (fd s)) eqn:Es. { apply inv_log; auto. reflexivity. }
    pose proof (recv_att n k s C P Es) as T. destruct (sys_recv n k s) as [r s1]; cbn [fst snd] in T.
    destruct T. destruct at_same0. destruct D as [D1 D2 D3]. split; [now apply core_log|]. split; [aw s1|].
    constructor; cbn [karr hist kin log kout brief].
    + rewrite q_hist0, got_app, q_karr0, D1, at_in0. cbn. now rewrite app_nil_r, app_assoc.
    + rewrite q_hist0, sent_app, q_brief0, at_out0, D2. cbn. now rewrite !app_nil_r.
    + intros i. rewrite q_hist0, starts_app, cbs_app. unfold waiting in *. cbn [brief wslot log]. rewrite q_brief0, q_wslot0. specialize (D3 i).
      unfold starts at 2, cbs at 2. cbn. lia.
  - destruct P as [P1 [P2 [P3 P4]]]. pose proof (slot_null true s C P2 P3) as Sl. cbn in Sl. unfold async_write. set (s0 := log (Start id) s).
    assert (C0 : core s0) by now apply core_log. assert (A0 : awake s0) by (aw s). pose proof (try_send_ok bs k s0 C0 P1) as T.
    destruct (try_send bs k s0) as [r s1]; cbn [fst snd] in T. destruct D as [D1 D2 D3].
    assert (Done : inv (w_brief (brief s1 ++ [(id, bs, r)]) s1)).
    { destruct T. destruct at_same0. split; [|split].
      - pose proof (i_ws s1 at_core0) as X. rewrite q_wslot0 in X. change (wslot s0) with (wslot s) in X. rewrite Sl in X.
        destruct at_core0 as [Hr Hw Hrs Hws Hok Hk Ha He1 He2 Hfd]. constructor; try assumption. cbn [wslot awp brief w_brief]. rewrite q_wslot0. change (wslot s0) with (wslot s). now rewrite Sl.
      - specialize (at_awake0 A0). aw s1.
      - rewrite q_brief0. change (brief s0) with (brief s). rewrite P4. constructor; cbn [karr hist kin w_brief kout brief app].
        + rewrite q_hist0, q_karr0, (at_kin0 eq_refl). unfold s0. cbn [karr hist kin log]. rewrite got_app. cbn. now rewrite app_nil_r.
        + rewrite q_hist0, at_out0. unfold s0. cbn [kout hist log]. rewrite sent_app, D2, P4. cbn. now rewrite !app_nil_r.
        + intros i. specialize (D3 i). rewrite q_hist0. unfold waiting in *. cbn [brief wslot w_brief]. rewrite q_wslot0. unfold s0. cbn [hist wslot log]. rewrite starts_app, cbs_app.
          rewrite Sl, P4 in *. unfold starts at 2, cbs at 2. cbn in *. destruct (Nat.eqb id i); cbn; lia. }
    destruct r as [b|a|e]; auto. destruct e; auto. clear Done. rewrite Sl.
    destruct (at_again _ _ _ _ T eq_refl) as [-> [Es [Q1 Q2]]]. split; [|split].
    + destruct C as [Hr Hw Hrs Hws Hok Hk Ha He1 He2 Hfd]. constructor; try assumption; cbn.
      * intros f Hf. destruct (P2 f Hf).
      * auto.
      * intros X. exfalso. destruct (Hfd X) as [Y _]. cbn in Es. rewrite Y in Es. discriminate.
    + destruct A0 as [A1 A2 A3 A4]. constructor; auto.
    + constructor.
      * unfold s0. cbn [karr hist kin w_awp w_wslot log]. rewrite got_app. cbn. now rewrite app_nil_r.
      * unfold s0. cbn [kout hist brief w_awp w_wslot log]. rewrite sent_app. cbn. now rewrite app_nil_r.
      * intros i. specialize (D3 i). unfold s0. unfold waiting in *. cbn [hist brief wslot w_awp w_wslot log]. rewrite starts_app, cbs_app.
        rewrite Sl, P4 in *. unfold starts at 2, cbs at 2. cbn in *. destruct (Nat.eqb id i); cbn; lia.
  - destruct (shutdown_inv rd wr k s I) as [s' [-> [I' _]]]. exact I'.
  - destruct (close_inv s I P) as [s' [-> [I' _]]]. exact I'.
  - destruct P as [P1 [P2 P3]]. unfold register_hook. rewrite P2. replace (fd s <? 0)%Z with false by lia. cbn [orb].
    pose proof (slot_null false s C P3 P2) as Sl. cbn in Sl.
    assert (I1 : inv (log Hook (w_rslot PHook (w_rhook true s)))).
    { apply inv_log; [exact Logic.I|]. split; [|split].
      - destruct C as [Hr Hw Hrs Hws Hok Hk Ha He1 He2 Hfd]. constructor; try assumption; cbn; auto.
        + intros f Hf. destruct (P3 f Hf).
        + intros X. lia.
      - aw s.
      - destruct D; constructor; auto. }
    match goal with |- inv (if ?b then _ else _) => destruct b end; auto. apply inv_log; [exact Logic.I|].
    destruct I1 as [C1 [A1 D1]]. split; [now apply core_rnotif|]. split; [eapply awake_sub; [exact A1|..]; auto|]. destruct D1; constructor; auto.
  - unfold reset_hook. destruct (rhook s) eqn:Eh; auto. pose proof (i_rs s C) as X.
    destruct (rslot s) as [|f|id bs|] eqn:Er; try contradiction; try congruence; try (destruct X; congruence).
    split; [|split; [aw s|destruct D; constructor; auto]].
    destruct C as [Hr Hw Hrs Hws Hok Hk Ha He1 He2 Hfd]. constructor; try assumption; cbn; auto.
    + intros f Hf. apply Hr in Hf. congruence.
    + intros Y. destruct (Hfd Y) as [? [? ?]]. congruence.
  - apply inv_log; [exact Logic.I|]. split; [now apply core_errcb|]. split; [aw s|destruct D; constructor; auto].
  - split; [now apply core_errcb|]. split; [aw s|destruct D; constructor; auto].
  - split; [now apply core_tmo|]. split; [aw s|destruct D; constructor; auto].
  - destruct (brief s) as [|[[id bs] r] t] eqn:Eb; auto. split; [apply core_log|split; [aw s|]].
    + pose proof (i_ws s C) as X. destruct C as [Hr Hw Hrs Hws Hok Hk Ha He1 He2 Hfd]. constructor; try assumption. cbn.
      rewrite Eb in X. destruct (wslot s); auto; destruct X as [X1 [X2 X3]]; discriminate.
    + destruct D as [D1 D2 D3]. constructor.
      * cbn [karr hist kin w_brief log]. rewrite got_app. cbn. now rewrite app_nil_r.
      * cbn [kout hist brief w_brief log]. rewrite sent_app. rewrite D2, Eb. cbn. now rewrite app_nil_r, app_assoc.
      * intros i. specialize (D3 i). unfold waiting in *. cbn [hist brief wslot w_brief log]. rewrite starts_app, cbs_app.
        rewrite Eb in D3. unfold starts at 2, cbs at 2. cbn in *. destruct (Nat.eqb id i); cbn in *; lia.
  - exact (event_inv k s I).
  - destruct (kfin s || krst s || (len bs =? 0)) eqn:E; auto. apply inv_log; [exact Logic.I|]. split; [|split].
    + apply (core_ep (w_karr (karr s ++ bs) (w_kin (kin s ++ bs) s))). now apply core_karr, core_kin.
    + pose proof A as [A1 A2 A3 A4]. constructor; auto; cbn -[is_shut].
      * intros f Hf. right. exact (parked_armed _ f s C A Hf).
      * intros f Hf. destruct (A2 f Hf) as [X|X]; auto. right. now apply (i_ep s C).
      * intros Ha. destruct (A3 Ha) as [X|X]; auto. right. now apply (i_ep s C).
    + destruct D as [D1 D2 D3]. constructor; auto. cbn. now rewrite D1, app_assoc.
  - destruct (kfin s || krst s) eqn:E; auto. apply inv_log; [exact Logic.I|]. split; [|split].
    + apply (core_ep (w_kfin true s)). now apply core_kfin.
    + pose proof A as [A1 A2 A3 A4]. constructor; auto; cbn -[is_shut].
      * intros f Hf. right. exact (parked_armed _ f s C A Hf).
      * intros f Hf. destruct (A2 f Hf) as [X|X]; auto. right. now apply (i_ep s C).
      * intros Ha. destruct (A3 Ha) as [X|X]; auto. right. now apply (i_ep s C).
    + destruct D as [D1 D2 D3]. constructor; auto.
  - destruct (krst s) eqn:E; auto. apply inv_log; [exact Logic.I|]. split; [|split].
    + apply (core_ep (w_krst true (w_kerr true s))). now apply core_rst.
    + pose proof A as [A1 A2 A3 A4]. constructor; auto; cbn -[is_shut].
      * intros f Hf. right. exact (parked_armed _ f s C A Hf).
      * intros f Hf. right. exact (parked_armed _ f s C A Hf).
      * intros Ha. right. now apply awp_armed.
    + destruct D as [D1 D2 D3]. constructor; auto.
  - split; [|split].
    + apply (core_ep (w_kroom (kroom s + n) s)). now apply core_kroom.
    + pose proof A as [A1 A2 A3 A4]. constructor; auto; cbn -[is_shut].
      * intros f Hf. destruct (A1 f Hf) as [X|X]; auto. right. now apply (i_ep s C).
      * intros f Hf. right. exact (parked_armed _ f s C A Hf).
      * intros Ha. right. now apply awp_armed.
    + destruct D as [D1 D2 D3]. constructor; auto.
  - split; [now apply core_ep|]. split; [|destruct D; constructor; auto]. aw s. exact (i_ep s C).
Qed.

Lemma run_inv P n room s : (0 <= n)%Z -> run_of P n room s -> inv s.
Proof.
  intros Hn R. induction R as [|s l s' R IH Hp Pl E]; [now apply init_core|]. pose proof (step_inv s l IH Hp) as X. now rewrite E in X.
Qed.

Lemma epoll_safe_pf n room s l : (0 <= n)%Z -> run n room s -> polite s l -> step s l <> Ub.
Proof. intros Hn R Hp E. pose proof (step_inv s l (run_inv _ n room s Hn R) Hp) as X. now rewrite E in X. Qed.

Lemma attempt_done c k s : core s -> okcall c -> (ready_for c s) -> fst (attempt c k s) <> Fail Eagain.
Proof.
  unfold ready_for. intros C Ok R E. pose proof (attempt_ok c k s C Ok) as T. rewrite E in T. destruct (at_again _ _ _ _ T eq_refl) as [_ [_ Q]]. destruct (is_write c).
  - destruct Q as [[Q1 Q2] _]. destruct R; congruence.
  - destruct Q as [Q1 [Q2 Q3]]. destruct R as [R|[R|R]]; congruence.
Qed.
Lemma iter_done f c k s : core s -> okcall c -> (is_shut (fd s) = true \/ ready_for c s) -> fib s f = Idle ->
  exists r s1, iter f c k s = log (Ret f c r) s1 /\ hist s1 = hist s /\ fib s1 f = Idle.
Proof.
  intros C Ok R Hf. pose proof (attempt_ok c k s C Ok) as T. unfold iter.
  assert (N : fst (attempt c k s) <> Fail Eagain).
  { destruct R as [R|R]; [|now apply attempt_done]. intros E. rewrite E in T. destruct (at_again _ _ _ _ T eq_refl) as [_ [X _]]. congruence. }
  destruct (attempt c k s) as [r s1]; cbn [fst snd] in *. exists r, s1. destruct T. destruct at_same0. rewrite q_hist0, q_fib0. split; auto.
  destruct r as [b|a|e]; auto. destruct e; auto. congruence.
Qed.

(** A fiber that was woken returns from its call, if there is something to return. *)
Lemma resume_done f c ec tm k s : inv s -> fib s f = Ready c ec tm -> (is_shut (fd s) = true \/ ready_for c s) ->
  exists s' r, step s (LResume f k) = Next s' /\ hist s' = hist s ++ [Ret f c r] /\ fib s' f = Idle.
Proof.
  intros I Hf R. destruct (resume_inv f c ec tm s I Hf) as [I1 [S1 [O1 [B1 F1]]]]. cbn [step]. unfold resume. rewrite Hf.
  destruct (if tm then Some Canceled else ec) as [e|].
  - eexists. exists (Fail e). split; [reflexivity|]. split; auto. unfold w_slot. destruct (is_write c); reflexivity.
  - set (s1 := w_fib f Idle (w_slot c Null s)) in *. destruct (iter_done f c k s1) as [r [s2 [E [H1 H2]]]]; auto.
    + apply I1.
    + unfold s1, w_slot, ready_for in *. destruct (is_write c); exact R.
    + rewrite E. eexists. exists r. split; [reflexivity|]. cbn. rewrite H1. split; auto. unfold s1, w_slot. destruct (is_write c); reflexivity.
Qed.

Lemma event_wakes f c t k s : inv s -> fib s f = Parked c t -> (ready_for c s) ->
  exists s1 ec, step s (LEvent k) = Next s1 /\ inv s1 /\ fib s1 f = Ready c ec false /\ (ready_for c s1).
Proof.
  unfold ready_for. intros I Hf R. pose proof I as [C [A D]]. assert (Pf : parked (is_write c) (fib s f)) by now rewrite Hf.
  assert (Ar : armed s = true) by (eapply parked_armed; eauto).
  assert (E : ep s = true).
  { destruct (is_write c) eqn:Ew.
    - destruct (i_pw s A f Pf) as [[Q1 Q2]|]; auto. destruct R; congruence.
    - destruct (i_pr s A f Pf) as [[Q1 [Q2 Q3]]|]; auto. destruct R as [R|[R|R]]; congruence. }
  pose proof (event_inv k s I) as Iv. cbn [step]. unfold event in *. rewrite E, Ar in *. cbn [andb] in *. set (m := levels s) in *.
  assert (M : if is_write c then mo m || merr m = true else mi m || merr m = true).
  { unfold m, levels, merr. cbn. destruct (is_write c).
    - destruct R as [R| ->]; [|now rewrite !orb_true_r]. replace (kroom s =? 0) with false by lia. reflexivity.
    - destruct R as [R|[->| ->]]; [|now rewrite ?orb_true_r..]. destruct (kin s); [congruence|]. rewrite len_cons. replace (1 + len l =? 0) with false by lia. reflexivity. }
  assert (Any : mi m || mo m || merr m = true) by (destruct (mi m), (mo m), (merr m), (is_write c); cbn in *; congruence). rewrite Any in *.
  assert (Me : errs m (w_ep false s)).
  { intros X. cbn in X. apply orb_prop in X. destruct X as [X|X]; [left; now apply (i_err s C)|].
    apply orb_prop in X. destruct X as [X|X]; auto. apply andb_prop in X. destruct X as [_ X].
    right. apply (i_shut s A). apply (i_kshut s C); rewrite X; apply orb_true_r. }
  destruct (wakey_ok m k (w_ep false s) (core_ep0 s C) Me) as [s1 [Es W]]. rewrite Es in *. pose proof (wk_kept _ _ _ W) as K.
  destruct (wk_fewer _ _ _ W f) as [Y|[c0 [t0 [ec [Y1 Y2]]]]].
  - exfalso. cbn in Y. destruct (is_write c) eqn:Ew.
    + apply (proj1 (wk_out _ _ _ W M) f). now rewrite Y.
    + apply (wk_in _ _ _ W M f). now rewrite Y.
  - cbn in Y1. rewrite Hf in Y1. injection Y1 as <- <-. exists s1, ec. split; auto. split; auto. split; auto. destruct (is_write c) eqn:Ew.
    + assert (Ws : wslot s = PReq f) by (apply (i_w s C); rewrite Hf; exact Ew). pose proof (i_ws s C) as X. rewrite Ws in X.
      destruct R as [R|R]; [left; rewrite (wk_room _ _ _ W); tauto|right; now rewrite (k_krst _ _ K)].
    + destruct R as [R|[R|R]]; [left; rewrite (k_kin _ _ K); exact R|right; left; rewrite (k_kfin _ _ K); exact R|right; right; rewrite (k_krst _ _ K); exact R].
Qed.
Lemma epoll_woken_pf n room s f c t k1 k2 : (0 <= n)%Z -> run n room s -> fib s f = Parked c t -> ready_for c s ->
  exists s1 s2 r l, step s (LEvent k1) = Next s1 /\ step s1 (LResume f k2) = Next s2 /\ hist s2 = hist s ++ l ++ [Ret f c r].
Proof.
  intros Hn R Hf Rd. destruct (event_wakes f c t k1 s (run_inv _ n room s Hn R) Hf Rd) as [s1 [ec [E [I1 [F1 R1]]]]].
  destruct (resume_done f c ec false k2 s1 I1 F1 (or_intror R1)) as [s2 [r [E2 [H2 _]]]].
  assert (exists l, hist s1 = hist s ++ l) as [l Hl].
  { pose proof (run_inv _ n room s Hn R) as [C [A D]]. cbn [step] in E. unfold event in E. destruct (ep s && armed s); [|discriminate].
    destruct (mi (levels s) || mo (levels s) || merr (levels s)).
    - assert (Me : errs (levels s) (w_ep false s)).
      { intros X. cbn in X. apply orb_prop in X. destruct X as [X|X]; [left; now apply (i_err s C)|].
        apply orb_prop in X. destruct X as [X|X]; auto. apply andb_prop in X. destruct X as [_ X].
        right. apply (i_shut s A). apply (i_kshut s C); rewrite X; apply orb_true_r. }
      destruct (wakey_ok _ k1 (w_ep false s) (core_ep0 s C) Me) as [s1' [Es W]]. rewrite Es in E. injection E as <-.
      destruct (wk_hist _ _ _ W) as [l2 [-> _]]. eauto.
    - injection E as <-. exists []. now rewrite app_nil_r. }
  exists s1, s2, r, l. split; auto. split; auto. now rewrite H2, Hl, app_assoc.
Qed.

Lemma event_errs s : core s -> awake s -> errs (levels s) (w_ep false s).
Proof.
  intros C A X. cbn in X. apply orb_prop in X. destruct X as [X|X]; [left; now apply (i_err s C)|].
  apply orb_prop in X. destruct X as [X|X]; auto. apply andb_prop in X. destruct X as [_ X].
  right. apply (i_shut s A). apply (i_kshut s C); rewrite X; apply orb_true_r.
Qed.
Lemma epoll_async_woken_pf n room s id bs k : (0 <= n)%Z -> run n room s -> wslot s = PAsync id bs -> writable s ->
  exists s' r l1 l2, step s (LEvent k) = Next s' /\ hist s' = hist s ++ l1 ++ [Cb id bs r] ++ l2.
Proof.
  intros Hn R Ws Wr. pose proof (run_inv _ n room s Hn R) as [C [A D]]. pose proof (i_ws s C) as X. rewrite Ws in X. destruct X as [Ha [_ _]].
  assert (E : ep s = true). { destruct (i_aw s A Ha) as [[[Q1 Q2] _]|]; auto. destruct Wr; congruence. }
  cbn [step]. unfold event. rewrite E, (awp_armed s C Ha). cbn [andb].
  assert (M : mo (levels s) || merr (levels s) = true).
  { unfold levels, merr. cbn. destruct Wr as [Wr| ->]; [|now rewrite !orb_true_r]. replace (kroom s =? 0) with false by lia. reflexivity. }
  replace (mi (levels s) || mo (levels s) || merr (levels s)) with true by (rewrite <- orb_assoc, M; now rewrite orb_true_r).
  destruct (wakey_ok _ k (w_ep false s) (core_ep0 s C) (event_errs s C A)) as [s' [Es W]]. rewrite Es.
  destruct (wk_slot _ _ _ W id bs Ws M) as [l1 [l2 [r Hr]]].
  { intros [Q1 Q2]. cbn in Q1, Q2. destruct Wr; congruence. }
  exists s', r, l1, l2. auto.
Qed.

Lemma epoll_shutdown_wakes_pf n room s rd wr k : (0 <= n)%Z -> run n room s ->
  exists s', step s (LShutdown rd wr k) = Next s' /\ is_shut (fd s') = true /\ forall f c t, fib s' f <> Parked c t.
Proof.
  intros Hn R. destruct (shutdown_inv rd wr k s (run_inv _ n room s Hn R)) as [s' [E [_ X]]]. exists s'. split; auto.
Qed.
Lemma epoll_shut_returns_pf n room s f c k : (0 <= n)%Z -> run n room s -> is_shut (fd s) = true ->
  match fib s f with
  | Idle => True
  | Parked _ _ => False
  | Ready c _ _ => exists s' r, step s (LResume f k) = Next s' /\ hist s' = hist s ++ [Ret f c r]
  end
  /\ (fib s f = Idle -> polite s (LCall f c k) -> exists s' r, step s (LCall f c k) = Next s' /\ hist s' = hist s ++ [Ret f c r]).
Proof.
  intros Hn R S. pose proof (run_inv _ n room s Hn R) as I. pose proof I as [C [A D]]. split.
  - destruct (fib s f) as [|c1 t|c1 ec t] eqn:Ef; auto.
    + exact (i_shut s A S f c1 t Ef).
    + destruct (resume_done f c1 ec t k s I Ef (or_introl S)) as [s' [r [E [H _]]]]. eauto.
  - intros Hf P. assert (Ok : okcall c) by (destruct c; cbn in *; tauto).
    destruct (iter_done f c k s C Ok (or_introl S) Hf) as [r [s1 [E [H1 _]]]].
    exists (log (Ret f c r) s1), r. cbn [step]. rewrite Hf. cbn [hist log]. rewrite H1. split; auto. rewrite <- E. destruct c as [m| |bs]; cbn [start_call polite] in *.
    + destruct P as [P1 [P2 [P3 P4]]]. replace (fd s <? 0)%Z with false by lia. pose proof (slot_null false s C P3 P4) as Sl. cbn in Sl. now rewrite Sl.
    + destruct P as [P3 P4]. pose proof (slot_null false s C P3 P4) as Sl. cbn in Sl. now rewrite Sl.
    + destruct P as [P1 [P2 _]]. replace (fd s <? 0)%Z with false by lia. reflexivity.
Qed.
Lemma epoll_close_pf n room s : (0 <= n)%Z -> run n room s -> polite s LClose ->
  exists s', step s LClose = Next s' /\ is_shut (fd s') = true /\ awp s' = false /\ forall f c t, fib s' f <> Parked c t.
Proof.
  intros Hn R P. destruct (close_inv s (run_inv _ n room s Hn R) P) as [s' [E [[C [A D]] [X [Y Z]]]]]. exists s'. split; auto.
  assert (S : is_shut (fd s') = true). { destruct (i_fd s' C Z) as [-> _]. reflexivity. }
  split; auto. split; auto. exact (i_shut s' A S).
Qed.

Lemma epoll_recv_stream_pf n room s : (0 <= n)%Z -> run n room s -> karr s = got (hist s) ++ kin s.
Proof. intros Hn R. apply (run_inv _ n room s Hn R). Qed.
Lemma epoll_write_stream_pf n room s : (0 <= n)%Z -> run n room s -> kout s = sent (hist s) ++ sent_brief (brief s).
Proof. intros Hn R. apply (run_inv _ n room s Hn R). Qed.
Lemma epoll_async_once_pf n room s id : (0 <= n)%Z -> run n room s -> starts id (hist s) = (cbs id (hist s) + waiting id s)%nat.
Proof. intros Hn R. apply (run_inv _ n room s Hn R). Qed.

(** How a step adds to the history. *)
Lemma app_same {A} (h : list A) x l : h ++ [x] = h ++ l -> l = [x].
Proof. intros H. now apply app_inv_head in H. Qed.
Lemma last_ne {A} (h a : list A) x y : h ++ [x] = h ++ a ++ [y] -> a = [] /\ x = y.
Proof. intros H. apply app_inv_head in H. destruct a as [|z a]; cbn in H; [now injection H as ->|]. destruct a; discriminate. Qed.
Lemma iter_ret f c k s f' c' r : core s -> okcall c -> hist (iter f c k s) = hist s ++ [Ret f' c' r] -> f' = f /\ c' = c /\ ends c r s /\ r <> Fail Eagain.
Proof.
  intros C Ok E. pose proof (attempt_ok c k s C Ok) as T. unfold iter in E. destruct (attempt c k s) as [r1 s1]; cbn [fst snd] in T. destruct T. destruct at_same0.
  assert (G : hist (log (Ret f c r1) s1) = hist s ++ [Ret f' c' r] -> r1 <> Fail Eagain -> f' = f /\ c' = c /\ ends c r s /\ r <> Fail Eagain).
  { cbn. rewrite q_hist0. intros H N. apply app_same in H. injection H as <- <- <-. auto. }
  destruct r1 as [b|a|e]; try (apply G; [exact E|discriminate]). destruct e; try (apply G; [exact E|discriminate]).
  exfalso. unfold w_slot in E. destruct (is_write c); cbn in E; rewrite q_hist0 in E; apply (f_equal (@length ev)) in E; rewrite app_length in E; cbn in E; lia.
Qed.
Lemma no_ret (h l : list ev) f c r : h ++ l = h ++ [Ret f c r] -> Forall (fun e => match e with Ret _ _ _ => False | _ => True end) l -> False.
Proof. intros H F. apply app_inv_head in H. subst. inversion F; auto. Qed.
Definition how (f : nat) (c : call) (r : res) (s : st) : Prop :=
  (ends c r s /\ r <> Fail Eagain) \/ (r = Fail Canceled /\ exists ec, fib s f = Ready c ec true) \/ (r = Fail Aborted /\ krst s = true).
Lemma woken_noret m s s' h f c r : woken m s s' -> hist s = h -> hist s' = h ++ [Ret f c r] -> False.
Proof.
  intros W <- H. destruct (wk_hist _ _ _ W) as [l2 [E L]]. rewrite H in E. symmetry in E. eapply no_ret; [exact E|].
  apply Forall_app. split; [clear; destruct (_ && _); repeat constructor|]. apply Forall_app. split; [|clear; destruct (_ && _); repeat constructor].
  destruct L as [->|[id [bs [r0 ->]]]]; repeat constructor.
Qed.
Lemma ret_how s l s' f c r : inv s -> polite s l -> step s l = Next s' -> hist s' = hist s ++ [Ret f c r] -> how f c r s /\ okcall c.
Proof.
  intros I P E H. pose proof I as [C [A D]]. pose proof (no_ret (hist s)) as NR. unfold how.
  assert (Nil : forall s1, hist s1 = hist s -> s' = s1 -> False).
  { intros s1 H1 ->. rewrite H1 in H. apply (f_equal (@length ev)) in H. rewrite app_length in H. cbn in H. lia. }
  assert (One : forall s1 e, hist s1 = hist s -> s' = log e s1 -> match e with Ret _ _ _ => False | _ => True end -> False).
  { intros s1 e H1 -> He. cbn in H. rewrite H1 in H. apply (NR [e] f c r); auto. }
  destruct l as [g c1 k|g k|g|bs k|n k|id bs k|rd wr k| | | | | |b| |k|bs| | |n|]; cbn [step polite] in *.
  - destruct (fib s g) eqn:Eg; try discriminate.
    assert (X : s' = iter g c1 k s /\ okcall c1).
    { destruct c1 as [n| |bs]; cbn [start_call] in E.
      - destruct (fd s <? 0)%Z; try discriminate. destruct (rslot s); try discriminate. injection E as <-. split; cbn; tauto.
      - destruct (rslot s); try discriminate. injection E as <-. cbn; auto.
      - destruct (fd s <? 0)%Z; try discriminate. injection E as <-. cbn; tauto. }
    destruct X as [-> Ok]. destruct (iter_ret g c1 k s f c r C Ok H) as [-> [-> [X1 X2]]]. auto.
  - unfold resume in E. destruct (fib s g) as [| |c1 ec t] eqn:Eg; try discriminate.
    destruct (resume_inv g c1 ec t s I Eg) as [[C1 _] [S1 [O1 [B1 F1]]]].
    assert (Hh : hist (w_fib g Idle (w_slot c1 Null s)) = hist s) by (unfold w_slot; destruct (is_write c1); reflexivity).
    destruct t.
    + injection E as <-. cbn [hist log] in H. rewrite Hh in H. apply app_same in H. injection H as -> -> ->. split; auto. right; left. eauto.
    + destruct ec as [e|].
      * injection E as <-. cbn [hist log] in H. rewrite Hh in H. apply app_same in H. injection H as -> -> ->. pose proof (i_f s C g) as X. rewrite Eg in X. cbn in X.
        split; auto. right; right. destruct X as [_ [-> X]]. auto.
      * injection E as <-. rewrite <- Hh in H. destruct (iter_ret g c1 k _ f c r C1 O1 H) as [-> [-> [X1 X2]]]. split; auto. left. split; auto.
        unfold w_slot in X1. destruct (is_write c1); exact X1.
  - destruct (fib s g) as [|c1 t|]; try discriminate. destruct t; try discriminate. injection E as E. (exfalso; apply (Nil s'); [rewrite <- E; reflexivity|reflexivity]).
  - destruct (try_send bs k s) as [r1 s1] eqn:T. injection E as E. pose proof (try_send_ok bs k s C (proj1 P)) as X. rewrite T in X.
    destruct (One s1 _ (q_hist _ _ (at_same _ _ _ _ X)) (eq_sym E) Logic.I).
  - unfold try_recv in E. destruct (is_shut (fd s)) eqn:Es. { injection E as E. destruct (One s _ eq_refl (eq_sym E) Logic.I). }
    destruct (sys_recv n k s) as [r1 s1] eqn:T. injection E as E. pose proof (recv_att n k s C P Es) as X. rewrite T in X.
    destruct (One s1 _ (q_hist _ _ (at_same _ _ _ _ X)) (eq_sym E) Logic.I).
  - unfold async_write in E. destruct P as [P1 P2]. pose proof (try_send_ok bs k (log (Start id) s) (core_log _ s C) P1) as X.
    destruct (try_send bs k (log (Start id) s)) as [r1 s1]. cbn [fst snd] in X. pose proof (q_hist _ _ (at_same _ _ _ _ X)) as Y. cbn in Y.
    assert (hist s' = hist s ++ [Start id]).
    { destruct r1 as [b|a|e]; try (injection E as <-; exact Y). destruct e; try (injection E as <-; exact Y). destruct (wslot s); try discriminate. injection E as <-. exact Y. }
    rewrite H0 in H. destruct (NR [Start id] f c r H). repeat constructor.
  - unfold shutdown in E.
    set (s1 := if (fd s <? 0)%Z then s else if is_shut (fd s) then s
     else w_fd (Z.lor (fd s) 1) (w_ep (armed s) (w_shut (krd s || rd) (kwr s || wr) s))) in *.
    assert (C1 : core s1).
    { unfold s1. destruct (fd s <? 0)%Z eqn:Ef; auto. destruct (is_shut (fd s)) eqn:Es; auto.
      destruct C as [Hr Hw Hrs Hws Hok Hk Ha He1 He2 Hfd]. constructor; try assumption.
      - intros _. apply lor1_shut.
      - cbn [armed fd w_fd w_ep w_shut]. now rewrite lor1_neg.
      - cbn. auto.
      - cbn [fd w_fd w_ep w_shut]. intros X. exfalso. pose proof (lor1_neg (fd s)). lia. }
    destruct (wakey_ok (mkM true true false false false) k s1 C1) as [s2 [E2 W]]; [intros X; discriminate X|]. rewrite E2 in E. injection E as <-.
    exfalso. eapply woken_noret; [exact W| |exact H]. unfold s1. destruct (fd s <? 0)%Z; auto. destruct (is_shut (fd s)); auto.
  - unfold close in E. destruct (fd s <? 0)%Z. { injection E as E. destruct (Nil s eq_refl (eq_sym E)). }
    exfalso. cbn [awp wslot rhook rslot w_fd w_ep w_armed] in E. destruct (awp s).
    + destruct (wslot s); try discriminate. cbn [rhook rslot w_awp w_wslot log] in E.
      cbn [rhook rslot w_fd w_ep w_armed] in E. assert (hist s' = hist s ++ [Cb id bs (Fail Canceled)]).
      { destruct (rhook s); [destruct (rslot s); try discriminate|]; injection E as <-; reflexivity. }
      rewrite H0 in H. eapply NR; [exact H|]. repeat constructor.
    + assert (hist s' = hist s) by (cbn in E; destruct (rhook s); [destruct (rslot s); try discriminate|]; injection E as <-; reflexivity).
      eapply (Nil s'); auto.
  - unfold register_hook in E. destruct (rhook s || (fd s <? 0)%Z); [discriminate|]. injection E as <-. exfalso. cbn in H. destruct (rnotif s); cbn in H.
    + rewrite <- app_assoc in H. eapply NR; [exact H|]. repeat constructor.
    + eapply NR; [exact H|]. repeat constructor.
  - unfold reset_hook in E. destruct (rhook s); [destruct (rslot s); try discriminate|]; injection E as E; (exfalso; apply (Nil s'); [rewrite <- E; reflexivity|reflexivity]).
  - injection E as E. destruct (One (w_errcb true s) _ eq_refl (eq_sym E) Logic.I).
  - injection E as E. (exfalso; apply (Nil s'); [rewrite <- E; reflexivity|reflexivity]).
  - injection E as E. (exfalso; apply (Nil s'); [rewrite <- E; reflexivity|reflexivity]).
  - destruct (brief s) as [|[[id bs] r1] t]; try discriminate. injection E as E. destruct (One (w_brief t s) _ eq_refl (eq_sym E) Logic.I).
  - unfold event in E. destruct (ep s && armed s); try discriminate. destruct (mi (levels s) || mo (levels s) || merr (levels s)).
    + destruct (wakey_ok _ k (w_ep false s) (core_ep0 s C) (event_errs s C A)) as [s2 [E2 W]]. rewrite E2 in E. injection E as <-.
      exfalso. eapply woken_noret; [exact W| |exact H]. reflexivity.
    + injection E as E. (exfalso; apply (Nil s'); [rewrite <- E; reflexivity|reflexivity]).
  - destruct (_ || _); try discriminate. injection E as E. destruct (One (w_ep (armed s) (w_karr (karr s ++ bs) (w_kin (kin s ++ bs) s))) _ eq_refl (eq_sym E) Logic.I).
  - destruct (_ || _); try discriminate. injection E as E. destruct (One (w_ep (armed s) (w_kfin true s)) _ eq_refl (eq_sym E) Logic.I).
  - destruct (krst s); try discriminate. injection E as E. destruct (One (w_ep (armed s) (w_krst true (w_kerr true s))) _ eq_refl (eq_sym E) Logic.I).
  - injection E as E. (exfalso; apply (Nil s'); [rewrite <- E; reflexivity|reflexivity]).
  - injection E as E. (exfalso; apply (Nil s'); [rewrite <- E; reflexivity|reflexivity]).
Qed.
