From Verif Require Import Util IoBufModel IoBufSpec IoBufProof IoStreamModel IoStreamSpec.
Open Scope N_scope.

Lemma skip_done_spec vs : forall done d rest, done <= len (concat vs) ->
  skip_done done vs = (d, rest) ->
  drop d (concat rest) = drop done (concat vs) /\ (d <> 0 -> exists v vs', rest = v :: vs' /\ d < len v)
  /\ d <= len (concat rest).
Proof.
  induction vs as [|v vs IH]; simpl; intros done d rest Hd E.
  - injection E as <- <-. rewrite len_nil in *. assert (done = 0) by lia; subst. repeat split; simpl; try lia; auto.
  - rewrite len_app in Hd. destruct (N.leb_spec (len v) done).
    + apply IH in E; [|lia]. destruct E as (E1 & E2 & E3). repeat split; auto. rewrite E1.
      replace done with (len v + (done - len v)) at 2 by lia.
      rewrite <- drop_drop, drop_app_eq by lia. reflexivity.
    + injection E as <- <-. repeat split; auto. intros; eauto. simpl. rewrite len_app. lia.
Qed.

Definition left_over (p : apos) : list N :=
  match p with Outer vs => concat vs | Inner rest vs => rest ++ concat vs end.

Lemma advance_spec p n : n <= len (offered p) ->
  exists p', advance n p = Some p' /\ left_over p' = drop n (left_over p).
Proof.
  destruct p as [vs|rest vs]; simpl; intros Hn.
  - destruct (skip_done n vs) as [d r] eqn:E. apply skip_done_spec in E; auto. destruct E as (E1 & E2 & E3).
    destruct (N.eqb_spec d 0) as [->|Hd].
    + eexists; split; eauto.
    + destruct (E2 Hd) as (v & vs' & -> & Hv). eexists; split; eauto. simpl. rewrite <- E1. simpl.
      now rewrite drop_app_le by lia.
  - rewrite drop_app_le by lia. destruct (N.eqb_spec (len (drop n rest)) 0) as [E|E].
    + apply len_zero in E. eexists; split; eauto. simpl. now rewrite E.
    + eexists; split; eauto.
Qed.

Definition ready (p : apos) : Prop := match p with Outer [] => False | _ => True end.

Lemma left_offered p : exists t, left_over p = offered p ++ t.
Proof. destruct p; simpl; eauto. exists []. now rewrite app_nil_r. Qed.

Lemma take_offered p n : n <= len (offered p) -> take n (left_over p) = take n (offered p).
Proof. intros. destruct (left_offered p) as [t ->]. now rewrite take_app_le. Qed.

Definition wout_ok (all : list N) (rs : list wresp) (acc0 : list N) (o : wout) : Prop :=
  match o with
  | WDone acc => acc = all
  | WFail e acc => is_prefix acc all /\ exists pre post, rs = pre ++ WErr e :: post /\
                     (forall r, In r pre -> exists n, r = WOk n)
  | WPending acc => is_prefix acc all
  | WBad => True
  | WUB => False
  end.

Lemma apply_exactly_ok rs : forall p acc,
  wout_ok (acc ++ left_over p) rs acc (apply_exactly p acc rs).
Proof.
  induction rs as [|r rs IH]; intros p acc.
  - destruct p as [[|v vs]|rest vs]; simpl; try rewrite app_nil_r; auto; eexists; eauto.
  - assert (Hdone : p = Outer [] \/ ready p) by (destruct p as [[|]|]; simpl; auto).
    destruct Hdone as [->|Hr]; [simpl; now rewrite app_nil_r|].
    assert (E : apply_exactly p acc (r :: rs) = match r with
      | WErr e => WFail e acc
      | WOk n => if len (offered p) <? n then WBad
                 else match advance n p with None => WUB
                      | Some p' => apply_exactly p' (acc ++ take n (offered p)) rs end end)
      by (destruct p as [[|]|]; simpl in Hr; try tauto; destruct r; reflexivity).
    rewrite E. destruct r as [n|e].
    + destruct (N.ltb_spec (len (offered p)) n); [exact I|].
      destruct (advance_spec p n) as (p' & -> & HL); [lia|].
      rewrite <- (take_offered p n) by lia. specialize (IH p' (acc ++ take n (left_over p))).
      rewrite HL, <- app_assoc, take_drop in IH by lia.
      destruct (apply_exactly p' _ rs); simpl in *; auto.
      destruct IH as (H1 & pre & post & -> & H3). split; auto. exists (WOk n :: pre), post. split; auto.
      simpl. intros r [<-|Hin]; eauto.
    + simpl. split; [eexists; eauto|]. exists [], rs. split; auto. simpl; tauto.
Qed.

Lemma wsb_in rs r : In r (WriteSomeBytes rs) ->
  match r with WOk n => 0 < n /\ In (WOk n) rs
             | WErr e => (e <> EINTR /\ In (WErr e) rs) \/ (e = EIO /\ In (WOk 0) rs) end.
Proof.
  induction rs as [|[n|e] rs IH]; simpl; [tauto| |].
  - intros [<-|H]; [destruct (N.eqb_spec n 0) as [->|]; simpl; [right|split]; auto; lia|].
    apply IH in H. destruct r; tauto.
  - destruct (N.eqb_spec e EINTR) as [->|].
    + intros H; apply IH in H. destruct r; tauto.
    + intros [<-|H]; [left; auto|]. apply IH in H. destruct r; tauto.
Qed.

Lemma wsb_split rs : forall e pre post, WriteSomeBytes rs = pre ++ WErr e :: post ->
  (forall r, In r pre -> exists n, r = WOk n) ->
  exists a x b, rs = a ++ x :: b /\ (x = WErr e /\ e <> EINTR \/ x = WOk 0 /\ e = EIO) /\
    forall r, In r a -> r = WErr EINTR \/ exists n, 0 < n /\ r = WOk n.
Proof.
  induction rs as [|[n|e'] rs IH]; simpl; intros e pre post E Hp.
  - destruct pre; discriminate.
  - destruct pre as [|r pre]; simpl in E.
    + injection E as E1 E2. destruct (N.eqb_spec n 0) as [->|]; [|discriminate]. injection E1 as <-.
      exists [], (WOk 0), rs. repeat split; auto. simpl; tauto.
    + injection E as E1 E2. destruct (N.eqb_spec n 0) as [->|].
      * destruct (Hp r (or_introl eq_refl)) as [k Hk]. congruence.
      * apply IH in E2; [|intros; apply Hp; simpl; auto]. destruct E2 as (a & x & b & -> & Hx & Ha).
        exists (WOk n :: a), x, b. repeat split; auto. simpl. intros q [<-|Hq]; auto. right. exists n. split; auto; lia.
  - destruct (N.eqb_spec e' EINTR) as [->|].
    + apply IH in E; auto. destruct E as (a & x & b & -> & Hx & Ha).
      exists (WErr EINTR :: a), x, b. repeat split; auto. simpl. intros q [<-|Hq]; auto.
    + destruct pre as [|r pre]; simpl in E.
      * injection E as <- _. exists [], (WErr e'), rs. repeat split; auto. simpl; tauto.
      * injection E as <- _. destruct (Hp _ (or_introl eq_refl)) as [k Hk]. discriminate.
Qed.

Lemma sink_write_ok_pf : forall vs rs acc, SinkWrite vs rs = WDone acc -> acc = concat vs.
Proof.
  intros vs rs acc E. pose proof (apply_exactly_ok (WriteSomeBytes rs) (Outer vs) []) as H.
  unfold SinkWrite, ApplyExactly in E. rewrite E in H. exact H.
Qed.

Lemma sink_write_error_pf : forall vs rs e acc, SinkWrite vs rs = WFail e acc ->
  is_prefix acc (concat vs) /\
  exists before answer after, rs = before ++ answer :: after /\
    (answer = WErr e /\ e <> EINTR \/ answer = WOk 0 /\ e = EIO) /\
    (forall r, In r before -> r = WErr EINTR \/ exists n, 0 < n /\ r = WOk n).
Proof.
  intros vs rs e acc E. pose proof (apply_exactly_ok (WriteSomeBytes rs) (Outer vs) []) as H.
  unfold SinkWrite, ApplyExactly in E. rewrite E in H. destruct H as (H1 & pre & post & H2 & H3).
  split; auto. eapply wsb_split; eauto.
Qed.

(** Progress: every real answer accepts at least one byte. *)
Lemma apply_progress rs : forall p acc acc', (forall r, In r rs -> r <> WOk 0) ->
  apply_exactly p acc rs = WPending acc' -> len acc + len rs <= len acc'.
Proof.
  induction rs as [|r rs IH]; intros p acc acc' Hz E.
  - rewrite len_nil. destruct p as [[|v vs]|]; simpl in E; try discriminate; injection E as <-; lia.
  - rewrite len_cons. destruct r as [n|e].
    + assert (E' : (if len (offered p) <? n then WBad else match advance n p with None => WUB
         | Some p' => apply_exactly p' (acc ++ take n (offered p)) rs end) = WPending acc').
      { destruct p as [[|v vs]|]; simpl in E; try discriminate; exact E. }
      destruct (N.ltb_spec (len (offered p)) n); [discriminate|].
      destruct (advance n p) as [p'|]; [|discriminate].
      apply IH in E'; [|intros; apply Hz; simpl; auto]. rewrite len_app, len_take in E'.
      assert (n <> 0) by (intros ->; apply (Hz (WOk 0)); simpl; auto). lia.
    + destruct p as [[|v vs]|]; simpl in E; discriminate.
Qed.

Lemma wsb_len rs : len (WriteSomeBytes rs) = real_answers rs.
Proof.
  unfold real_answers. induction rs as [|[n|e] rs IH]; simpl; auto.
  - rewrite !len_cons, IH. reflexivity.
  - destruct (N.eqb_spec e EINTR); simpl; rewrite ?len_cons, IH; reflexivity.
Qed.

Lemma sink_write_progress_pf : forall vs rs,
  len (concat vs) < real_answers rs -> exists acc, SinkWrite vs rs = WDone acc \/
     (exists e, SinkWrite vs rs = WFail e acc) \/ SinkWrite vs rs = WBad.
Proof.
  intros vs rs H. pose proof (apply_exactly_ok (WriteSomeBytes rs) (Outer vs) []) as Hok.
  unfold SinkWrite, ApplyExactly. destruct (apply_exactly _ _ _) eqn:E; simpl in Hok; eauto; try tauto.
  - exfalso. apply apply_progress in E.
    + rewrite wsb_len, len_nil in E. destruct Hok as [c Hc]. rewrite Hc, len_app in H. lia.
    + intros r Hr Hx. subst r. apply wsb_in in Hr. lia.
  Unshelve. exact [].
Qed.


Lemma oncb_skip_spec vs : forall sz, sz <= len (concat vs) -> vs <> [] ->
  match oncb_skip sz vs with
  | None => sz = len (concat vs)
  | Some vs' => concat vs' = drop sz (concat vs) /\ vs' <> []
  end.
Proof.
  induction vs as [|v vs IH]; intros sz Hs Hne; [tauto|]. simpl in *. rewrite len_app in Hs.
  destruct (N.leb_spec (len v) sz).
  - destruct vs as [|v' vs].
    + simpl in *. rewrite len_nil, app_nil_r in *. lia.
    + specialize (IH (sz - len v)). destruct (oncb_skip (sz - len v) (v' :: vs)) as [vs'|].
      * destruct IH as [E1 E2]; [lia|discriminate|]. split; auto. rewrite E1.
        replace sz with (len v + (sz - len v)) at 2 by lia.
        rewrite <- drop_drop, drop_app_eq by lia. reflexivity.
      * rewrite len_app. rewrite <- IH by (try lia; discriminate). lia.
  - split; [|discriminate]. simpl. now rewrite drop_app_le by lia.
Qed.

Lemma async_write_ok rs : forall vs acc, vs <> [] ->
  match async_write vs acc rs with
  | WDone acc' => acc' = acc ++ concat vs
  | WFail e acc' => is_prefix acc' (acc ++ concat vs) /\ In (WErr e) rs
  | WPending acc' => is_prefix acc' (acc ++ concat vs)
  | WBad => True
  | WUB => False
  end.
Proof.
  induction rs as [|[n|e] rs IH]; intros vs acc Hne; simpl.
  - eexists; eauto.
  - destruct vs as [|v0 vs0]; [tauto|]. remember (v0 :: vs0) as vs.
    destruct (N.ltb_spec (len (concat vs)) n); [exact I|].
    pose proof (oncb_skip_spec vs n H Hne) as Hs. destruct (oncb_skip n vs) as [vs'|].
    + destruct Hs as [E1 E2]. specialize (IH vs' (acc ++ take n (concat vs)) E2).
      rewrite E1, <- app_assoc, take_drop in IH. destruct (async_write vs' _ rs); simpl; tauto.
    + rewrite take_all by lia. reflexivity.
  - split; [eexists; eauto|auto].
Qed.

Lemma total_nil : total [] = 0. Proof. reflexivity. Qed.
Lemma total_cons c cs : total (c :: cs) = c + total cs. Proof. reflexivity. Qed.

Lemma oncb_skip_caps_spec caps : forall sz, sz <= total caps -> caps <> [] ->
  match oncb_skip_caps sz caps with
  | None => sz = total caps
  | Some caps' => total caps' + sz = total caps /\ caps' <> []
  end.
Proof.
  induction caps as [|c cs IH]; intros sz Hs Hne; [tauto|]. rewrite total_cons in *. cbn [oncb_skip_caps].
  destruct (N.leb_spec c sz).
  - destruct cs as [|c' cs].
    + simpl. rewrite total_nil in *. lia.
    + specialize (IH (sz - c)). destruct (oncb_skip_caps (sz - c) (c' :: cs)) as [caps'|].
      * destruct IH as [E1 E2]; [lia|discriminate|]. split; auto. lia.
      * rewrite <- IH by (try lia; discriminate). lia.
  - split; [|discriminate]. rewrite total_cons. lia.
Qed.

Lemma async_read_ok rs : forall caps got, caps <> [] ->
  match async_read caps got rs with
  | RDone g => len g = len got + total caps /\ is_prefix g (got ++ all_data rs)
  | RFail e g => is_prefix g (got ++ all_data rs) /\ In (RErr e) rs
  | RPending g => g = got ++ all_data rs
  | RBad => True
  | RUB => False
  end.
Proof.
  induction rs as [|[bs|e] rs IH]; intros caps got Hne; simpl.
  - now rewrite app_nil_r.
  - destruct caps as [|c0 cs0]; [tauto|]. remember (c0 :: cs0) as caps.
    destruct (N.ltb_spec (total caps) (len bs)); [exact I|].
    pose proof (oncb_skip_caps_spec caps (len bs) H Hne) as Hs. unfold all_data in *. simpl.
    destruct (oncb_skip_caps (len bs) caps) as [caps'|].
    + destruct Hs as [E1 E2]. specialize (IH caps' (got ++ bs) E2). rewrite <- app_assoc, len_app in IH.
      destruct (async_read caps' _ rs); simpl; auto; try tauto. destruct IH; split; auto. lia.
    + rewrite len_app, <- Hs. split; auto. exists (concat (map data_of rs)). now rewrite app_assoc.
  - split; [|auto]. unfold all_data; simpl. eexists; eauto.
Qed.

Lemma async_read_eof_never n : forall caps got, caps <> [] -> 0 < total caps ->
  async_read caps got (repeat eof n) = RPending got.
Proof.
  induction n; intros caps got Hne Ht; auto. simpl. destruct caps as [|c cs]; [tauto|].
  remember (c :: cs) as caps. change (len (@nil N)) with 0.
  destruct (N.ltb_spec (total caps) 0); [lia|].
  pose proof (oncb_skip_caps_spec caps 0 ltac:(lia) Hne) as Hs.
  destruct (oncb_skip_caps 0 caps) as [caps'|]; [|lia]. rewrite app_nil_r. apply IHn; [tauto|lia].
Qed.

(** ReadAtLeast *)
Lemma read_at_least_ok rs : forall cap min got calls,
  exists cs, snd (read_at_least cap min got calls rs) = calls ++ cs /\
    (min <= len got + cap -> Forall (fun c => 0 < c) cs) /\
  match fst (read_at_least cap min got calls rs) with
  | RDone g =>
      (exists used rest, rs = used ++ rest /\ g = got ++ all_data used /\ len used = len cs /\
         (forall r, In r used -> exists bs, r = RData bs) /\
         (len g < min -> exists used', used = used' ++ [eof]) /\
         (forall u1 u2, used = u1 ++ u2 -> u2 <> [] -> len got + len (all_data u1) < min)) /\
      (len g <= len got + cap)
  | RFail e g => exists used rest, rs = used ++ RErr e :: rest /\ g = got ++ all_data used
  | RPending g => g = got ++ all_data rs /\ len g < min
  | RBad => True
  | RUB => False
  end.
Proof.
  induction rs as [|r rs IH]; intros cap min got calls; cbn [read_at_least].
  - destruct (N.ltb_spec (len got) min); simpl.
    + exists []. rewrite !app_nil_r. repeat split; auto.
    + exists []. rewrite app_nil_r. repeat split; auto; [|lia]. exists [], []. simpl.
      repeat split; rewrite ?app_nil_r; auto; try tauto; try lia.
      intros u1 u2 E. symmetry in E. apply app_eq_nil in E. tauto.
  - destruct (N.ltb_spec (len got) min) as [Hlt|Hge].
    + destruct r as [bs|e].
      * destruct (N.ltb_spec cap (len bs)); simpl.
        { exists [cap]. repeat split; auto. intros. constructor; auto. lia. }
        destruct (N.eqb_spec (len bs) 0) as [E0|E0]; simpl.
        { exists [cap]. repeat split; [intros; constructor; auto; lia| |lia].
          apply len_zero in E0; subst bs. exists [eof], rs. simpl.
          repeat split; rewrite ?app_nil_r; auto.
          - intros r [<-|[]]. now exists [].
          - intros _. now exists [].
          - intros u1 u2 E Hne. destruct u1 as [|x u1]; [simpl; change (len (all_data [])) with 0; lia|].
            injection E as _ E. symmetry in E. apply app_eq_nil in E. tauto. }
        destruct (IH (cap - len bs) min (got ++ bs) (calls ++ [cap])) as (cs & E1 & E2 & E3).
        exists (cap :: cs). rewrite E1, <- app_assoc. split; [reflexivity|]. rewrite len_app in *.
        split. { intros. constructor; [lia|]. apply E2. lia. }
        destruct (fst _); auto.
        { destruct E3 as ((used & rest & -> & -> & El & H1 & H2 & H3) & H4). split; [|lia].
          exists (RData bs :: used), rest. unfold all_data in *; simpl. rewrite app_assoc. repeat split; auto.
          - rewrite !len_cons. lia.
          - intros r [<-|Hr]; eauto.
          - intros Hl. destruct (H2 Hl) as [u' ->]. now exists (RData bs :: u').
          - intros u1 u2 E Hne. destruct u1 as [|x u1]; [simpl; rewrite len_nil; lia|].
            injection E as <- E. simpl. rewrite len_app. specialize (H3 u1 u2 E Hne). lia. }
        { destruct E3 as (used & rest & -> & ->). exists (RData bs :: used), rest.
          unfold all_data; simpl. rewrite app_assoc. auto. }
        { destruct E3 as (-> & H4). unfold all_data in *; simpl. rewrite app_assoc. auto. }
      * simpl. exists [cap]. repeat split; [intros; constructor; auto; lia|].
        exists [], rs. unfold all_data; simpl. rewrite app_nil_r. auto.
    + simpl. exists []. rewrite app_nil_r. repeat split; auto; [|lia]. exists [], (r :: rs). simpl.
      repeat split; rewrite ?app_nil_r; auto; try tauto; try lia.
      intros u1 u2 E. symmetry in E. apply app_eq_nil in E. tauto.
Qed.

(** BytesSource *)
Lemma ReadSomeBytes_ok {A} caps : forall (src : list A) offs, offs <= len src ->
  concat (fst (ReadSomeBytes caps src offs)) = take (total caps) (drop offs src) /\
  snd (ReadSomeBytes caps src offs) = N.min (len src) (offs + total caps).
Proof.
  induction caps as [|c cs IH]; intros src offs Ho; cbn [ReadSomeBytes].
  - rewrite total_nil. cbn [fst snd]. split; auto. lia.
  - rewrite total_cons. destruct (N.ltb_spec offs (len src)) as [Hl|Hl].
    + set (rd := N.min (len src - offs) c).
      destruct (IH src (offs + rd) ltac:(lia)) as [E1 E2].
      cbv zeta. fold rd. destruct (ReadSomeBytes cs src (offs + rd)) as [l o].
      cbn [fst snd concat] in *. rewrite E1, E2. split; [|lia].
      rewrite <- drop_drop. set (s := drop offs src) in *.
      assert (Hls : len s = len src - offs) by apply len_drop.
      rewrite <- (take_drop rd s) at 3.
      destruct (N.le_gt_cases c (len src - offs)).
      * assert (rd = c) as -> by lia.
        unfold take, drop. replace (N.to_nat (c + total cs)) with (N.to_nat c + N.to_nat (total cs))%nat by lia.
        rewrite <- (firstn_length_le s (n := N.to_nat c)) at 3 by (unfold len in *; lia).
        now rewrite firstn_app_2.
      * assert (rd = len s) as -> by lia. rewrite (drop_all (len s) s), (take_all (len s) s) by lia.
        rewrite !app_nil_r. rewrite (take_all (c + total cs)) by lia. unfold take. now rewrite firstn_nil, app_nil_r.
    + simpl. rewrite drop_all by lia. unfold take. rewrite firstn_nil. split; auto. lia.
Qed.

Lemma take_drop_total (s : list N) a : drop (N.min (len s) a) s = drop a s.
Proof.
  destruct (N.le_gt_cases (len s) a); [|f_equal; lia].
  rewrite !drop_all; auto; lia.
Qed.

Lemma bytes_reads_ok reads : forall buf offs, offs <= len buf ->
  bytes_reads buf offs reads = ideal_reads (drop offs buf) reads.
Proof.
  induction reads as [|caps rs IH]; intros buf offs Ho; simpl; auto.
  unfold BytesSource_ReadSome. destruct (ReadSomeBytes_ok caps buf offs Ho) as [E1 E2].
  destruct (ReadSomeBytes caps buf offs) as [l o]. simpl in *. rewrite E1, E2. f_equal.
  rewrite IH by lia. f_equal. rewrite take_drop_total, drop_drop. reflexivity.
Qed.

(** The entries are filled one after the other. *)
Lemma ReadSomeBytes_fill {A} caps : forall (src : list A) offs,
  Forall2 (fun c chunk => len chunk <= c) (firstn (length (fst (ReadSomeBytes caps src offs))) caps)
          (fst (ReadSomeBytes caps src offs)) /\
  (length (fst (ReadSomeBytes caps src offs)) <= length caps)%nat.
Proof.
  induction caps as [|c cs IH]; intros src offs; simpl; [split; auto|].
  destruct (offs <? len src); simpl; [|split; auto; lia].
  specialize (IH src (offs + N.min (len src - offs) c)).
  destruct (ReadSomeBytes cs src _) as [l o]. simpl in *. destruct IH as [I1 I2]. split; [|lia].
  constructor; auto. rewrite len_take. lia.
Qed.

(** BufSink / BufSource *)
Lemma Write_size b q v : Rep b q -> size b + len v <= 2 ^ 63 ->
  exists b', WriteAndCommit v b = Some b' /\ Rep b' (q ++ v) /\ size b' <= size b + len v.
Proof.
  intros HR Hs. unfold WriteAndCommit.
  destruct (Ensure_ok b q (len v) HR Hs) as (b1 & E1 & R1 & A1 & S1). rewrite E1.
  destruct (Fill_ok b1 q v R1 A1) as (b2 & E2 & R2 & _). exists b2. split; auto. split; auto.
  assert (Hs1 : size b1 <= size b).
  { unfold EnsureCapacity in E1. destruct (AppendLen b <? len v); [|injection E1 as <-; lia].
    destruct HR as [(Hb & Hm & Ho & Hsz & Hc) He].
    unfold Reserve in E1. destruct (_ <? cap b); [injection E1 as <-; lia|].
    destruct (bit_ceil _) as [k|]; [|discriminate]. unfold Reallocate in E1. rewrite Hb in E1.
    destruct (offs b <? size b).
    - destruct (copy_cells _ _ _ _ _); [|discriminate]. injection E1 as <-. simpl. lia.
    - injection E1 as <-. simpl. lia. }
  assert (size b2 <= size b1 + len v).
  { unfold FillAndCommit in E2. destruct (copy_cells _ _ _ _ _); [|discriminate]. injection E2 as <-. simpl.
    unfold wrap. apply N.mod_le. discriminate. }
  lia.
Qed.

Lemma BufSink_ok vs : forall b q, Rep b q -> size b + len (concat vs) <= 2 ^ 63 ->
  exists b', BufSink_WriteSome vs b = Some (len (concat vs), b') /\ Rep b' (q ++ concat vs) /\
    size b' <= size b + len (concat vs).
Proof.
  induction vs as [|v vs IH]; intros b q HR Hs; cbn [BufSink_WriteSome concat] in *.
  - exists b. rewrite app_nil_r. change (len (@nil N)) with 0. split; [reflexivity|]. split; [exact HR|lia].
  - rewrite len_app in *. destruct (Write_size b q v HR ltac:(lia)) as (b1 & E1 & R1 & S1). rewrite E1.
    destruct (IH b1 _ R1 ltac:(lia)) as (b2 & E2 & R2 & S2). rewrite E2. exists b2.
    rewrite <- app_assoc in R2. split; auto. split; auto. lia.
Qed.

Lemma ConsumeInput_size n b b' : ConsumeInput n b = Some b' -> size b' <= size b.
Proof.
  unfold ConsumeInput, Compact. destruct (size b <=? _); [intros [= <-]; simpl; lia|]. simpl.
  destruct (_ && _); [|intros [= <-]; simpl; lia].
  destruct (0 <? _); [|intros [= <-]; simpl; lia].
  destruct (copy_cells _ _ _ _ _); [intros [= <-]; simpl; lia|discriminate].
Qed.

Lemma BufSource_ok caps b q : Rep b q ->
  exists l b', BufSource_ReadSome caps b = Some (l, b') /\ concat l = map Some (take (total caps) q) /\
    Rep b' (drop (total caps) q) /\ size b' <= size b.
Proof.
  intros HR. unfold BufSource_ReadSome. pose proof (Rep_len _ _ HR) as HL.
  pose proof HR as [(Hb & Hm & Ho & Hsz & Hc) He].
  destruct (ReadSomeBytes_ok caps (InputBuffer b) 0 ltac:(lia)) as [E1 E2].
  destruct (ReadSomeBytes caps (InputBuffer b) 0) as [l o]. cbn [fst snd] in *.
  rewrite drop_0, He, take_map in E1. rewrite He, len_map, N.add_0_l in E2.
  unfold InputLen in HL.
  destruct (Consume_ok b q o HR) as (b' & E & R & _).
  { rewrite two64_val. assert (2 ^ 63 <> 0) by (apply N.pow_nonzero; lia). lia. }
  rewrite E. exists l, b'. split; auto. split; auto. split; [|eapply ConsumeInput_size; eauto].
  rewrite E2, take_drop_total in R. exact R.
Qed.

Lemma pipe_ok h : forall b q, Rep b q -> size b + pipe_written h <= 2 ^ 63 ->
  exists b', pipe_run b h = Some (b', map Some (snd (pipe_spec q h))) /\ Rep b' (fst (pipe_spec q h)).
Proof.
  induction h as [|[vs|caps] h IH]; intros b q HR Hs; cbn [pipe_run pipe_spec pipe_written] in *.
  - exists b; auto.
  - destruct (BufSink_ok vs b q HR ltac:(lia)) as (b1 & E1 & R1 & S1). rewrite E1. apply IH; auto. lia.
  - destruct (BufSource_ok caps b q HR) as (l & b1 & E1 & E2 & R1 & S1). rewrite E1.
    destruct (IH b1 _ R1 ltac:(lia)) as (b2 & E3 & R2). rewrite E3.
    destruct (pipe_spec (drop (total caps) q) h) as [q' o]. cbn [fst snd] in *. exists b2.
    rewrite E2, map_app. auto.
Qed.

Lemma StringSink_ok vs : forall s, StringSink_WriteSome vs s = (len (concat vs), s ++ concat vs).
Proof.
  induction vs as [|v vs IH]; intros s; simpl; [now rewrite app_nil_r|].
  rewrite IH, len_app, <- app_assoc. reflexivity.
Qed.
Lemma NullSink_ok vs : NullSink_WriteSome vs = len (concat vs).
Proof. induction vs as [|v vs IH]; simpl; auto. rewrite IH, len_app. reflexivity. Qed.

(** PrefixSource *)
Section Prefix.
  Context {U R : Type}.
  Variable up : U -> list N -> U * sres R.
  Lemma prefix_ok reads : forall prefix s, poffs s <= len prefix -> Forall (fun c => c <> []) reads ->
    exists s' rs mine theirs served,
      prefix_reads up prefix s reads = Some (s', rs) /\
      reads = mine ++ theirs /\
      rs = map SBytes served ++ snd (direct_reads up (pup s) theirs) /\
      pup s' = fst (direct_reads up (pup s) theirs) /\
      length served = length mine /\
      concat served ++ UnusedPrefix prefix s' = UnusedPrefix prefix s /\
      (theirs <> [] -> concat served = UnusedPrefix prefix s) /\
      (forall i c cs, nth_error mine i = Some (c :: cs) -> 0 < c -> exists x xs, nth_error served i = Some (x :: xs)) /\
      poffs s' <= len prefix.
  Proof.
    induction reads as [|caps reads IH]; intros prefix s Ho Hne; simpl.
    - exists s, [], [], [], []. simpl. repeat split; auto; try tauto. intros [|i]; discriminate.
    - inversion Hne as [|? ? Hc Hr]; subst. unfold Prefix_ReadSome. destruct caps as [|c cs]; [tauto|].
      destruct (N.ltb_spec (poffs s) (len prefix)) as [Hl|Hl].
      + set (sz := N.min (len prefix - poffs s) c).
        destruct (IH prefix (PS (poffs s + sz) (pup s))) as
          (s' & rs & mine & theirs & served & E1 & E2 & E3 & E4 & E5 & E6 & E7 & E8 & E9); simpl in *; auto; [lia|].
        rewrite E1.
        assert (HU : UnusedPrefix prefix s = take sz (drop (poffs s) prefix) ++
                     UnusedPrefix prefix (PS (poffs s + sz) (pup s))).
        { unfold UnusedPrefix. simpl. destruct (N.leb_spec (len prefix) (poffs s)); [lia|].
          destruct (N.leb_spec (len prefix) (poffs s + sz)).
          - rewrite app_nil_r, take_all; auto. rewrite len_drop. lia.
          - rewrite <- drop_drop, take_drop. reflexivity. }
        exists s', (SBytes (take sz (drop (poffs s) prefix)) :: rs), ((c :: cs) :: mine), theirs,
          (take sz (drop (poffs s) prefix) :: served). simpl. subst.
        split; [reflexivity|]. split; [reflexivity|]. split; [reflexivity|]. split; [exact E4|].
        split; [congruence|]. split; [now rewrite <- app_assoc, E6|].
        split; [intros Hx; rewrite HU, E7; auto|]. split; [|exact E9].
        intros [|i] c0 cs0 Hn Hc0; simpl in *.
        * injection Hn as <- <-. destruct (take sz (drop (poffs s) prefix)) as [|x xs] eqn:Et; eauto.
          apply (f_equal len) in Et. rewrite len_take, len_drop, len_nil in Et. lia.
        * eapply E8; eauto.
      + destruct (up (pup s) (c :: cs)) as [u r] eqn:Eu.
        assert (Hall : forall rd st, len prefix <= poffs st -> Forall (fun c => c <> []) rd ->
          prefix_reads up prefix st rd =
            Some (PS (poffs st) (fst (direct_reads up (pup st) rd)), snd (direct_reads up (pup st) rd))).
        { clear. induction rd as [|caps rd IH]; intros st Hp Hf; simpl; [destruct st; auto|].
          inversion Hf; subst. unfold Prefix_ReadSome. destruct caps as [|c cs]; [tauto|].
          destruct (N.ltb_spec (poffs st) (len prefix)); [lia|].
          destruct (up (pup st) (c :: cs)) as [u r]. rewrite IH; auto. simpl.
          destruct (direct_reads up u rd); reflexivity. }
        rewrite Hall by auto. simpl.
        exists (PS (poffs s) (fst (direct_reads up u reads))), (r :: snd (direct_reads up u reads)), [], ((c :: cs) :: reads), [].
        simpl. rewrite Eu. destruct (direct_reads up u reads) as [u' l']. simpl.
        unfold UnusedPrefix; simpl. destruct (N.leb_spec (len prefix) (poffs s)); [|lia].
        repeat split; auto; intros [|i]; discriminate.
  Qed.
End Prefix.

(** AdvanceIovec *)
Lemma advance_iovec_ok vs : forall n, n <= len (concat vs) ->
  exists vs', AdvanceIovec vs n = Some vs' /\ concat vs' = drop n (concat vs).
Proof.
  induction vs as [|v vs IH]; intros n Hn; simpl in *.
  - rewrite len_nil in Hn. assert (n = 0) by lia; subst. simpl. eauto.
  - rewrite len_app in Hn. destruct (N.ltb_spec 0 n).
    + destruct (N.leb_spec (len v) n).
      * destruct (IH (n - len v)) as (vs' & E & Hc); [lia|]. exists vs'. split; auto. rewrite Hc.
        replace n with (len v + (n - len v)) at 2 by lia. rewrite <- drop_drop, drop_app_eq by lia. reflexivity.
      * eexists; split; eauto. simpl. now rewrite drop_app_le by lia.
    + assert (n = 0) by lia; subst. eexists; split; eauto.
Qed.
Lemma advance_iovec_abort vs : forall n, len (concat vs) < n -> AdvanceIovec vs n = None.
Proof.
  induction vs as [|v vs IH]; intros n Hn; simpl in *.
  - rewrite len_nil in Hn. destruct (N.eqb_spec n 0); auto; lia.
  - rewrite len_app in Hn. destruct (N.ltb_spec 0 n); [|lia].
    destruct (N.leb_spec (len v) n); [|lia]. apply IH. lia.
Qed.
Lemma is_empty_ok vs : IsEmptyIovec vs = true <-> concat vs = [].
Proof.
  induction vs as [|v vs IH]; simpl; [tauto|]. destruct (N.eqb_spec (len v) 0) as [E|E]; simpl.
  - apply len_zero in E. subst. auto.
  - split; [discriminate|]. intros H. apply app_eq_nil in H. destruct H as [-> _]. now rewrite len_nil in E.
Qed.
Lemma total_bytes_ok lens : forall t, t < two64 -> Forall (fun l => l < two64) lens ->
  GetIovecTotalBytes t lens = if t + total lens <? two64 then Some (t + total lens) else None.
Proof.
  induction lens as [|l ls IH]; intros t Ht Hf; cbn [GetIovecTotalBytes].
  - rewrite total_nil, N.add_0_r. destruct (N.ltb_spec t two64); [auto|lia].
  - inversion Hf; subst. rewrite total_cons. cbv zeta.
    destruct (N.lt_ge_cases (t + l) two64).
    + rewrite N.mod_small by auto. destruct (N.leb_spec t (t + l)); [|lia].
      rewrite IH by auto. rewrite N.add_assoc. reflexivity.
    + replace ((t + l) mod two64) with (t + l - two64).
      * destruct (N.leb_spec t (t + l - two64)); [lia|].
        destruct (N.ltb_spec (t + (l + total ls)) two64); [lia|auto].
      * unfold two64 in *. rewrite (N.mod_eq _ 18446744073709551616) by lia.
        replace ((t + l) / 18446744073709551616) with 1; [lia|].
        apply N.div_unique with (r := t + l - 18446744073709551616); lia.
Qed.
