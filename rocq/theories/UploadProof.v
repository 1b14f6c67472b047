From Verif Require Import Util UploadModel UploadSpec.
Open Scope N_scope.

Lemma lookup_cons_eq i d l : lookup i ((i, d) :: l) = Some d.
Proof. cbn. now rewrite Nat.eqb_refl. Qed.
Lemma lookup_cons_ne i j d l : i <> j -> lookup i ((j, d) :: l) = lookup i l.
Proof. intro H. cbn. apply Nat.eqb_neq in H. now rewrite H. Qed.

Lemma gather_seq l bl : forall a,
  (forall i, (i < length bl)%nat -> lookup (a + i) l = Some (nth i bl [])) ->
  gather (seq a (length bl)) l = Some (concat bl).
Proof.
  induction bl as [|b bl IH]; intros a H; cbn [length seq gather concat]; auto.
  pose proof (H 0%nat ltac:(cbn; lia)) as H0. rewrite Nat.add_0_r in H0. rewrite H0.
  rewrite (IH (S a)); auto. intros i Hi. replace (S a + i)%nat with (a + S i)%nat by lia.
  rewrite H by (cbn; lia). reflexivity.
Qed.

Lemma gather_some ids l o i : gather ids l = Some o -> In i ids -> lookup i l <> None.
Proof.
  revert o; induction ids as [|j ids IH]; cbn; [tauto|]. intros o.
  destruct (lookup j l) eqn:E; [|discriminate]. destruct (gather ids l) eqn:G; [|discriminate].
  intros _ [->|H]; [congruence|eauto].
Qed.

(** ** S3WriteFile *)

Definition DI (part : N) (s : ds) (acc : list N) : Prop :=
  exists bl, length bl = d_n s /\
    (forall i, (i < d_n s)%nat -> lookup (S i) (v_parts (d_svc s)) = Some (nth i bl [])) /\
    acc = concat bl ++ d_buf s /\ len (d_buf s) <= part /\ v_obj (d_svc s) = None.

Lemma flush_inv part s acc net ok s' net' :
  DI part s acc -> Flush s net = Ret ok s' net' ->
  DI part s' acc /\ (ok = true -> d_buf s' = []).
Proof.
  intros (bl & L & P & A & B & O). unfold Flush.
  destruct (N.eqb_spec (len (d_buf s)) 0) as [E|E].
  { intros [= <- <- <-]. split; [exists bl; auto|]. intros _. now apply len_zero. }
  destruct net as [|f net]; [discriminate|].
  destruct f; cbn [send svc_put].
  - intros [= <- <- <-]. split; [|reflexivity]. exists (bl ++ [d_buf s]). cbn [d_n d_svc d_buf v_obj].
    rewrite app_length. cbn [length]. split; [lia|]. split; [|split; [|split]].
    + intros i Hi. cbn [v_parts]. destruct (Nat.eq_dec i (d_n s)) as [->|N].
      * rewrite lookup_cons_eq. rewrite app_nth2 by lia. rewrite L, Nat.sub_diag. reflexivity.
      * rewrite lookup_cons_ne by lia. rewrite app_nth1 by lia. apply P. lia.
    + rewrite concat_app. cbn [concat]. rewrite app_nil_r, app_nil_r. auto.
    + rewrite len_nil. lia.
    + auto.
  - intros [= <- <- <-]. split; [|discriminate]. exists bl; auto.
  - intros [= <- <- <-]. split; [|discriminate]. exists bl. cbn [d_n d_svc d_buf].
    split; [auto|]. split; [|auto]. intros i Hi. cbn [orelse v_parts].
    rewrite lookup_cons_ne by lia. auto.
Qed.

Lemma DI_push part s acc x :
  DI part s acc -> len (d_buf s) + len x <= part ->
  DI part (mkDs (d_buf s ++ x) (d_n s) (d_svc s)) (acc ++ x).
Proof.
  intros (bl & L & P & A & B & O) H. exists bl. cbn [d_n d_svc d_buf].
  split; [auto|]. split; [auto|]. split; [|split; auto].
  - now rewrite A, app_assoc.
  - rewrite len_app. lia.
Qed.

Lemma sdk_fill_inv part : forall fuel data s acc net ok s' net',
  DI part s acc -> sdk_fill part fuel data s net = Ret ok s' net' ->
  exists p q, data = p ++ q /\ DI part s' (acc ++ p) /\ (ok = true -> q = []).
Proof.
  induction fuel as [|fuel IH]; intros data s acc net ok s' net' I R.
  { destruct data; cbn in R; [|discriminate]. injection R as <- <- <-.
    exists [], []. rewrite (app_nil_r acc). auto. }
  destruct data as [|x data].
  { cbn in R. injection R as <- <- <-. exists [], []. rewrite (app_nil_r acc). auto. }
  cbn [sdk_fill] in R. remember (x :: data) as dt eqn:Edt. clear Edt.
  set (n := N.min (len dt) (part - len (d_buf s))) in *.
  assert (B : len (d_buf s) <= part) by (destruct I as (bl & _ & _ & _ & B & _); auto).
  assert (I1 : DI part (mkDs (d_buf s ++ take n dt) (d_n s) (d_svc s)) (acc ++ take n dt)).
  { apply DI_push; auto. rewrite len_take. lia. }
  set (s1 := mkDs (d_buf s ++ take n dt) (d_n s) (d_svc s)) in *.
  destruct (part =? len (d_buf s1)).
  - destruct (Flush s1 net) as [ok1 s2 net2| | |] eqn:F; cbn [bind] in R; try discriminate.
    destruct (flush_inv _ _ _ _ _ _ _ I1 F) as [I2 _]. destruct ok1.
    + destruct (IH _ _ _ _ _ _ _ I2 R) as (p & q & E & I3 & Q).
      exists (take n dt ++ p), q. rewrite <- app_assoc, <- E, take_drop.
      split; [auto|]. rewrite app_assoc. auto.
    + injection R as <- <- <-. exists (take n dt), (drop n dt). rewrite take_drop.
      split; [auto|]. split; [auto|discriminate].
  - destruct (IH _ _ _ _ _ _ _ I1 R) as (p & q & E & I3 & Q).
    exists (take n dt ++ p), q. rewrite <- app_assoc, <- E, take_drop.
    split; [auto|]. rewrite app_assoc. auto.
Qed.

Lemma sdk_write_inv part : forall vs total s acc net r s' net',
  DI part s acc -> sdk_write part vs total s net = Ret r s' net' ->
  exists p q, concat vs = p ++ q /\ DI part s' (acc ++ p) /\
    (r = None \/ q = [] /\ r = Some (total + len (concat vs))).
Proof.
  induction vs as [|v vs IH]; intros total s acc net r s' net' I R; cbn [sdk_write] in R.
  { injection R as <- <- <-. exists [], []. rewrite (app_nil_r acc). cbn [concat].
    split; [auto|]. split; [auto|]. right. rewrite len_nil, N.add_0_r. auto. }
  destruct (sdk_fill part (2 * length v + 2) v s net) as [ok s1 net1| | |] eqn:F;
    cbn [bind] in R; try discriminate.
  destruct (sdk_fill_inv _ _ _ _ _ _ _ _ _ I F) as (p & q & E & I1 & Q).
  destruct ok.
  - specialize (Q eq_refl). subst q. rewrite app_nil_r in E. subst p.
    destruct (IH _ _ _ _ _ _ _ I1 R) as (p & q & E2 & I2 & Q2).
    exists (v ++ p), q. cbn [concat]. rewrite E2, <- app_assoc. split; [auto|].
    rewrite app_assoc. split; [auto|]. destruct Q2 as [Q2|[Q2 Q3]]; [auto|right].
    split; auto. rewrite Q3. f_equal. rewrite <- E2, len_app. lia.
  - injection R as <- <- <-. exists p, (q ++ concat vs). cbn [concat]. rewrite E.
    rewrite <- app_assoc. auto.
Qed.

Lemma sdk_writes_inv part : forall l s acc net rs s' net',
  DI part s acc -> sdk_writes part l s net = Ret rs s' net' ->
  exists o, kept l rs o /\ DI part s' (acc ++ o).
Proof.
  induction l as [|vs l IH]; intros s acc net rs s' net' I R; cbn [sdk_writes] in R.
  { injection R as <- <- <-. exists []. rewrite app_nil_r. split; [constructor|auto]. }
  destruct (sdk_write part vs 0 s net) as [r s1 net1| | |] eqn:F; cbn [bind] in R; try discriminate.
  destruct (sdk_write_inv _ _ _ _ _ _ _ _ _ I F) as (p & q & E & I1 & Q).
  destruct (sdk_writes part l s1 net1) as [rs1 s2 net2| | |] eqn:G; cbn [bind] in R; try discriminate.
  injection R as <- <- <-. destruct (IH _ _ _ _ _ _ I1 G) as (o & K & I2).
  exists (p ++ o). rewrite app_assoc. split; [|auto]. destruct Q as [->|[-> ->]].
  - now apply kept_fail with (q := q).
  - rewrite app_nil_r in E. rewrite <- E at 1. constructor; auto.
Qed.

Lemma sdk_close_obj part s acc net s' net' :
  DI part s acc -> sdk_close s net = Ret true s' net' -> v_obj (d_svc s') = Some acc.
Proof.
  intros I R. unfold sdk_close in R.
  destruct (Flush s net) as [ok s1 net1| | |] eqn:F; cbn [bind] in R; try discriminate.
  destruct (flush_inv _ _ _ _ _ _ _ I F) as [(bl & L & P & A & B & O) E]. destruct ok; [|discriminate].
  specialize (E eq_refl). destruct net1 as [|f net1]; [discriminate|].
  assert (G : gather (seq 1 (d_n s1)) (v_parts (d_svc s1)) = Some acc).
  { rewrite <- L. rewrite gather_seq with (bl := bl).
    - rewrite A, E, app_nil_r. auto.
    - intros i Hi. apply P. lia. }
  destruct f; cbn [send] in R.
  - destruct (svc_commit S3 (seq 1 (d_n s1)) (d_svc s1)) as [v|] eqn:C; [|discriminate].
    injection R as <- <-. cbn [d_svc]. unfold svc_commit in C. rewrite G in C.
    destruct (seq 1 (d_n s1)); [discriminate|]. injection C as <-. reflexivity.
  - discriminate.
  - discriminate.
Qed.

Lemma DI0 part : DI part ds0 [].
Proof. exists []. cbn. repeat split; auto; [intros; lia|rewrite len_nil; lia]. Qed.

Lemma sdk_object_pf part l net rs s net' :
  sdk_session part l net = Ret (rs, true) s net' ->
  exists o, v_obj (d_svc s) = Some o /\ kept l rs o.
Proof.
  unfold sdk_session. intros R.
  destruct (sdk_writes part l ds0 net) as [rs1 s1 net1| | |] eqn:W; cbn [bind] in R; try discriminate.
  destruct (sdk_writes_inv _ _ _ _ _ _ _ _ (DI0 part) W) as (o & K & I). cbn [app] in I.
  destruct (sdk_close s1 net1) as [ok s2 net2| | |] eqn:C; cbn [bind] in R; try discriminate.
  injection R as -> -> <- <-. exists o. split; auto. eapply sdk_close_obj; eauto.
Qed.

Lemma kept_written l : forall rs o, kept l rs o -> no_error rs -> o = written l.
Proof.
  induction 1 as [|vs l n rs o E K IH|vs l rs p q o E K IH]; intros NE.
  - reflexivity.
  - unfold written in *. cbn [map concat]. rewrite <- IH; auto.
    intros r Hr. apply NE. now right.
  - exfalso. apply (NE None); [now left|auto].
Qed.

(** Termination and progress of the S3WriteFile writer *)

Definition all_deliver (net : list fate) : Prop := forall f, In f net -> f = Deliver.
Lemma all_deliver_tl f net : all_deliver (f :: net) -> all_deliver net.
Proof. intros H g Hg. apply H. now right. Qed.

Lemma flush_no_abort s net : Flush s net <> Abort /\ Flush s net <> Spin.
Proof.
  unfold Flush. destruct (len (d_buf s) =? 0); [split; discriminate|].
  destruct net as [|f net]; [split; discriminate|]. destruct (send _ _ _) as [[] v]; split; discriminate.
Qed.

Lemma sdk_fill_no_spin part : 0 < part -> forall fuel data s net,
  len (d_buf s) <= part ->
  (2 * length data + (if (part =? len (d_buf s))%N then 1 else 0) <= fuel)%nat ->
  sdk_fill part fuel data s net <> Spin /\ sdk_fill part fuel data s net <> Abort /\
  (forall ok s' net', sdk_fill part fuel data s net = Ret ok s' net' -> len (d_buf s') <= part).
Proof.
  intros Hp. induction fuel as [|fuel IH]; intros data s net B F.
  { destruct data; cbn in *; [|lia]. repeat split; try discriminate. now intros ? ? ? [= <- <- <-]. }
  destruct data as [|x data].
  { cbn. repeat split; try discriminate. now intros ? ? ? [= <- <- <-]. }
  cbn [sdk_fill]. remember (x :: data) as dt eqn:Edt.
  assert (LD : length dt = S (length data)) by now subst.
  assert (LD' : len dt = N.of_nat (length dt)) by reflexivity. clear Edt.
  set (n := N.min (len dt) (part - len (d_buf s))) in *.
  set (s1 := mkDs (d_buf s ++ take n dt) (d_n s) (d_svc s)) in *.
  assert (B1 : len (d_buf s1) = len (d_buf s) + n).
  { unfold s1; cbn [d_buf]. rewrite len_app, len_take. lia. }
  assert (LR : N.of_nat (length (drop n dt)) = len dt - n).
  { change (len (drop n dt) = len dt - n). apply len_drop. }
  destruct (N.eqb_spec part (len (d_buf s1))) as [E|E].
  - destruct (flush_no_abort s1 net) as [NA NS].
    destruct (Flush s1 net) as [ok1 s2 net2| | |] eqn:FL; cbn [bind]; try congruence.
    2:{ repeat split; discriminate. }
    unfold Flush in FL. destruct (N.eqb_spec (len (d_buf s1)) 0) as [Z|Z]; [lia|].
    destruct net as [|f net]; [discriminate|].
    destruct (send f _ _) as [[] v].
    + injection FL as <- <- <-. apply IH; cbn [d_buf]; rewrite len_nil; [lia|].
      destruct (N.eqb_spec part 0); [lia|].
      revert F. destruct (N.eqb_spec part (len (d_buf s))); lia.
    + injection FL as <- <- <-. repeat split; try discriminate.
      intros ? ? ? [= <- <- <-]. change (len (d_buf s1) <= part). lia.
  - apply IH; [lia|]. destruct (N.eqb_spec part (len (d_buf s1))) as [|_]; [contradiction|].
    revert F. destruct (N.eqb_spec part (len (d_buf s))); lia.
Qed.

Lemma sdk_returns_pf part l net :
  0 < part -> sdk_session part l net <> Abort /\ sdk_session part l net <> Spin.
Proof.
  intros Hp.
  assert (W : forall vs total s net, len (d_buf s) <= part ->
    sdk_write part vs total s net <> Spin /\ sdk_write part vs total s net <> Abort /\
    (forall r s' net', sdk_write part vs total s net = Ret r s' net' -> len (d_buf s') <= part)).
  { clear l net. induction vs as [|v vs IH]; intros total s net B; cbn [sdk_write].
    { repeat split; try discriminate. now intros ? ? ? [= <- <- <-]. }
    destruct (sdk_fill_no_spin part Hp (2 * length v + 2) v s net B) as (S1 & S2 & S3).
    { destruct (part =? _); lia. }
    destruct (sdk_fill part (2 * length v + 2) v s net) as [ok s1 net1| | |] eqn:F; cbn [bind];
      try congruence.
    2:{ repeat split; discriminate. }
    specialize (S3 _ _ _ eq_refl). destruct ok; [auto|].
    repeat split; try discriminate. now intros ? ? ? [= <- <- <-]. }
  assert (WS : forall l s net, len (d_buf s) <= part ->
    sdk_writes part l s net <> Spin /\ sdk_writes part l s net <> Abort).
  { clear l net. induction l as [|vs l IH]; intros s net B; cbn [sdk_writes]; [split; discriminate|].
    destruct (W vs 0 s net B) as (S1 & S2 & S3).
    destruct (sdk_write part vs 0 s net) as [r s1 net1| | |]; cbn [bind]; try congruence.
    2:{ split; discriminate. }
    specialize (S3 _ _ _ eq_refl). destruct (IH s1 net1 S3) as [I1 I2].
    destruct (sdk_writes part l s1 net1); cbn [bind]; try congruence; split; discriminate. }
  unfold sdk_session. destruct (WS l ds0 net) as [I1 I2].
  { cbn. rewrite len_nil. lia. }
  destruct (sdk_writes part l ds0 net) as [rs s1 net1| | |]; cbn [bind]; try congruence.
  2:{ split; discriminate. }
  unfold sdk_close. destruct (flush_no_abort s1 net1) as [NA NS].
  destruct (Flush s1 net1) as [ok s2 net2| | |]; cbn [bind]; try congruence.
  2:{ split; discriminate. }
  destruct ok; [|cbn; split; discriminate]. destruct net2 as [|f net2]; [cbn; split; discriminate|].
  destruct (send f _ _) as [ok' v]. cbn. split; discriminate.
Qed.

Lemma sdk_zero_part_pf x data vs l net : forall fuel,
  sdk_fill 0 fuel (x :: data) ds0 net = Spin /\
  sdk_session 0 (((x :: data) :: vs) :: l) net = Spin.
Proof.
  assert (H : forall fuel, sdk_fill 0 fuel (x :: data) ds0 net = Spin).
  { induction fuel as [|fuel IH]; [reflexivity|]. cbn [sdk_fill].
    replace (N.min (len (x :: data)) (0 - len (d_buf ds0))) with 0 by (cbn [ds0 d_buf]; lia).
    rewrite drop_0, take_0. apply IH. }
  intros fuel. split; [auto|]. unfold sdk_session. cbn [sdk_writes sdk_write]. rewrite H. reflexivity.
Qed.

(** ** AbstractStorageFile *)

Definition WI (k : kind) (s : ws) (acc : list N) : Prop :=
  v_obj (w_svc s) = None /\
  match k with
  | S3 => exists bl, w_next s = S (length bl) /\ w_acked s = seq 1 (length bl) /\
            (forall i, (i < length bl)%nat -> lookup (S i) (v_parts (w_svc s)) = Some (nth i bl [])) /\
            acc = concat bl ++ w_body s
  | Azure => exists bl, w_next s = S (length bl) /\
            (forall i, (length bl <= i)%nat -> lookup (S i) (v_parts (w_svc s)) = None) /\
            (forall i d, (i < length bl)%nat -> lookup (S i) (v_parts (w_svc s)) = Some d ->
                         d = nth i bl []) /\
            acc = concat bl ++ w_body s
  | Gcs => w_up s = len (v_stored (w_svc s)) /\ acc = v_stored (w_svc s) ++ w_body s
  end.

Lemma WI0 k : WI k ws0 [].
Proof.
  destruct k; split; try reflexivity.
  - exists []. cbn. repeat split; auto. intros; lia.
  - exists []. cbn. repeat split; auto. intros; lia.
  - cbn. auto.
Qed.

Lemma WI_push k s acc x : WI k s acc -> WI k (with_body (w_body s ++ x) s) (acc ++ x).
Proof.
  intros [O W]. split; [exact O|]. destruct k; cbn [with_body w_body w_next w_acked w_up w_svc].
  - destruct W as (bl & A & B & C & ->). exists bl. rewrite app_assoc. auto.
  - destruct W as (bl & A & B & C & ->). exists bl. rewrite app_assoc. auto.
  - destruct W as [A ->]. rewrite app_assoc. auto.
Qed.

Lemma upload_inv k s acc net ok s' net' :
  WI k s acc -> Upload k s net = Ret ok s' net' -> ok = true \/ k = Azure ->
  WI k s' acc /\ w_body s' = [].
Proof.
  intros [O W] R Hk. unfold Upload in R. destruct (len (w_body s) =? 0); [discriminate|].
  destruct k.
  - destruct Hk as [->|]; [|discriminate]. destruct W as (bl & A & B & C & ->).
    destruct net as [|f net]; [discriminate|].
    destruct f; cbn [send svc_put] in R; try discriminate.
    injection R as <- <-. split; [|reflexivity]. split; [exact O|].
    exists (bl ++ [w_body s]). cbn [w_next w_acked w_svc w_body v_parts].
    rewrite app_length, Nat.add_1_r. rewrite A, B. split; [auto|]. split; [|split].
    + rewrite seq_S. reflexivity.
    + intros i Hi. destruct (Nat.eq_dec i (length bl)) as [->|N].
      * rewrite lookup_cons_eq. rewrite app_nth2 by lia. rewrite Nat.sub_diag. reflexivity.
      * rewrite lookup_cons_ne by lia. rewrite app_nth1 by lia. apply C. lia.
    + rewrite concat_app. cbn [concat]. now rewrite !app_nil_r.
  - destruct W as (bl & A & B & C & ->). destruct net as [|f net]; [discriminate|].
    destruct (send f (svc_put (w_next s) (w_body s)) (w_svc s)) as [ok1 v] eqn:S.
    injection R as <- <- <-. split; [|reflexivity].
    assert (V : v_obj v = None /\
              (v_parts v = v_parts (w_svc s) \/
               v_parts v = (w_next s, w_body s) :: v_parts (w_svc s))).
    { destruct f; cbn [send svc_put orelse] in S; injection S as _ <-; cbn [v_obj v_parts]; auto. }
    destruct V as [VO VP]. split; [exact VO|].
    exists (bl ++ [w_body s]). cbn [w_next w_acked w_svc w_body].
    rewrite app_length, Nat.add_1_r. rewrite A. split; [auto|]. split; [|split].
    + intros i Hi. destruct VP as [->| ->]; [apply B; lia|].
      rewrite lookup_cons_ne by lia. apply B; lia.
    + intros i d Hi. destruct (Nat.eq_dec i (length bl)) as [->|N].
      * rewrite app_nth2 by lia. rewrite Nat.sub_diag. cbn [nth].
        destruct VP as [->| ->]; [rewrite B by lia; discriminate|].
        rewrite <- A, lookup_cons_eq. congruence.
      * rewrite app_nth1 by lia. destruct VP as [->| ->]; [apply C; lia|].
        rewrite lookup_cons_ne by lia. apply C; lia.
    + rewrite concat_app. cbn [concat]. now rewrite !app_nil_r.
  - destruct Hk as [->|]; [|discriminate]. destruct W as [A ->].
    destruct (negb _); [discriminate|]. destruct net as [|f net]; [discriminate|].
    destruct f; cbn [send] in R; try discriminate.
    unfold svc_range in R. destruct (len (v_stored (w_svc s)) <? w_up s); [discriminate|].
    cbn [v_stored] in R.
    replace (len (v_stored (w_svc s)) - w_up s) with 0 in R by lia. rewrite drop_0 in R.
    destruct (_ =? _) eqn:E; [|discriminate]. injection R as <- <-.
    split; [|reflexivity]. split; [exact O|]. cbn [w_up w_svc v_stored w_body].
    rewrite app_nil_r. apply N.eqb_eq in E. auto.
Qed.

Lemma fill_inv k part : forall fuel data s acc net ok s' net',
  WI k s acc -> fill k part fuel data s net = Ret ok s' net' -> ok = true \/ k = Azure ->
  exists p q, data = p ++ q /\ WI k s' (acc ++ p) /\ (ok = true -> q = []).
Proof.
  induction fuel as [|fuel IH]; intros data s acc net ok s' net' I R Hk; cbn [fill] in R;
    [discriminate|].
  set (room := part - len (w_body s)) in *.
  destruct (room <=? len data) eqn:E.
  - destruct (Upload k (with_body (w_body s ++ take room data) s) net) as [ok1 s1 net1| | |] eqn:U;
      cbn [bind] in R; try discriminate.
    destruct ok1.
    + destruct (upload_inv _ _ _ _ _ _ _ (WI_push _ _ _ (take room data) I) U) as [I1 _]; [auto|].
      destruct (IH _ _ _ _ _ _ _ I1 R Hk) as (p & q & D & I2 & Q).
      exists (take room data ++ p), q. rewrite <- app_assoc, <- D, take_drop.
      rewrite app_assoc. auto.
    + injection R as <- <- <-.
      destruct (upload_inv _ _ _ _ _ _ _ (WI_push _ _ _ (take room data) I) U) as [I1 _]; [auto|].
      exists (take room data), (drop room data). rewrite take_drop.
      split; [auto|]. split; [auto|discriminate].
  - injection R as <- <- <-. exists data, []. rewrite app_nil_r.
    split; [auto|]. split; [|auto]. now apply WI_push.
Qed.

Definition rounds (vs : list (list N)) : list (list N) := repeat (hd [] vs) (length vs).

Lemma write_inv k part v : forall n total s acc net r s' net',
  WI k s acc -> write_loop k part n v total s net = Ret r s' net' -> r <> None \/ k = Azure ->
  exists p q, concat (repeat v n) = p ++ q /\ WI k s' (acc ++ p) /\
    (r = None \/ q = [] /\ r = Some (total + len (concat (repeat v n)))).
Proof.
  induction n as [|n IH]; intros total s acc net r s' net' I R Hk; cbn [write_loop] in R.
  { injection R as <- <- <-. exists [], []. rewrite (app_nil_r acc). cbn [repeat concat].
    split; [auto|]. split; [auto|]. right. rewrite len_nil, N.add_0_r. auto. }
  destruct (FillBuf k part v s net) as [ok s1 net1| | |] eqn:F; cbn [bind] in R; try discriminate.
  unfold FillBuf in F. destruct ok.
  - destruct (fill_inv _ _ _ _ _ _ _ _ _ _ I F) as (p & q & E & I1 & Q); [auto|].
    specialize (Q eq_refl). subst q. rewrite app_nil_r in E. subst p.
    destruct (IH _ _ _ _ _ _ _ I1 R Hk) as (p & q & E2 & I2 & Q2).
    exists (v ++ p), q. cbn [repeat concat]. rewrite E2, <- app_assoc. split; [auto|].
    rewrite app_assoc. split; [auto|]. destruct Q2 as [Q2|[Q2 Q3]]; [auto|right].
    split; auto. rewrite Q3. f_equal. rewrite <- E2, len_app. lia.
  - injection R as <- <- <-. destruct Hk as [Hk|Hk]; [congruence|].
    destruct (fill_inv _ _ _ _ _ _ _ _ _ _ I F) as (p & q & E & I1 & Q); [auto|].
    exists p, (q ++ concat (repeat v n)). cbn [repeat concat]. rewrite E, <- app_assoc. auto.
Qed.

Lemma writes_inv k part : forall l s acc net rs s' net',
  WI k s acc -> writes k part l s net = Ret rs s' net' -> no_error rs \/ k = Azure ->
  exists o, kept (map rounds l) rs o /\ WI k s' (acc ++ o).
Proof.
  induction l as [|vs l IH]; intros s acc net rs s' net' I R Hk; cbn [writes] in R.
  { injection R as <- <- <-. exists []. rewrite app_nil_r. split; [constructor|auto]. }
  destruct (WriteSome k part vs s net) as [r s1 net1| | |] eqn:F; cbn [bind] in R; try discriminate.
  destruct (writes k part l s1 net1) as [rs1 s2 net2| | |] eqn:G; cbn [bind] in R; try discriminate.
  injection R as <- <- <-. unfold WriteSome in F.
  destruct (write_inv _ _ _ _ _ _ _ _ _ _ _ I F) as (p & q & E & I1 & Q).
  { destruct Hk as [Hk|]; [left|auto]. apply Hk. now left. }
  destruct (IH _ _ _ _ _ _ I1 G) as (o & K & I2).
  { destruct Hk as [Hk|]; [left|auto]. intros r0 H0. apply Hk. now right. }
  exists (p ++ o). rewrite app_assoc. split; [|auto]. cbn [map]. fold (rounds vs) in E.
  destruct Q as [->|[-> ->]].
  - now apply kept_fail with (q := q).
  - rewrite app_nil_r in E. rewrite <- E at 1. constructor; auto.
Qed.

Lemma commit_obj k s acc net s' net' :
  WI k s acc -> w_body s = [] -> k <> Gcs -> commit k (close_ids k s) s net = Ret true s' net' ->
  v_obj (w_svc s') = Some acc.
Proof.
  intros [O W] B Hk R. unfold commit in R. destruct net as [|f net]; [discriminate|].
  destruct f; cbn [send] in R; try discriminate.
  destruct (svc_commit k (close_ids k s) (w_svc s)) as [v|] eqn:C; [|discriminate].
  injection R as <- <-. cbn [w_svc]. unfold svc_commit in C.
  assert (G : forall o, gather (close_ids k s) (v_parts (w_svc s)) = Some o -> o = acc).
  { intros o G. destruct k; [| |congruence].
    - destruct W as (bl & A1 & A2 & A3 & ->). cbn [close_ids] in G. rewrite A2 in G.
      rewrite gather_seq with (bl := bl) in G by (intros; apply A3; lia).
      injection G as <-. now rewrite B, app_nil_r.
    - destruct W as (bl & A1 & A2 & A3 & ->). cbn [close_ids] in G. rewrite A1 in G.
      cbn [Nat.sub] in G. rewrite Nat.sub_0_r in G.
      rewrite gather_seq with (bl := bl) in G.
      + injection G as <-. now rewrite B, app_nil_r.
      + intros i Hi. destruct (lookup (1 + i) (v_parts (w_svc s))) as [d|] eqn:L.
        * f_equal. now apply A3.
        * exfalso. apply (gather_some _ _ _ (1 + i)%nat G); [|auto]. apply in_seq. lia. }
  destruct (gather (close_ids k s) (v_parts (w_svc s))) as [o|] eqn:E.
  2:{ destruct k, (close_ids _ s); discriminate. }
  rewrite <- (G o eq_refl). destruct k, (close_ids _ s); try discriminate; now injection C as <-.
Qed.

Lemma close_obj k s acc net s' net' :
  WI k s acc -> Close k s net = Ret true s' net' -> v_obj (w_svc s') = Some acc.
Proof.
  intros I R. unfold Close in R.
  assert (H : k <> Gcs ->
    (if 0 <? len (w_body s) then
      bind (Upload k s net)
           (fun ok s' net' => if ok then commit k (close_ids k s') s' net' else Ret false s' net')
    else commit k (close_ids k s) s net) = Ret true s' net' -> v_obj (w_svc s') = Some acc).
  { intros Hk C. destruct (N.ltb_spec 0 (len (w_body s))) as [L|L].
    - destruct (Upload k s net) as [ok s1 net1| | |] eqn:U; cbn [bind] in C; try discriminate.
      destruct ok; [|discriminate].
      destruct (upload_inv _ _ _ _ _ _ _ I U) as [I1 B1]; [auto|]. eapply commit_obj; eauto.
    - eapply commit_obj; eauto. apply len_zero. lia. }
  destruct k; [apply H; [discriminate|exact R] ..|].
  destruct I as [O [A ->]]. destruct net as [|f net]; [discriminate|].
  destruct f; cbn [send] in R; try discriminate.
  destruct (svc_range _ _ _ _) as [v|] eqn:C; [|discriminate]. injection R as <- <-. cbn [w_svc].
  unfold svc_range in C. destruct (len (v_stored (w_svc s)) <? w_up s); [discriminate|].
  replace (len (v_stored (w_svc s)) - w_up s) with 0 in C by lia. rewrite drop_0 in C.
  destruct (_ =? _); [|discriminate]. now injection C as <-.
Qed.

Lemma rounds_alike l : alike l -> map rounds l = l.
Proof.
  intros A. rewrite <- (map_id l) at 2. apply map_ext_in. intros vs Hvs. unfold rounds.
  assert (H : forall v, In v vs -> v = hd [] vs).
  { intros v Hv. apply (A vs); auto. destruct vs; [contradiction|]. now left. }
  revert H. generalize (hd [] vs). clear. induction vs as [|v vs IH]; cbn; auto.
  intros h H. f_equal; [symmetry; apply H; now left|]. apply IH. intros. apply H. now right.
Qed.

Lemma session_kept k part l net rs s net' :
  session k part l net = Ret (rs, true) s net' -> no_error rs \/ k = Azure ->
  exists o, v_obj (w_svc s) = Some o /\ kept (map rounds l) rs o.
Proof.
  unfold session. intros R Hk.
  destruct (writes k part l ws0 net) as [rs1 s1 net1| | |] eqn:W; cbn [bind] in R; try discriminate.
  destruct (Close k s1 net1) as [ok s2 net2| | |] eqn:C; cbn [bind] in R; try discriminate.
  injection R as -> -> <- <-.
  destruct (writes_inv _ _ _ _ _ _ _ _ _ (WI0 k) W Hk) as (o & K & I). cbn [app] in I.
  exists o. split; auto. eapply close_obj; eauto.
Qed.

Lemma upload_object_pf k part l net rs s net' :
  alike l -> session k part l net = Ret (rs, true) s net' -> no_error rs ->
  v_obj (w_svc s) = Some (written l) /\ rs = map (fun vs => Some (len (concat vs))) l.
Proof.
  intros A R NE. destruct (session_kept _ _ _ _ _ _ _ R (or_introl NE)) as (o & O & K).
  rewrite rounds_alike in K by auto. rewrite O. rewrite (kept_written _ _ _ K NE).
  split; [auto|]. clear -K NE. induction K as [|vs l n rs o E K IH|vs l rs p q o E K IH]; auto.
  - cbn [map]. rewrite E, IH; auto. intros r Hr. apply NE. now right.
  - exfalso. apply (NE None); [now left|auto].
Qed.

Lemma azure_object_pf part l net rs s net' :
  alike l -> session Azure part l net = Ret (rs, true) s net' ->
  exists o, v_obj (w_svc s) = Some o /\ kept l rs o.
Proof.
  intros A R. destruct (session_kept _ _ _ _ _ _ _ R (or_intror eq_refl)) as (o & O & K).
  rewrite rounds_alike in K by auto. eauto.
Qed.

(** ** No abort, no endless loop *)

Definition good_part (k : kind) (part : N) : Prop :=
  0 < part /\ (k = Gcs -> part mod 262144 = 0).

Definition NI (k : kind) (part : N) (s : ws) : Prop :=
  len (w_body s) < part /\
  (k = Gcs -> len (v_stored (w_svc s)) = w_up s \/ len (v_stored (w_svc s)) = w_up s + part).

Lemma upload_safe k part s net :
  0 < len (w_body s) -> len (w_body s) <= part ->
  (k = Gcs -> len (w_body s) = part /\ part mod 262144 = 0 /\
     (len (v_stored (w_svc s)) = w_up s \/ len (v_stored (w_svc s)) = w_up s + part)) ->
  Upload k s net <> Abort /\ Upload k s net <> Spin /\
  forall ok s' net', Upload k s net = Ret ok s' net' -> NI k part s'.
Proof.
  intros B1 B2 G. unfold Upload. destruct (N.eqb_spec (len (w_body s)) 0); [lia|].
  destruct k.
  - destruct net as [|f net]; [repeat split; discriminate|].
    destruct (send f _ _) as [[] v]; (split; [discriminate|]); (split; [discriminate|]);
      intros ? ? ? [= <- <- <-]; (split; [cbn [w_body]; rewrite len_nil; lia|discriminate]).
  - destruct net as [|f net]; [repeat split; discriminate|].
    destruct (send f _ _) as [ok v]; (split; [discriminate|]); (split; [discriminate|]);
      intros ? ? ? [= <- <- <-]; (split; [cbn [w_body]; rewrite len_nil; lia|discriminate]).
  - destruct (G eq_refl) as (E & M & ST). rewrite E, M. cbn [N.eqb negb].
    destruct net as [|f net]; [repeat split; discriminate|].
    assert (V : exists v, svc_range (w_up s) None (w_body s) (w_svc s) = Some v /\
                          len (v_stored v) = w_up s + part).
    { unfold svc_range. destruct (N.ltb_spec (len (v_stored (w_svc s))) (w_up s)); [lia|].
      eexists. split; [reflexivity|]. cbn [v_stored]. rewrite len_app, len_drop. lia. }
    destruct V as (v & Ev & Lv).
    destruct f; cbn [send]; rewrite ?Ev; cbn [orelse].
    + rewrite Lv, N.eqb_refl. split; [discriminate|]. split; [discriminate|].
      intros ? ? ? [= <- <- <-]. split; [cbn [w_body]; rewrite len_nil; lia|].
      intros _. cbn [w_svc w_up]. auto.
    + split; [discriminate|]. split; [discriminate|].
      intros ? ? ? [= <- <- <-]. split; [cbn [w_body]; rewrite len_nil; lia|].
      intros _. cbn [w_svc w_up]. auto.
    + split; [discriminate|]. split; [discriminate|].
      intros ? ? ? [= <- <- <-]. split; [cbn [w_body]; rewrite len_nil; lia|].
      intros _. cbn [w_svc w_up]. auto.
Qed.

Lemma fill_safe k part : good_part k part -> forall fuel data s net,
  NI k part s -> (length data < fuel)%nat ->
  fill k part fuel data s net <> Abort /\ fill k part fuel data s net <> Spin /\
  forall ok s' net', fill k part fuel data s net = Ret ok s' net' -> NI k part s'.
Proof.
  intros [GP GM]. induction fuel as [|fuel IH]; intros data s net [B G] F; [lia|]. cbn [fill].
  set (room := part - len (w_body s)).
  assert (LR : N.of_nat (length (drop room data)) = len data - room) by apply len_drop.
  assert (LD : len data = N.of_nat (length data)) by reflexivity.
  destruct (N.leb_spec room (len data)) as [L|L].
  - set (s1 := with_body (w_body s ++ take room data) s).
    assert (L1 : len (w_body s1) = part).
    { unfold s1; cbn [with_body w_body]. rewrite len_app, len_take. lia. }
    destruct (upload_safe k part s1 net) as (U1 & U2 & U3); [lia|lia|auto|].
    destruct (Upload k s1 net) as [ok s2 net2| | |]; cbn [bind]; try congruence.
    2:{ repeat split; discriminate. }
    specialize (U3 _ _ _ eq_refl). destruct ok.
    + apply IH; auto. lia.
    + split; [discriminate|]. split; [discriminate|]. now intros ? ? ? [= <- <- <-].
  - split; [discriminate|]. split; [discriminate|]. intros ? ? ? [= <- <- <-].
    split; [cbn [with_body w_body]; rewrite len_app; lia|auto].
Qed.

Lemma write_safe k part v : good_part k part -> forall n total s net,
  NI k part s ->
  write_loop k part n v total s net <> Abort /\ write_loop k part n v total s net <> Spin /\
  forall ok s' net', write_loop k part n v total s net = Ret ok s' net' -> NI k part s'.
Proof.
  intros GP. induction n as [|n IH]; intros total s net I; cbn [write_loop].
  { split; [discriminate|]. split; [discriminate|]. now intros ? ? ? [= <- <- <-]. }
  destruct (fill_safe k part GP (length v + 2) v s net I) as (F1 & F2 & F3); [lia|].
  unfold FillBuf. destruct (fill k part (length v + 2) v s net) as [ok s1 net1| | |];
    cbn [bind]; try congruence.
  2:{ repeat split; discriminate. }
  specialize (F3 _ _ _ eq_refl). destruct ok; [auto|].
  split; [discriminate|]. split; [discriminate|]. now intros ? ? ? [= <- <- <-].
Qed.

Lemma writes_safe k part : good_part k part -> forall l s net,
  NI k part s ->
  writes k part l s net <> Abort /\ writes k part l s net <> Spin /\
  forall ok s' net', writes k part l s net = Ret ok s' net' -> NI k part s'.
Proof.
  intros GP. induction l as [|vs l IH]; intros s net I; cbn [writes].
  { split; [discriminate|]. split; [discriminate|]. now intros ? ? ? [= <- <- <-]. }
  destruct (write_safe k part (hd [] vs) GP (length vs) 0 s net I) as (F1 & F2 & F3).
  unfold WriteSome. destruct (write_loop k part (length vs) (hd [] vs) 0 s net) as [r s1 net1| | |];
    cbn [bind]; try congruence.
  2:{ repeat split; discriminate. }
  specialize (F3 _ _ _ eq_refl). destruct (IH s1 net1 F3) as (G1 & G2 & G3).
  destruct (writes k part l s1 net1) as [rs s2 net2| | |]; cbn [bind]; try congruence.
  2:{ repeat split; discriminate. }
  split; [discriminate|]. split; [discriminate|]. intros ? ? ? [= <- <- <-]. eauto.
Qed.

Lemma NI0 k part : good_part k part -> NI k part ws0.
Proof. intros [G _]. split; cbn; [rewrite len_nil; lia|]. intros _. now left. Qed.

Lemma commit_safe k ids s net : commit k ids s net <> Abort /\ commit k ids s net <> Spin.
Proof.
  unfold commit. destruct net; [split; discriminate|]. destruct (send _ _ _). split; discriminate.
Qed.

Lemma upload_returns_pf k part l net :
  good_part k part -> session k part l net <> Abort /\ session k part l net <> Spin.
Proof.
  intros GP. unfold session.
  destruct (writes_safe k part GP l ws0 net (NI0 k part GP)) as (W1 & W2 & W3).
  destruct (writes k part l ws0 net) as [rs s1 net1| | |]; cbn [bind]; try congruence.
  2:{ split; discriminate. }
  specialize (W3 _ _ _ eq_refl). destruct W3 as [B _].
  assert (C : Close k s1 net1 <> Abort /\ Close k s1 net1 <> Spin).
  { unfold Close.
    assert (H : k <> Gcs -> forall x, x =
      (if 0 <? len (w_body s1) then
        bind (Upload k s1 net1)
             (fun ok s' net' => if ok then commit k (close_ids k s') s' net' else Ret false s' net')
      else commit k (close_ids k s1) s1 net1) -> x <> Abort /\ x <> Spin).
    { intros Hk x ->. destruct (N.ltb_spec 0 (len (w_body s1))); [|apply commit_safe].
      destruct (upload_safe k part s1 net1) as (U1 & U2 & _); [lia|lia|congruence|].
      destruct (Upload k s1 net1) as [ok s2 net2| | |]; cbn [bind]; try congruence.
      2:{ split; discriminate. }
      destruct ok; [apply commit_safe|split; discriminate]. }
    destruct k; [apply (H ltac:(discriminate) _ eq_refl) ..|].
    destruct net1; [split; discriminate|]. destruct (send _ _ _). split; discriminate. }
  destruct C as [C1 C2].
  destruct (Close k s1 net1); cbn [bind]; try congruence; split; discriminate.
Qed.

(** ** With a network that delivers everything, all calls succeed *)

Definition WF (k : kind) (s : ws) (acc : list N) : Prop :=
  WI k s acc /\
  (k = Azure -> forall i, (1 <= i < w_next s)%nat -> lookup i (v_parts (w_svc s)) <> None).

Lemma WF_push k s acc x : WF k s acc -> WF k (with_body (w_body s ++ x) s) (acc ++ x).
Proof. intros [A B]. split; [now apply WI_push|exact B]. Qed.

Lemma upload_full k s acc net s' net' :
  WF k s acc -> Upload k s (Deliver :: net) = Ret true s' net' -> WF k s' acc /\ w_body s' = [].
Proof.
  intros [I A] U. destruct (upload_inv _ _ _ _ _ _ _ I U) as [I' B']; [auto|].
  split; [|auto]. split; [auto|]. intros ->. unfold Upload in U.
  destruct (_ =? _); [discriminate|]. cbn [send svc_put] in U. injection U as <- <-.
  cbn [w_next w_svc v_parts]. intros i Hi. destruct (Nat.eq_dec i (w_next s)) as [->|N].
  - rewrite lookup_cons_eq. discriminate.
  - rewrite lookup_cons_ne by auto. apply A; auto. lia.
Qed.

Lemma fill_deliver k part : good_part k part -> forall fuel data s acc net,
  WF k s acc -> len (w_body s) < part -> all_deliver net ->
  (length data < fuel)%nat -> (length data < length net)%nat ->
  exists s' net', fill k part fuel data s net = Ret true s' net' /\ all_deliver net' /\
    WF k s' (acc ++ data) /\ len (w_body s') < part /\
    (length net <= length net' + length data + 1)%nat.
Proof.
  intros [GP GM]. induction fuel as [|fuel IH]; intros data s acc net I B AD F LN; [lia|].
  cbn [fill]. set (room := part - len (w_body s)).
  assert (LR : N.of_nat (length (drop room data)) = len data - room) by apply len_drop.
  assert (LD : len data = N.of_nat (length data)) by reflexivity.
  destruct (N.leb_spec room (len data)) as [L|L].
  - pose proof (WF_push _ _ _ (take room data) I) as I1.
    set (s1 := with_body (w_body s ++ take room data) s) in *.
    assert (L1 : len (w_body s1) = part).
    { unfold s1; cbn [with_body w_body]. rewrite len_app, len_take. lia. }
    destruct net as [|f net]; [cbn in LN; lia|].
    pose proof (AD f (or_introl eq_refl)). subst f.
    assert (U : exists s2, Upload k s1 (Deliver :: net) = Ret true s2 net).
    { unfold Upload. rewrite L1. destruct (N.eqb_spec part 0); [lia|].
      destruct k; [eexists; reflexivity..|].
      rewrite GM by auto. cbn [N.eqb negb send]. unfold svc_range.
      destruct I1 as [[_ [A _]] _]. rewrite A. rewrite N.ltb_irrefl. cbn [v_stored].
      rewrite N.sub_diag, drop_0, len_app, L1, N.eqb_refl. eexists; reflexivity. }
    destruct U as [s2 U]. rewrite U. cbn [bind].
    destruct (upload_full _ _ _ _ _ _ I1 U) as [I2 B2].
    destruct (IH (drop room data) s2 _ net I2) as (s' & net' & R & AD' & I' & B' & LL).
    + rewrite B2, len_nil. lia.
    + eapply all_deliver_tl; eauto.
    + lia.
    + cbn in LN. lia.
    + exists s', net'. split; [auto|]. split; [auto|]. rewrite <- app_assoc, take_drop in I'.
      split; [auto|]. split; [auto|]. cbn [length] in *. lia.
  - exists (with_body (w_body s ++ data) s), net. split; [auto|]. split; [auto|].
    split; [now apply WF_push|]. split; [cbn [with_body w_body]; rewrite len_app; lia|lia].
Qed.

Lemma write_deliver k part v : good_part k part -> forall n, exists m, forall total s acc net,
  WF k s acc -> len (w_body s) < part -> all_deliver net -> (m <= length net)%nat ->
  exists t s' net', write_loop k part n v total s net = Ret (Some t) s' net' /\ all_deliver net' /\
    WF k s' (acc ++ concat (repeat v n)) /\ len (w_body s') < part /\
    (length net <= length net' + m)%nat.
Proof.
  intros GP. induction n as [|n [m IH]].
  { exists 0%nat. intros total s acc net I B AD L. exists total, s, net. cbn.
    rewrite app_nil_r. split; [auto|]. split; [auto|]. split; [auto|]. split; [auto|]. lia. }
  exists (S (length v) + m)%nat. intros total s acc net I B AD L. cbn [write_loop].
  destruct (fill_deliver k part GP (length v + 2) v s acc net) as (s1 & net1 & F & A1 & I1 & B1 & L1);
    auto; try lia.
  unfold FillBuf. rewrite F. cbn [bind].
  destruct (IH (total + len v) s1 _ net1 I1 B1 A1) as (t & s' & net' & R & A' & I' & B' & L');
    [lia|].
  exists t, s', net'. cbn [repeat concat]. rewrite app_assoc. split; [auto|]. split; [auto|]. split; [auto|]. split; [auto|]. lia.
Qed.

Lemma writes_deliver k part : good_part k part -> forall l, exists m, forall s acc net,
  WF k s acc -> len (w_body s) < part -> all_deliver net -> (m <= length net)%nat ->
  exists rs s' net', writes k part l s net = Ret rs s' net' /\ no_error rs /\ all_deliver net' /\
    WF k s' (acc ++ written (map rounds l)) /\ len (w_body s') < part /\
    (length net <= length net' + m)%nat.
Proof.
  intros GP. induction l as [|vs l [m IH]].
  { exists 0%nat. intros s acc net I B AD L. exists [], s, net. cbn. rewrite app_nil_r.
    split; [auto|]. split; [intros r []|]. split; [auto|]. split; [auto|]. split; [auto|lia]. }
  destruct (write_deliver k part (hd [] vs) GP (length vs)) as [m1 W].
  exists (m1 + m)%nat. intros s acc net I B AD L. cbn [writes].
  destruct (W 0 s acc net I B AD) as (t & s1 & net1 & R1 & A1 & I1 & B1 & L1); [lia|].
  unfold WriteSome. rewrite R1. cbn [bind].
  destruct (IH s1 _ net1 I1 B1 A1) as (rs & s' & net' & R & NE & A' & I' & B' & L'); [lia|].
  rewrite R. cbn [bind]. exists (Some t :: rs), s', net'. split; [auto|]. split.
  { intros r [<-|Hr]; [discriminate|auto]. }
  split; [auto|]. unfold written in *. cbn [map concat]. rewrite app_assoc. fold (rounds vs) in I'.
  split; [exact I'|]. split; [auto|lia].
Qed.

Lemma close_deliver k part s acc net :
  good_part k part -> WF k s acc -> len (w_body s) < part -> all_deliver net ->
  (k = S3 -> acc <> []) -> (2 <= length net)%nat ->
  exists s' net', Close k s net = Ret true s' net'.
Proof.
  intros GP I B AD NE L. destruct net as [|f1 net]; [cbn in L; lia|].
  pose proof (AD f1 (or_introl eq_refl)). subst f1. apply all_deliver_tl in AD.
  destruct net as [|f2 net]; [cbn in L; lia|].
  pose proof (AD f2 (or_introl eq_refl)). subst f2.
  assert (Cm : forall s net, WF k s acc -> k <> Gcs -> w_body s = [] ->
    exists s' net', commit k (close_ids k s) s (Deliver :: net) = Ret true s' net').
  { clear - NE. intros s net I Hk Hb. unfold commit. cbn [send]. unfold svc_commit.
    assert (P : forall i, In i (close_ids k s) -> lookup i (v_parts (w_svc s)) <> None).
    { destruct k; [| |congruence].
      - destruct I as [[_ (bl & A1 & A2 & A3 & _)] _]. cbn [close_ids]. rewrite A2.
        intros i Hi. apply in_seq in Hi. destruct i as [|i]; [lia|]. rewrite A3 by lia. discriminate.
      - destruct I as [_ A]. cbn [close_ids]. intros i Hi. apply in_seq in Hi. apply A; auto. lia. }
    assert (G : exists o, gather (close_ids k s) (v_parts (w_svc s)) = Some o).
    { revert P. generalize (close_ids k s). induction l as [|i l IH]; cbn; [eauto|].
      intros P. destruct (lookup i (v_parts (w_svc s))) eqn:E; [|exfalso; apply (P i); auto].
      destruct IH as [o ->]; [auto|]. eauto. }
    destruct G as [o ->]. destruct k; [|destruct (close_ids _ s); eauto|congruence].
    destruct (close_ids S3 s) eqn:E; [|eauto]. exfalso. apply NE; auto.
    destruct I as [[_ (bl & _ & A & _ & ->)] _]. cbn in E. rewrite A in E.
    destruct bl; [|discriminate]. now rewrite Hb. }
  unfold Close.
  assert (H : k <> Gcs -> exists s' net',
    (if 0 <? len (w_body s) then
      bind (Upload k s (Deliver :: Deliver :: net))
           (fun ok s' net' => if ok then commit k (close_ids k s') s' net' else Ret false s' net')
    else commit k (close_ids k s) s (Deliver :: Deliver :: net)) = Ret true s' net').
  2:{ destruct k; [apply H; discriminate..|]. destruct I as [[_ [A _]] _]. cbn [send].
      unfold svc_range.
      rewrite A, N.ltb_irrefl, N.sub_diag, drop_0, len_app, N.eqb_refl. eauto. }
  intros Hk. destruct (N.ltb_spec 0 (len (w_body s))) as [L0|L0].
  - assert (U : exists s2, Upload k s (Deliver :: Deliver :: net) = Ret true s2 (Deliver :: net)).
    { unfold Upload. destruct (N.eqb_spec (len (w_body s)) 0); [lia|].
      destruct k; [eexists; reflexivity..|congruence]. }
    destruct U as [s2 U]. rewrite U. cbn [bind].
    destruct (upload_full _ _ _ _ _ _ I U) as [I2 B2]. apply Cm; auto.
  - apply Cm; auto. apply len_zero. lia.
Qed.

Lemma upload_delivers_pf k part l :
  good_part k part -> alike l -> (k = S3 -> written l <> []) ->
  exists m, forall net, all_deliver net -> (m <= length net)%nat ->
  exists rs s net', session k part l net = Ret (rs, true) s net' /\ no_error rs.
Proof.
  intros GP A NE. destruct (writes_deliver k part GP l) as [m W]. exists (m + 2)%nat.
  intros net AD L. unfold session.
  destruct (W ws0 [] net) as (rs & s & net' & R & NE' & AD' & I & B & LL); auto.
  { split; [apply WI0|]. intros _ i. cbn. lia. }
  { cbn. rewrite len_nil. apply GP. }
  { lia. }
  rewrite R. cbn [bind app] in *. rewrite rounds_alike in I by auto.
  destruct (close_deliver k part s (written l) net') as (s' & net2 & C); auto; [lia|].
  rewrite C. cbn [bind]. eauto 6.
Qed.

Lemma upload_aborts_pf k part v vs l net :
  part = 0 \/ (k = Gcs /\ part mod 262144 <> 0) -> part <= len v ->
  session k part ((v :: vs) :: l) net = Abort.
Proof.
  intros H L. unfold session. cbn [writes]. unfold WriteSome. cbn [length hd write_loop].
  unfold FillBuf. rewrite Nat.add_comm. cbn [Nat.add fill ws0 w_body with_body app w_next w_acked w_up w_svc].
  rewrite len_nil, N.sub_0_r.
  assert (L' : part <=? len v = true) by (apply N.leb_le; auto). rewrite L'.
  unfold Upload. cbn [with_body w_body app]. rewrite len_take, N.min_l by auto.
  destruct (N.eqb_spec part 0) as [E|E]; [reflexivity|].
  destruct H as [H|[-> H]]; [contradiction|]. apply N.eqb_neq in H. rewrite H. reflexivity.
Qed.

Lemma s3_empty_pf part l net rs s net' :
  written l = [] -> session S3 part l net <> Ret (rs, true) s net'.
Proof.
  intros E.
  assert (F : forall i total, write_loop S3 part i [] total ws0 net = Abort \/
                              exists r, write_loop S3 part i [] total ws0 net = Ret r ws0 net).
  { induction i as [|i IH]; intros total; cbn [write_loop]; [eauto|].
    unfold FillBuf. cbn [length Nat.add fill ws0 w_body app]. rewrite len_nil, N.sub_0_r.
    destruct (part <=? 0).
    { left. unfold take. rewrite firstn_nil. reflexivity. } cbn [bind]. apply IH. }
  assert (W : writes S3 part l ws0 net = Abort \/ exists r, writes S3 part l ws0 net = Ret r ws0 net).
  { unfold written in E. induction l as [|vs l IH]; cbn [writes]; [eauto|].
    cbn [map concat] in E. apply app_eq_nil in E. destruct E as [E1 E2].
    assert (hd [] vs = []) as H by (destruct vs; [auto|]; apply app_eq_nil in E1; apply E1).
    unfold WriteSome. rewrite H. destruct (F (length vs) 0) as [->|[r ->]]; [now left|]. cbn [bind].
    destruct (IH E2) as [->|[r' ->]]; [now left|]. cbn [bind]. eauto. }
  unfold session. destruct W as [->|[r ->]]; [discriminate|]. cbn [bind].
  unfold Close. change (0 <? len (w_body ws0)) with false.
  unfold commit. destruct net as [|[] net]; cbn; discriminate.
Qed.

(** ** Sizes of the parts *)

Definition full_below (part : N) (n : nat) (v : svc) : Prop :=
  forall i d, In (i, d) (v_parts v) -> (i <= n)%nat /\ len d = part.

Lemma full_sized part n v : 0 < part -> full_below part n v -> sized part (v_parts v).
Proof. intros Hp F i d Hi. apply F in Hi. split; [lia|]. intros; apply Hi. Qed.

Lemma full_put part n v d v' f ok :
  0 < part -> full_below part n v -> 0 < len d <= part ->
  send f (svc_put n d) v = (ok, v') -> sized part (v_parts v').
Proof.
  intros Hp F L S.
  assert (V : v_parts v' = v_parts v \/ v_parts v' = (n, d) :: v_parts v).
  { destruct f; cbn [send svc_put orelse] in S; injection S as _ <-; auto. }
  destruct V as [V|V].
  { apply (full_sized part n); auto. intros i e Hi. apply F. now rewrite <- V. }
  intros i e. rewrite V. intros [[= <- <-]|Hi].
  - split; [lia|]. intros j x [[= <- <-]|Hj] Hij; [lia|]. apply F in Hj. lia.
  - apply F in Hi. split; [lia|]. intros; apply Hi.
Qed.

Lemma full_put_full part n m v d v' f ok :
  full_below part n v -> len d = part -> (n <= m)%nat ->
  send f (svc_put m d) v = (ok, v') -> full_below part m v'.
Proof.
  intros F L NM S.
  assert (V : v_parts v' = v_parts v \/ v_parts v' = (m, d) :: v_parts v).
  { destruct f; cbn [send svc_put orelse] in S; injection S as _ <-; auto. }
  intros i e. destruct V as [-> | ->].
  - intros Hi. apply F in Hi. split; [lia|apply Hi].
  - intros [[= <- <-]|Hi]; [auto|]. apply F in Hi. split; [lia|apply Hi].
Qed.

Lemma full_mono part n m v : (n <= m)%nat -> full_below part n v -> full_below part m v.
Proof. intros H F i d Hi. apply F in Hi. split; [lia|apply Hi]. Qed.

Lemma upload_full_parts k part s net ok s' net' :
  k <> Gcs -> full_below part (w_next s) (w_svc s) -> len (w_body s) = part ->
  Upload k s net = Ret ok s' net' -> full_below part (w_next s') (w_svc s') /\ w_body s' = [].
Proof.
  intros Hk F L R. unfold Upload in R. destruct (_ =? _); [discriminate|].
  destruct k; [| |congruence].
  - destruct net as [|f net]; [discriminate|].
    destruct (send f _ _) as [[] v] eqn:S; injection R as <- <- <-; (split; [|reflexivity]);
      cbn [w_next w_svc].
    + eapply full_mono; [|eapply full_put_full; [exact F|exact L| |exact S]]; lia.
    + eapply full_put_full; [exact F|exact L| |exact S]; lia.
  - destruct net as [|f net]; [discriminate|].
    destruct (send f _ _) as [ok1 v] eqn:S; injection R as <- <- <-; (split; [|reflexivity]);
      cbn [w_next w_svc].
    eapply full_mono; [|eapply full_put_full; [exact F|exact L| |exact S]]; lia.
Qed.

Definition FI (part : N) (s : ws) : Prop :=
  full_below part (w_next s) (w_svc s) /\ len (w_body s) < part.

Lemma fill_parts k part : 0 < part -> k <> Gcs -> forall fuel data s net ok s' net',
  FI part s -> fill k part fuel data s net = Ret ok s' net' -> FI part s'.
Proof.
  intros Hp Hk. induction fuel as [|fuel IH]; intros data s net ok s' net' [F B] R; cbn [fill] in R;
    [discriminate|].
  set (room := part - len (w_body s)) in *. destruct (N.leb_spec room (len data)) as [L|L].
  - destruct (Upload k _ net) as [ok1 s1 net1| | |] eqn:U; cbn [bind] in R; try discriminate.
    apply (upload_full_parts k part) in U; auto.
    2:{ cbn [with_body w_body]. rewrite len_app, len_take. lia. }
    destruct U as [F1 B1].
    assert (I1 : FI part s1) by (split; [auto|rewrite B1, len_nil; lia]).
    destruct ok1; [eauto|]. now injection R as <- <- <-.
  - injection R as <- <- <-. split; [exact F|]. cbn [with_body w_body]. rewrite len_app. lia.
Qed.

Lemma writes_parts k part : 0 < part -> k <> Gcs -> forall l s net rs s' net',
  FI part s -> writes k part l s net = Ret rs s' net' -> FI part s'.
Proof.
  intros Hp Hk. induction l as [|vs l IH]; intros s net rs s' net' I R; cbn [writes] in R.
  { now injection R as <- <- <-. }
  unfold WriteSome in R.
  assert (W : forall i v total s net r s' net', FI part s ->
    write_loop k part i v total s net = Ret r s' net' -> FI part s').
  { clear - Hp Hk. induction i as [|i IH]; intros v total s net r s' net' I R; cbn [write_loop] in R.
    { now injection R as <- <- <-. }
    unfold FillBuf in R.
    destruct (fill k part _ v s net) as [ok s1 net1| | |] eqn:F; cbn [bind] in R; try discriminate.
    apply fill_parts in F; auto. destruct ok; [eauto|]. now injection R as <- <- <-. }
  destruct (write_loop k part _ _ 0 s net) as [r s1 net1| | |] eqn:F; cbn [bind] in R; try discriminate.
  apply W in F; auto.
  destruct (writes k part l s1 net1) as [rs1 s2 net2| | |] eqn:G; cbn [bind] in R; try discriminate.
  injection R as <- <- <-. eauto.
Qed.

Lemma send_commit_parts f k ids v ok v' :
  send f (svc_commit k ids) v = (ok, v') -> v_parts v' = v_parts v.
Proof.
  assert (H : forall w, svc_commit k ids v = Some w -> v_parts w = v_parts v).
  { intros w. unfold svc_commit. destruct (gather ids (v_parts v)); destruct k, ids;
      try discriminate; intros [= <-]; reflexivity. }
  destruct f; cbn [send]; destruct (svc_commit k ids v) eqn:E; cbn [orelse];
    intros [= _ <-]; auto.
Qed.

Lemma upload_parts_pf k part l net rs ok s net' :
  0 < part -> k <> Gcs -> session k part l net = Ret (rs, ok) s net' -> sized part (v_parts (w_svc s)).
Proof.
  intros Hp Hk R. unfold session in R.
  destruct (writes k part l ws0 net) as [rs1 s1 net1| | |] eqn:W; cbn [bind] in R; try discriminate.
  destruct (Close k s1 net1) as [ok1 s2 net2| | |] eqn:C; cbn [bind] in R; try discriminate.
  injection R as <- <- <- <-.
  assert (I0 : FI part ws0) by (split; [intros i d []|cbn; rewrite len_nil; lia]).
  destruct (writes_parts k part Hp Hk _ _ _ _ _ _ I0 W) as [F B].
  assert (Cm : forall ids s net ok s' net', sized part (v_parts (w_svc s)) ->
    commit k ids s net = Ret ok s' net' -> sized part (v_parts (w_svc s'))).
  { clear. intros ids s net ok s' net' S R. unfold commit in R. destruct net as [|f net]; [discriminate|].
    destruct (send f _ _) as [ok1 v] eqn:E. injection R as <- <- <-. cbn [w_svc].
    apply send_commit_parts in E. unfold sized in *. rewrite E. auto. }
  unfold Close in C.
  assert (H : forall ok1,
    (if 0 <? len (w_body s1) then
      bind (Upload k s1 net1)
           (fun ok s' net' => if ok then commit k (close_ids k s') s' net' else Ret false s' net')
    else commit k (close_ids k s1) s1 net1) = Ret ok1 s2 net2 -> sized part (v_parts (w_svc s2))).
  2:{ destruct k; [eapply H; eauto..|congruence]. }
  clear C. intros ok2 C. destruct (N.ltb_spec 0 (len (w_body s1))) as [L|L].
  - destruct (Upload k s1 net1) as [ok3 s3 net3| | |] eqn:U; cbn [bind] in C; try discriminate.
    assert (S3' : sized part (v_parts (w_svc s3))).
    { unfold Upload in U. destruct (_ =? _); [discriminate|]. destruct k; [| |congruence].
      - destruct net1 as [|f net1]; [discriminate|].
        destruct (send f _ _) as [[] v] eqn:S; injection U as <- <- <-; cbn [w_svc];
          eapply full_put; eauto; lia.
      - destruct net1 as [|f net1]; [discriminate|].
        destruct (send f _ _) as [ok4 v] eqn:S; injection U as <- <- <-; cbn [w_svc];
          eapply full_put; eauto; lia. }
    destruct ok3; [eapply Cm; eauto|]. now injection C as <- <- <-.
  - eapply Cm; [|exact C]. eapply full_sized; eauto.
Qed.

Lemma flush_parts part s net ok s' net' :
  0 < part -> full_below part (S (d_n s)) (d_svc s) -> len (d_buf s) <= part ->
  Flush s net = Ret ok s' net' ->
  sized part (v_parts (d_svc s')) /\
  (len (d_buf s) = part -> full_below part (S (d_n s')) (d_svc s') /\ len (d_buf s') <= part).
Proof.
  intros Hp F L R. unfold Flush in R. destruct (N.eqb_spec (len (d_buf s)) 0) as [Z|Z].
  { injection R as <- <- <-. split; [eapply full_sized; eauto|auto]. }
  destruct net as [|f net]; [discriminate|].
  destruct (send f _ _) as [[] v] eqn:S; injection R as <- <- <-; cbn [d_svc d_n d_buf];
    (split; [eapply full_put; eauto; lia|]); intros E.
  - split; [|rewrite len_nil; lia].
    eapply full_mono; [|eapply full_put_full; [exact F|exact E| |exact S]]; lia.
  - split; [|lia]. eapply full_put_full; [exact F|exact E| |exact S]; lia.
Qed.

Lemma sdk_parts_pf part l net rs ok s net' :
  0 < part -> sdk_session part l net = Ret (rs, ok) s net' -> sized part (v_parts (d_svc s)).
Proof.
  intros Hp R. unfold sdk_session in R.
  set (SI := fun s : ds => full_below part (S (d_n s)) (d_svc s) /\ len (d_buf s) <= part).
  assert (F : forall fuel data s net ok s' net', SI s ->
    sdk_fill part fuel data s net = Ret ok s' net' -> SI s').
  { clear - Hp SI. induction fuel as [|fuel IH]; intros data s net ok s' net' [I B] R.
    { destruct data; cbn in R; [|discriminate]. injection R as <- <- <-. now split. }
    destruct data as [|x data]; [cbn in R; injection R as <- <- <-; now split|].
    cbn [sdk_fill] in R. remember (x :: data) as dt eqn:Edt. clear Edt.
    set (n := N.min (len dt) (part - len (d_buf s))) in *.
    assert (I1 : SI (mkDs (d_buf s ++ take n dt) (d_n s) (d_svc s))).
    { split; [exact I|]. cbn [d_buf]. rewrite len_app, len_take. lia. }
    set (s1 := mkDs (d_buf s ++ take n dt) (d_n s) (d_svc s)) in *.
    destruct (N.eqb_spec part (len (d_buf s1))) as [E|E].
    - destruct (Flush s1 net) as [ok1 s2 net2| | |] eqn:FL; cbn [bind] in R; try discriminate.
      destruct I1 as [I1 B1].
      destruct (flush_parts _ _ _ _ _ _ Hp I1 B1 FL) as [_ Q]. specialize (Q (eq_sym E)).
      destruct ok1; [eapply IH; [|exact R]; exact Q|]. injection R as <- <- <-. exact Q.
    - eapply IH; [exact I1|exact R]. }
  assert (W : forall vs total s net r s' net', SI s ->
    sdk_write part vs total s net = Ret r s' net' -> SI s').
  { clear - F. induction vs as [|v vs IH]; intros total s net r s' net' I R; cbn [sdk_write] in R.
    { now injection R as <- <- <-. }
    destruct (sdk_fill part _ v s net) as [ok s1 net1| | |] eqn:E; cbn [bind] in R; try discriminate.
    apply F in E; auto. destruct ok; [eauto|]. now injection R as <- <- <-. }
  assert (WS : forall l s net rs s' net', SI s ->
    sdk_writes part l s net = Ret rs s' net' -> SI s').
  { clear - W. induction l as [|vs l IH]; intros s net rs s' net' I R; cbn [sdk_writes] in R.
    { now injection R as <- <- <-. }
    destruct (sdk_write part vs 0 s net) as [r s1 net1| | |] eqn:E; cbn [bind] in R; try discriminate.
    apply W in E; auto.
    destruct (sdk_writes part l s1 net1) as [rs1 s2 net2| | |] eqn:G; cbn [bind] in R; try discriminate.
    injection R as <- <- <-. eauto. }
  destruct (sdk_writes part l ds0 net) as [rs1 s1 net1| | |] eqn:E; cbn [bind] in R; try discriminate.
  apply WS in E. 2:{ split; [intros i d []|cbn; rewrite len_nil; lia]. }
  destruct E as [I B]. unfold sdk_close in R.
  destruct (Flush s1 net1) as [ok1 s2 net2| | |] eqn:FL; cbn [bind] in R; try discriminate.
  destruct (flush_parts _ _ _ _ _ _ Hp I B FL) as [Q _].
  destruct ok1; cbn [bind] in R; [|now injection R as <- <- <- <-].
  destruct net2 as [|f net2]; [discriminate|].
  destruct (send f _ _) as [ok2 v] eqn:S; cbn [bind] in R. injection R as <- <- <- <-. cbn [d_svc].
  apply send_commit_parts in S. unfold sized in *. rewrite S. auto.
Qed.

(** ** S3WriteFile: with a network that delivers everything, all calls succeed *)

Lemma sdk_fill_deliver part : 0 < part -> forall fuel data s net,
  len (d_buf s) < part -> all_deliver net ->
  (length data <= fuel)%nat -> (length data <= length net)%nat ->
  exists s' net', sdk_fill part fuel data s net = Ret true s' net' /\ all_deliver net' /\
    len (d_buf s') < part /\ (length net <= length net' + length data)%nat.
Proof.
  intros Hp. induction fuel as [|fuel IH]; intros data s net B AD F LN.
  { destruct data; cbn in F; [|lia]. exists s, net. cbn. repeat split; auto. lia. }
  destruct data as [|x data]; [exists s, net; cbn; repeat split; auto; lia|].
  cbn [sdk_fill]. remember (x :: data) as dt eqn:Edt.
  assert (LD : length dt = S (length data)) by now subst. clear Edt.
  assert (LD' : len dt = N.of_nat (length dt)) by reflexivity.
  set (n := N.min (len dt) (part - len (d_buf s))).
  set (s1 := mkDs (d_buf s ++ take n dt) (d_n s) (d_svc s)).
  assert (B1 : len (d_buf s1) = len (d_buf s) + n).
  { unfold s1; cbn [d_buf]. rewrite len_app, len_take. lia. }
  assert (LR : N.of_nat (length (drop n dt)) = len dt - n) by apply len_drop.
  destruct (N.eqb_spec part (len (d_buf s1))) as [E|E].
  - destruct net as [|f net]; [cbn in LN; lia|].
    pose proof (AD f (or_introl eq_refl)). subst f. apply all_deliver_tl in AD.
    unfold Flush. destruct (N.eqb_spec (len (d_buf s1)) 0); [lia|]. cbn [send svc_put bind].
    edestruct (IH (drop n dt)) as (s' & net' & R & A' & B' & L'); [| |  | |rewrite R].
    + cbn [d_buf]. rewrite len_nil. lia.
    + exact AD.
    + lia.
    + cbn [length] in LN. lia.
    + exists s', net'. cbn [length] in *. repeat split; auto. lia.
  - destruct (IH (drop n dt) s1 net) as (s' & net' & R & A' & B' & L'); auto; try lia.
    exists s', net'. repeat split; auto. lia.
Qed.

Lemma sdk_write_deliver part : 0 < part -> forall vs, exists m, forall total s net,
  len (d_buf s) < part -> all_deliver net -> (m <= length net)%nat ->
  exists t s' net', sdk_write part vs total s net = Ret (Some t) s' net' /\ all_deliver net' /\
    len (d_buf s') < part /\ (length net <= length net' + m)%nat.
Proof.
  intros Hp. induction vs as [|v vs [m IH]].
  { exists 0%nat. intros total s net B A L. exists total, s, net. cbn. repeat split; auto. lia. }
  exists (length v + m)%nat. intros total s net B A L. cbn [sdk_write].
  destruct (sdk_fill_deliver part Hp (2 * length v + 2) v s net) as (s1 & net1 & R & A1 & B1 & L1);
    auto; try lia.
  rewrite R. cbn [bind].
  destruct (IH (total + len v) s1 net1 B1 A1) as (t & s' & net' & R' & A' & B' & L'); [lia|].
  rewrite R'. exists t, s', net'. repeat split; auto. lia.
Qed.

Lemma sdk_writes_deliver part : 0 < part -> forall l, exists m, forall s net,
  len (d_buf s) < part -> all_deliver net -> (m <= length net)%nat ->
  exists rs s' net', sdk_writes part l s net = Ret rs s' net' /\ no_error rs /\ all_deliver net' /\
    len (d_buf s') < part /\ (length net <= length net' + m)%nat.
Proof.
  intros Hp. induction l as [|vs l [m IH]].
  { exists 0%nat. intros s net B A L. exists [], s, net. cbn. repeat split; auto; try lia. intros r []. }
  destruct (sdk_write_deliver part Hp vs) as [m1 W].
  exists (m1 + m)%nat. intros s net B A L. cbn [sdk_writes].
  destruct (W 0 s net B A) as (t & s1 & net1 & R & A1 & B1 & L1); [lia|].
  rewrite R. cbn [bind].
  destruct (IH s1 net1 B1 A1) as (rs & s' & net' & R' & NE & A' & B' & L'); [lia|].
  rewrite R'. cbn [bind]. exists (Some t :: rs), s', net'. repeat split; auto; try lia.
  intros r [<-|Hr]; [discriminate|auto].
Qed.

Lemma sdk_delivers_pf part l :
  0 < part -> written l <> [] ->
  exists m, forall net, all_deliver net -> (m <= length net)%nat ->
  exists rs s net', sdk_session part l net = Ret (rs, true) s net' /\ no_error rs.
Proof.
  intros Hp NE. destruct (sdk_writes_deliver part Hp l) as [m W]. exists (m + 2)%nat.
  intros net AD L. unfold sdk_session.
  destruct (W ds0 net) as (rs & s & net' & R & NE' & AD' & B & LL); auto.
  { lia. }
  rewrite R. cbn [bind].
  destruct (sdk_writes_inv _ _ _ _ _ _ _ _ (DI0 part) R) as (o & K & I). cbn [app] in I.
  rewrite (kept_written _ _ _ K NE') in I. clear K o.
  destruct net' as [|f net']; [cbn in LL; lia|].
  pose proof (AD' f (or_introl eq_refl)). subst f. apply all_deliver_tl in AD'.
  destruct net' as [|f net']; [cbn in LL; lia|].
  pose proof (AD' f (or_introl eq_refl)). subst f.
  assert (C : forall s, DI part s (written l) -> d_buf s = [] ->
    exists v, svc_commit S3 (seq 1 (d_n s)) (d_svc s) = Some v).
  { clear - NE. intros s (bl & L & P & A & _ & _) E. unfold svc_commit.
    rewrite <- L. rewrite gather_seq with (bl := bl) by (intros; apply P; lia).
    destruct bl as [|b bl]; [exfalso; apply NE; rewrite A, E; reflexivity|]. cbn. eauto. }
  unfold sdk_close.
  assert (F : exists s1 f net1, Flush s (Deliver :: Deliver :: net') = Ret true s1 (f :: net1) /\ f = Deliver).
  { unfold Flush. destruct (_ =? _); cbn [send svc_put]; eauto 6. }
  destruct F as (s1 & f & net1 & F & ->). rewrite F. cbn [bind].
  destruct (flush_inv _ _ _ _ _ _ _ I F) as [I1 E1].
  destruct (C s1 I1 (E1 eq_refl)) as [v Cv]. cbn [send]. rewrite Cv. cbn [bind]. eauto 6.
Qed.

(** ** Refutations *)

Definition obj_of (x : out ws (list (option N) * bool)) : option (list N) :=
  match x with Ret _ s _ => v_obj (w_svc s) | _ => None end.
Definition res_of (x : out ws (list (option N) * bool)) : option (list (option N) * bool) :=
  match x with Ret r _ _ => Some r | _ => None end.

Lemma upload_vectored_refuted_pf k :
  exists part l net rs s o,
    session k part l net = Ret (rs, true) s [] /\ all_deliver net /\ no_error rs /\
    v_obj (w_svc s) = Some o /\ o <> written l /\
    rs = [Some 4] /\ len (written l) = 3.
Proof.
  exists 262144, [[[1; 2]; [3]]], (match k with Gcs => [Deliver] | _ => [Deliver; Deliver] end).
  destruct k.
  all: eexists; eexists; eexists; split; [vm_compute; reflexivity|].
  all: split; [intros f Hf; cbn in Hf; intuition congruence|].
  all: split; [intros r [<-|[]]; discriminate|].
  all: split; [reflexivity|]; split; [discriminate|]; split; reflexivity.
Qed.

Lemma upload_gap_refuted_pf k : k = S3 \/ k = Gcs ->
  exists part l net s o,
    alike l /\ session k part l net = Ret ([Some 1; None; Some 1], true) s [] /\
    v_obj (w_svc s) = Some o /\ ~ kept l [Some 1; None; Some 1] o.
Proof.
  assert (NK : forall x, ~ kept [[[7]]; [x]; [[8]]] [Some 1; None; Some 1] [8]).
  { intros x K. inversion K. }
  intros [->| ->].
  - exists 2, [[[7]]; [[1; 1]]; [[8]]], [LoseReq; Deliver; Deliver]. eexists. eexists.
    split. { intros vs a b [<-|[<-|[<-|[]]]] [<-|[]] [<-|[]]; reflexivity. }
    split; [vm_compute; reflexivity|]. split; [reflexivity|]. apply NK.
  - exists 262144, [[[7]]; [repeat 1 (N.to_nat 262143)]; [[8]]], [LoseReq; Deliver]. eexists. eexists.
    split. { intros vs a b [<-|[<-|[<-|[]]]] [<-|[]] [<-|[]]; reflexivity. }
    split; [|split; [|apply NK]].
    + assert (H : session Gcs 262144 [[[7]]; [repeat 1 (N.to_nat 262143)]; [[8]]] [LoseReq; Deliver]
                  = Ret ([Some 1; None; Some 1], true)
                        (mkWs [] 1 [] 0 (mkSvc [] [8] (Some [8]))) []).
      { vm_cast_no_check (@eq_refl (out ws (list (option N) * bool))
          (Ret ([Some 1; None; Some 1], true) (mkWs [] 1 [] 0 (mkSvc [] [8] (Some [8]))) [])). }
      exact H.
    + reflexivity.
Qed.
