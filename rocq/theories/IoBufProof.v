From Verif Require Import Util IoBufModel IoBufSpec.
Open Scope N_scope.

(** Representation invariant. *)
Definition Inv (b : iobuf) : Prop :=
  hasbuf b = true /\ len (mem b) = cap b /\ offs b <= size b /\ size b <= cap b /\ cap b <= 2 ^ 63.

(** The cells of the input are exactly [q], all initialised. *)
Definition Rep (b : iobuf) (q : list N) : Prop :=
  Inv b /\ InputBuffer b = map Some q.

Lemma two64_val : two64 = 2 * 2 ^ 63. Proof. reflexivity. Qed.

Lemma bit_ceil_spec x : x <= 2 ^ 63 -> exists c, bit_ceil x = Some c /\ x <= c /\ c <= 2 ^ 63 /\ 1 <= c.
Proof.
  intros H. unfold bit_ceil. destruct (N.leb_spec x 1).
  - exists 1. repeat split; auto; try lia.
  - destruct (N.leb_spec x (2 ^ 63)); [|lia].
    exists (2 ^ N.log2_up x). split; auto.
    destruct (N.log2_up_spec x) as [_ Hu]; [lia|]. split; auto.
    split.
    + apply N.pow_le_mono_r; [lia|]. apply N.log2_up_le_mono in H.
      rewrite N.log2_up_pow2 in H; lia.
    + assert (2 ^ N.log2_up x <> 0) by (apply N.pow_nonzero; lia). lia.
Qed.

Lemma bit_ceil_pow x c : bit_ceil x = Some c -> exists k, c = 2 ^ k.
Proof.
  unfold bit_ceil. destruct (x <=? 1); [intros [= <-]; now exists 0|].
  destruct (x <=? 2 ^ 63); [|discriminate]. intros [= <-]. eauto.
Qed.

Lemma InputBuffer_len b : Inv b -> len (InputBuffer b) = InputLen b.
Proof.
  intros (_ & Hm & Ho & Hs & _). unfold InputBuffer, InputLen.
  rewrite len_take, len_drop. lia.
Qed.

Lemma Rep_len b q : Rep b q -> InputLen b = len q.
Proof. intros [Hi He]. rewrite <- InputBuffer_len, He, len_map by auto. reflexivity. Qed.

Lemma copy_front m so n :
  so + n <= len m ->
  exists m', copy_cells m so n m 0 = Some m' /\ len m' = len m /\ take n m' = take n (drop so m).
Proof.
  intros H. unfold copy_cells.
  destruct (N.leb_spec (so + n) (len m)); [|lia].
  destruct (N.leb_spec (0 + n) (len m)); [|lia]. simpl.
  eexists; split; [reflexivity|].
  rewrite ?take_0. simpl app. split.
  - rewrite len_app, len_take, !len_drop. lia.
  - rewrite take_app_le; [|rewrite len_take, len_drop; lia].
    rewrite take_take. f_equal. lia.
Qed.

Lemma copy_fresh m so n c :
  so + n <= len m -> n <= c ->
  exists m', copy_cells m so n (repeat (None:cell) (N.to_nat c)) 0 = Some m' /\ len m' = c
             /\ take n m' = take n (drop so m).
Proof.
  intros H Hc. unfold copy_cells.
  destruct (N.leb_spec (so + n) (len m)); [|lia].
  rewrite len_repeat.
  destruct (N.leb_spec (0 + n) (N.of_nat (N.to_nat c))); [|lia]. simpl.
  eexists; split; [reflexivity|].
  rewrite ?take_0. simpl app. split.
  - rewrite len_app, len_take, !len_drop, len_repeat. lia.
  - rewrite take_app_le; [|rewrite len_take, len_drop; lia].
    rewrite take_take. f_equal. lia.
Qed.

Lemma Compact_ok b q : Rep b q ->
  exists b', Compact b = Some b' /\ Rep b' q /\ cap b' = cap b /\ gen b' = gen b /\ offs b' = 0.
Proof.
  intros HR. destruct HR as [(Hb & Hm & Ho & Hs & Hc) He]. unfold Compact.
  destruct (N.ltb_spec 0 (offs b)).
  - destruct (copy_front (mem b) (offs b) (size b - offs b)) as (m' & Hcp & Hl & Ht); [lia|].
    rewrite Hcp. eexists; split; [reflexivity|]. simpl. split; [|auto].
    split; [repeat split; simpl; try lia; auto|].
    unfold InputBuffer, InputLen. simpl. rewrite drop_0, N.sub_0_r, Ht.
    exact He.
  - exists b. repeat split; auto. lia.
Qed.

Lemma Consume_ok b q n : Rep b q -> offs b + n < two64 ->
  exists b', ConsumeInput n b = Some b' /\ Rep b' (drop n q) /\ cap b' = cap b /\ gen b' = gen b.
Proof.
  intros HR Hw. pose proof (Rep_len _ _ HR) as HL. destruct HR as [(Hb & Hm & Ho & Hs & Hc) He].
  unfold ConsumeInput, wrap. rewrite N.mod_small by assumption.
  unfold InputLen in HL.
  destruct (N.leb_spec (size b) (offs b + n)).
  - eexists; split; [reflexivity|]. split; [|auto].
    split; [repeat split; simpl; auto; lia|].
    rewrite drop_all by lia. reflexivity.
  - set (b1 := IoBuf _ _ _ _ _ _).
    assert (R1 : Rep b1 (drop n q)).
    { split; [repeat split; simpl; auto; lia|]. unfold InputBuffer, InputLen. simpl.
      rewrite <- drop_map. rewrite <- He. unfold InputBuffer, InputLen.
      rewrite drop_take. rewrite drop_drop. f_equal. lia. }
    destruct (_ && _).
    + destruct (Compact_ok _ _ R1) as (b' & -> & R' & Hc' & Hg' & _).
      exists b'. auto.
    + exists b1. auto.
Qed.

Lemma Reallocate_ok b q c : Rep b q -> len q <= c -> c <= 2 ^ 63 ->
  exists b', Reallocate c b = Some b' /\ Rep b' q /\ cap b' = c /\ offs b' = 0 /\ size b' = len q.
Proof.
  intros HR Hq Hc63. pose proof (Rep_len _ _ HR) as HL. destruct HR as [(Hb & Hm & Ho & Hs & Hc) He].
  unfold Reallocate; cbv zeta. rewrite Hb. unfold InputLen in HL.
  destruct (N.ltb_spec (offs b) (size b)).
  - destruct (copy_fresh (mem b) (offs b) (size b - offs b) c) as (m' & -> & Hl & Ht); [lia|lia|].
    eexists; split; [reflexivity|]. simpl. split; [|auto].
    split; [repeat split; simpl; auto; lia|].
    unfold InputBuffer, InputLen. simpl. rewrite drop_0, N.sub_0_r, Ht. exact He.
  - eexists; split; [reflexivity|]. simpl. split; [|repeat split; auto; lia].
    split; [repeat split; simpl; auto; try lia; rewrite len_repeat; lia|].
    assert (q = []) by (apply len_zero; lia). subst. reflexivity.
Qed.

Lemma Reserve_ok b q n : Rep b q -> n <= 2 ^ 63 ->
  exists b', Reserve n b = Some b' /\ Rep b' q /\ n <= cap b' /\ (n < cap b -> b' = b) /\
    (cap b <= n -> offs b' = 0 /\ size b' = len q).
Proof.
  intros HR Hn. pose proof (Rep_len _ _ HR) as HL.
  destruct (HR) as [(Hb & Hm & Ho & Hs & Hc) He]. unfold InputLen in HL.
  unfold Reserve. destruct (N.ltb_spec n (cap b)).
  - exists b. repeat split; auto; lia.
  - destruct (bit_ceil_spec n Hn) as (c & Hbc & Hge & Hle & _). rewrite Hbc.
    destruct (Reallocate_ok b q c HR) as (b' & -> & R' & Hc' & Ho' & Hs'); try lia.
    exists b'. repeat split; auto; try lia; try apply R'.
Qed.

Lemma Ensure_ok b q n : Rep b q -> size b + n <= 2 ^ 63 ->
  exists b', EnsureCapacity n b = Some b' /\ Rep b' q /\ n <= AppendLen b' /\
    (n <= AppendLen b -> b' = b).
Proof.
  intros HR Hn. pose proof (Rep_len _ _ HR) as HL.
  destruct (HR) as [(Hb & Hm & Ho & Hs & Hc) He]. unfold InputLen in HL.
  unfold EnsureCapacity, AppendLen. destruct (N.ltb_spec (cap b - size b) n).
  - unfold wrap. rewrite N.mod_small by (rewrite two64_val; lia).
    destruct (Reserve_ok b q (size b + n) HR Hn) as (b' & -> & R' & Hc' & _ & Hbig).
    exists b'. destruct Hbig; [lia|]. repeat split; try apply R'; try lia.
  - exists b. repeat split; auto; lia.
Qed.

Lemma Fill_ok b q bs : Rep b q -> len bs <= AppendLen b ->
  exists b', FillAndCommit bs b = Some b' /\ Rep b' (q ++ bs) /\ cap b' = cap b /\ gen b' = gen b.
Proof.
  intros HR Hn. pose proof (Rep_len _ _ HR) as HL.
  destruct (HR) as [(Hb & Hm & Ho & Hs & Hc) He]. unfold InputLen in HL. unfold AppendLen in Hn.
  unfold FillAndCommit, copy_cells. rewrite (len_map Some bs).
  destruct (N.leb_spec (0 + len bs) (len bs)); [|lia].
  destruct (N.leb_spec (size b + len bs) (len (mem b))); [|lia]. simpl.
  eexists; split; [reflexivity|]. split; [|auto].
  unfold wrap. rewrite N.mod_small by (rewrite two64_val; lia).
  rewrite drop_0, (take_all (len bs) (map Some bs)) by (rewrite len_map; lia).
  split.
  { repeat split; simpl; auto; try lia.
    rewrite !len_app, len_take, len_drop, len_map. lia. }
  unfold InputBuffer, InputLen. simpl.
  rewrite drop_app_le by (rewrite len_take; lia).
  rewrite drop_take.
  unfold InputBuffer, InputLen in He. rewrite He. rewrite app_assoc.
  rewrite map_app, <- map_app.
  rewrite take_app_eq; [reflexivity|]. rewrite len_map, len_app. lia.
Qed.

Lemma Shrink_ok b q n : Rep b q ->
  exists r b', ShrinkTo n b = Some (r, b') /\ Rep b' q /\ cap b' <= cap b /\
    (r = true -> cap b' < cap b /\ n <= cap b') /\ (r = false -> b' = b).
Proof.
  intros HR. pose proof (Rep_len _ _ HR) as HL.
  destruct (HR) as [(Hb & Hm & Ho & Hs & Hc) He].
  unfold ShrinkTo. destruct (N.leb_spec (cap b) n).
  - exists false, b. repeat split; auto; try lia; discriminate.
  - destruct (bit_ceil_spec n) as (c & -> & Hge & Hle & _); [lia|].
    destruct (N.leb_spec (cap b) c); simpl.
    { exists false, b. repeat split; auto; try lia; discriminate. }
    destruct (N.ltb_spec c (InputLen b)).
    { exists false, b. repeat split; auto; try lia; discriminate. }
    destruct (Reallocate_ok b q c HR) as (b' & -> & R' & Hc' & Ho' & Hs'); try lia.
    exists true, b'. repeat split; try apply R'; try lia; try discriminate.
Qed.

Lemma Read_ok b q n : Rep b q -> n <= InputLen b ->
  exists b', ReadAndConsume n b = Some (map Some (take n q), b') /\ Rep b' (drop n q)
    /\ cap b' = cap b /\ gen b' = gen b.
Proof.
  intros HR Hn. pose proof (Rep_len _ _ HR) as HL.
  destruct (HR) as [(Hb & Hm & Ho & Hs & Hc) He]. unfold InputLen in *.
  unfold ReadAndConsume. destruct (N.leb_spec (offs b + n) (len (mem b))); [|lia].
  destruct (Consume_ok b q n HR) as (b' & -> & R' & Hc' & Hg').
  { rewrite two64_val. lia. }
  exists b'. split; [|auto]. do 2 f_equal.
  rewrite <- take_map, <- He. unfold InputBuffer, InputLen.
  rewrite take_take. f_equal. lia.
Qed.

Lemma New_ok c : c <= 2 ^ 63 -> exists b, NewIoBuf c = Some b /\ Rep b [] /\ c <= cap b.
Proof.
  intros H. unfold NewIoBuf, Reserve. simpl.
  destruct (N.ltb_spec c 0); [lia|].
  destruct (bit_ceil_spec c H) as (k & -> & Hge & Hle & H1).
  unfold Reallocate; cbv zeta. simpl. eexists; split; [reflexivity|]. simpl. split; [|lia].
  split; [|reflexivity].
  repeat split; simpl; try lia. rewrite len_repeat. lia.
Qed.
Lemma step_ok b q o : Rep b q -> pre b o ->
  exists b', step b o = Some (b', map Some (snd (spec_step q o))) /\ Rep b' (fst (spec_step q o)).
Proof.
  intros HR Hp. pose proof (Rep_len _ _ HR) as HL.
  pose proof HR as [(Hb & Hm & Ho & Hs & Hc) _].
  assert (Hsz : offs b + InputLen b = size b) by (unfold InputLen; lia).
  destruct o as [bs|bs|n|n|n|n|n| |]; simpl in *.
  - unfold WriteAndCommit. destruct (Ensure_ok b q (len bs)) as (b1 & -> & R1 & Ha & _); auto; [lia|].
    destruct (Fill_ok b1 q bs R1 Ha) as (b2 & -> & R2 & _). eauto.
  - destruct (Fill_ok b q bs HR Hp) as (b2 & -> & R2 & _). eauto.
  - destruct (Consume_ok b q n HR) as (b' & -> & R' & _); [exact Hp|]. eauto.
  - destruct (Read_ok b q n HR Hp) as (b' & -> & R' & _). eauto.
  - destruct (Ensure_ok b q n HR) as (b' & -> & R' & _); [lia|]. eauto.
  - destruct (Reserve_ok b q n HR Hp) as (b' & -> & R' & _). eauto.
  - destruct (Shrink_ok b q n HR) as (r & b' & -> & R' & _). eauto.
  - eexists; split; [reflexivity|]. split; [|reflexivity].
    repeat split; simpl; auto; lia.
  - destruct (Compact_ok b q HR) as (b' & -> & R' & _). eauto.
Qed.

Lemma run_ok h : forall b q, Rep b q -> respects b h ->
  exists b', run b h = Some (b', map Some (snd (spec_run q h))) /\ Rep b' (fst (spec_run q h)).
Proof.
  induction h as [|o h IH]; intros b q HR Hr; simpl in *.
  - eauto.
  - destruct Hr as [Hp Hr]. destruct (step_ok b q o HR Hp) as (b1 & Hs & R1).
    rewrite Hs. destruct (spec_step q o) as [q1 o1] eqn:E. simpl in *.
    destruct (IH b1 q1 R1 (Hr _ _ Hs)) as (b2 & -> & R2).
    destruct (spec_run q1 h) as [q2 o2]. simpl in *. rewrite <- map_app. eauto.
Qed.

Lemma reachable_Rep b : reachable b -> exists q, Rep b q.
Proof.
  intros (c & h & b0 & out & Hc & Hn & Hr & Hrun). destruct (New_ok c Hc) as (b1 & Hb & HR & _).
  rewrite Hn in Hb. injection Hb as ->.
  destruct (run_ok h b1 [] HR Hr) as (b' & Hrun' & R'). rewrite Hrun in Hrun'.
  injection Hrun' as -> ->. eauto.
Qed.


Lemma iobuf_fifo_pf : forall c h b0,
  c <= 2 ^ 63 -> NewIoBuf c = Some b0 -> respects b0 h ->
  exists b, run b0 h = Some (b, map Some (snd (spec_run [] h)))
    /\ InputBuffer b = map Some (fst (spec_run [] h))
    /\ InputLen b = len (fst (spec_run [] h)).
Proof.
  intros c h b0 Hc Hn Hr. destruct (New_ok c Hc) as (b & Hb & HR & _).
  rewrite Hn in Hb. injection Hb as ->.
  destruct (run_ok h b [] HR Hr) as (b' & -> & R'). exists b'.
  split; [reflexivity|]. split; [apply R'|]. now apply Rep_len.
Qed.

Lemma iobuf_ensure_capacity_pf : forall b n,
  reachable b -> offs b + InputLen b + n <= 2 ^ 63 ->
  exists b', EnsureCapacity n b = Some b' /\ n <= AppendLen b' /\ InputBuffer b' = InputBuffer b /\
    (n <= AppendLen b -> b' = b).
Proof.
  intros b n Hr Hn. destruct (reachable_Rep b Hr) as [q HR].
  pose proof HR as [(_ & _ & Ho & _) _].
  destruct (Ensure_ok b q n HR) as (b' & -> & R' & Ha & Hsame).
  { unfold InputLen in Hn. lia. }
  exists b'. repeat split; auto. destruct HR as [_ ->], R' as [_ ->]. reflexivity.
Qed.

Lemma iobuf_shrink_pf : forall b n,
  reachable b ->
  exists r b', ShrinkTo n b = Some (r, b') /\ InputBuffer b' = InputBuffer b /\
    (r = true <-> cap b' < cap b) /\ (r = true -> n <= cap b' /\ InputLen b <= cap b') /\
    (r = false -> b' = b).
Proof.
  intros b n Hr. destruct (reachable_Rep b Hr) as [q HR].
  destruct (Shrink_ok b q n HR) as (r & b' & -> & R' & Hle & Ht & Hf).
  exists r, b'. split; [reflexivity|]. split.
  { destruct HR as [_ ->], R' as [_ ->]. reflexivity. }
  split; [split; [now intros; apply Ht|]|split; [|auto]].
  - intros Hlt. destruct r; auto. rewrite (Hf eq_refl) in Hlt. lia.
  - intros E. split; [now apply Ht|]. rewrite (Rep_len _ _ HR), <- (Rep_len _ _ R').
    destruct R' as [(_ & _ & ? & ? & _) _]. unfold InputLen. lia.
Qed.
