From Verif Require Import Util RingBufferModel RingBufferSpec.
Open Scope N_scope.

Section P.
Context {T : Type}.

(** [Rep k r q]: the ring of capacity 2^k represents the list [q]. *)
Definition Rep (k : N) (r : ring T) (q : list T) : Prop :=
  k <= 31 /\ rcap r = 2 ^ k /\ rmask r = N.ones k /\ len (buf r) = 2 ^ k /\
  head r < two32 /\ tail r = (head r + len q) mod two32 /\ len q <= 2 ^ k /\
  forall i, (i < length q)%nat ->
    nth_error (buf r) (N.to_nat ((head r + N.of_nat i) mod 2 ^ k)) = nth_error q i.

Lemma pow_le k : k <= 31 -> 2 ^ k <= 2147483648.
Proof. intros. change 2147483648 with (2 ^ 31). apply N.pow_le_mono_r; lia. Qed.
Lemma pow_pos k : 0 < 2 ^ k.
Proof. assert (2 ^ k <> 0) by (apply N.pow_nonzero; lia). lia. Qed.

Lemma two32_mul k : k <= 31 -> two32 = 2 ^ k * 2 ^ (32 - k).
Proof. intros. rewrite <- N.pow_add_r. replace (k + (32 - k)) with 32 by lia. reflexivity. Qed.

Lemma mod_mod_pow x k : k <= 31 -> (x mod two32) mod 2 ^ k = x mod 2 ^ k.
Proof.
  intros H. pose proof (pow_pos k). pose proof (pow_pos (32 - k)).
  rewrite (two32_mul k H). rewrite N.mod_mul_r by lia.
  rewrite N.mul_comm, N.mod_add by lia. now rewrite N.mod_mod by lia.
Qed.

Lemma land_mask x k : k <= 31 -> N.land (x mod two32) (N.ones k) = x mod 2 ^ k.
Proof. intros. rewrite N.land_ones. now apply mod_mod_pow. Qed.

Lemma mod_neq h i j c : i < j -> j < i + c -> (h + i) mod c <> (h + j) mod c.
Proof.
  intros H1 H2 E.
  assert (c <> 0) by lia.
  pose proof (N.div_mod (h + i) c ltac:(auto)). pose proof (N.div_mod (h + j) c ltac:(auto)).
  rewrite E in *. set (a := (h + i) / c) in *. set (b := (h + j) / c) in *.
  assert (j - i = c * b - c * a) by lia. assert (a < b) by nia. nia.
Qed.

Lemma size_rep k r q : Rep k r q -> rsize r = len q.
Proof.
  intros (Hk & _ & _ & _ & Hh & Ht & Hl & _). unfold rsize, usub. rewrite Ht.
  pose proof (pow_le k Hk). unfold two32 in *.
  destruct (N.lt_ge_cases (head r + len q) 4294967296).
  - rewrite (N.mod_small (head r + len q)) by lia.
    replace (head r + len q + 4294967296 - head r) with (len q + 1 * 4294967296) by lia.
    rewrite N.mod_add by lia. apply N.mod_small. lia.
  - replace ((head r + len q) mod 4294967296) with (head r + len q - 4294967296).
    + replace (head r + len q - 4294967296 + 4294967296 - head r) with (len q) by lia.
      apply N.mod_small. lia.
    + symmetry. replace (head r + len q) with (head r + len q - 4294967296 + 1 * 4294967296) at 1 by lia.
      rewrite N.mod_add by lia. apply N.mod_small. lia.
Qed.

Lemma full_rep k r q : Rep k r q -> rfull r = (len q =? 2 ^ k).
Proof.
  intros HR. pose proof (size_rep _ _ _ HR) as Hs. unfold rsize in Hs. unfold rfull. rewrite Hs.
  destruct HR as (_ & -> & _). reflexivity.
Qed.

Lemma empty_rep k r q : Rep k r q -> rempty r = (len q =? 0).
Proof.
  intros HR. pose proof (size_rep _ _ _ HR) as Hs. unfold rsize, usub in Hs. unfold rempty.
  destruct HR as (Hk & _ & _ & _ & Hh & Ht & Hl & _). pose proof (pow_le k Hk).
  destruct (N.eqb_spec (len q) 0) as [E|E].
  - rewrite E in Ht. rewrite Ht, N.add_0_r, N.mod_small by auto. apply N.eqb_refl.
  - apply N.eqb_neq. intros E2. rewrite E2 in Hs.
    replace (head r + two32 - head r) with two32 in Hs by lia.
    rewrite N.mod_same in Hs by discriminate. congruence.
Qed.

Lemma rep_pop k r q : Rep k r q -> q <> [] ->
  Rep k (Ring (rcap r) (rmask r) (w32 (head r + 1)) (tail r) (buf r)) (drop 1 q).
Proof.
  intros (Hk & Hc & Hm & Hb & Hh & Ht & Hl & Hn) Hq.
  destruct q as [|x q]; [congruence|]. clear Hq.
  change (drop 1 (x :: q)) with q. rewrite len_cons in *.
  unfold Rep, w32; simpl. repeat split; auto; try lia.

  - rewrite Ht. rewrite N.add_mod_idemp_l by discriminate. f_equal. lia.
  - intros i Hi. specialize (Hn (S i)). simpl in Hn. rewrite <- Hn by lia.
    do 2 f_equal. pose proof (pow_pos k).
    rewrite <- (N.add_mod_idemp_l (_ mod two32)) by lia. rewrite mod_mod_pow by auto.
    rewrite N.add_mod_idemp_l by lia. f_equal. lia.
Qed.

Lemma rep_push k r q v : Rep k r q -> len q < 2 ^ k ->
  exists r', store (N.land (tail r) (rmask r)) v
               (Ring (rcap r) (rmask r) (head r) (w32 (tail r + 1)) (buf r)) = Some r' /\
    Rep k r' (q ++ [v]).
Proof.
  intros (Hk & Hc & Hm & Hb & Hh & Ht & Hl & Hn) Hlt.
  pose proof (pow_pos k). pose proof (pow_le k Hk).
  unfold store. simpl. rewrite Hm, Ht, land_mask by auto.
  destruct (N.ltb_spec ((head r + len q) mod 2 ^ k) (len (buf r))) as [Hi|Hi].
  2:{ rewrite Hb in Hi. pose proof (N.mod_lt (head r + len q) (2 ^ k) ltac:(lia)). lia. }
  eexists; split; [reflexivity|].
  unfold Rep, w32; simpl. repeat split; auto; try lia.
  - unfold len. rewrite set_length. exact Hb.
  - rewrite len_app. change (len [v]) with 1.
    rewrite N.add_mod_idemp_l by discriminate. f_equal. lia.
  - rewrite len_app. change (len [v]) with 1. lia.
  - intros i Hi'. rewrite app_length in Hi'. simpl in Hi'.
    destruct (Nat.eq_dec i (length q)) as [->|].
    + rewrite nth_error_app2 by lia. rewrite Nat.sub_diag. simpl.
      apply set_nth_error_eq. unfold len in Hi. lia.
    + rewrite nth_error_app1 by lia. rewrite <- Hn by lia.
      apply set_nth_error_neq. intros E. apply N2Nat.inj in E. symmetry in E. revert E.
      apply mod_neq; unfold len in *; lia.
Qed.

Lemma nth_rep k r q i : Rep k r q -> i < len q ->
  at_index i r = nth_error q (N.to_nat i).
Proof.
  intros (Hk & Hc & Hm & Hb & Hh & Ht & Hl & Hn) Hi. unfold at_index, slot, w32.
  rewrite Hm, land_mask by auto. rewrite <- Hn by (unfold len in Hi; lia).
  do 3 f_equal. lia.
Qed.

Lemma set_rep k r q i v : Rep k r q -> i < len q ->
  exists r', set_index i v r = Some r' /\ Rep k r' (set (N.to_nat i) v q).
Proof.
  intros (Hk & Hc & Hm & Hb & Hh & Ht & Hl & Hn) Hi. unfold set_index, slot, w32, store.
  rewrite Hm, land_mask by auto. pose proof (pow_pos k).
  pose proof (N.mod_lt (head r + i) (2 ^ k) ltac:(lia)).
  destruct (N.ltb_spec ((head r + i) mod 2 ^ k) (len (buf r))); [|lia].
  eexists; split; [reflexivity|].
  unfold Rep; simpl. unfold len in *. rewrite !set_length. repeat split; auto.
  intros j Hj. destruct (Nat.eq_dec j (N.to_nat i)) as [->|Hne].
  - rewrite N2Nat.id. rewrite !set_nth_error_eq; auto; lia.
  - rewrite !set_nth_error_neq; auto. intros E. apply N2Nat.inj in E.
    destruct (N.lt_ge_cases i (N.of_nat j)).
    + revert E. apply mod_neq; lia.
    + symmetry in E. revert E. apply mod_neq; lia.
Qed.

Lemma consume_rep k r q n : Rep k r q -> n <= len q -> Rep k (ConsumeHead n r) (drop n q).
Proof.
  intros (Hk & Hc & Hm & Hb & Hh & Ht & Hl & Hn) Hi. pose proof (pow_pos k).
  unfold Rep, ConsumeHead, w32; simpl. rewrite len_drop. repeat split; auto; try lia.

  - rewrite N.add_mod_idemp_l by discriminate. rewrite Ht. f_equal. lia.
  - intros i Hj. unfold drop in *. rewrite skipn_length in Hj.
    rewrite <- (N.add_mod_idemp_l (_ mod two32)) by lia. rewrite mod_mod_pow by auto.
    rewrite N.add_mod_idemp_l by lia.
    replace (head r + n + N.of_nat i) with (head r + N.of_nat (N.to_nat n + i)) by lia.
    rewrite Hn by lia. clear. generalize (N.to_nat n) as m. intros m; revert q.
    induction m; simpl; auto. intros [|x q]; simpl; auto. destruct i; auto.
Qed.

Lemma step_rep k r q o : Rep k r q -> q_pre q o ->
  exists r', rstep r o = Some (r', snd (q_step (2 ^ k) q o)) /\ Rep k r' (fst (q_step (2 ^ k) q o)).
Proof.
  intros HR Hp. pose proof (full_rep _ _ _ HR) as Hf. pose proof (size_rep _ _ _ HR) as Hs.
  pose proof HR as (Hk & Hc & Hm & Hb & Hh & Ht & Hl & Hn). pose proof (pow_pos k).
  destruct o as [v|v| |i v|n]; simpl in *.
  - unfold TryEmplace, GetTail. rewrite Hf.
    destruct (N.eqb_spec (len q) (2 ^ k)), (N.ltb_spec (len q) (2 ^ k)); try lia; simpl.
    + eauto.
    + destruct (rep_push k r q v HR) as (r' & -> & R'); auto. eauto.
  - unfold EmplaceOrOverride, GetTail. rewrite Hf.
    destruct (N.eqb_spec (len q) (2 ^ k)) as [E|E], (N.ltb_spec (len q) (2 ^ k)); try lia; simpl.
    + assert (Hq : q <> []) by (intros ->; rewrite len_nil in E; lia).
      pose proof (rep_pop k r q HR Hq) as R1.
      destruct (rep_push k _ _ v R1) as (r' & Hst & R').
      { rewrite len_drop. lia. }
      simpl in Hst. rewrite Hst. eauto.
    + destruct (rep_push k r q v HR) as (r' & -> & R'); auto. eauto.
  - unfold TryDeque. rewrite Hs. destruct q as [|x q].
    + simpl. eauto.
    + destruct (N.eqb_spec (len (x :: q)) 0) as [E|E]; [rewrite len_cons in E; lia|].
      specialize (Hn 0%nat ltac:(simpl; lia)). rewrite N.add_0_r in Hn.
      rewrite Hm, N.land_ones, Hn. simpl. eexists; split; [reflexivity|].
      rewrite <- Hm. exact (rep_pop k r (x :: q) HR ltac:(discriminate)).
  - destruct (set_rep k r q i v HR Hp) as (r' & -> & R'). eauto.
  - eexists; split; [reflexivity|]. now apply consume_rep.
Qed.

Lemma run_rep k h : forall r q, Rep k r q -> q_respects (2 ^ k) q h ->
  exists r', rrun r h = Some (r', snd (q_run (2 ^ k) q h)) /\ Rep k r' (fst (q_run (2 ^ k) q h)).
Proof.
  induction h as [|o h IH]; intros r q HR Hr; simpl in *.
  - eauto.
  - destruct Hr as [Hp Hr]. destruct (step_rep k r q o HR Hp) as (r1 & -> & R1).
    destruct (q_step (2 ^ k) q o) as [q1 x1]. simpl in *.
    destruct (IH r1 q1 R1 Hr) as (r2 & -> & R2).
    destruct (q_run (2 ^ k) q1 h) as [q2 xs]. simpl in *. eauto.
Qed.

Lemma new_rep k d : k <= 31 -> Rep k (NewRing (2 ^ k) d) [].
Proof.
  intros Hk. pose proof (pow_pos k). pose proof (pow_le k Hk).
  assert (E : usub (2 ^ k) 1 = N.ones k).
  { unfold usub. replace (2 ^ k + two32 - 1) with (2 ^ k - 1 + 1 * two32) by lia.
    rewrite N.mod_add by discriminate. rewrite (N.mod_small (2 ^ k - 1)) by (unfold two32; lia).
    rewrite N.ones_equiv. lia. }
  unfold Rep, NewRing; cbn [rcap rmask head tail buf]. rewrite E, len_repeat.
  rewrite N2Nat.id. repeat apply conj; auto; try reflexivity.
  - rewrite len_nil. lia.
  - simpl. intros i Hi. inversion Hi.
Qed.

Lemma ring_fifo_pf : forall (k : N) (d : T) (h : list (rop T)),
  k <= 31 -> q_respects (2 ^ k) [] h ->
  exists r, rrun (NewRing (2 ^ k) d) h = Some (r, snd (q_run (2 ^ k) [] h)) /\
    let q := fst (q_run (2 ^ k) [] h) in
    rsize r = len q /\ rempty r = (len q =? 0) /\ rfull r = (len q =? 2 ^ k) /\ len q <= 2 ^ k /\
    forall i, i < len q -> at_index i r = nth_error q (N.to_nat i).
Proof.
  intros k d h Hk Hr. destruct (run_rep k h _ _ (new_rep k d Hk) Hr) as (r & Hrun & R).
  exists r. split; auto. simpl. repeat split.
  - eapply size_rep; eauto.
  - eapply empty_rep; eauto.
  - eapply full_rep; eauto.
  - apply R.
  - intros. eapply nth_rep; eauto.
Qed.
End P.
