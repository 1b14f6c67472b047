From Verif Require Import Util SlidingModel SlidingSpec.
Open Scope N_scope.

Section P.
Variable NUM : N.
Hypothesis HN : 1 < NUM.

Definition win (n s : N) : bool := n <? s + NUM.
Definition Inv (c : sc) (n : N) (log : list (N * Z)) : Prop :=
  last_ts c = n /\ len (count c) = NUM /\ Forall (fun e => fst e <= n) log /\
  total c = sum_if (win n) log /\
  forall b, b < NUM -> nth (N.to_nat b) (count c) 0%Z = sum_if (fun s => win n s && (s mod NUM =? b)) log.

Lemma sum_if_ext p q log : (forall s d, In (s, d) log -> p s = q s) -> sum_if p log = sum_if q log.
Proof.
  induction log as [|[s d] t IH]; simpl; intros H; auto. rewrite (H s d), IH; auto. intros; eauto.
Qed.
Lemma sum_if_add p q r log :
  (forall s d, In (s, d) log -> Z.b2z (p s) = Z.b2z (q s) + Z.b2z (r s))%Z ->
  (sum_if p log = sum_if q log + sum_if r log)%Z.
Proof.
  induction log as [|[s d] t IH]; simpl; intros H; auto.
  rewrite IH by (intros; eauto). specialize (H s d (or_introl eq_refl)).
  destruct (p s), (q s), (r s); simpl in H; lia.
Qed.
Lemma sum_if_false log p : (forall s d, In (s, d) log -> p s = false) -> sum_if p log = 0%Z.
Proof.
  induction log as [|[s d] t IH]; simpl; intros H; auto. rewrite (H s d), IH; auto. intros; eauto.
Qed.

Lemma mod_eq_window s i : i <= s + NUM -> s < i -> (s mod NUM = i mod NUM <-> i = s + NUM).
Proof.
  intros H1 H2. split.
  - intros E. pose proof (N.div_mod s NUM ltac:(lia)). pose proof (N.div_mod i NUM ltac:(lia)).
    rewrite E in *. set (a := s / NUM) in *. set (b := i / NUM) in *. clearbody a b.
    generalize dependent (i mod NUM). intros r _ Hs Hi.
    assert (a < b) by nia. assert (b < a + 2) by nia. assert (b = a + 1) by lia. subst b. lia.
  - intros ->. replace (s + NUM) with (s + 1 * NUM) by lia. now rewrite N.mod_add by lia.
Qed.

Lemma nth_repeat_0 b n : nth b (repeat 0%Z n) 0%Z = 0%Z.
Proof. revert b; induction n; destruct b; simpl; auto. Qed.

(** One slot forward. *)
Lemma clear_bin_inv c n log : Inv c n log ->
  let c' := clear_bin NUM (n + 1) c in Inv (SC (count c') (total c') (n + 1)) (n + 1) log.
Proof.
  intros (Hl & Hc & Hf & Ht & Hb). cbv zeta. unfold clear_bin; cbn [count total last_ts].
  pose proof (N.mod_lt (n + 1) NUM ltac:(lia)) as Hm.
  assert (Hle : forall s d, In (s, d) log -> s <= n).
  { intros s d Hin. rewrite Forall_forall in Hf. apply (Hf _ Hin). }
  unfold Inv; cbn [count total last_ts]. split; [auto|]. split.
  { unfold len in *. now rewrite set_length. }
  split; [eapply Forall_impl; [|exact Hf]; simpl; intros; lia|]. split.
  - rewrite Ht, Hb by auto.
    rewrite (sum_if_add (win n) (win (n + 1)) (fun s => win n s && (s mod NUM =? (n + 1) mod NUM)) log); [lia|].
    intros s d Hin. specialize (Hle s d Hin). unfold win.
    destruct (N.ltb_spec n (s + NUM)); destruct (N.ltb_spec (n + 1) (s + NUM)); simpl; try lia.
    + destruct (N.eqb_spec (s mod NUM) ((n + 1) mod NUM)) as [E|E]; auto.
      apply mod_eq_window in E; lia.
    + destruct (N.eqb_spec (s mod NUM) ((n + 1) mod NUM)) as [E|E]; auto.
      exfalso. apply E. apply mod_eq_window; lia.
  - intros b Hbn. destruct (N.eq_dec b ((n + 1) mod NUM)) as [->|Hne].
    + rewrite set_nth_eq by (unfold len in Hc; lia). symmetry. apply sum_if_false.
      intros s d Hin. specialize (Hle s d Hin). unfold win.
      destruct (N.ltb_spec (n + 1) (s + NUM)); auto. simpl.
      apply N.eqb_neq. intros E. apply mod_eq_window in E; lia.
    + rewrite set_nth_neq by lia. rewrite Hb by auto. apply sum_if_ext. intros s d Hin.
      specialize (Hle s d Hin). unfold win.
      destruct (N.ltb_spec n (s + NUM)), (N.ltb_spec (n + 1) (s + NUM)); auto; try lia.
      simpl. apply N.eqb_neq. intros E. apply Hne. rewrite <- E. apply mod_eq_window; lia.
Qed.

Lemma clear_bins_inv k : forall c n log, Inv c n log ->
  let c' := clear_bins NUM k (n + 1) c in
  Inv (SC (count c') (total c') (n + N.of_nat k)) (n + N.of_nat k) log.
Proof.
  induction k as [|k IH]; intros c n log HI; cbn [clear_bins]; cbv zeta.
  - replace (n + N.of_nat 0) with n by lia. destruct HI as (H1 & H2). split; auto.
  - pose proof (clear_bin_inv c n log HI) as H1. cbv zeta in H1.
    specialize (IH _ _ _ H1). cbv zeta in IH.
    replace (n + 1 + N.of_nat k) with (n + N.of_nat (S k)) in IH by lia.
    assert (E : forall i a b, count (clear_bins NUM k i (SC (count a) (total a) b)) = count (clear_bins NUM k i a) /\
                total (clear_bins NUM k i (SC (count a) (total a) b)) = total (clear_bins NUM k i a)).
    { clear. induction k; intros i a b; simpl; auto.
      specialize (IHk (i + 1) (clear_bin NUM i a) b). unfold clear_bin in *; simpl in *. auto. }
    destruct (E (n + 1 + 1) (clear_bin NUM (n + 1) c) (n + 1)) as [E1 E2].
    rewrite E1, E2 in IH. exact IH.
Qed.

Lemma move_inv c n log t : Inv c n log -> t < two64 - 1 ->
  exists c', MoveTsIfNeeded NUM t c = Some (N.max n t mod NUM, c') /\ Inv c' (N.max n t) log.
Proof.
  intros HI Ht. pose proof HI as (Hl & Hc & Hf & Htot & Hb). unfold MoveTsIfNeeded. rewrite Hl.
  destruct (N.ltb_spec n t) as [H|H].
  - replace (N.max n t) with t by lia. destruct (N.leb_spec NUM (t - n)) as [H2|H2].
    + eexists; split; [reflexivity|]. unfold Inv; cbn [count total last_ts].
      assert (Hout : forall s d, In (s, d) log -> win t s = false).
      { intros s d Hin. rewrite Forall_forall in Hf. specialize (Hf _ Hin). simpl in Hf.
        unfold win. apply N.ltb_ge. lia. }
      split; auto. split; [rewrite len_repeat; lia|]. split; [eapply Forall_impl; [|exact Hf]; simpl; intros; lia|].
      split; [symmetry; now apply sum_if_false|].
      intros b _. rewrite nth_repeat_0. symmetry. apply sum_if_false. intros s d Hin.
      now rewrite (Hout s d Hin).
    + destruct (N.leb_spec (two64 - 1) t); [lia|].
      eexists; split; [reflexivity|].
      pose proof (clear_bins_inv (N.to_nat (t - n)) c n log HI) as R. cbv zeta in R.
      replace (n + N.of_nat (N.to_nat (t - n))) with t in R by lia. exact R.
  - replace (N.max n t) with n by lia. eauto.
Qed.

Lemma step_inv c n log o : Inv c n log -> clock_ok o ->
  exists c', scstep NUM c o = Some (c', snd (logstep NUM (n, log) o)) /\
    Inv c' (fst (fst (logstep NUM (n, log) o))) (snd (fst (logstep NUM (n, log) o))).
Proof.
  intros HI Ho. destruct o as [t d|t|t|]; simpl in *.
  - destruct (move_inv c n log t HI Ho) as (c' & E & I'). unfold IncBy. rewrite E. cbv zeta.
    set (m := N.max n t) in *. eexists; split; [reflexivity|].
    destruct I' as (Hl & Hc & Hf & Htot & Hb).
    assert (Hm : m mod NUM < NUM) by (apply N.mod_lt; lia).
    assert (Hw : win m m = true) by (unfold win; apply N.ltb_lt; lia).
    unfold Inv; cbn [count total last_ts sum_if]. split; auto.
    split; [unfold len in *; now rewrite set_length|]. split; [constructor; auto; simpl; lia|].
    split; [rewrite Hw; lia|].
    intros b Hbn. cbn [sum_if]. rewrite Hw. cbn [andb]. destruct (N.eqb_spec (m mod NUM) b) as [<-|Hne].
    + rewrite set_nth_eq by (unfold len in Hc; lia). rewrite Hb by auto. lia.
    + rewrite set_nth_neq by lia. rewrite Hb by auto. lia.
  - destruct (move_inv c n log t HI Ho) as (c' & E & I'). unfold Sum. rewrite E.
    eexists; split; [|exact I']. destruct I' as (_ & _ & _ & -> & _). reflexivity.
  - destruct (move_inv c n log t HI Ho) as (c' & E & I'). unfold SumTail. rewrite E.
    eexists; split; [|exact I']. destruct I' as (_ & _ & Hf & Htot & Hb).
    set (m := N.max n t) in *. assert (Hm : m mod NUM < NUM) by (apply N.mod_lt; lia).
    do 3 f_equal. rewrite Htot, Hb by auto.
    rewrite (sum_if_add (win m) (fun s => (m <? s + NUM) && negb (s =? m))
       (fun s => win m s && (s mod NUM =? m mod NUM)) log); [lia|].
    intros s d Hin. rewrite Forall_forall in Hf. specialize (Hf _ Hin). simpl in Hf.
    unfold win. destruct (N.ltb_spec m (s + NUM)) as [H|H]; auto. cbn [andb].
    destruct (N.eqb_spec s m) as [->|Hne].
    + rewrite N.eqb_refl. reflexivity.
    + destruct (N.eqb_spec (s mod NUM) (m mod NUM)) as [E2|E2]; auto.
      apply mod_eq_window in E2; lia.
  - eexists; split; [reflexivity|]. destruct HI as (Hl & _). unfold Inv, Reset; cbn [count total last_ts].
    split; auto. split; [rewrite len_repeat; lia|]. split; [constructor|]. split; auto.
    intros b _. apply nth_repeat_0.
Qed.

Lemma run_inv h : forall c n log, Inv c n log -> Forall clock_ok h ->
  exists c', scrun NUM c h = Some (c', snd (logrun NUM (n, log) h)).
Proof.
  induction h as [|o h IH]; intros c n log HI Hh; cbn [scrun logrun].
  - eauto.
  - inversion Hh as [|? ? Ho Hh']; subst.
    destruct (step_inv c n log o HI Ho) as (c1 & -> & I1).
    destruct (logstep NUM (n, log) o) as [[n1 log1] r]. cbn [fst snd] in *.
    destruct (IH c1 n1 log1 I1 Hh') as (c2 & ->).
    destruct (logrun NUM (n1, log1) h) as [st2 rs]. simpl. eauto.
Qed.
End P.

Lemma sliding_window_pf : forall NUM h, 1 < NUM -> Forall clock_ok h ->
  exists c, scrun NUM (NewCounter NUM) h = Some (c, snd (logrun NUM (0, []) h)).
Proof.
  intros NUM h HN Hh. apply run_inv; auto. unfold NewCounter, Reset, Inv; cbn [count total last_ts].
  split; auto. split; [rewrite len_repeat; lia|]. split; [constructor|]. split; auto.
  intros b _. apply nth_repeat_0.
Qed.
