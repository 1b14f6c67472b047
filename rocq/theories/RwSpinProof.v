From Verif Require Import Util Conc RwSpinModel RwSpinSpec.
From Coq Require Import ZArith.
Local Open Scope Z_scope.

Fixpoint tot (f : nat -> Z) (n : nat) : Z := match n with O => 0 | S n => tot f n + f n end.
Lemma tot_upd (g : pc -> Z) th t p n : (t < n)%nat -> tot (fun i => g (upd th t p i)) n = tot (fun i => g (th i)) n - g (th t) + g p.
Proof.
  assert (H : forall n, tot (fun i => g (upd th t p i)) n = tot (fun i => g (th i)) n + (if Nat.ltb t n then g p - g (th t) else 0)).
  { clear n. induction n as [|n IH]; [reflexivity|]. cbn [tot]. rewrite IH. unfold upd at 1. destruct (Nat.eqb_spec n t) as [->|N].
    - rewrite Nat.ltb_irrefl. replace (Nat.ltb t (S t)) with true by (symmetry; apply Nat.ltb_lt; lia). lia.
    - destruct (Nat.ltb_spec t n), (Nat.ltb_spec t (S n)); lia. }
  intros L. rewrite H. apply Nat.ltb_lt in L. rewrite L. lia.
Qed.
Lemma tot_le (f g : nat -> Z) n : (forall i, f i <= g i) -> tot f n <= tot g n.
Proof. intros H. induction n as [|n IH]; cbn; [lia|]. specialize (H n). lia. Qed.
Lemma tot_const c n : tot (fun _ => c) n = c * Z.of_nat n.
Proof. induction n as [|n IH]; cbn [tot]; [lia|]. rewrite IH. lia. Qed.
Lemma tot_nonneg f n : (forall i, 0 <= f i) -> 0 <= tot f n.
Proof. intros H. induction n as [|n IH]; cbn; [lia|]. specialize (H n). lia. Qed.
Lemma tot_one f n t : (forall i, 0 <= f i) -> (t < n)%nat -> f t <= tot f n.
Proof.
  intros H. induction n as [|n IH]; cbn; [lia|]. intros L. pose proof (tot_nonneg f n H). pose proof (H n). destruct (Nat.eq_dec t n) as [->|]; [lia|]. assert (t < n)%nat by lia. specialize (IH H2). lia.
Qed.
Lemma tot_two f n t u : (forall i, 0 <= f i) -> (t < n)%nat -> (u < n)%nat -> t <> u -> f t + f u <= tot f n.
Proof.
  intros H. induction n as [|n IH]; cbn; [lia|]. intros L M N. destruct (Nat.eq_dec t n) as [->|]; [pose proof (tot_one f n u H ltac:(lia)); lia|].
  destruct (Nat.eq_dec u n) as [->|]; [pose proof (tot_one f n t H ltac:(lia)); lia|]. pose proof (H n). specialize (IH ltac:(lia) ltac:(lia) N). lia.
Qed.
Lemma tot_pos f n : (forall i, 0 <= f i) -> 0 < tot f n -> exists t, (t < n)%nat /\ 0 < f t.
Proof.
  intros H. induction n as [|n IH]; cbn; [lia|]. intros P. destruct (Z.ltb_spec 0 (f n)); [exists n; split; [lia|assumption]|].
  destruct IH as (t & A & B); [specialize (H n); lia|]. exists t. split; [lia|exact B].
Qed.

(** What a thread has in the word: readers, and the right that excludes others. *)
Definition rds (p : pc) : Z := match p with Back | Rd | WrRd => 1 | _ => 0 end.
Definition wrs (p : pc) : Z := match p with Wr | WrRd | WrUp => 1 | _ => 0 end.
Definition ups (p : pc) : Z := match p with Up => 1 | _ => 0 end.
(** Threads in the middle of unlock_and_lock_upgrade: the bit is set. *)
Definition wup (p : pc) : Z := match p with WrUp => 1 | _ => 0 end.
(** Readers that count against a writer. *)
Definition rdo (p : pc) : Z := match p with Rd => 1 | _ => 0 end.
Definition T (f : pc -> Z) (n : nat) (s : st) := tot (fun i => f (th s i)) n.
Lemma rds_nn p : 0 <= rds p. Proof. destruct p; cbn; lia. Qed.
Lemma wrs_nn p : 0 <= wrs p. Proof. destruct p; cbn; lia. Qed.
Lemma ups_nn p : 0 <= ups p. Proof. destruct p; cbn; lia. Qed.
Lemma rdo_nn p : 0 <= rdo p. Proof. destruct p; cbn; lia. Qed.
Lemma wup_nn p : 0 <= wup p. Proof. destruct p; cbn; lia. Qed.

Record inv (n : nat) (s : st) : Prop := {
  i_bits : exists u, bits s = 4 * T rds n s + 2 * u + T wrs n s /\ 0 <= u <= 1 /\ T ups n s <= u /\ T wup n s <= u /\ (T wrs n s = 0 -> u = T ups n s);
  i_wr : T wrs n s + T ups n s <= 1;
  i_rd : T wrs n s = 0 \/ T rdo n s = 0;
  i_lim : forall t, (n <= t)%nat -> th s t = Out;
  i_seen : forall t, right_of (th s t) <> None -> seen s t = data s }.

Lemma land3 r k : 0 <= k < 4 -> Z.land (4 * r + k) 3 = k.
Proof. intros H. change 3 with (Z.ones 2). rewrite Z.land_ones by lia. change (2 ^ 2) with 4. rewrite Z.add_comm, Z.mul_comm, Z_mod_plus_full. apply Z.mod_small. exact H. Qed.
Lemma split4 r k : 0 <= k < 4 -> 4 * r + k = Z.lor (Z.shiftl r 2) k.
Proof.
  intros H. rewrite Z.shiftl_mul_pow2 by lia. change (2 ^ 2) with 4. rewrite (Z.mul_comm r 4).
  rewrite <- Z.lxor_lor; [apply Z.add_nocarry_lxor|]; apply Z.bits_inj'; intros m Hm; rewrite Z.land_spec, Z.bits_0;
  replace (4 * r) with (Z.shiftl r 2) by (rewrite Z.shiftl_mul_pow2 by lia; change (2 ^ 2) with 4; lia);
  (destruct (Z.ltb_spec m 2); [rewrite Z.shiftl_spec_low by lia; reflexivity|]);
  (replace (Z.testbit k m) with false; [apply andb_false_r|]); symmetry;
  (destruct (Z.eq_dec k 0) as [->|]; [apply Z.bits_0|]; apply Z.bits_above_log2; [lia|]);
  assert (Z.log2 k < 2) by (apply Z.log2_lt_pow2; lia); lia.
Qed.
Lemma lor2 r k : 0 <= k < 4 -> Z.lor (4 * r + k) 2 = 4 * r + Z.lor k 2.
Proof.
  intros H. rewrite (split4 r k H). rewrite <- Z.lor_assoc. symmetry. apply split4.
  assert (k = 0 \/ k = 1 \/ k = 2 \/ k = 3) as [-> |[-> |[-> | ->]]] by lia; cbn; lia.
Qed.
Lemma lnot3 r k : 0 <= k < 4 -> Z.land (4 * r + k) (Z.lnot 3) = 4 * r.
Proof.
  intros H. assert (E : Z.land (4 * r + k) (Z.lnot 3) = Z.ldiff (4 * r + k) (Z.ones 2)) by reflexivity. rewrite E.
  rewrite Z.ldiff_ones_r by lia. rewrite Z.shiftr_div_pow2, Z.shiftl_mul_pow2 by lia. change (2 ^ 2) with 4.
  replace ((4 * r + k) / 4) with r; [lia|]. apply (Z.div_unique_pos _ 4 r k); lia.
Qed.
Lemma wrap_id x : -2147483648 <= x < 2147483648 -> wrap32 x = x.
Proof. intros H. unfold wrap32. rewrite Z.mod_small; lia. Qed.

Lemma init_inv n : inv n init.
Proof.
  assert (Z0 : forall f, f Out = 0 -> T f n init = 0) by (intros f H; unfold T; cbn; rewrite H, tot_const; lia).
  constructor; rewrite ?Z0 by reflexivity; auto; try lia.
  - exists 0. cbn. lia.
Qed.

Section S.
Variable n : nat.
Hypothesis small : Z.of_nat n < 536870911.

Lemma rds_bound s : 0 <= T rds n s <= Z.of_nat n.
Proof.
  split; [apply tot_nonneg; intros; apply rds_nn|]. unfold T. replace (Z.of_nat n) with (tot (fun _ => 1) n) by (rewrite tot_const; lia).
  apply tot_le. intros i. destruct (th s i); cbn; lia.
Qed.
Lemma T_nn f s : (forall p, 0 <= f p) -> 0 <= T f n s. Proof. intros H. apply tot_nonneg. auto. Qed.
Lemma T_upd f b t p d e s : (t < n)%nat -> T f n (mkS b (upd (th s) t p) d e) = T f n s - f (th s t) + f p.
Proof. intros L. unfold T. cbn [th]. now apply (tot_upd f). Qed.
Lemma T_one f t s : (forall p, 0 <= f p) -> (t < n)%nat -> f (th s t) <= T f n s.
Proof. intros H L. apply (tot_one (fun i => f (th s i))); auto. Qed.

(** The common part of all steps that leave the data alone. *)
Lemma move_inv s t b p e u : inv n s -> (t < n)%nat ->
  let R := T rds n s - rds (th s t) + rds p in let W := T wrs n s - wrs (th s t) + wrs p in let U := T ups n s - ups (th s t) + ups p in
  let X := T wup n s - wup (th s t) + wup p in let O := T rdo n s - rdo (th s t) + rdo p in
  b = 4 * R + 2 * u + W -> 0 <= u <= 1 -> U <= u -> X <= u -> (W = 0 -> u = U) -> W + U <= 1 -> (W = 0 \/ O = 0) ->
  (right_of p <> None -> e t = data s) -> (forall i, i <> t -> e i = seen s i) ->
  inv n (mkS b (upd (th s) t p) (data s) e).
Proof.
  intros I L R W U X O Hb H1 H2 H3 H4 H5 H6 H7 H8. constructor; rewrite ?T_upd by exact L.
  - exists u. cbn [bits]. auto.
  - exact H5.
  - exact H6.
  - intros i Hi. cbn. rewrite upd_neq by lia. now apply (i_lim n s I).
  - intros i. cbn. unfold upd. destruct (Nat.eqb_spec i t) as [->|N]; [exact H7|]. rewrite H8 by exact N. apply (i_seen n s I).
Qed.

Lemma rdo_rds s : T rdo n s <= T rds n s.
Proof. unfold T. apply tot_le. intros i. destruct (th s i); cbn; lia. Qed.
Definition wro (p : pc) : Z := match p with Wr | WrRd => 1 | _ => 0 end.
Lemma wro_nn p : 0 <= wro p. Proof. destruct p; cbn; lia. Qed.
Lemma wro_wup s : T wro n s + T wup n s = T wrs n s.
Proof. unfold T. assert (H : forall m, tot (fun i => wro (th s i)) m + tot (fun i => wup (th s i)) m = tot (fun i => wrs (th s i)) m); [|apply H]. induction m as [|m IH]; cbn [tot]; [reflexivity|]. destruct (th s m); cbn [wro wup wrs]; lia. Qed.
Ltac facts s t I L :=
  pose proof (wro_wup s) as HWW; pose proof (T_one wro t s wro_nn L) as H6;
  pose proof (rdo_rds s) as HOR;
  destruct (i_bits n s I) as (u & Hb & Hu & Hu1 & Hu2 & Hu3); pose proof (i_wr n s I) as Hw; pose proof (i_rd n s I) as Hr;
  pose proof (rds_bound s) as HR; pose proof (T_nn wrs s wrs_nn) as HW; pose proof (T_nn ups s ups_nn) as HU; pose proof (T_nn wup s wup_nn) as HX; pose proof (T_nn rdo s rdo_nn) as HO;
  pose proof (T_one rds t s rds_nn L) as H1; pose proof (T_one wrs t s wrs_nn L) as H2; pose proof (T_one ups t s ups_nn L) as H3; pose proof (T_one wup t s wup_nn L) as H4; pose proof (T_one rdo t s rdo_nn L) as H5.

Lemma word s : inv n s -> exists u, 0 <= u <= 1 /\ bits s = 4 * T rds n s + (2 * u + T wrs n s) /\ 0 <= 2 * u + T wrs n s < 4.
Proof. intros I. destruct (i_bits n s I) as (u & Hb & Hu & _). pose proof (i_wr n s I). pose proof (T_nn wrs s wrs_nn). pose proof (T_nn ups s ups_nn). exists u. repeat split; lia. Qed.

Lemma step_inv s l s' : inv n s -> step n s l = Next s' -> inv n s'.
Proof.
  destruct l as [t o]. intros I. unfold step. destruct (Nat.ltb_spec t n) as [L|]; cbn [negb]; [|discriminate].
  facts s t I L. pose proof (i_seen n s I t) as Sn.
  destruct o as [| | | | | | | | | | | | |v], (th s t) eqn:Et; try discriminate; cbn [rds wrs ups wup rdo wro right_of] in *; unfold go, mv.
  - destruct (Z.eqb_spec (bits s) 0) as [B|B]; intros [= <-].
    + apply (move_inv s t _ _ _ 0 I L); rewrite ?Et; cbn [rds wrs ups wup rdo right_of]; unfold WRITER; try lia; [intros _; apply upd_eq|intros; now apply upd_neq].
    + apply (move_inv s t _ _ _ u I L); rewrite ?Et; cbn [rds wrs ups wup rdo right_of]; unfold WRITER; try lia; try (intros _; apply Sn; discriminate); auto; try congruence.
  - intros [= <-]. change (Z.lor WRITER UPGRADED) with 3. rewrite Hb. replace (4 * T rds n s + 2 * u + T wrs n s) with (4 * T rds n s + (2 * u + T wrs n s)) by lia. rewrite lnot3 by lia.
    apply (move_inv s t _ _ _ 0 I L); rewrite ?Et; cbn [rds wrs ups wup rdo right_of]; unfold WRITER; try lia; try (intros _; apply Sn; discriminate); auto; try congruence.
  - change (Z.lor WRITER UPGRADED) with 3. assert (B : Z.land (bits s) 3 = 2 * u + T wrs n s) by (rewrite Hb; replace (4 * T rds n s + 2 * u + T wrs n s) with (4 * T rds n s + (2 * u + T wrs n s)) by lia; apply land3; lia).
    assert (RB : T rds n s - 0 + 1 <= Z.of_nat n \/ True) by auto. rewrite B. rewrite wrap_id by (unfold READER; lia). unfold READER.
    destruct (Z.eqb_spec (2 * u + T wrs n s) 0); intros [= <-].
    + apply (move_inv s t _ _ _ u I L); rewrite ?Et; cbn [rds wrs ups wup rdo right_of]; unfold WRITER; try lia; [intros _; apply upd_eq|intros; now apply upd_neq].
    + apply (move_inv s t _ _ _ u I L); rewrite ?Et; cbn [rds wrs ups wup rdo right_of]; unfold WRITER; try lia; try (intros _; apply Sn; discriminate); auto; try congruence.
  - rewrite wrap_id by (unfold READER; lia). unfold READER. intros [= <-]. apply (move_inv s t _ _ _ u I L); rewrite ?Et; cbn [rds wrs ups wup rdo right_of]; unfold WRITER; try lia; try (intros _; apply Sn; discriminate); auto; try congruence.
  - rewrite wrap_id by (unfold READER; lia). unfold READER. intros [= <-]. apply (move_inv s t _ _ _ u I L); rewrite ?Et; cbn [rds wrs ups wup rdo right_of]; unfold WRITER; try lia; try (intros _; apply Sn; discriminate); auto; try congruence.
  - rewrite wrap_id by (unfold READER; lia). unfold READER. intros [= <-]. apply (move_inv s t _ _ _ u I L); rewrite ?Et; cbn [rds wrs ups wup rdo right_of]; unfold WRITER; try lia; try (intros _; apply Sn; discriminate); auto.
  - intros [= <-]. change (Z.lor WRITER UPGRADED) with 3. rewrite Hb. replace (4 * T rds n s + 2 * u + T wrs n s) with (4 * T rds n s + (2 * u + T wrs n s)) by lia. rewrite lnot3 by lia.
    apply (move_inv s t _ _ _ 0 I L); rewrite ?Et; cbn [rds wrs ups wup rdo right_of]; unfold WRITER; try lia; try (intros _; apply Sn; discriminate); auto.
  - change (Z.lor UPGRADED WRITER) with 3. change UPGRADED with 2. assert (E4 : bits s = 4 * T rds n s + (2 * u + T wrs n s)) by lia.
    assert (B : Z.land (bits s) 3 = 2 * u + T wrs n s) by (rewrite E4; apply land3; lia). rewrite B.
    assert (B2 : Z.lor (bits s) 2 = 4 * T rds n s + (2 + T wrs n s)).
    { rewrite E4, lor2 by lia. f_equal. assert (C : (u = 0 \/ u = 1) /\ (T wrs n s = 0 \/ T wrs n s = 1)) by lia. destruct C as [[-> | ->] [-> | ->]]; reflexivity. }
    set (b2 := Z.lor (bits s) 2) in *. clearbody b2. destruct (Z.eqb_spec (2 * u + T wrs n s) 0); intros [= <-].
    + apply (move_inv s t _ _ _ 1 I L); rewrite ?Et; cbn [rds wrs ups wup rdo right_of]; unfold WRITER; try lia; [intros _; apply upd_eq|intros; now apply upd_neq].
    + apply (move_inv s t _ _ _ 1 I L); rewrite ?Et; cbn [rds wrs ups wup rdo right_of]; unfold WRITER; try lia; try (intros _; apply Sn; discriminate); auto; try congruence.
  - rewrite wrap_id by (unfold UPGRADED; lia). unfold UPGRADED. intros [= <-]. apply (move_inv s t _ _ _ 0 I L); rewrite ?Et; cbn [rds wrs ups wup rdo right_of]; unfold WRITER; try lia; try (intros _; apply Sn; discriminate); auto; try congruence.
  - unfold UPGRADED, WRITER. destruct (Z.eqb_spec (bits s) 2) as [B|B]; intros [= <-].
    + apply (move_inv s t _ _ _ 0 I L); rewrite ?Et; cbn [rds wrs ups wup rdo right_of]; unfold WRITER; try lia; try (intros _; apply Sn; discriminate); auto.
    + apply (move_inv s t _ _ _ u I L); rewrite ?Et; cbn [rds wrs ups wup rdo right_of]; unfold WRITER; try lia; try (intros _; apply Sn; discriminate); auto.
  - rewrite wrap_id by (unfold UPGRADED, READER; lia). unfold UPGRADED, READER. intros [= <-]. apply (move_inv s t _ _ _ 0 I L); rewrite ?Et; cbn [rds wrs ups wup rdo right_of]; unfold WRITER; try lia; try (intros _; apply Sn; discriminate); auto.
  - change UPGRADED with 2. assert (E4 : bits s = 4 * T rds n s + (2 * u + T wrs n s)) by lia.
    assert (B2 : Z.lor (bits s) 2 = 4 * T rds n s + (2 + T wrs n s)).
    { rewrite E4, lor2 by lia. f_equal. assert (C : (u = 0 \/ u = 1) /\ (T wrs n s = 0 \/ T wrs n s = 1)) by lia. destruct C as [[-> | ->] [-> | ->]]; reflexivity. }
    set (b2 := Z.lor (bits s) 2) in *. clearbody b2. intros [= <-]. apply (move_inv s t _ _ _ 1 I L); rewrite ?Et; cbn [rds wrs ups wup rdo right_of]; unfold WRITER; try lia; try (intros _; apply Sn; discriminate); auto.
  - rewrite wrap_id by (unfold WRITER; lia). unfold WRITER. intros [= <-]. apply (move_inv s t _ _ _ u I L); rewrite ?Et; cbn [rds wrs ups wup rdo right_of]; unfold WRITER; try lia; try (intros _; apply Sn; discriminate); auto.
  - intros [= <-]. constructor; cbn [bits th data seen]; try apply I.
    intros i Hi. unfold upd. destruct (Nat.eqb_spec i t) as [->|N]; [reflexivity|]. exfalso.
    assert (Li : (i < n)%nat) by (destruct (Nat.lt_ge_cases i n) as [|G]; [assumption|]; rewrite (i_lim n s I i G) in Hi; now cbn in Hi).
    pose proof (tot_two (fun j => wrs (th s j)) n i t (fun j => wrs_nn _) Li L N) as W2. cbn beta in W2. rewrite Et in W2. fold (T wrs n s) in W2.
    pose proof (T_one ups i s ups_nn Li) as U1. pose proof (T_one rdo i s rdo_nn Li) as O1. destruct (th s i); cbn in *; try congruence; lia.
Qed.
Lemma no_ub s l : step n s l <> Ub.
Proof. destruct l as [t o]. unfold step, go, mv. destruct (negb _); [discriminate|]. destruct o, (th s t); try discriminate; destruct (_ =? _); discriminate. Qed.
Lemma reach_inv' s : reachable (step n) init s -> inv n s.
Proof.
  apply (reach_inv (step n) (inv n) init); [|apply init_inv]. intros s0 l I. pose proof (step_inv s0 l) as H. pose proof (no_ub s0 l). destruct (step n s0 l); auto.
Qed.

Lemma holder_lt s t : inv n s -> th s t <> Out -> (t < n)%nat.
Proof. intros I H. destruct (Nat.lt_ge_cases t n) as [|G]; [assumption|]. now rewrite (i_lim n s I t G) in H. Qed.
Lemma rwspin_exclusion_pf s t t' a b : reachable (step n) init s -> t <> t' -> right_of (th s t) = Some a -> right_of (th s t') = Some b -> compatible a b.
Proof.
  intros R N A B. pose proof (reach_inv' s R) as I.
  assert (L : (t < n)%nat) by (apply (holder_lt s t I); intros E; rewrite E in A; discriminate).
  assert (L' : (t' < n)%nat) by (apply (holder_lt s t' I); intros E; rewrite E in B; discriminate).
  pose proof (i_wr n s I) as Hw. pose proof (i_rd n s I) as Hr.
  pose proof (tot_two (fun j => wrs (th s j)) n t t' (fun j => wrs_nn _) L L' N) as W2. pose proof (tot_two (fun j => ups (th s j)) n t t' (fun j => ups_nn _) L L' N) as U2.
  fold (T wrs n s) in W2. fold (T ups n s) in U2. cbn beta in *. pose proof (T_nn wrs s wrs_nn). pose proof (T_nn ups s ups_nn).
  pose proof (T_one wrs t s wrs_nn L). pose proof (T_one wrs t' s wrs_nn L'). pose proof (T_one ups t s ups_nn L). pose proof (T_one ups t' s ups_nn L').
  pose proof (T_one rdo t s rdo_nn L). pose proof (T_one rdo t' s rdo_nn L').
  destruct (th s t), (th s t'); cbn in *; try discriminate; injection A as <-; injection B as <-; cbn; auto; lia.
Qed.
Lemma rwspin_stable_pf s t : reachable (step n) init s -> right_of (th s t) <> None -> seen s t = data s.
Proof. intros R. apply (i_seen n s (reach_inv' s R)). Qed.
Lemma zero_bits s : inv n s -> (forall t, th s t = Out) -> bits s = 0.
Proof.
  intros I H. destruct (i_bits n s I) as (u & Hb & Hu & Hu1 & Hu2 & Hu3).
  assert (Z0 : forall f, f Out = 0 -> T f n s = 0).
  { intros f F. unfold T. assert (X : forall m, tot (fun i => f (th s i)) m = 0); [|apply X]. induction m as [|m IH]; cbn; [reflexivity|]. rewrite IH, H. lia. }
  rewrite !Z0 in * by reflexivity. rewrite Hu3 in Hb by reflexivity. exact Hb.
Qed.
Lemma rwspin_clean_pf s : reachable (step n) init s -> (forall t, th s t = Out) -> bits s = bits init.
Proof. intros R. apply zero_bits. now apply reach_inv'. Qed.
Lemma some_thread f s : (forall p, 0 <= f p) -> 0 < T f n s -> exists t, 0 < f (th s t).
Proof. intros H P. destruct (tot_pos (fun i => f (th s i)) n (fun i => H _) P) as (t & _ & X). eauto. Qed.
(** When a try fails, there is another thread to blame. *)
Lemma rwspin_lock_pf s s' t : reachable (step n) init s -> step n s (t, TryLock) = Next s' -> th s' t = Wr \/ exists u, u <> t /\ th s u <> Out.
Proof.
  intros R E. pose proof (reach_inv' s R) as I. unfold step in E. destruct (Nat.ltb t n); cbn [negb] in E; [|discriminate]. destruct (th s t) eqn:Et; try discriminate.
  destruct (Z.eqb_spec (bits s) 0) as [B|B]; injection E as <-; [left; cbn; apply upd_eq|right].
  destruct (i_bits n s I) as (u & Hb & Hu & Hu1 & Hu2 & Hu3). pose proof (rds_bound s). pose proof (T_nn wrs s wrs_nn). pose proof (T_nn ups s ups_nn).
  assert (P : 0 < T rds n s \/ 0 < T wrs n s \/ 0 < T ups n s) by lia.
  destruct P as [P|[P|P]]; [destruct (some_thread _ s rds_nn P) as (v & X)|destruct (some_thread _ s wrs_nn P) as (v & X)|destruct (some_thread _ s ups_nn P) as (v & X)]; exists v; (split; intros Y; [subst v; rewrite Et in X|rewrite Y in X]; cbn in X; lia).
Qed.
Lemma excl_blame s : inv n s -> Z.land (bits s) 3 <> 0 -> exists u, right_of (th s u) = Some Writer \/ right_of (th s u) = Some Upgrader.
Proof.
  intros I B. destruct (i_bits n s I) as (u & Hb & Hu & Hu1 & Hu2 & Hu3). pose proof (i_wr n s I). pose proof (T_nn wrs s wrs_nn). pose proof (T_nn ups s ups_nn).
  rewrite Hb in B. replace (4 * T rds n s + 2 * u + T wrs n s) with (4 * T rds n s + (2 * u + T wrs n s)) in B by lia. rewrite land3 in B by lia.
  assert (P : 0 < T wrs n s \/ 0 < T ups n s) by lia.
  destruct P as [P|P]; [destruct (some_thread _ s wrs_nn P) as (v & X)|destruct (some_thread _ s ups_nn P) as (v & X)]; exists v; destruct (th s v); cbn in *; try lia; auto.
Qed.
Lemma rwspin_shared_pf s s' t : reachable (step n) init s -> step n s (t, TryShared) = Next s' ->
  th s' t = Rd \/ (th s' t = Back /\ exists u, u <> t /\ (right_of (th s u) = Some Writer \/ right_of (th s u) = Some Upgrader)).
Proof.
  intros R E. pose proof (reach_inv' s R) as I. unfold step in E. destruct (Nat.ltb t n); cbn [negb] in E; [|discriminate]. destruct (th s t) eqn:Et; try discriminate.
  change (Z.lor WRITER UPGRADED) with 3 in E. destruct (Z.eqb_spec (Z.land (bits s) 3) 0) as [B|B]; injection E as <-; [left; cbn; apply upd_eq|right; split; [cbn; apply upd_eq|]].
  destruct (excl_blame s I B) as (u & X). exists u. split; [|exact X]. intros ->. rewrite Et in X. destruct X; discriminate.
Qed.
Lemma rwspin_upgrade_pf s s' t : reachable (step n) init s -> step n s (t, TryUpgrade) = Next s' ->
  th s' t = Up \/ (exists u, u <> t /\ (right_of (th s u) = Some Writer \/ right_of (th s u) = Some Upgrader)).
Proof.
  intros R E. pose proof (reach_inv' s R) as I. unfold step in E. destruct (Nat.ltb t n); cbn [negb] in E; [|discriminate]. destruct (th s t) eqn:Et; try discriminate.
  change (Z.lor UPGRADED WRITER) with 3 in E. destruct (Z.eqb_spec (Z.land (bits s) 3) 0) as [B|B]; injection E as <-; [left; cbn; apply upd_eq|right].
  destruct (excl_blame s I B) as (u & X). exists u. split; [|exact X]. intros ->. rewrite Et in X. destruct X; discriminate.
Qed.
Lemma rwspin_promote_pf s s' t : reachable (step n) init s -> step n s (t, TryPromote) = Next s' ->
  th s' t = Wr \/ (th s' t = Up /\ exists u, u <> t /\ (th s u = Rd \/ th s u = Back)).
Proof.
  intros R E. pose proof (reach_inv' s R) as I. unfold step in E. destruct (Nat.ltb_spec t n) as [L|]; cbn [negb] in E; [|discriminate]. destruct (th s t) eqn:Et; try discriminate.
  unfold UPGRADED in E. destruct (Z.eqb_spec (bits s) 2) as [B|B]; injection E as <-; [left; cbn; apply upd_eq|right; split; [cbn; apply upd_eq|]].
  facts s t I L. rewrite Et in H1, H2, H3, H4, H5, H6. cbn [rds wrs ups wup rdo wro] in *. assert (P : 0 < T rds n s) by lia. destruct (some_thread _ s rds_nn P) as (v & X). exists v.
  split; [intros ->; rewrite Et in X; cbn in X; lia|]. destruct (th s v) eqn:Ev; cbn in X; try lia; auto.
  exfalso. assert (Lv : (v < n)%nat) by (apply (holder_lt s v I); congruence). pose proof (T_one wrs v s wrs_nn Lv) as W1. rewrite Ev in W1. cbn in W1. lia.
Qed.
(** An upgrader keeps new readers out. *)
Lemma rwspin_upgrader_blocks_pf s s' t u : reachable (step n) init s -> right_of (th s u) = Some Upgrader -> step n s (t, TryShared) = Next s' -> th s' t = Back.
Proof.
  intros R U E. pose proof (reach_inv' s R) as I. assert (Lu : (u < n)%nat) by (apply (holder_lt s u I); intros X; rewrite X in U; discriminate).
  unfold step in E. destruct (Nat.ltb t n); cbn [negb] in E; [|discriminate]. destruct (th s t) eqn:Et; try discriminate.
  change (Z.lor WRITER UPGRADED) with 3 in E. destruct (word s I) as (v & A & B & C).
  destruct (i_bits n s I) as (v' & Hb & Hu & Hu1 & _). pose proof (T_one ups u s ups_nn Lu) as O. assert (Eu : th s u = Up) by (destruct (th s u); cbn in U; congruence). rewrite Eu in O. cbn [ups] in O.
  assert (v = v') by lia. subst v'. rewrite B, land3 in E by exact C. pose proof (T_nn wrs s wrs_nn). destruct (Z.eqb_spec (2 * v + T wrs n s) 0); [lia|]. injection E as <-. cbn. apply upd_eq.
Qed.
(** No word ever comes near overflow. *)
Lemma rwspin_no_overflow_pf s : reachable (step n) init s -> 0 <= bits s < 2147483648.
Proof. intros R. pose proof (reach_inv' s R) as I. destruct (word s I) as (u & A & B & C). pose proof (rds_bound s). lia. Qed.
End S.
