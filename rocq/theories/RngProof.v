(** Proofs of C89. *)
From Coq Require Import Bool NArith ZArith List Lia ZifyBool ZifyN ZifyNat Btauto.
Import ListNotations.
From Verif Require Import RngModel RngSpec.
Open Scope N_scope.

(** ** 64-bit words *)
Definition ones : N := N.ones 64.
Lemma u64_land : forall x, u64 x = N.land x ones. Proof. intros. unfold u64, ones. symmetry. apply N.land_ones. Qed.
Lemma u64_lt : forall x, u64 x < 2 ^ 64. Proof. intros. apply N.mod_lt. discriminate. Qed.
Lemma u64_small : forall x, x < 2 ^ 64 -> u64 x = x. Proof. intros. apply N.mod_small. assumption. Qed.
Lemma bit_lt : forall x n, (forall i, n <= i -> N.testbit x i = false) -> x < 2 ^ n.
Proof.
  intros x n H. destruct (N.eq_dec x 0) as [->|Hx]; [apply N.neq_0_lt_0, N.pow_nonzero; discriminate|].
  apply N.log2_lt_pow2; [lia|]. destruct (N.lt_ge_cases (N.log2 x) n) as [|G]; [assumption|].
  pose proof (N.bit_log2 x Hx) as B. rewrite (H _ G) in B. discriminate.
Qed.
Lemma lt_bit : forall x n i, x < 2 ^ n -> n <= i -> N.testbit x i = false.
Proof.
  intros x n i H Hi. destruct (N.eq_dec x 0) as [->|Hx]; [apply N.bits_0|].
  apply N.bits_above_log2. apply N.log2_lt_pow2 in H; lia.
Qed.
Lemma lxor_lt : forall x y n, x < 2 ^ n -> y < 2 ^ n -> N.lxor x y < 2 ^ n.
Proof. intros x y n Hx Hy. apply bit_lt. intros i Hi. rewrite N.lxor_spec, (lt_bit x n i), (lt_bit y n i) by assumption. reflexivity. Qed.
Lemma shiftr_lt : forall x k n, x < 2 ^ n -> N.shiftr x k < 2 ^ n.
Proof. intros x k n H. apply bit_lt. intros i Hi. rewrite N.shiftr_spec by lia. apply (lt_bit x n); [exact H|lia]. Qed.
Lemma land_lxor : forall x y z, N.land (N.lxor x y) z = N.lxor (N.land x z) (N.land y z).
Proof. intros. apply N.bits_inj. intros i. rewrite N.lxor_spec, !N.land_spec, N.lxor_spec. btauto. Qed.
Lemma ones_bit : forall i, N.testbit ones i = (i <? 64).
Proof. intros i. unfold ones. destruct (N.ltb_spec i 64); [apply N.ones_spec_low|apply N.ones_spec_high]; assumption. Qed.

(** ** SplitMix64 *)
Definition gamma : N := 0x9e3779b97f4a7c15.
Definition xs (k z : N) : N := N.lxor z (N.shiftr z k).
Lemma xs_inj : forall k x y, k <> 0 -> xs k x = xs k y -> x = y.
Proof.
  intros k x y Hk H. unfold xs in H. apply N.lxor_eq.
  assert (E : N.lxor x y = N.shiftr (N.lxor x y) k).
  { rewrite N.shiftr_lxor. apply N.lxor_eq.
    replace (N.lxor (N.lxor x y) (N.lxor (N.shiftr x k) (N.shiftr y k))) with (N.lxor (N.lxor x (N.shiftr x k)) (N.lxor y (N.shiftr y k))).
    - rewrite H. apply N.lxor_nilpotent.
    - apply N.bits_inj. intros i. rewrite !N.lxor_spec. btauto. }
  destruct (N.eq_dec (N.lxor x y) 0) as [|Hd]; [assumption|]. exfalso. set (d := N.lxor x y) in *.
  rewrite N.shiftr_div_pow2 in E. assert (d / 2 ^ k < d). { apply N.div_lt; [lia|]. apply N.pow_gt_1; lia. } lia.
Qed.
Lemma xs_lt : forall k z, z < 2 ^ 64 -> xs k z < 2 ^ 64.
Proof. intros. apply lxor_lt; [assumption|]. apply shiftr_lt. assumption. Qed.
(** three terms are enough from 22 bits on *)
Definition unxs (k y : N) : N := N.lxor y (N.lxor (N.shiftr y k) (N.shiftr y (k + k))).
Lemma xs_unxs : forall k y, 22 <= k -> y < 2 ^ 64 -> xs k (unxs k y) = y.
Proof.
  intros k y Hk Hy. unfold xs, unxs. rewrite !N.shiftr_lxor, !N.shiftr_shiftr.
  assert (N.shiftr y (k + k + k) = 0). { apply N.bits_inj. intros i. rewrite N.shiftr_spec, N.bits_0 by lia. apply (lt_bit y 64); [assumption|lia]. }
  rewrite H. apply N.bits_inj. intros i. rewrite !N.lxor_spec, N.bits_0. btauto.
Qed.
Lemma unxs_lt : forall k y, y < 2 ^ 64 -> unxs k y < 2 ^ 64.
Proof. intros. repeat apply lxor_lt; try assumption; apply shiftr_lt; assumption. Qed.

Lemma mul_inv : forall c d x, u64 (c * d) = 1 -> x < 2 ^ 64 -> u64 (u64 (x * c) * d) = x.
Proof.
  intros c d x H Hx. unfold u64 in *. rewrite N.mul_mod_idemp_l by discriminate. rewrite <- N.mul_assoc.
  rewrite <- N.mul_mod_idemp_r by discriminate. rewrite H, N.mul_1_r. apply N.mod_small. exact Hx.
Qed.
Definition c1 : N := 0xbf58476d1ce4e5b9.
Definition c2 : N := 0x94d049bb133111eb.
Definition d1 : N := 0x96de1b173f119089.
Definition d2 : N := 0x319642b2d24d8ec3.
Definition mix (z : N) : N := xs 31 (u64 (xs 27 (u64 (xs 30 z * c1)) * c2)).
Lemma sm_next_eq : forall s, sm_next s = (mix (u64 (s + gamma)), u64 (s + gamma)).
Proof. reflexivity. Qed.
Lemma mix_inj : forall x y, x < 2 ^ 64 -> y < 2 ^ 64 -> mix x = mix y -> x = y.
Proof.
  intros x y Hx Hy H. unfold mix in H. apply xs_inj in H; [|discriminate].
  apply (f_equal (fun z => u64 (z * d2))) in H. rewrite !(mul_inv c2 d2) in H by (try reflexivity; apply xs_lt, u64_lt).
  apply xs_inj in H; [|discriminate].
  apply (f_equal (fun z => u64 (z * d1))) in H. rewrite !(mul_inv c1 d1) in H by (try reflexivity; apply xs_lt; assumption).
  apply xs_inj in H; [exact H|discriminate].
Qed.
Lemma mix_surj : forall v, v < 2 ^ 64 -> exists z, z < 2 ^ 64 /\ mix z = v.
Proof.
  intros v Hv. exists (unxs 30 (u64 (unxs 27 (u64 (unxs 31 v * d2)) * d1))). split; [apply unxs_lt, u64_lt|]. unfold mix.
  rewrite xs_unxs by (try apply u64_lt; lia). rewrite (mul_inv d1 c1) by (try reflexivity; apply unxs_lt, u64_lt).
  rewrite xs_unxs by (try apply u64_lt; lia). rewrite (mul_inv d2 c2) by (try reflexivity; apply unxs_lt; assumption).
  apply xs_unxs; [lia|assumption].
Qed.
Lemma sm_state_eq : forall s n, s < 2 ^ 64 -> sm_state s n = u64 (s + n * gamma).
Proof.
  intros s n Hs. unfold sm_state. induction n using N.peano_ind; [cbn [N.iter]; rewrite N.mul_0_l, N.add_0_r, u64_small by exact Hs; reflexivity|].
  rewrite N.iter_succ, IHn, sm_next_eq. cbn [snd]. unfold u64. rewrite N.add_mod_idemp_l by discriminate. f_equal. lia.
Qed.
Lemma sm_out_eq : forall s n, s < 2 ^ 64 -> sm_out s n = mix (u64 (s + (n + 1) * gamma)).
Proof.
  intros s n Hs. unfold sm_out. rewrite sm_state_eq, sm_next_eq by exact Hs. cbn [fst]. f_equal. unfold u64.
  rewrite N.add_mod_idemp_l by discriminate. f_equal. lia.
Qed.
Definition gi : N := 0xf1de83e19937733d.
Lemma gamma_cancel : forall s i j, u64 (s + i * gamma) = u64 (s + j * gamma) -> u64 i = u64 j.
Proof.
  intros s i j H.
  assert (A : forall k, u64 (u64 (s + k * gamma) * gi + (2 ^ 64 - u64 s) * gi) = u64 k).
  { intros k. unfold u64 at 1. rewrite <- N.mul_add_distr_r. unfold u64 at 1.
    rewrite <- N.mul_mod_idemp_l, N.add_mod_idemp_l, N.mul_mod_idemp_l by discriminate.
    assert (exists m, s + k * gamma + (2 ^ 64 - u64 s) = k * gamma + m * 2 ^ 64) as [m E].
    { exists (s / 2 ^ 64 + 1). pose proof (N.div_mod s (2 ^ 64)). pose proof (u64_lt s). unfold u64 in *. lia. }
    rewrite E. rewrite N.mul_add_distr_r, <- (N.mul_assoc m), (N.mul_comm (2 ^ 64) gi), N.mul_assoc, N.mod_add by discriminate.
    rewrite <- N.mul_assoc, <- N.mul_mod_idemp_r by discriminate. replace ((gamma * gi) mod 2 ^ 64) with 1 by (vm_compute; reflexivity).
    rewrite N.mul_1_r. reflexivity. }
  rewrite <- (A i), <- (A j), H. reflexivity.
Qed.
Theorem sm_distinct_pf : forall s i j, s < 2 ^ 64 -> (sm_out s i = sm_out s j <-> i mod 2 ^ 64 = j mod 2 ^ 64).
Proof.
  intros s i j Hs. rewrite !sm_out_eq by exact Hs. split; intros H.
  - apply mix_inj in H; try apply u64_lt. apply gamma_cancel in H. unfold u64 in H.
    pose proof (N.div_mod (i + 1) (2 ^ 64)). pose proof (N.div_mod (j + 1) (2 ^ 64)).
    apply (f_equal (fun x => (x + (2 ^ 64 - 1)) mod 2 ^ 64)) in H. rewrite !N.add_mod_idemp_l in H by discriminate.
    replace (i + 1 + (2 ^ 64 - 1)) with (i + 1 * 2 ^ 64) in H by lia. replace (j + 1 + (2 ^ 64 - 1)) with (j + 1 * 2 ^ 64) in H by lia.
    rewrite !N.mod_add in H by discriminate. exact H.
  - f_equal. unfold u64. rewrite <- (N.add_mod_idemp_r s), <- (N.add_mod_idemp_r s ((j + 1) * gamma)) by discriminate. do 2 f_equal.
    rewrite <- (N.mul_mod_idemp_l (i + 1)), <- (N.mul_mod_idemp_l (j + 1)) by discriminate.
    rewrite <- (N.add_mod_idemp_l i), <- (N.add_mod_idemp_l j), H by discriminate. reflexivity.
Qed.
Theorem sm_all_pf : forall s v, s < 2 ^ 64 -> v < 2 ^ 64 -> exists i, i < 2 ^ 64 /\ sm_out s i = v.
Proof.
  intros s v Hs Hv. destruct (mix_surj v Hv) as (z & Hz & E).
  set (w := (z + (2 ^ 64 - s)) * gi + (2 ^ 64 - 1)). exists (u64 w). split; [apply u64_lt|].
  rewrite sm_out_eq by exact Hs. rewrite <- E. f_equal. unfold u64.
  rewrite <- (N.add_mod_idemp_r s), <- (N.mul_mod_idemp_l (_ + 1)), N.add_mod_idemp_l by discriminate.
  replace (w + 1) with ((z + (2 ^ 64 - s)) * gi + 1 * 2 ^ 64) by (unfold w; lia). rewrite N.mod_add by discriminate.
  rewrite N.mul_mod_idemp_l, <- N.mul_assoc, <- N.mul_mod_idemp_r by discriminate. replace ((gi * gamma) mod 2 ^ 64) with 1 by (vm_compute; reflexivity).
  rewrite N.mul_1_r, N.add_mod_idemp_r by discriminate. replace (s + (z + (2 ^ 64 - s))) with (z + 1 * 2 ^ 64) by lia.
  rewrite N.mod_add by discriminate. apply N.mod_small. exact Hz.
Qed.

(** ** Xoroshiro128p is linear *)
Definition V := (N * N)%type.
Definition O2 : V := (0, 0).
Definition vx (v w : V) : V := (N.lxor (fst v) (fst w), N.lxor (snd v) (snd w)).
Lemma vx_0l : forall v, vx O2 v = v. Proof. intros [a b]. unfold vx, O2. cbn [fst snd]. rewrite !N.lxor_0_l. reflexivity. Qed.
Lemma vx_0r : forall v, vx v O2 = v. Proof. intros [a b]. unfold vx, O2. cbn [fst snd]. rewrite !N.lxor_0_r. reflexivity. Qed.
Lemma vx_self : forall v, vx v v = O2. Proof. intros [a b]. unfold vx. cbn [fst snd]. rewrite !N.lxor_nilpotent. reflexivity. Qed.
Lemma vx_comm : forall v w, vx v w = vx w v. Proof. intros [a b] [c d]. unfold vx. cbn [fst snd]. rewrite (N.lxor_comm a), (N.lxor_comm b). reflexivity. Qed.
Lemma vx_assoc : forall u v w, vx (vx u v) w = vx u (vx v w).
Proof. intros [a b] [c d] [e f]. unfold vx. cbn [fst snd]. rewrite !N.lxor_assoc. reflexivity. Qed.
Lemma vx_swap : forall a b c d, vx (vx a b) (vx c d) = vx (vx a c) (vx b d).
Proof. intros. rewrite !vx_assoc. f_equal. rewrite <- !vx_assoc. f_equal. apply vx_comm. Qed.
Lemma vx_eq : forall v w, vx v w = O2 -> v = w.
Proof. intros [a b] [c d] H. unfold vx, O2 in H. cbn [fst snd] in H. injection H as H1 H2. apply N.lxor_eq in H1, H2. subst. reflexivity. Qed.

Definition lin (F : V -> V) : Prop := forall v w, F (vx v w) = vx (F v) (F w).
Lemma lin_0 : forall F, lin F -> F O2 = O2.
Proof. intros F H. rewrite <- (vx_self O2) at 1. rewrite H. apply vx_self. Qed.

(** x_next on any pair of numbers *)
Definition R (x k : N) : N := N.lxor (N.land (N.shiftl x k) ones) (N.shiftr (N.land x ones) (64 - k)).
Definition X (v : V) : V :=
  let s0 := N.land (fst v) ones in
  let s1 := N.lxor (N.land (snd v) ones) s0 in
  (N.lxor (N.lxor (R s0 24) s1) (N.land (N.shiftl s1 16) ones), R s1 37).
Lemma R_lin : forall x y k, R (N.lxor x y) k = N.lxor (R x k) (R y k).
Proof.
  intros. unfold R. rewrite N.shiftl_lxor, !land_lxor, N.shiftr_lxor. apply N.bits_inj. intros i. rewrite !N.lxor_spec. btauto.
Qed.
Lemma X_lin : lin X.
Proof.
  intros [a b] [c d]. unfold X, vx. cbn [fst snd]. rewrite !land_lxor.
  replace (N.lxor (N.lxor (N.land b ones) (N.land d ones)) (N.lxor (N.land a ones) (N.land c ones)))
    with (N.lxor (N.lxor (N.land b ones) (N.land a ones)) (N.lxor (N.land d ones) (N.land c ones)))
    by (apply N.bits_inj; intros i; rewrite !N.lxor_spec; btauto).
  rewrite !R_lin, N.shiftl_lxor, land_lxor. f_equal. apply N.bits_inj. intros i. rewrite !N.lxor_spec. btauto.
Qed.
Definition valid (v : V) : Prop := fst v < 2 ^ 64 /\ snd v < 2 ^ 64.
Lemma rotl_R : forall x k, x < 2 ^ 64 -> k <= 64 -> rotl x k = R x k.
Proof.
  intros x k Hx Hk. unfold rotl, R. rewrite u64_land. rewrite <- (u64_land x), (u64_small x Hx).
  apply N.bits_inj. intros i. rewrite N.lor_spec, N.lxor_spec, N.land_spec, ones_bit, N.shiftr_spec by lia.
  destruct (N.lt_ge_cases i k) as [L|L].
  - rewrite N.shiftl_spec_low by exact L. rewrite andb_false_l, orb_false_l, xorb_false_l. reflexivity.
  - rewrite (lt_bit x 64 (i + (64 - k))) by (try exact Hx; lia). rewrite orb_false_r, xorb_false_r. reflexivity.
Qed.
Lemma R_lt : forall x k, R x k < 2 ^ 64.
Proof. intros. unfold R. rewrite <- !u64_land. apply lxor_lt; [apply u64_lt|]. apply shiftr_lt, u64_lt. Qed.
Lemma X_valid : forall v, valid (X v).
Proof.
  intros v. unfold valid, X. cbn [fst snd]. rewrite <- !u64_land. split; [|apply R_lt].
  apply lxor_lt; [apply lxor_lt; [apply R_lt|apply lxor_lt; apply u64_lt]|apply u64_lt].
Qed.
Lemma x_next_X : forall v, valid v -> x_next v = X v.
Proof.
  intros [a b] [Ha Hb]. cbn [fst snd] in *. unfold x_next, X. cbn [fst snd]. rewrite <- !u64_land, (u64_small a), (u64_small b) by assumption.
  rewrite !rotl_R by (try lia; try assumption; apply lxor_lt; assumption). reflexivity.
Qed.
Lemma x_after_X : forall n v, valid v -> x_after n v = N.iter n X v /\ valid (N.iter n X v).
Proof.
  intros n v H. unfold x_after. induction n using N.peano_ind; [split; [reflexivity|exact H]|]. rewrite !N.iter_succ. destruct IHn as [-> IH].
  split; [apply x_next_X; exact IH|apply X_valid].
Qed.

(** ** Polynomials in X *)
Fixpoint ev (n : nat) (q : N) (v : V) : V :=
  match n with O => O2 | S m => vx (if N.odd q then v else O2) (X (ev m (N.div2 q) v)) end.
Lemma odd_lxor : forall a b, N.odd (N.lxor a b) = xorb (N.odd a) (N.odd b).
Proof. intros. rewrite <- !N.bit0_odd. apply N.lxor_spec. Qed.
Lemma div2_lxor : forall a b, N.div2 (N.lxor a b) = N.lxor (N.div2 a) (N.div2 b).
Proof. intros. rewrite !N.div2_spec. apply N.shiftr_lxor. Qed.
Lemma ev_lin : forall n q, lin (ev n q).
Proof.
  induction n as [|n IH]; intros q v w; cbn [ev]; [symmetry; apply vx_self|]. rewrite IH, X_lin, vx_swap. f_equal.
  destruct (N.odd q); [reflexivity|symmetry; apply vx_self].
Qed.
Lemma ev_lxor : forall n p q v, ev n (N.lxor p q) v = vx (ev n p v) (ev n q v).
Proof.
  induction n as [|n IH]; intros p q v; cbn [ev]; [symmetry; apply vx_self|]. rewrite odd_lxor, div2_lxor, IH, X_lin, vx_swap. f_equal.
  destruct (N.odd p), (N.odd q); cbn [xorb]; [symmetry; apply vx_self|symmetry; apply vx_0r|symmetry; apply vx_0l|symmetry; apply vx_self].
Qed.
Lemma ev_0 : forall n v, ev n 0 v = O2.
Proof. induction n as [|n IH]; intros v; cbn [ev]; [reflexivity|]. change (N.odd 0) with false. change (N.div2 0) with 0. rewrite IH, (lin_0 X X_lin). apply vx_self. Qed.
Lemma ev_X : forall n q v, X (ev n q v) = ev n q (X v).
Proof.
  induction n as [|n IH]; intros q v; cbn [ev]; [apply (lin_0 X X_lin)|]. rewrite X_lin, IH. f_equal. destruct (N.odd q); [reflexivity|apply (lin_0 X X_lin)].
Qed.
Lemma div2_lt : forall q n, q < 2 ^ N.of_nat (S n) -> N.div2 q < 2 ^ N.of_nat n.
Proof. intros q n H. rewrite N.div2_div. rewrite Nat2N.inj_succ, N.pow_succ_r' in H. apply N.div_lt_upper_bound; lia. Qed.
Lemma ev_more : forall n q v, q < 2 ^ N.of_nat n -> ev (S n) q v = ev n q v.
Proof.
  induction n as [|n IH]; intros q v H.
  - change (2 ^ N.of_nat 0) with 1 in H. assert (q = 0) by lia. subst q. apply ev_0.
  - change (ev (S (S n)) q v) with (vx (if N.odd q then v else O2) (X (ev (S n) (N.div2 q) v))). rewrite IH by (apply div2_lt; exact H). reflexivity.
Qed.
Lemma ev_double : forall n q v, ev (S n) (N.double q) v = X (ev n q v).
Proof.
  intros. cbn [ev]. rewrite N.double_spec, N.odd_mul, andb_false_l, N.div2_double. apply vx_0l.
Qed.

(** The characteristic polynomial; it kills every vector because it kills a basis. *)
Definition P : N := 0x10008828e513b43d5095b8f76579aa001.
Lemma double_lxor : forall a b, N.double (N.lxor a b) = N.lxor (N.double a) (N.double b).
Proof. intros. assert (E : forall x, N.double x = N.shiftl x 1) by (intros; rewrite N.shiftl_mul_pow2, N.double_spec; change (2 ^ 1) with 2; apply N.mul_comm). rewrite !E. apply N.shiftl_lxor. Qed.
Lemma split_bit : forall a, a = N.lxor (if N.odd a then 1 else 0) (N.double (N.div2 a)).
Proof. intros [|[p|p|]]; reflexivity. Qed.
Lemma kills : forall n (F : N -> V), (forall a b, F (N.lxor a b) = vx (F a) (F b)) ->
  (forall i, (i < n)%nat -> F (2 ^ N.of_nat i) = O2) -> forall a, a < 2 ^ N.of_nat n -> F a = O2.
Proof.
  induction n as [|n IH]; intros F HF H a Ha.
  - change (2 ^ N.of_nat 0) with 1 in Ha. assert (a = 0) by lia. subst a. rewrite <- (N.lxor_nilpotent 0), HF. apply vx_self.
  - rewrite (split_bit a), HF. rewrite (IH (fun x => F (N.double x))).
    + rewrite vx_0r. destruct (N.odd a); [apply (H 0%nat); lia|]. rewrite <- (N.lxor_nilpotent 0), HF. apply vx_self.
    + intros x y. rewrite double_lxor. apply HF.
    + intros i Hi. cbv beta. rewrite N.double_spec, <- N.pow_succ_r', <- Nat2N.inj_succ. apply H. lia.
    + apply div2_lt. exact Ha.
Qed.
Definition isO (v : V) : bool := (fst v =? 0) && (snd v =? 0).
Lemma isO_eq : forall v, isO v = true -> v = O2.
Proof. intros [a b] H. unfold isO in H. cbn [fst snd] in H. apply andb_prop in H. destruct H as [H1 H2]. apply N.eqb_eq in H1, H2. subst. reflexivity. Qed.
Lemma P_check : forallb (fun i => isO (ev 129 P (2 ^ N.of_nat i, 0)) && isO (ev 129 P (0, 2 ^ N.of_nat i))) (seq 0 64) = true.
Proof. vm_compute. reflexivity. Qed.
Lemma P_kills : forall v, valid v -> ev 129 P v = O2.
Proof.
  intros [a b] [Ha Hb]. cbn [fst snd] in *. pose proof P_check as C. rewrite forallb_forall in C.
  assert (C' : forall i, (i < 64)%nat -> ev 129 P (2 ^ N.of_nat i, 0) = O2 /\ ev 129 P (0, 2 ^ N.of_nat i) = O2).
  { intros i Hi. specialize (C i). rewrite in_seq in C. specialize (C ltac:(lia)). apply andb_prop in C. destruct C. split; apply isO_eq; assumption. }
  replace (a, b) with (vx (a, 0) (0, b)) by (unfold vx; cbn [fst snd]; rewrite N.lxor_0_l, N.lxor_0_r; reflexivity).
  rewrite ev_lin. rewrite (kills 64 (fun x => ev 129 P (x, 0))), (kills 64 (fun x => ev 129 P (0, x))); [reflexivity|..].
  - intros x y. rewrite <- ev_lin. unfold vx. cbn [fst snd]. rewrite N.lxor_0_l. reflexivity.
  - intros i Hi. apply C'. exact Hi.
  - exact Hb.
  - intros x y. rewrite <- ev_lin. unfold vx. cbn [fst snd]. rewrite N.lxor_0_l. reflexivity.
  - intros i Hi. apply C'. exact Hi.
  - exact Ha.
Qed.

(** Multiplication modulo [P] *)
Definition red (x : N) : N := if N.testbit x 128 then N.lxor x P else x.
Fixpoint mulm (n : nat) (a b : N) : N :=
  match n with O => 0 | S m => N.lxor (if N.odd a then b else 0) (red (N.double (mulm m (N.div2 a) b))) end.
Lemma red_lt : forall x, x < 2 ^ 129 -> red x < 2 ^ 128.
Proof.
  intros x H. apply bit_lt. intros i Hi. unfold red. destruct (N.testbit x 128) eqn:E.
  - rewrite N.lxor_spec. destruct (N.eq_dec i 128) as [->|Hn]; [rewrite E; reflexivity|].
    rewrite (lt_bit x 129), (lt_bit P 129); [reflexivity|reflexivity|lia|exact H|lia].
  - destruct (N.eq_dec i 128) as [->|Hn]; [exact E|]. apply (lt_bit x 129); [exact H|lia].
Qed.
Lemma mulm_lt : forall n a b, b < 2 ^ 128 -> mulm n a b < 2 ^ 128.
Proof.
  induction n as [|n IH]; intros a b H; cbn [mulm]; [reflexivity|]. apply lxor_lt; [destruct (N.odd a); [exact H|reflexivity]|].
  apply red_lt. specialize (IH (N.div2 a) b H). rewrite N.double_spec. change (2 ^ 129) with (2 * 2 ^ 128). lia.
Qed.
Lemma ev_red : forall x v, valid v -> x < 2 ^ 129 -> ev 128 (red x) v = ev 129 x v.
Proof.
  intros x v Hv H. rewrite <- (ev_more 128) by (apply red_lt; exact H). unfold red. destruct (N.testbit x 128); [|reflexivity].
  rewrite ev_lxor, (P_kills v Hv). apply vx_0r.
Qed.
Lemma ev_mulm : forall n a b v, valid v -> b < 2 ^ 128 -> ev 128 (mulm n a b) v = ev n a (ev 128 b v).
Proof.
  induction n as [|n IH]; intros a b v Hv Hb; [apply ev_0|].
  change (ev 128 (N.lxor (if N.odd a then b else 0) (red (N.double (mulm n (N.div2 a) b)))) v =
          vx (if N.odd a then ev 128 b v else O2) (X (ev n (N.div2 a) (ev 128 b v)))).
  rewrite ev_lxor. f_equal; [destruct (N.odd a); [reflexivity|apply ev_0]|].
  pose proof (mulm_lt n (N.div2 a) b Hb). rewrite ev_red; [|exact Hv|rewrite N.double_spec; change (2 ^ 129) with (2 * 2 ^ 128); lia].
  change 129%nat with (S 128). rewrite ev_double, IH by assumption. reflexivity.
Qed.
Fixpoint powm (b : N) (e : positive) : N :=
  match e with
  | xH => b
  | xO p => let q := powm b p in mulm 128 q q
  | xI p => let q := powm b p in mulm 128 b (mulm 128 q q)
  end.
Lemma powm_lt : forall b e, b < 2 ^ 128 -> powm b e < 2 ^ 128.
Proof. intros b e H. induction e; cbn [powm]; cbv zeta; [apply mulm_lt, mulm_lt; assumption|apply mulm_lt; assumption|exact H]. Qed.
Lemma ev_valid : forall n q v, valid v -> valid (ev n q v).
Proof.
  intros n q v Hv. destruct n as [|n]; cbn [ev]; [split; reflexivity|]. pose proof (X_valid (ev n (N.div2 q) v)) as [H1 H2].
  unfold vx, valid. destruct (N.odd q); destruct Hv; cbn [fst snd O2]; split; apply lxor_lt; try assumption; reflexivity.
Qed.
Lemma ev_one : forall n v, ev (S n) 1 v = v.
Proof. intros n v. cbn [ev]. change (N.div2 1) with 0. rewrite ev_0, (lin_0 X X_lin). apply vx_0r. Qed.
Lemma ev_1 : forall v, ev 128 1 v = v. Proof. intros v. apply (ev_one 127). Qed.
Lemma ev_2 : forall v, ev 128 2 v = X v.
Proof. intros v. change (ev (S 127) (N.double 1) v = X v). rewrite ev_double. f_equal. apply (ev_one 126). Qed.
Lemma ev_powm : forall e v, valid v -> ev 128 (powm 2 e) v = Pos.iter X v e.
Proof.
  induction e; intros v Hv; cbn [powm Pos.iter]; cbv zeta.
  - rewrite !ev_mulm by (try assumption; try apply mulm_lt; apply powm_lt; reflexivity).
    rewrite ev_2. f_equal. rewrite IHe by (apply ev_valid; exact Hv). rewrite IHe by exact Hv. reflexivity.
  - rewrite !ev_mulm by (try assumption; apply powm_lt; reflexivity). rewrite IHe by (apply ev_valid; exact Hv). rewrite IHe by exact Hv. reflexivity.
  - apply ev_2.
Qed.
(** An invertible polynomial kills nothing but zero. *)
Definition full : positive := 340282366920938463463374607431768211455.
Definition unit (a b : N) : bool := (a <? 2 ^ 128) && (mulm 128 b a =? 1).
Lemma unit_kills : forall a b v, unit a b = true -> valid v -> ev 128 a v = O2 -> v = O2.
Proof.
  intros a b v H Hv E. apply andb_prop in H. destruct H as [H1 H2]. apply N.ltb_lt in H1. apply N.eqb_eq in H2.
  rewrite <- (ev_1 v), <- H2, ev_mulm, E by assumption. apply lin_0, ev_lin.
Qed.
Lemma full_check : powm 2 full = 1.
Proof. vm_compute. reflexivity. Qed.

(** ** The period *)
Definition it (n : N) (v : V) : V := N.iter n X v.
Lemma it_add : forall a b v, it (a + b) v = it a (it b v). Proof. intros. apply N.iter_add. Qed.
Lemma it_valid : forall n v, valid v -> valid (it n v). Proof. intros n v H. apply (x_after_X n v H). Qed.
Lemma it_powm : forall e v, valid v -> it (Npos e) v = ev 128 (powm 2 e) v.
Proof. intros e v H. rewrite ev_powm by exact H. reflexivity. Qed.
Lemma it_full : forall v, valid v -> it (2 ^ 128 - 1) v = v.
Proof. intros v H. change (2 ^ 128 - 1) with (Npos full). rewrite it_powm, full_check by exact H. apply ev_1. Qed.
Lemma it_mul : forall a b v, it a v = v -> it (b * a) v = v.
Proof.
  intros a b v H. induction b using N.peano_ind; [reflexivity|]. rewrite N.mul_succ_l, it_add, H. exact IHb.
Qed.
Lemma it_div : forall a b v, (a | b) -> it a v = v -> it b v = v.
Proof. intros a b v [k ->] H. apply it_mul. exact H. Qed.
Lemma full_pos : 0 < 2 ^ 128 - 1. Proof. reflexivity. Qed.
Lemma proper_valid : forall st, proper st -> valid st /\ st <> O2.
Proof. intros st (H1 & H2 & H3). split; [split; assumption|exact H3]. Qed.
Lemma it_nz : forall n v, valid v -> v <> O2 -> it n v <> O2.
Proof.
  intros n v Hv Hz E. apply Hz. rewrite <- (it_mul _ (n + 1) v (it_full v Hv)).
  replace ((n + 1) * (2 ^ 128 - 1)) with (((n + 1) * (2 ^ 128 - 1) - n) + n) by (pose proof full_pos; nia). rewrite it_add, E.
  generalize ((n + 1) * (2 ^ 128 - 1) - n). intros m. unfold it. induction m using N.peano_ind; [reflexivity|]. rewrite N.iter_succ, IHm. apply (lin_0 X X_lin).
Qed.
(** ** Seeding *)
Lemma mix_lt : forall z, mix z < 2 ^ 64. Proof. intros. apply xs_lt, u64_lt. Qed.
Theorem x_seed_pf : forall s, s < 2 ^ 64 -> proper (seed s) /\ forall s', s' < 2 ^ 64 -> seed s = seed s' -> s = s'.
Proof.
  assert (E : forall s, seed s = (mix (u64 (s + gamma)), mix (u64 (u64 (s + gamma) + gamma)))) by reflexivity.
  intros s Hs. split.
  - rewrite E. split; [apply mix_lt|]. split; [apply mix_lt|]. intros H. injection H as H1 H2.
    assert (H : mix (u64 (s + gamma)) = mix (u64 (u64 (s + gamma) + gamma))) by congruence.
    apply mix_inj in H; try apply u64_lt. pose proof (u64_lt (s + gamma)). set (t := u64 (s + gamma)) in *. clearbody t. unfold u64, gamma in H.
    destruct (N.lt_ge_cases (t + 0x9e3779b97f4a7c15) (2 ^ 64)) as [L|L]; [rewrite N.mod_small in H by exact L; lia|].
    replace (t + 0x9e3779b97f4a7c15) with (t + 0x9e3779b97f4a7c15 - 2 ^ 64 + 1 * 2 ^ 64) in H by lia. rewrite N.mod_add in H by discriminate.
    rewrite N.mod_small in H; change (2 ^ 64) with 18446744073709551616 in *; lia.
  - intros s' Hs' H. rewrite !E in H. injection H as H _. apply mix_inj in H; try apply u64_lt.
    apply (f_equal (fun x => (x + (2 ^ 64 - gamma)) mod 2 ^ 64)) in H. unfold u64 in H. rewrite !N.add_mod_idemp_l in H by discriminate.
    assert (forall x, x + gamma + (2 ^ 64 - gamma) = x + 1 * 2 ^ 64) as Q by (intros x; unfold gamma; change (2 ^ 64) with 18446744073709551616; lia).
    rewrite !Q, !N.mod_add, !N.mod_small in H by (try assumption; discriminate). exact H.
Qed.

(** ** Jumping *)
Lemma jump_bits_ev : forall w n b acc st, valid st -> jump_bits w n b acc st = (vx acc (ev n (N.shiftr w b) st), it (N.of_nat n) st).
Proof.
  intros w n. induction n as [|n IH]; intros b acc st Hv; [cbn [jump_bits ev]; rewrite vx_0r; reflexivity|].
  cbn [jump_bits ev]. rewrite x_next_X by exact Hv. rewrite IH by apply X_valid. f_equal.
  - rewrite ev_X, <- vx_assoc. f_equal.
    + rewrite <- N.bit0_odd, N.shiftr_spec, N.add_0_l by lia. destruct (N.testbit w b); [reflexivity|symmetry; apply vx_0r].
    + rewrite N.div2_spec, N.shiftr_shiftr. reflexivity.
  - rewrite Nat2N.inj_succ, <- N.add_1_r, it_add. reflexivity.
Qed.
Lemma ev_up : forall q n m v, q < 2 ^ N.of_nat n -> (n <= m)%nat -> ev m q v = ev n q v.
Proof.
  intros q n m v H L. induction L as [|m L IH]; [reflexivity|]. rewrite ev_more; [exact IH|].
  eapply N.lt_le_trans; [exact H|]. apply N.pow_le_mono_r; [discriminate|lia].
Qed.
Definition jpoly (w1 w2 : N) : N := N.lxor w1 (mulm 128 w2 (powm 2 64)).
Lemma jump_ev : forall w1 w2 st, w1 < 2 ^ 64 -> w2 < 2 ^ 64 -> valid st -> jump_words [w1; w2] (0, 0) st = ev 128 (jpoly w1 w2) st.
Proof.
  intros w1 w2 st H1 H2 Hv. cbn [jump_words]. rewrite jump_bits_ev by exact Hv. rewrite jump_bits_ev by (apply it_valid; exact Hv). cbn [jump_words].
  change (0, 0) with O2. rewrite vx_0l, !N.shiftr_0_r. unfold jpoly. rewrite ev_lxor.
  rewrite ev_mulm by (try exact Hv; apply powm_lt; reflexivity). change (N.of_nat 64) with (Npos 64). rewrite it_powm by exact Hv.
  rewrite (ev_up w1 64 128 st) by (try assumption; lia). rewrite (ev_up w2 64 128 (ev 128 (powm 2 64) st)) by (try assumption; lia). reflexivity.
Qed.
Definition j1 : N := 0xbeac0467eba5facb.
Definition j2 : N := 0xd86b048b86aa9922.
Definition dist : positive := 18446744073709551616.
Definition i1 : N := 0x48f36c0a3e5ff8ba7382b33226b4047.
Definition i2 : N := 0xb49ba0e4e1157486986355730a31b32a.
Lemma jump_check : unit (jpoly j1 j2) i1 = true /\ unit (N.lxor (jpoly j1 j2) (powm 2 dist)) i2 = true /\ jpoly 0xdf900294d8f554a5 0x170865df4b3201fc = powm 2 dist.
Proof. vm_compute. repeat split. Qed.
Lemma jump_eq : forall st, valid st -> jump st = ev 128 (jpoly j1 j2) st.
Proof. intros st H. apply jump_ev; [reflexivity|reflexivity|exact H]. Qed.
Theorem x_jump_pf : forall st, proper st -> proper (jump st) /\ jump (x_next st) = x_next (jump st) /\ forall st', proper st' -> jump st = jump st' -> st = st'.
Proof.
  intros st H. apply proper_valid in H. destruct H as [Hv Hz]. destruct jump_check as [U _].
  assert (Vj : valid (jump st)) by (rewrite jump_eq by exact Hv; apply ev_valid; exact Hv). split; [|split].
  - destruct Vj as [A B]. split; [exact A|]. split; [exact B|]. intros E. rewrite jump_eq in E by exact Hv. apply Hz, (unit_kills _ _ st U Hv E).
  - rewrite (x_next_X (jump st) Vj), (x_next_X st Hv), !jump_eq by (try exact Hv; apply X_valid). symmetry. apply ev_X.
  - intros st' H' E. apply proper_valid in H'. destruct H' as [Hv' _]. rewrite !jump_eq in E by assumption. apply vx_eq.
    apply (unit_kills _ _ _ U).
    + destruct Hv, Hv'. split; apply lxor_lt; assumption.
    + rewrite ev_lin, E. apply vx_self.
Qed.
Opaque powm ev mulm jpoly jump_words x_after it.
Lemma x_after_it : forall n st, valid st -> x_after n st = it n st.
Proof. intros n st H. exact (proj1 (x_after_X n st H)). Qed.
Lemma x_after_dist : forall st, valid st -> x_after (2 ^ 64) st = ev 128 (powm 2 dist) st.
Proof. intros st H. rewrite x_after_it by exact H. replace (2 ^ 64) with (Npos dist) by reflexivity. apply it_powm. exact H. Qed.
Theorem x_jump_refuted_pf : forall st, proper st -> jump st <> x_after (2 ^ 64) st.
Proof.
  intros st H E. apply proper_valid in H. destruct H as [Hv Hz]. destruct jump_check as (_ & U & _). apply Hz. apply (unit_kills _ _ st U Hv).
  pose proof (eq_trans (eq_sym (jump_eq st Hv)) (eq_trans E (x_after_dist st Hv))) as Q. rewrite ev_lxor, Q. apply vx_self.
Qed.
Theorem x_jump_right_pf : forall st, proper st -> jump_words [0xdf900294d8f554a5; 0x170865df4b3201fc] (0, 0) st = x_after (2 ^ 64) st.
Proof.
  intros st H. apply proper_valid in H. destruct H as [Hv _]. destruct jump_check as (_ & _ & U).
  refine (eq_trans (jump_ev _ _ st _ _ Hv) (eq_trans (f_equal (fun q => ev 128 q st) U) (eq_sym (x_after_dist st Hv)))); reflexivity.
Qed.
Theorem x_used_pf : forall st, used st -> proper st.
Proof.
  intros st H. induction H.
  - repeat split; discriminate.
  - apply x_seed_pf. assumption.
  - apply proper_valid in IHused. destruct IHused as [Hv Hz]. rewrite x_next_X by exact Hv. destruct (X_valid st) as [A B]. repeat split; [exact A|exact B|].
    apply (it_nz 1 st Hv Hz).
  - apply x_jump_pf. exact IHused.
Qed.
