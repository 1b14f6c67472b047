(** The divisors of 2^128-1, for C89. Nothing here models code. *)
From Coq Require Import Bool NArith List Lia ZifyBool ZifyN ZifyNat.
From Coq Require Import Permutation FinFun Arith Wf_nat.
Import ListNotations.
Open Scope N_scope.

(** Only 1 and itself. *)
Definition simple (p : N) : Prop := forall g, (g | p) -> g = 1 \/ g = p.


(** ** A simple divisor r of 2^64+1 is 1 modulo 128: doubling modulo r splits 1 .. r-1 into cycles of 128. *)
Fixpoint pow (f : N -> N) (k : nat) (x : N) : N := match k with O => x | S j => f (pow f j x) end.
Lemma pow_add : forall f a b x, pow f (a + b) x = pow f a (pow f b x).
Proof. intros f a b x. induction a as [|a IH]; cbn [pow Nat.add]; [reflexivity|]. rewrite IH. reflexivity. Qed.
Lemma cycles : forall f m, (0 < m)%nat -> forall n l, length l = n -> NoDup l -> (forall x, In x l -> In (f x) l) -> (forall x, In x l -> pow f m x = x) ->
  (forall x k, In x l -> (0 < k < m)%nat -> pow f k x <> x) -> Nat.divide m (length l).
Proof.
  intros f m Hm n. induction n as [n IH] using lt_wf_ind. intros l Hl ND Cl Per Min.
  destruct l as [|x0 l0] eqn:El; [exists 0%nat; reflexivity|]. rewrite <- El in *.
  assert (Hx : In x0 l) by (rewrite El; left; reflexivity).
  assert (Orb : forall k x, In x l -> In (pow f k x) l). { intros k x H. induction k as [|k IHk]; cbn [pow]; [exact H|]. apply Cl. exact IHk. }
  set (O := map (fun k => pow f k x0) (seq 0 m)).
  assert (Wrap : forall k, In (pow f k x0) O).
  { intros k. assert (Q : forall q r, pow f (q * m + r) x0 = pow f r x0).
    { intros q r. induction q as [|q IHq]; [reflexivity|]. cbn [Nat.mul]. rewrite <- Nat.add_assoc, pow_add. rewrite IHq. apply Per. apply Orb. exact Hx. }
    rewrite (Nat.div_mod k m) by lia. rewrite (Nat.mul_comm m), Q. unfold O. apply (in_map (fun k => pow f k x0)). apply in_seq. pose proof (Nat.mod_upper_bound k m). lia. }
  assert (NO : NoDup O).
  { assert (I : forall i j, (i < j < m)%nat -> pow f i x0 <> pow f j x0).
    { intros i j Hij E. apply (Min (pow f i x0) (j - i)%nat); [apply Orb; exact Hx|lia|]. rewrite <- pow_add. replace (j - i + i)%nat with j by lia. symmetry. exact E. }
    unfold O. assert (G : forall n a, (a + n <= m)%nat -> NoDup (map (fun k => pow f k x0) (seq a n))).
    { clear - I. induction n as [|n IHn]; intros a Ha; cbn [seq map]; constructor; [|apply IHn; lia]. rewrite in_map_iff. intros (z & E & Hz). apply in_seq in Hz.
      apply (I a z); [lia|]. symmetry. exact E. }
    apply G. lia. }
  set (l' := filter (fun y => if in_dec N.eq_dec y O then false else true) l).
  assert (In' : forall y, In y l' <-> In y l /\ ~ In y O).
  { intros y. unfold l'. rewrite filter_In. destruct (in_dec N.eq_dec y O); split; intros [A B]; split; try assumption; try discriminate; try contradiction; reflexivity. }
  assert (Len : length l = (m + length l')%nat).
  { replace m with (length O) by (unfold O; rewrite map_length, seq_length; reflexivity). rewrite <- app_length. apply Permutation_length. apply NoDup_Permutation; [exact ND|..].
    - assert (G : forall a b : list N, NoDup a -> NoDup b -> (forall z, In z a -> ~ In z b) -> NoDup (a ++ b)).
      { clear. induction a as [|y a IHa]; intros b Ha Hb Hd; cbn [app]; [exact Hb|]. inversion Ha; subst. constructor.
        - rewrite in_app_iff. intros [A|A]; [contradiction|]. exact (Hd y (or_introl eq_refl) A).
        - apply IHa; [assumption|assumption|]. intros z Hz. apply Hd. right. exact Hz. }
      apply G; [exact NO|apply NoDup_filter; exact ND|]. intros z Hz Hz'. apply In' in Hz'. destruct Hz'. contradiction.
    - intros z. rewrite in_app_iff, In'. split; [intros H; destruct (in_dec N.eq_dec z O); [left|right]; auto|]. intros [H|[H _]]; [|exact H].
      unfold O in H. apply in_map_iff in H. destruct H as (k & <- & _). apply Orb. exact Hx. }
  rewrite Len. apply Nat.divide_add_r; [apply Nat.divide_refl|]. apply (IH (length l')); [lia|reflexivity|apply NoDup_filter; exact ND|..].
  - intros y Hy. apply In' in Hy. destruct Hy as [Hy Hn]. apply In'. split; [apply Cl; exact Hy|]. intros H. apply Hn. unfold O in H. apply in_map_iff in H. destruct H as (k & E & _).
    rewrite <- (Per y Hy). replace m with (m - 1 + 1)%nat by lia. rewrite pow_add. cbn [pow]. rewrite <- E, <- pow_add. apply Wrap.
  - intros y Hy. apply In' in Hy. apply Per. apply Hy.
  - intros y k Hy. apply In' in Hy. apply Min. apply Hy.
Qed.

Lemma no_common : forallb (fun k => N.gcd (2 ^ N.of_nat k - 1) (2 ^ 64 + 1) =? 1) (seq 1 127) = true.
Proof. vm_compute. reflexivity. Qed.
Lemma one_mod : forall r, simple r -> r <> 1 -> (r | 2 ^ 64 + 1) -> (128 | r - 1).
Proof.
  intros r S R1 D. assert (R0 : r <> 0). { intros ->. apply N.divide_0_l in D. discriminate. }
  set (f := fun x => (2 * x) mod r).
  assert (Pw : forall k x, x < r -> pow f k x = (2 ^ N.of_nat k * x) mod r).
  { intros k x Hx. induction k as [|k IH]; [cbn [pow]; change (2 ^ N.of_nat 0) with 1; rewrite N.mul_1_l, N.mod_small by exact Hx; reflexivity|].
    cbn [pow]. rewrite IH. unfold f. rewrite N.mul_mod_idemp_r by exact R0. rewrite Nat2N.inj_succ, N.pow_succ_r', N.mul_assoc. reflexivity. }
  assert (Cop : forall x, 0 < x -> x < r -> N.gcd r x = 1).
  { intros x H0 Hx. destruct (S (N.gcd r x) (N.gcd_divide_l r x)) as [E|E]; [exact E|]. pose proof (N.gcd_divide_r r x) as G. rewrite E in G. apply N.divide_pos_le in G; lia. }
  assert (Fix : forall k x, 0 < x -> x < r -> pow f k x = x <-> (r | 2 ^ N.of_nat k - 1)).
  { intros k x H0 Hx. rewrite Pw by exact Hx. assert (B : 1 <= 2 ^ N.of_nat k) by (assert (2 ^ N.of_nat k <> 0) by (apply N.pow_nonzero; discriminate); set (u := 2 ^ N.of_nat k) in *; clearbody u; lia).
    set (t := 2 ^ N.of_nat k) in *. clearbody t. replace t with (t - 1 + 1) at 1 by lia. rewrite N.mul_add_distr_r, N.mul_1_l. split; intros H.
    - apply (N.gauss r x); [|apply Cop; assumption]. rewrite N.mul_comm.
      pose proof (N.div_mod ((t - 1) * x + x) r R0) as E. rewrite H in E. exists (((t - 1) * x + x) / r). lia.
    - destruct H as [c ->]. rewrite <- N.mul_assoc, (N.mul_comm r x), N.mul_assoc, N.add_comm, N.mod_add by exact R0. apply N.mod_small. exact Hx. }
  assert (C : Nat.divide 128 (length (map N.of_nat (seq 1 (N.to_nat r - 1))))).
  { assert (Mem : forall x, In x (map N.of_nat (seq 1 (N.to_nat r - 1))) <-> 0 < x /\ x < r).
    { intros x. rewrite in_map_iff. split; [intros (i & <- & Hi); apply in_seq in Hi; lia|]. intros H. exists (N.to_nat x). rewrite N2Nat.id. split; [reflexivity|]. apply in_seq. lia. }
    apply (cycles f 128 ltac:(lia) _ _ eq_refl).
    - apply FinFun.Injective_map_NoDup; [intros a b; apply Nat2N.inj|apply seq_NoDup].
    - intros x Hx. apply Mem in Hx. apply Mem. pose proof (N.mod_lt (2 * x) r R0). split; [|exact H]. destruct (N.eq_dec (f x) 0) as [E|E]; [exfalso|apply N.neq_0_lt_0; exact E].
      unfold f in E. apply N.mod_divide in E; [|exact R0].
      assert (D2 : (r | 2)). { apply (N.gauss r x); [rewrite N.mul_comm; exact E|apply Cop; apply Hx]. }
      assert (D3 : (r | 1)). { apply (N.divide_add_cancel_r r (2 ^ 64)); [|exact D]. eapply N.divide_trans; [exact D2|]. exists (2 ^ 63). reflexivity. }
      apply N.divide_1_r in D3. contradiction.
    - intros x Hx. apply Mem in Hx. apply (Fix 128%nat x); [apply Hx|apply Hx|]. eapply N.divide_trans; [exact D|]. exists (2 ^ 64 - 1). reflexivity.
    - intros x k Hx Hk E. apply Mem in Hx. apply Fix in E; [|apply Hx|apply Hx]. pose proof no_common as Nc. rewrite forallb_forall in Nc. specialize (Nc k).
      rewrite in_seq in Nc. specialize (Nc ltac:(lia)). apply N.eqb_eq in Nc. apply R1. apply N.divide_1_r. rewrite <- Nc. apply N.gcd_greatest; assumption. }
  rewrite map_length, seq_length in C. destruct C as [c C]. exists (N.of_nat c). lia.
Qed.

(** ** Trial division by 129, 257, ... *)
Definition big : N := 67280421310721.
Definition trial (s : N * bool) : N * bool := let (q, ok) := s in (q + 128, match big mod q with 0 => false | _ => ok end).
Lemma trial_inv : forall n, fst (Pos.iter trial (129, true) n) = 129 + 128 * Npos n /\
  (snd (Pos.iter trial (129, true) n) = true -> forall i, i < Npos n -> big mod (129 + 128 * i) <> 0).
Proof.
  intros n. induction n using Pos.peano_ind.
  - split; [reflexivity|]. intros _ i Hi. assert (i = 0) by lia. subst i. vm_compute. discriminate.
  - rewrite Pos.iter_succ. destruct (Pos.iter trial (129, true) n) as [q ok]. cbn [fst snd] in IHn. destruct IHn as [E IH]. subst q.
    unfold trial. cbn [fst snd]. split; [lia|]. intros H i Hi.
    destruct (N.eq_dec i (Npos n)) as [->|Hn].
    + destruct (big mod (129 + 128 * Npos n)); [discriminate|]. discriminate.
    + apply IH; [|lia]. destruct (big mod (129 + 128 * Npos n)); [discriminate|]. exact H.
Qed.
Lemma trial_check : snd (Pos.iter trial (129, true) 64082) = true.
Proof. vm_cast_no_check (eq_refl true). Qed.
Lemma has_simple : forall g, g <> 0 -> g <> 1 -> exists r, simple r /\ r <> 1 /\ (r | g).
Proof.
  intros g. induction g as [g IH] using (well_founded_induction N.lt_wf_0). intros G0 G1.
  destruct (existsb (fun d => (g mod d =? 0) && negb (d =? 1) && negb (d =? g)) (map N.of_nat (seq 1 (N.to_nat g)))) eqn:E.
  - apply existsb_exists in E. destruct E as (d & Hd & E). apply in_map_iff in Hd. destruct Hd as (i & <- & Hi). apply in_seq in Hi.
    assert (D0 : N.of_nat i <> 0) by lia. set (d := N.of_nat i) in *. apply andb_prop in E. destruct E as [E E3]. apply andb_prop in E. destruct E as [E1 E2].
    apply N.eqb_eq in E1. apply N.mod_divide in E1; [|exact D0]. destruct (N.eqb_spec d 1); [discriminate|]. destruct (N.eqb_spec d g); [discriminate|].
    destruct (IH d) as (r & A & B & C); [apply N.divide_pos_le in E1; lia|exact D0|assumption|]. exists r. split; [exact A|]. split; [exact B|]. eapply N.divide_trans; eassumption.
  - exists g. split; [|split; [exact G1|apply N.divide_refl]]. intros d D. destruct (N.eq_dec d 1); [left; assumption|]. destruct (N.eq_dec d g); [right; assumption|]. exfalso.
    assert (D0 : d <> 0) by (intros ->; apply N.divide_0_l in D; contradiction). assert (d <= g) by (apply N.divide_pos_le in D; lia).
    assert (X : existsb (fun d => (g mod d =? 0) && negb (d =? 1) && negb (d =? g)) (map N.of_nat (seq 1 (N.to_nat g))) = true); [|rewrite E in X; discriminate].
    apply existsb_exists. exists d. split; [apply in_map_iff; exists (N.to_nat d); rewrite N2Nat.id; split; [reflexivity|apply in_seq; lia]|].
    apply N.mod_divide in D; [|exact D0]. rewrite D. destruct (N.eqb_spec d 1); [contradiction|]. destruct (N.eqb_spec d g); [contradiction|]. reflexivity.
Qed.
Lemma no_small : forall g, g <> 0 -> g <> 1 -> g < 129 + 128 * 64082 -> ~ (g | big).
Proof.
  intros g G0 G1 Hg D. destruct (has_simple g G0 G1) as (r & A & B & C).
  assert (Dr : (r | big)) by (eapply N.divide_trans; eassumption). assert (R0 : r <> 0) by (intros ->; apply N.divide_0_l in Dr; discriminate).
  assert (r <= g) by (apply N.divide_pos_le in C; lia).
  destruct (one_mod r A B) as [i E]. { eapply N.divide_trans; [exact Dr|]. exists 274177. reflexivity. }
  destruct (trial_inv 64082) as [_ T]. specialize (T trial_check (i - 1)). apply N.mod_divide in Dr; [|exact R0].
  replace (129 + 128 * (i - 1)) with r in T by lia. apply T; [lia|exact Dr].
Qed.
Lemma simple_big : simple big.
Proof.
  intros g [k D]. destruct (N.eq_dec g 1) as [|G]; [left; assumption|]. destruct (N.eq_dec k 1) as [->|K]; [right; lia|]. exfalso.
  assert (g <> 0 /\ k <> 0) by (split; intros ->; unfold big in D; lia).
  assert (g < 129 + 128 * 64082 \/ k < 129 + 128 * 64082) as [C|C].
  { destruct (N.lt_ge_cases g (129 + 128 * 64082)) as [|L1]; [left; assumption|]. destruct (N.lt_ge_cases k (129 + 128 * 64082)) as [|L2]; [right; assumption|]. exfalso.
    pose proof (N.mul_le_mono _ _ _ _ L2 L1) as M. rewrite <- D in M. vm_compute in M. apply M. reflexivity. }
  - apply (no_small g); [apply H|exact G|exact C|]. exists k. exact D.
  - apply (no_small k); [apply H|exact K|exact C|]. exists g. lia.
Qed.
Definition factors : list N := [3; 5; 17; 257; 641; 65537; 274177; 6700417; 67280421310721].

Lemma small_list : forall p l, forallb (fun g => negb (p mod N.of_nat g =? 0) || (N.of_nat g =? 1) || (N.of_nat g =? p)) (seq 1 l) = true -> p <> 0 -> p <= N.of_nat l -> simple p.
Proof.
  intros p l H Hp Hl g D. assert (g <= p) by (apply N.divide_pos_le in D; lia). assert (g <> 0) by (intros ->; apply N.divide_0_l in D; lia).
  rewrite forallb_forall in H. specialize (H (N.to_nat g)). rewrite in_seq, N2Nat.id in H.
  apply N.mod_divide in D; [|assumption]. rewrite D in H. cbn in H. specialize (H ltac:(lia)).
  apply Bool.orb_true_iff in H. destruct H as [H|H]; apply N.eqb_eq in H; [left|right]; exact H.
Qed.
Lemma trials_mid : forall p l, forallb (fun g => negb (p mod N.of_nat g =? 0)) (seq 2 l) = true -> p <> 0 -> p < (2 + N.of_nat l) * (2 + N.of_nat l) -> simple p.
Proof.
  intros p l H Hp Hl g [k D]. rewrite forallb_forall in H.
  assert (A : forall d, d <> 0 -> d <> 1 -> d < 2 + N.of_nat l -> ~ (d | p)).
  { intros d D0 D1 L Dd. specialize (H (N.to_nat d)). rewrite in_seq, N2Nat.id in H. apply N.mod_divide in Dd; [|exact D0]. rewrite Dd in H. specialize (H ltac:(lia)). discriminate. }
  destruct (N.eq_dec g 1) as [|G]; [left; assumption|]. destruct (N.eq_dec k 1) as [->|K]; [right; lia|]. exfalso.
  assert (g <> 0 /\ k <> 0) by (split; intros ->; lia).
  destruct (N.lt_ge_cases g (2 + N.of_nat l)) as [L1|L1]; [apply (A g); [apply H0|exact G|exact L1|exists k; exact D]|].
  destruct (N.lt_ge_cases k (2 + N.of_nat l)) as [L2|L2]; [apply (A k); [apply H0|exact K|exact L2|exists g; lia]|].
  pose proof (N.mul_le_mono _ _ _ _ L2 L1). lia.
Qed.
Lemma simple_factors : Forall simple factors.
Proof.
  unfold factors. repeat apply Forall_cons; [..|constructor].
  1-5: apply (small_list _ 641); [vm_compute; reflexivity|discriminate|discriminate].
  1-3: apply (trials_mid _ 2600); [vm_compute; reflexivity|discriminate|reflexivity].
  exact simple_big.
Qed.

(** What divides 2^128-1 and is not 1 has one of these factors. *)
Lemma has_factor : forall e l, Forall simple l -> (e | fold_right N.mul 1 l) -> e <> 1 -> exists p, In p l /\ (p | e).
Proof.
  intros e l F. induction F as [|p l Hp F IH]; intros D H; cbn [fold_right] in D.
  - exfalso. apply H. apply N.divide_1_r in D. exact D.
  - destruct (Hp (N.gcd e p) (N.gcd_divide_r e p)) as [E|E].
    + destruct IH as (q & Hq & Hd); [|exact H|exists q; split; [right; exact Hq|exact Hd]]. exact (N.gauss e p _ D E).
    + exists p. split; [left; reflexivity|]. rewrite <- E. apply N.gcd_divide_l.
Qed.
Lemma factors_prod : fold_right N.mul 1 factors = 2 ^ 128 - 1.
Proof. reflexivity. Qed.
