From Verif Require Import Util LibdivModel.
Local Open Scope N_scope.

Lemma pow_pos a : 0 < 2 ^ a. Proof. apply N.neq_0_lt_0, N.pow_nonzero. discriminate. Qed.
Lemma two32_eq : two32 = 2 ^ 32. Proof. reflexivity. Qed.
Lemma two64_eq : two64 = 2 ^ 64. Proof. reflexivity. Qed.
Lemma div_lt_n a b c : 0 < b -> a < b * c -> a / b < c. Proof. intros. now apply N.div_lt_upper_bound; [lia|]. Qed.
(** The quotient, from the outside. *)
Lemma quot a b q : 0 < b -> q * b <= a -> a < (q + 1) * b -> a / b = q.
Proof. intros B H1 H2. symmetry. apply (N.div_unique a b q (a - q * b)); lia. Qed.
Lemma dm a b : 0 < b -> a = b * (a / b) + a mod b /\ a mod b < b.
Proof. intros H. split; [apply N.div_mod'|apply N.mod_lt; lia]. Qed.

(** ** mullhi *)
Lemma mullhi_u32_ok x y : x < two32 -> y < two32 -> mullhi_u32 x y = x * y / 2 ^ 32.
Proof.
  intros Hx Hy. unfold mullhi_u32. rewrite two32_eq in *. assert (P : x * y < 2 ^ 32 * 2 ^ 32) by (apply N.mul_lt_mono; assumption).
  rewrite (N.mod_small (x * y)) by exact P. apply N.mod_small. apply div_lt_n; [reflexivity|exact P].
Qed.
Lemma mullhi_128_ok x y : x < two64 -> y < two64 -> mullhi_u64_128 x y = x * y / 2 ^ 64.
Proof.
  intros Hx Hy. unfold mullhi_u64_128. rewrite two64_eq in *. assert (P : x * y < 2 ^ 64 * 2 ^ 64) by (apply N.mul_lt_mono; assumption).
  rewrite (N.mod_small (x * y)) by exact P. apply N.mod_small. apply div_lt_n; [reflexivity|exact P].
Qed.
Lemma mullhi_u64_ok x y : x < two64 -> y < two64 -> mullhi_u64 x y = x * y / 2 ^ 64.
Proof.
  intros Hx Hy. unfold mullhi_u64. rewrite two64_eq, two32_eq in *.
  set (B := 2 ^ 32). assert (B0 : 0 < B) by reflexivity. assert (BB : 2 ^ 64 = B * B) by reflexivity. rewrite BB in *.
  rewrite (N.mod_small (x / B)) by (apply div_lt_n; [exact B0|exact Hx]). rewrite (N.mod_small (y / B)) by (apply div_lt_n; [exact B0|exact Hy]).
  destruct (dm x B B0) as [Ex Lx0]. destruct (dm y B B0) as [Ey Ly0].
  assert (Lx1 : x / B < B) by (apply div_lt_n; [exact B0|exact Hx]). assert (Ly1 : y / B < B) by (apply div_lt_n; [exact B0|exact Hy]).
  set (x0 := x mod B) in *. set (x1 := x / B) in *. set (y0 := y mod B) in *. set (y1 := y / B) in *. clearbody x0 x1 y0 y1.
  rewrite mullhi_u32_ok by (rewrite two32_eq; fold B; assumption). fold B.
  assert (M : forall a b, a < B -> b < B -> a * b + (B + B) <= B * B + 1).
  { intros a b Ha Hb. assert (a * b <= (B - 1) * (B - 1)) by (apply N.mul_le_mono; lia). replace ((B - 1) * (B - 1)) with (B * B + 1 - (B + B)) in H by reflexivity. assert (B + B <= B * B + 1) by (vm_compute; discriminate). lia. }
  pose proof (M _ _ Lx0 Ly0) as P00. pose proof (M _ _ Lx0 Ly1) as P01. pose proof (M _ _ Lx1 Ly0) as P10. pose proof (M _ _ Lx1 Ly1) as P11.
  assert (B2 : 2 < B) by reflexivity.
  rewrite (N.mod_small (x0 * y1)), (N.mod_small (x1 * y0)), (N.mod_small (x1 * y1)) by lia.
  assert (E : x * y = x1 * y1 * (B * B) + (x1 * y0 + x0 * y1) * B + x0 * y0) by (rewrite Ex, Ey; ring).
  rewrite E. destruct (dm (x0 * y0) B B0) as [E0 L0]. assert (H0 : x0 * y0 / B < B) by (apply div_lt_n; [exact B0|lia]).
  set (h := x0 * y0 / B) in *. set (l := (x0 * y0) mod B) in *. clearbody h l.
  rewrite (N.mod_small (x1 * y0 + h)) by lia.
  destruct (dm (x1 * y0 + h) B B0) as [Et Lt]. set (th := (x1 * y0 + h) / B) in *. set (tl := (x1 * y0 + h) mod B) in *. clearbody th tl.
  rewrite (N.mod_small (tl + x0 * y1)) by lia.
  destruct (dm (tl + x0 * y1) B B0) as [Ec Lc]. set (c := (tl + x0 * y1) / B) in *. set (r := (tl + x0 * y1) mod B) in *. clearbody c r.
  assert (F : x1 * y1 * (B * B) + (x1 * y0 + x0 * y1) * B + x0 * y0 = (x1 * y1 + th + c) * (B * B) + (r * B + l)).
  { rewrite E0. replace ((x1 * y0 + x0 * y1) * B + (B * h + l)) with ((x1 * y0 + h + x0 * y1) * B + l) by ring. replace (x1 * y1 * (B * B) + (x1 * y0 + x0 * y1) * B + (B * h + l)) with (x1 * y1 * (B * B) + ((x1 * y0 + h) + x0 * y1) * B + l) by ring. rewrite Et. replace (B * th + tl + x0 * y1) with (B * th + (tl + x0 * y1)) by ring. rewrite Ec. ring. }
  assert (R : r * B + l < B * B) by (assert (r * B + B <= B * B) by (replace (r * B + B) with ((r + 1) * B) by ring; apply N.mul_le_mono_r; lia); lia).
  rewrite F. rewrite N.div_add_l by lia. rewrite (N.div_small (r * B + l)) by exact R. rewrite N.add_0_r. apply N.mod_small.
  assert (x * y < B * B * (B * B)) by (apply N.mul_lt_mono; assumption). rewrite E, F in H. apply (N.mul_lt_mono_pos_r (B * B)); lia.
Qed.

(** ** Zeros *)
Lemma ctz_pow k : ctz (2 ^ k) = Some k.
Proof.
  induction k as [|k IH] using N.peano_ind; [reflexivity|]. rewrite N.pow_succ_r'. destruct (2 ^ k) as [|p] eqn:E; [apply N.pow_nonzero in E; [easy|discriminate]|].
  change (2 * N.pos p) with (N.pos p~0). cbn [ctz ctz_pos] in *. injection IH as IH. rewrite IH. f_equal. lia.
Qed.
Lemma pow_test d : 0 < d -> N.land d (d - 1) = 0 <-> d = 2 ^ N.log2 d.
Proof.
  intros D. split.
  - intros H. destruct (N.eq_dec d (2 ^ N.log2 d)) as [E|E]; [exact E|exfalso]. destruct (N.log2_spec d D) as [L1 L2].
    assert (T : N.testbit (N.land d (d - 1)) (N.log2 d) = true).
    { rewrite N.land_spec, N.bit_log2 by lia. cbn. rewrite <- (N.log2_unique' (d - 1) (N.log2 d) (d - 1 - 2 ^ N.log2 d)); [apply N.bit_log2; pose proof (pow_pos (N.log2 d)); lia|apply N.le_0_l|rewrite N.pow_succ_r' in L2; lia|lia]. }
    rewrite H, N.bits_0 in T. discriminate.
  - intros ->. set (k := N.log2 d). rewrite <- N.pred_sub. fold (N.ones k). replace (N.pred (2 ^ k)) with (N.ones k) by (unfold N.ones; now rewrite N.shiftl_1_l).
    rewrite N.land_ones. apply N.mod_same. apply N.pow_nonzero. discriminate.
Qed.

(** ** The bits of [more] *)
Lemma bits k : k < 64 -> N.lor k 64 = k + 64 /\ N.lor k 128 = k + 128 /\ N.land k 64 = 0 /\ N.land k 128 = 0 /\ N.land (k + 64) 64 = 64 /\ N.land (k + 64) 128 = 0 /\
  N.land (k + 128) 128 = 128 /\ N.land (k + 64) 63 = k /\ N.land (k + 128) 63 = k /\ (k < 32 -> N.land (k + 64) 31 = k /\ N.land (k + 128) 31 = k).
Proof.
  intros H.
  set (f := fun k => (N.lor k 64 =? k + 64) && (N.lor k 128 =? k + 128) && (N.land k 64 =? 0) && (N.land k 128 =? 0) && (N.land (k + 64) 64 =? 64) && (N.land (k + 64) 128 =? 0) &&
    (N.land (k + 128) 128 =? 128) && (N.land (k + 64) 63 =? k) && (N.land (k + 128) 63 =? k) && (negb (k <? 32) || (N.land (k + 64) 31 =? k) && (N.land (k + 128) 31 =? k))).
  assert (A : forallb f (map N.of_nat (seq 0 64)) = true) by (vm_compute; reflexivity).
  rewrite forallb_forall in A. specialize (A k). assert (I : In k (map N.of_nat (seq 0 64))) by (rewrite in_map_iff; exists (N.to_nat k); split; [apply N2Nat.id|rewrite in_seq; lia]).
  specialize (A I). unfold f in A. rewrite !andb_true_iff, orb_true_iff, andb_true_iff, negb_true_iff, !N.eqb_eq, N.ltb_ge in A. intuition lia.
Qed.

(** ** Reciprocals *)
(** M * d = 2^p + e with small e: multiplying by M divides by d. *)
Lemma recip n d M P e : 0 < d -> 0 < P -> M * d = P + e -> n * e < P -> n * M / P = n / d.
Proof.
  intros D Pp E L. destruct (dm n d D) as [En Ln]. set (q := n / d) in *. set (r := n mod d) in *. clearbody q r.
  (* d * (n * M) = n * P + n * e *)
  assert (X : d * (n * M) = n * P + n * e) by (transitivity (n * (M * d)); [ring|rewrite E; ring]).
  apply quot; [exact Pp| |].
  - apply (N.mul_le_mono_pos_l _ _ d D). rewrite X. rewrite En at 1. replace ((d * q + r) * P + n * e) with (d * (q * P) + (r * P + n * e)) by ring. lia.
  - apply (N.mul_lt_mono_pos_l d _ _ D). rewrite X. rewrite En at 1. replace (d * ((q + 1) * P)) with (d * (q * P) + d * P) by ring. replace ((d * q + r) * P + n * e) with (d * (q * P) + (r * P + n * e)) by ring.
    assert (r * P + P <= d * P) by (replace (r * P + P) with ((r + 1) * P) by ring; apply N.mul_le_mono_r; lia). lia.
Qed.

Section W.
Variable w : N.
Hypothesis w_ok : w = 32 \/ w = 64.
Lemma w_pos : 0 < w /\ w <= 64. Proof. destruct w_ok as [-> | ->]; split; lia. Qed.
Lemma mask_bits k : k < w -> N.land (k + 64) (SHIFT_MASK w) = k /\ N.land (k + 128) (SHIFT_MASK w) = k.
Proof. intros H. unfold SHIFT_MASK. pose proof (bits k) as X. destruct w_ok as [-> | ->]; [change (32 - 1) with 31|change (64 - 1) with 63]; split; apply X; lia. Qed.

(** What [gen] makes. *)
Inductive made (d : N) : divider -> Prop :=
| made_shift k : d = 2 ^ k -> k < w -> made d (mkD 0 (k + 128))
| made_mul k m e : k < w -> d <> 2 ^ N.log2 d -> m < 2 ^ w -> m * d = 2 ^ w * 2 ^ k + e -> e < 2 ^ k -> made d (mkD m k)
| made_add k m e : k < w -> d <> 2 ^ N.log2 d -> m < 2 ^ w -> (2 ^ w + m) * d = 2 ^ w * (2 * 2 ^ k) + e -> e < 2 * 2 ^ k -> made d (mkD m (k + 64)).
Section G.
Variable div_wide : N -> N -> N -> option (N * N).
(** The wide division, where it is used: 2^k by d. *)
Definition wide_ok (d : N) : Prop := d <> 2 ^ N.log2 d -> div_wide (2 ^ N.log2 d) 0 d = Some (2 ^ N.log2 d * 2 ^ w / d, (2 ^ N.log2 d * 2 ^ w) mod d).
Lemma gen_made d : 0 < d -> d < 2 ^ w -> wide_ok d -> exists s, gen w div_wide d = Some s /\ made d s.
Proof.
  intros D Dw Wd. unfold gen, wr. pose proof w_pos as [W0 W64].
  assert (E1 : (d + 2 ^ w - 1) mod 2 ^ w = d - 1). { replace (d + 2 ^ w - 1) with (d - 1 + 1 * 2 ^ w) by lia. rewrite N.mod_add by (apply N.pow_nonzero; discriminate). apply N.mod_small. lia. }
  rewrite E1. set (k := N.log2 d). destruct (N.log2_spec d D) as [L1 L2]. fold k in L1, L2. rewrite N.pow_succ_r' in L2.
  assert (Kw : k < w) by (apply (N.pow_lt_mono_r_iff 2); [lia|]; lia).
  destruct (bits k ltac:(lia)) as (B1 & B2 & _).
  destruct (N.eqb_spec (N.land d (d - 1)) 0) as [Z|Z].
  - apply pow_test in Z; [|exact D]. fold k in Z. assert (C : ctz d = Some k) by (rewrite <- (ctz_pow k); now rewrite <- Z). rewrite C. eexists. split; [reflexivity|]. unfold SHIFT_PATH. rewrite B2. now apply made_shift.
  - rewrite pow_test in Z by exact D. fold k in Z. assert (C : clz w d = Some (w - 1 - k)) by (unfold clz, k; destruct d; [lia|reflexivity]). rewrite C.
    replace (w - 1 - (w - 1 - k)) with k by lia. unfold wide_ok in Wd. fold k in Wd. rewrite (Wd Z).
    set (T := 2 ^ k) in *. set (P := 2 ^ w) in *. assert (T0 : 0 < T) by apply pow_pos. assert (P0 : 0 < P) by apply pow_pos. assert (T < d) by lia.
    assert (TP : T < P) by (apply N.pow_lt_mono_r; lia).
    destruct (dm (T * P) d D) as [Em Lr]. set (m0 := T * P / d) in *. set (rem := (T * P) mod d) in *.
    assert (M0 : m0 + 1 < P).
    { destruct (N.lt_ge_cases (m0 + 1) P) as [|G]; [assumption|exfalso]. assert (P4 : 4 <= P /\ 2 * T <= P).
      { unfold T, P. rewrite <- N.pow_succ_r'. split; [change 4 with (2 ^ 2)|]; apply N.pow_le_mono_r; destruct w_ok as [-> | ->]; lia. }
      destruct P4 as [P4 P2]. clearbody P T. assert (X : exists x, P = x + 1) by (exists (P - 1); lia). destruct X as [x Ex].
      assert (A : x * d <= m0 * d) by (apply N.mul_le_mono_r; lia). assert (A2 : x * (T + 1) <= x * d) by (apply N.mul_le_mono_l; lia). rewrite Ex in Em, P2, P4. clear - A A2 Em P2 P4. lia. }
    clearbody m0 rem.
    destruct (N.ltb_spec (d - rem) T) as [S1|S1].
    + eexists. split; [reflexivity|]. rewrite N.mod_small by lia. eapply (made_mul d k (1 + m0) (d - rem)); fold T; fold P; auto; lia.
    + assert (Tw : ((d <=? (rem + rem) mod P) || ((rem + rem) mod P <? rem)) = (d <=? rem + rem)).
      { destruct (N.lt_ge_cases (rem + rem) P) as [X|X].
        - rewrite N.mod_small by exact X. destruct (N.leb_spec d (rem + rem)); [reflexivity|]. cbn. apply N.ltb_ge. lia.
        - replace ((rem + rem) mod P) with (rem + rem - P) by (replace (rem + rem) with (rem + rem - P + 1 * P) at 2 by lia; rewrite N.mod_add by lia; rewrite N.mod_small; lia).
          destruct (N.leb_spec d (rem + rem)); [|lia]. destruct (N.ltb_spec (rem + rem - P) rem); [apply orb_true_r|lia]. }
      rewrite Tw. set (c := if d <=? rem + rem then 1 else 0).
      assert (Em2 : (if d <=? rem + rem then ((m0 + m0) mod P + 1) mod P else (m0 + m0) mod P) = (m0 + m0 + c) mod P).
      { unfold c. destruct (d <=? rem + rem); [now rewrite N.add_mod_idemp_l by lia|now rewrite N.add_0_r]. }
      rewrite Em2. rewrite N.add_mod_idemp_r by lia. set (M := 1 + (m0 + m0 + c)).
      assert (Lc : c * d <= rem + rem /\ rem + rem < (c + 1) * d) by (unfold c; destruct (N.leb_spec d (rem + rem)); lia).
      assert (C1 : c <= 1) by (unfold c; destruct (d <=? rem + rem); lia). clearbody c.
      assert (EM : M * d = P * (2 * T) + ((c + 1) * d - (rem + rem))) by (unfold M; clear - Em Lc; clearbody T P; lia).
      assert (Ee : (c + 1) * d - (rem + rem) <= d) by lia.
      assert (M1 : P <= M). { destruct (N.lt_ge_cases M P) as [X|X]; [exfalso|exact X]. assert (M * d < P * d) by (apply N.mul_lt_mono_pos_r; lia). assert (P * d <= P * (2 * T)) by (apply N.mul_le_mono_l; lia). clear - EM H0 H1. lia. }
      assert (M2 : M < 2 * P) by (unfold M; lia).
      assert (Emod : M mod P = M - P) by (replace M with (M - P + 1 * P) at 1 by lia; rewrite N.mod_add by lia; apply N.mod_small; lia).
      rewrite Emod. unfold ADD_MARKER. rewrite B1. eexists. split; [reflexivity|].
      eapply (made_add d k (M - P) ((c + 1) * d - (rem + rem))); fold T; fold P; auto; try lia. replace (P + (M - P)) with M by lia. exact EM.
Qed.
End G.

Lemma alg_made d s : made d s -> get_algorithm s = match N.eqb d (2 ^ N.log2 d) with true => 0 | false => if N.land (more s) 64 =? 0 then 1 else 2 end.
Proof.
  intros H. destruct w_pos as [W0 W64]. unfold get_algorithm, SHIFT_PATH, ADD_MARKER. destruct H as [k E K|k m e K Z L E1 E2|k m e K Z L E1 E2]; cbn [more]; destruct (bits k ltac:(lia)) as (B1 & B2 & B3 & B4 & B5 & B6 & B7 & _).
  - rewrite B7. assert (X : d = 2 ^ N.log2 d) by (rewrite E at 2; now rewrite N.log2_pow2 by lia). rewrite <- X, N.eqb_refl. reflexivity.
  - apply N.eqb_neq in Z. rewrite Z, B4, B3. reflexivity.
  - apply N.eqb_neq in Z. rewrite Z, B6, B5. reflexivity.
Qed.
Variable mullhi : N -> N -> N.
Hypothesis mul_ok : forall x y, x < 2 ^ w -> y < 2 ^ w -> mullhi x y = x * y / 2 ^ w.
Lemma mul_lt_P n e a b : n < a -> e < b -> n * e < a * b.
Proof. intros. apply N.mul_lt_mono; assumption. Qed.
Lemma alg1_ok d m k e n : 0 < d -> n < 2 ^ w -> m < 2 ^ w -> m * d = 2 ^ w * 2 ^ k + e -> e < 2 ^ k -> do_alg1 mullhi n (mkD m k) = n / d.
Proof.
  intros D Hn Hm E L. unfold do_alg1. cbn [magic more]. rewrite mul_ok by assumption. rewrite N.div_div by (apply N.pow_nonzero; discriminate). rewrite (N.mul_comm m n).
  apply (recip n d m (2 ^ w * 2 ^ k) e); auto; [apply N.mul_pos_pos; apply pow_pos|]. apply mul_lt_P; assumption.
Qed.
Lemma alg2_ok d m k e n : 0 < d -> k < w -> n < 2 ^ w -> m < 2 ^ w -> (2 ^ w + m) * d = 2 ^ w * (2 * 2 ^ k) + e -> e < 2 * 2 ^ k -> do_alg2 w mullhi n (mkD m (k + 64)) = n / d.
Proof.
  intros D K Hn Hm E L. unfold do_alg2, wr. cbn [magic more]. rewrite mul_ok by assumption. destruct (mask_bits k K) as [-> _].
  set (P := 2 ^ w) in *. set (T := 2 ^ k) in *. assert (P0 : 0 < P) by apply pow_pos. assert (T0 : 0 < T) by apply pow_pos.
  set (q := m * n / P). assert (Q : q <= n). { unfold q. apply N.div_le_upper_bound; [lia|]. apply N.mul_le_mono_r. lia. }
  replace (n + P - q) with (n - q + 1 * P) by lia. rewrite N.mod_add by lia. rewrite (N.mod_small (n - q)) by lia.
  assert (H2 : (n - q) / 2 + q = (n + q) / 2). { replace (n + q) with (n - q + q * 2) by lia. now rewrite N.div_add by discriminate. }
  rewrite H2. rewrite (N.mod_small ((n + q) / 2)) by (apply N.div_lt_upper_bound; [discriminate|lia]).
  assert (S : n + q = n * (P + m) / P). { unfold q. replace (n * (P + m)) with (n * P + m * n) by ring. now rewrite N.div_add_l by lia. }
  rewrite S, !N.div_div by lia. try rewrite <- (N.mul_assoc P 2 T). apply (recip n d (P + m) (P * (2 * T)) e); auto; [lia|]. apply mul_lt_P; assumption.
Qed.
Lemma do_ok d s n : 0 < d -> made d s -> n < 2 ^ w -> do_div w mullhi n s = n / d.
Proof.
  intros D H Hn. destruct w_pos as [W0 W64]. destruct H as [k E K|k m e K Z L E1 E2|k m e K Z L E1 E2]; unfold do_div, SHIFT_PATH, ADD_MARKER; cbn [more]; destruct (bits k ltac:(lia)) as (B1 & B2 & B3 & B4 & B5 & B6 & B7 & _).
  - rewrite B7. cbn [negb N.eqb]. destruct (mask_bits k K) as [_ ->]. now subst d.
  - rewrite B4, B3. cbn [negb N.eqb]. exact (alg1_ok d m k e n D Hn L E1 E2).
  - rewrite B6, B5. cbn [negb N.eqb]. exact (alg2_ok d m k e n D K Hn L E1 E2).
Qed.
End W.

(** ** The wide division *)
Lemma asm_ok w d : 0 < d -> wide_ok w (div_asm w) d.
Proof.
  intros D Z. unfold div_asm. rewrite N.add_0_r. destruct (N.log2_spec d D) as [L1 L2]. set (k := N.log2 d) in *.
  destruct (N.eqb_spec d 0) as [E|_]; [lia|]. cbn [orb]. destruct (N.leb_spec (2 ^ w) (2 ^ k * 2 ^ w / d)) as [H|_]; [exfalso|reflexivity].
  assert (2 ^ k * 2 ^ w / d < 2 ^ w); [|lia]. apply div_lt_n; [exact D|]. apply N.mul_lt_mono_pos_r; [apply pow_pos|lia].
Qed.
Lemma again_ok vn1 vn0 un U fuel : vn1 < b32 -> vn0 < b32 -> un < b32 -> 0 < vn1 ->
  let v := vn1 * b32 + vn0 in let Q := (U * b32 + un) / v in U < v ->
  forall q rhat, q * vn1 + rhat = U -> rhat < b32 -> Q <= q -> q <= b32 + 1 -> b32 <= rhat + N.of_nat fuel * vn1 -> again fuel q rhat vn1 vn0 un = Some Q.
Proof.
  intros L1 L0 Lu P1 v Q HU. assert (BB : two64 = b32 * b32) by reflexivity. assert (B0 : 2 < b32) by reflexivity. remember b32 as b eqn:Hb.
  assert (V0 : 0 < v) by (unfold v; lia). destruct (dm (U * b + un) v V0) as [EQ LQ]. fold Q in EQ. set (R := (U * b + un) mod v) in *.
  assert (HQ : Q < b). { apply div_lt_n; [exact V0|]. assert (U * b + b <= v * b) by (replace (U * b + b) with ((U + 1) * b) by ring; apply N.mul_le_mono_r; lia). lia. }
  clearbody Q R.
  induction fuel as [|fuel IH]; intros q rhat E Lr G Hq F; [lia|]. cbn [again]. rewrite <- Hb.
  assert (M1 : (b * rhat + un) mod two64 = b * rhat + un). { apply N.mod_small. rewrite BB. assert (b * rhat + b <= b * b) by (replace (b * rhat + b) with (b * (rhat + 1)) by ring; apply N.mul_le_mono_l; lia). lia. }
  assert (Ev : q * v + (b * rhat + un) = U * b + un + q * vn0) by (unfold v; rewrite <- E; ring).
  assert (C : ((b <=? q) || ((b * rhat + un) mod two64 <? (q * vn0) mod two64)) = (Q <? q)).
  { rewrite M1. destruct (N.leb_spec b q) as [X|X]; cbn [orb]; [symmetry; apply N.ltb_lt; lia|].
    rewrite (N.mod_small (q * vn0)) by (rewrite BB; apply N.mul_lt_mono; lia).
    destruct (N.ltb_spec Q q) as [Y|Y].
    - apply N.ltb_lt. assert ((Q + 1) * v <= q * v) by (apply N.mul_le_mono_r; lia). lia.
    - apply N.ltb_ge. assert (q * v <= Q * v) by (apply N.mul_le_mono_r; lia). lia. }
  rewrite C. destruct (N.ltb_spec Q q) as [Y|Y]; [|f_equal; lia].
  assert (Eq : exists p, q = p + 1) by (exists (q - 1); lia). destruct Eq as [p ->]. replace (p + 1 - 1) with p by lia.
  destruct (N.ltb_spec (rhat + vn1) b) as [W|W].
  - apply IH; lia.
  - f_equal. assert (p <= Q); [|lia]. assert (p * vn0 <= b * b) by (apply N.mul_le_mono; lia). assert (b * b <= b * (rhat + vn1)) by (apply N.mul_le_mono_l; exact W).
    assert (Ep : p * v + (b * (rhat + vn1) + un) = U * b + un + p * vn0) by (unfold v; rewrite <- E; ring).
    assert (p * v <= U * b + un) by lia. assert (p * v < (Q + 1) * v) by lia. apply N.mul_lt_mono_pos_r in H2; lia.
Qed.
(** One digit. *)
Lemma digit v un U : v < two64 -> two64 <= 2 * v -> un < b32 -> U < v ->
  again 3 (U / (v / 2 ^ 32)) (U - U / (v / 2 ^ 32) * (v / 2 ^ 32)) (v / 2 ^ 32) (v mod two32) un = Some ((U * b32 + un) / v).
Proof.
  intros Hv Hn Hu HU. change two32 with b32. change (2 ^ 32) with b32. change two64 with (b32 * b32) in *.
  assert (B0 : 2 < b32) by reflexivity. assert (Hal : b32 = 2 * 2 ^ 31) by reflexivity. set (b := b32) in *. destruct (dm v b ltac:(lia)) as [Ev L0]. assert (L1 : v / b < b) by (apply div_lt_n; [lia|exact Hv]).
  set (vn1 := v / b) in *. set (vn0 := v mod b) in *. clearbody vn1 vn0.
  assert (H1 : b <= 2 * vn1). { destruct (N.le_gt_cases b (2 * vn1)) as [X|X]; [exact X|exfalso]. set (h := 2 ^ 31) in *. clearbody h. assert (vn1 + 1 <= h) by lia. assert (b * (vn1 + 1) <= b * h) by (apply N.mul_le_mono_l; lia). assert (b * b = 2 * (b * h)) by (rewrite Hal at 2; ring). lia. }
  destruct (dm U vn1 ltac:(lia)) as [EU LU]. set (q := U / vn1) in *. set (r := U mod vn1) in *. clearbody q r.
  replace (U - q * vn1) with r by lia. replace v with (vn1 * b + vn0) by lia.
  apply (again_ok vn1 vn0 un U 3); fold b; try lia.
  - assert (V0 : 0 < vn1 * b + vn0) by lia. assert (X : (U * b + un) / (vn1 * b + vn0) < q + 1); [|lia]. apply div_lt_n; [exact V0|].
    assert (U + 1 <= (q + 1) * vn1) by lia. assert ((U + 1) * b <= (q + 1) * vn1 * b) by (apply N.mul_le_mono_r; exact H). lia.
  - destruct (N.le_gt_cases q (b + 1)) as [X|X]; [exact X|exfalso]. assert ((b + 2) * vn1 <= q * vn1) by (apply N.mul_le_mono_r; lia). lia.
Qed.
Lemma lor_add a x s : x < 2 ^ s -> N.lor (a * 2 ^ s) x = a * 2 ^ s + x.
Proof.
  intros H. symmetry. rewrite <- N.lxor_lor; [apply N.add_nocarry_lxor|]; apply N.bits_inj; intros i; rewrite N.land_spec, N.bits_0; (destruct (N.lt_ge_cases i s) as [I|I]; [now rewrite N.mul_pow2_bits_low by exact I|]);
    assert (T : N.testbit x i = false) by (destruct (N.eq_dec x 0) as [->|]; [apply N.bits_0|apply N.bits_above_log2; apply N.log2_lt_pow2; [lia|]; apply (N.lt_le_trans _ (2 ^ s)); [exact H|apply N.pow_le_mono_r; lia]]); rewrite T; apply andb_false_r.
Qed.
Lemma sub64_ok a b : b <= a -> a - b < two64 -> sub64 (a mod two64) b = a - b.
Proof.
  intros H L. unfold sub64. set (T := two64) in *. assert (T0 : 0 < T) by reflexivity. clearbody T. destruct (dm a T T0) as [Ea La]. destruct (dm b T T0) as [Eb Lb].
  set (qa := a / T) in *. set (qb := b / T) in *. set (ra := a mod T) in *. set (rb := b mod T) in *. clearbody qa qb ra rb.
  assert (qb <= qa) by (destruct (N.le_gt_cases qb qa) as [X|X]; [exact X|exfalso; assert (T * (qa + 1) <= T * qb) by (apply N.mul_le_mono_l; lia); lia]).
  assert (qa <= qb + 1) by (destruct (N.le_gt_cases qa (qb + 1)) as [X|X]; [exact X|exfalso; assert (T * (qb + 2) <= T * qa) by (apply N.mul_le_mono_l; lia); lia]).
  assert (Q : qa = qb \/ qa = qb + 1) by lia. destruct Q as [-> | ->].
  - replace (ra + T - rb) with (ra - rb + 1 * T) by lia. rewrite N.mod_add, N.mod_small by lia. lia.
  - rewrite N.mod_small by lia. lia.
Qed.
Lemma sub64_rem a V q r : a = V * q + r -> r < two64 -> sub64 (a mod two64) (q * V) = r.
Proof. intros E L. rewrite sub64_ok; lia. Qed.
Theorem divlu_ok u1 u0 v : u1 < v -> u0 < two64 -> v < 2 ^ 63 -> divlu u1 u0 v = Some ((u1 * two64 + u0) / v, (u1 * two64 + u0) mod v).
Proof.
  intros H1 H0 Hv. unfold divlu. destruct (N.leb_spec v u1) as [X|_]; [lia|]. assert (V0 : 0 < v) by lia.
  assert (C : clz 64 v = Some (63 - N.log2 v)) by (unfold clz; destruct v; [lia|reflexivity]). rewrite C. destruct (N.log2_spec v V0) as [L1 L2].
  assert (Lk : N.log2 v < 63) by (apply N.log2_lt_pow2; assumption). set (s := 63 - N.log2 v). assert (S0 : 0 < s /\ s <= 63) by (unfold s; lia).
  destruct (N.eqb_spec s 0) as [X|_]; [lia|].
  set (T := 2 ^ s) in *. assert (T0 : 0 < T) by apply pow_pos.
  assert (N1 : v * T < two64). { apply (N.lt_le_trans _ (2 ^ N.succ (N.log2 v) * T)); [apply N.mul_lt_mono_pos_r; [exact T0|exact L2]|]. unfold T. rewrite <- N.pow_add_r. rewrite two64_eq. apply N.pow_le_mono_r; [discriminate|]. unfold s. lia. }
  assert (N2 : two64 <= 2 * (v * T)). { rewrite two64_eq. apply (N.le_trans _ (2 * (2 ^ N.log2 v * T))); [|apply N.mul_le_mono_l, N.mul_le_mono_r; exact L1]. unfold T. rewrite <- N.pow_add_r, <- N.pow_succ_r'. apply N.pow_le_mono_r; [discriminate|]. unfold s. lia. }
  assert (U1 : u1 * T < v * T) by (apply N.mul_lt_mono_pos_r; assumption).
  rewrite (N.mod_small (v * T)) by exact N1. rewrite (N.mod_small (u1 * T)) by lia.
  set (w := 2 ^ (64 - s)) in *. assert (WT : w * T = two64) by (unfold w, T; rewrite <- N.pow_add_r; replace (64 - s + s) with 64 by lia; reflexivity).
  assert (W0 : 0 < w) by apply pow_pos. assert (Lo : u0 / w < T) by (apply div_lt_n; [exact W0|lia]).
  assert (Lor : N.lor (u1 * T) (u0 / w) = u1 * T + u0 / w) by (apply (lor_add u1 (u0 / w) s); exact Lo). rewrite Lor.
  destruct (dm u0 w W0) as [Eu Lu]. set (hi := u0 / w) in *. set (lo := u0 mod w) in *.
  assert (Em : (u0 * T) mod two64 = lo * T). { symmetry. apply (N.mod_unique _ _ hi); [rewrite <- WT; apply N.mul_lt_mono_pos_r; assumption|]. rewrite Eu, <- WT. ring. }
  rewrite Em. assert (Ll : lo * T < two64) by (rewrite <- WT; apply N.mul_lt_mono_pos_r; assumption).
  assert (U2 : u1 * T + hi < v * T) by (assert (u1 * T + T <= v * T) by (replace (u1 * T + T) with ((u1 + 1) * T) by ring; apply N.mul_le_mono_r; lia); lia).
  set (V := v * T) in *. set (U := u1 * T + hi) in *. set (L := lo * T) in *.
  assert (L0' : L / 2 ^ 32 < b32) by (apply div_lt_n; [reflexivity|exact Ll]). assert (L1' : L mod two32 < b32) by (apply N.mod_lt; discriminate).
  assert (EL : L = b32 * (L / 2 ^ 32) + L mod two32) by (apply N.div_mod').
  set (un1 := L / 2 ^ 32) in *. set (un0 := L mod two32) in *.
  assert (VV : 0 < V) by lia.
  rewrite (digit V un1 U N1 N2 L0' U2). destruct (dm (U * b32 + un1) V VV) as [E1 R1]. set (q1 := (U * b32 + un1) / V) in *. set (r1 := (U * b32 + un1) mod V) in *.
  assert (S1 : sub64 ((U * b32 + un1) mod two64) (q1 * V) = r1) by (apply sub64_rem; [exact E1|exact (N.lt_trans _ _ _ R1 N1)]). rewrite S1.
  rewrite (digit V un0 r1 N1 N2 L1' R1). destruct (dm (r1 * b32 + un0) V VV) as [E2 R2]. set (q0 := (r1 * b32 + un0) / V) in *. set (r0 := (r1 * b32 + un0) mod V) in *.
  assert (S2 : sub64 ((r1 * b32 + un0) mod two64) (q0 * V) = r0) by (apply sub64_rem; [exact E2|exact (N.lt_trans _ _ _ R2 N1)]). rewrite S2.
  (* the whole *)
  assert (Big : (u1 * two64 + u0) * T = (q1 * b32 + q0) * V + r0).
  { assert (A : (u1 * two64 + u0) * T = U * (b32 * b32) + L). { unfold U, L. change (b32 * b32) with two64. rewrite Eu at 1. rewrite <- WT. ring. }
    rewrite A, EL. clear - E1 E2. transitivity ((U * b32 + un1) * b32 + un0); [ring|]. rewrite E1. transitivity (V * q1 * b32 + (r1 * b32 + un0)); [ring|]. rewrite E2. ring. }
  set (n := u1 * two64 + u0) in *. destruct (dm n v V0) as [En Ln]. set (Q := n / v) in *. set (R := n mod v) in *.
  assert (Same : q1 * b32 + q0 = Q /\ r0 = R * T).
  { assert (B2 : n * T = V * Q + R * T) by (rewrite En at 1; unfold V; ring). assert (RT : R * T < V) by (apply N.mul_lt_mono_pos_r; assumption). rewrite Big in B2. rewrite (N.mul_comm _ V) in B2.
    pose proof (N.div_mod_unique V (q1 * b32 + q0) Q r0 (R * T) R2 RT B2) as [? ?]. auto. }
  destruct Same as [-> ->]. rewrite N.div_mul by (apply N.neq_0_lt_0; exact T0). rewrite N.mod_small; [reflexivity|].
  apply div_lt_n; [exact V0|]. unfold n. assert (u1 * two64 + two64 <= v * two64) by (replace (u1 * two64 + two64) with ((u1 + 1) * two64) by ring; apply N.mul_le_mono_r; clear - H1; lia). clear - H H0. generalize dependent (u1 * two64). generalize (v * two64). intros. lia.
Qed.
Lemma divlu_wide d : 0 < d -> d < 2 ^ 63 -> wide_ok 64 divlu d.
Proof.
  intros D L Z. destruct (N.log2_spec d D) as [L1 _]. rewrite divlu_ok; [now rewrite N.add_0_r|lia|reflexivity|exact L].
Qed.
