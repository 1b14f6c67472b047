From Verif Require Import Util HumanModel HumanSpec.
From Coq Require Import ZArith.
Local Open Scope N_scope.

Lemma pow2_pos j : 0 < 2 ^ j. Proof. apply N.neq_0_lt_0. apply N.pow_nonzero. lia. Qed.
Lemma one_half : one = 2 * half. Proof. reflexivity. Qed.
Lemma half_big : 2 ^ 200 <= half. Proof. apply N.pow_le_mono_r; lia. Qed.
Lemma one_pos : 0 < one. Proof. apply pow2_pos. Qed.
Lemma half_pow : half = 2 ^ 1073. Proof. reflexivity. Qed.
Lemma one_pow : one = 2 ^ 1074. Proof. reflexivity. Qed.
Global Opaque one half.

(** ** Rounding *)
Lemma rne_mul q d : 0 < d -> rne (q * d) d = q.
Proof.
  intros H. unfold rne. rewrite N.div_mul, N.mod_mul by lia. rewrite (proj2 (N.ltb_lt (2 * 0) d)) by lia. reflexivity.
Qed.
Lemma rne_err n d : 0 < d -> (2 * Z.abs (Z.of_N (rne n d * d) - Z.of_N n) <= Z.of_N d)%Z.
Proof.
  intros H. unfold rne. pose proof (N.div_mod n d ltac:(lia)) as E. pose proof (N.mod_lt n d ltac:(lia)) as L.
  revert E L. generalize (n / d) (n mod d). intros q r E L.
  assert (q mod 2 = 0 \/ q mod 2 = 1) as [Q|Q]. { pose proof (N.mod_lt q 2 ltac:(lia)). lia. }
  - rewrite Q. destruct (2 * r <? d) eqn:A; [|destruct (d <? 2 * r) eqn:B]; subst n; zify; nia.
  - rewrite Q. destruct (2 * r <? d) eqn:A; [|destruct (d <? 2 * r) eqn:B]; subst n; zify; nia.
Qed.
Lemma rne_le n d b : 0 < d -> n < b * d -> rne n d <= b.
Proof.
  intros H L. unfold rne. assert (n / d < b) by (apply N.div_lt_upper_bound; lia).
  assert (n / d mod 2 < 2) by (apply N.mod_lt; lia).
  destruct (2 * (n mod d) <? d); [lia|]. destruct (d <? 2 * (n mod d)); lia.
Qed.
Lemma rne_ge n d b : 0 < d -> b * d <= n -> b <= rne n d.
Proof.
  intros H L. assert (b <= n / d) by (apply N.div_le_lower_bound; lia). unfold rne.
  destruct (2 * (n mod d) <? d); [lia|]. destruct (d <? 2 * (n mod d)); lia.
Qed.

Definition repr (x : N) : Prop := exists m j, x = m * 2 ^ j /\ m <= 2 ^ 53.

Lemma log2_le_pow x L : 0 < x -> N.log2 x = L -> 2 ^ L <= x < 2 ^ (L + 1).
Proof. intros H <-. rewrite N.add_1_r. apply N.log2_spec. exact H. Qed.

Lemma rnd_scaled x d : 0 < d -> repr x -> rnd (x * d) d = x.
Proof.
  intros Hd (m & j & -> & Hm). unfold rnd. rewrite N.div_mul by lia.
  set (x := m * 2 ^ j). destruct (N.eq_dec x 0) as [E|E].
  { rewrite E. cbn [N.log2]. change (0 - 52) with 0. rewrite N.pow_0_r. replace (0 * d) with (0 * (d * 1)) by lia. rewrite rne_mul; lia. }
  set (L := N.log2 x).
  assert (B := log2_le_pow x L ltac:(lia) eq_refl).
  assert (Dv : exists q, x = q * 2 ^ (L - 52)).
  { destruct (N.le_gt_cases L 52) as [A|A].
    - replace (L - 52) with 0 by lia. exists x. now rewrite N.pow_0_r, N.mul_1_r.
    - destruct (N.eq_dec m (2 ^ 53)) as [->|M].
      + unfold x in *. rewrite <- N.pow_add_r in *. exists (2 ^ (53 + j - (L - 52))).
        assert (53 + j < L + 1 \/ L + 1 <= 53 + j) as [C|C] by lia.
        * rewrite <- N.pow_add_r. f_equal. assert (L <= 53 + j). { apply (N.pow_le_mono_r_iff 2); lia. } lia.
        * assert (2 ^ (L + 1) <= 2 ^ (53 + j)) by (apply N.pow_le_mono_r; lia). lia.
      + assert (L - 52 <= j).
        { assert (x < 2 ^ (53 + j)). { unfold x. rewrite N.pow_add_r. apply N.mul_lt_mono_pos_r; [apply pow2_pos|lia]. }
          assert (L < 53 + j). { apply (N.pow_lt_mono_r_iff 2); lia. } lia. }
        exists (m * 2 ^ (j - (L - 52))). unfold x. rewrite <- N.mul_assoc, <- N.pow_add_r. do 2 f_equal. lia. }
  destruct Dv as [q Dq]. rewrite Dq at 1. replace (q * 2 ^ (L - 52) * d) with (q * (d * 2 ^ (L - 52))) by lia.
  pose proof (pow2_pos (L - 52)). rewrite rne_mul by nia. lia.
Qed.
Lemma rnd_exact x : repr x -> rnd x 1 = x.
Proof. intros H. rewrite <- (N.mul_1_r x) at 1. apply rnd_scaled; auto. lia. Qed.

Lemma rnd_repr n d : 0 < d -> repr (rnd n d).
Proof.
  intros Hd. unfold rnd. set (L := N.log2 (n / d)). exists (rne n (d * 2 ^ (L - 52))), (L - 52).
  split; [lia|]. pose proof (pow2_pos (L - 52)). apply rne_le; [nia|].
  assert (n / d < 2 ^ (L + 1)).
  { destruct (N.eq_dec (n / d) 0) as [E|E]; [rewrite E; apply pow2_pos|]. apply log2_le_pow; [now apply N.neq_0_lt_0|reflexivity]. }
  assert (n < d * 2 ^ (L + 1)). { pose proof (N.div_mod n d ltac:(lia)). pose proof (N.mod_lt n d ltac:(lia)).
    apply N.lt_le_trans with (d * (n / d) + d); [lia|]. rewrite <- N.mul_succ_r. apply N.mul_le_mono_l. lia. }
  assert (2 ^ (L + 1) <= 2 ^ 53 * 2 ^ (L - 52)). { rewrite <- N.pow_add_r. apply N.pow_le_mono_r; lia. }
  apply N.lt_le_trans with (1 := H1). replace (2 ^ 53 * (d * 2 ^ (L - 52))) with (d * (2 ^ 53 * 2 ^ (L - 52))) by lia. now apply N.mul_le_mono_l.
Qed.

Lemma rnd_err n d : 0 < d ->
  (2 ^ 53 * Z.abs (Z.of_N (rnd n d * d) - Z.of_N n) <= 2 ^ 52 * Z.of_N d + Z.of_N n)%Z.
Proof.
  intros Hd. unfold rnd. set (L := N.log2 (n / d)). set (g := 2 ^ (L - 52)). pose proof (pow2_pos (L - 52)) as G. fold g in G.
  pose proof (rne_err n (d * g) ltac:(nia)) as E. replace (g * rne n (d * g) * d) with (rne n (d * g) * (d * g)) by lia.
  assert (B : 2 ^ 52 * (d * g) <= 2 ^ 52 * d + n).
  { destruct (N.le_gt_cases L 52) as [A|A].
    - unfold g. replace (L - 52) with 0 by lia. rewrite N.pow_0_r. lia.
    - assert (n / d <> 0). { intros X. unfold L in A. rewrite X in A. cbn in A. lia. }
      destruct (log2_le_pow (n / d) L (proj1 (N.neq_0_lt_0 _) H) eq_refl) as [C _].
      assert (2 ^ L = 2 ^ 52 * g). { unfold g. rewrite <- N.pow_add_r. f_equal. lia. }
      assert (d * (n / d) <= n) by (apply N.mul_div_le; lia). nia. }
  revert E B. generalize (rne n (d * g) * (d * g)) (d * g). intros a b E B.
  change (2 ^ 53)%Z with (2 ^ 52 * 2)%Z. change (2 ^ 52) with 4503599627370496 in B. change (2 ^ 52)%Z with 4503599627370496%Z. lia.
Qed.
Lemma rnd_ge n d j : 0 < d -> 2 ^ j * d <= n -> 2 ^ j <= rnd n d.
Proof.
  intros Hd H. unfold rnd. set (L := N.log2 (n / d)).
  assert (2 ^ j <= n / d) by (apply N.div_le_lower_bound; lia).
  pose proof (pow2_pos j). destruct (log2_le_pow (n / d) L (N.lt_le_trans _ _ _ H1 H0) eq_refl) as [C D].
  assert (j <= L). { assert (j < L + 1); [|lia]. apply (N.pow_lt_mono_r_iff 2); lia. }
  assert (dn : d * (n / d) <= n) by (apply N.mul_div_le; lia).
  pose proof (pow2_pos (L - 52)). destruct (N.le_gt_cases L 52) as [A|A].
  - replace (L - 52) with 0 by lia. rewrite N.pow_0_r, N.mul_1_l, N.mul_1_r. apply rne_ge; lia.
  - assert (2 ^ L = 2 ^ 52 * 2 ^ (L - 52)) as P. { rewrite <- N.pow_add_r. f_equal. lia. }
    assert (2 ^ 52 <= rne n (d * 2 ^ (L - 52))). { apply rne_ge; nia. }
    assert (2 ^ j <= 2 ^ L) by (apply N.pow_le_mono_r; lia). nia.
Qed.

(** ** The arithmetic of a parse *)
Lemma repr_mul n j : n <= 2 ^ 53 -> repr (n * 2 ^ j).
Proof. intros H. exists n, j. auto. Qed.
Lemma repr_one n : n <= 2 ^ 53 -> repr (n * one).
Proof. rewrite one_pow. apply repr_mul. Qed.
Lemma repr_scale x j : repr x -> repr (x * 2 ^ j).
Proof. intros (m & i & -> & H). exists m, (i + j). split; auto. rewrite N.pow_add_r. lia. Qed.

(** Adding one half and truncating. *)
Lemma half_up n : n < 2 ^ 52 -> rnd (n * one + half) 1 / one = n.
Proof.
  intros H. rewrite rnd_exact.
  - rewrite one_half. rewrite N.mul_comm. pose proof half_big. rewrite N.add_comm.
    replace (half + 2 * half * n) with (n * (2 * half) + half) by lia. rewrite N.div_add_l by lia. rewrite N.div_small by lia. lia.
  - replace (n * one + half) with ((2 * n + 1) * 2 ^ 1073) by (rewrite one_half, half_pow; lia).
    apply repr_mul. change (2 ^ 53) with (2 * 2 ^ 52). lia.
Qed.
Lemma half_even n : 2 ^ 52 <= n -> repr n -> n mod 2 = 0 -> rnd (n * one + half) 1 / one = n.
Proof.
  intros Hn Hr He. pose proof one_pos as O.
  set (l := N.log2 n).
  assert (Hp : 0 < n) by (change (2 ^ 52) with 4503599627370496 in Hn; lia).
  assert (B := log2_le_pow n l Hp eq_refl).
  assert (Hl : 52 <= l). { assert (52 < l + 1); [|lia]. apply (N.pow_lt_mono_r_iff 2); lia. }
  assert (Lg : N.log2 (n * one + half) = l + 1074).
  { replace (n * one + half) with ((2 * n + 1) * 2 ^ 1073) by (rewrite one_half, half_pow; lia).
    rewrite N.log2_mul_pow2 by lia. rewrite N.log2_succ_double by exact Hp. fold l. lia. }
  assert (Dv : exists q, n = q * 2 ^ (l - 52)).
  { pose proof (rnd_exact n Hr) as E. unfold rnd in E. rewrite N.div_1_r in E. fold l in E. rewrite <- E. eexists. apply N.mul_comm. }
  destruct Dv as [q Eq]. set (h := 2 ^ (l - 52)) in *. assert (Hh : 0 < h) by apply pow2_pos.
  unfold rnd. rewrite N.div_1_r, Lg. replace (l + 1074 - 52) with (l - 52 + 1074) by lia.
  rewrite N.pow_add_r, <- one_pow. fold h. rewrite N.mul_1_l.
  enough (E : rne (n * one + half) (h * one) = q).
  { rewrite E. replace (h * one * q) with (n * one) by (rewrite Eq; lia). apply N.div_mul. lia. }
  assert (Hf : 0 < half) by (rewrite half_pow; apply pow2_pos). clearbody h. clear Lg B Hl Hn.
  assert (Hho : half < h * one) by (rewrite one_half; clear - Hf Hh; nia).
  assert (E1 : (n * one + half) / (h * one) = q).
  { symmetry. apply N.div_unique with half; [exact Hho|]. rewrite Eq. lia. }
  assert (E2 : (n * one + half) mod (h * one) = half).
  { symmetry. apply N.mod_unique with q; [exact Hho|]. rewrite Eq. lia. }
  unfold rne. rewrite E1, E2.
  assert (h = 1 \/ 2 <= h) as [H1|H2] by lia.
  - rewrite H1, N.mul_1_l, <- one_half, N.ltb_irrefl. rewrite H1, N.mul_1_r in Eq. subst q. rewrite He. lia.
  - rewrite (proj2 (N.ltb_lt (2 * half) (h * one))) by (rewrite <- one_half; clear - O H2; nia). reflexivity.
Qed.

Lemma fin_exact neg n k den : 0 < den -> n <= 2 ^ 53 -> n * 2 ^ (10 * k) < 2 ^ 63 ->
  (n * 2 ^ (10 * k) < 2 ^ 52 \/ n * 2 ^ (10 * k) mod 2 = 0) ->
  finish neg false (Fin (rnd (n * den * one) den)) k = Ok (signed neg (n * 2 ^ (10 * k))).
Proof.
  intros Hd Hn Hv He. unfold finish. pose proof one_pos as O.
  replace (n * den * one) with (n * one * den) by lia. rewrite rnd_scaled by (auto; now apply repr_one).
  rewrite rnd_exact by (apply repr_scale; now apply repr_one).
  set (v := n * 2 ^ (10 * k)) in *. replace (n * one * 2 ^ (10 * k)) with (v * one) by (unfold v; lia).
  rewrite N.div_mul by lia. rewrite (proj2 (N.leb_gt (2 ^ 63) v) Hv).
  assert (E : rnd (v * one + half) 1 / one = v).
  { destruct (N.lt_ge_cases v (2 ^ 52)) as [A|A]; [now apply half_up|].
    destruct He as [He|He]; [lia|]. apply half_even; auto. now apply repr_mul. }
  rewrite E. unfold signed. destruct neg; reflexivity.
Qed.

Lemma fin_over neg D k den : 0 < den -> 2 ^ 63 * den <= D * 2 ^ (10 * k) -> k <= 6 ->
  finish neg false (Fin (rnd (D * one) den)) k = Ub.
Proof.
  intros Hd H Hk. unfold finish. pose proof one_pos as O.
  set (x := rnd (D * one) den).
  assert (A : 2 ^ (63 - 10 * k + 1074) <= x).
  { apply rnd_ge; auto. rewrite N.pow_add_r, <- one_pow.
    assert (2 ^ 63 = 2 ^ (63 - 10 * k) * 2 ^ (10 * k)) as P by (rewrite <- N.pow_add_r; f_equal; lia).
    rewrite P in H. pose proof (pow2_pos (10 * k)). assert (2 ^ (63 - 10 * k) * den <= D) by nia. nia. }
  assert (C : 2 ^ 63 * one <= rnd (x * 2 ^ (10 * k)) 1).
  { rewrite rnd_exact by (apply repr_scale; apply rnd_repr; auto).
    rewrite N.pow_add_r, <- one_pow in A.
    assert (2 ^ 63 = 2 ^ (63 - 10 * k) * 2 ^ (10 * k)) as P by (rewrite <- N.pow_add_r; f_equal; lia).
    rewrite P. pose proof (pow2_pos (10 * k)). replace (2 ^ (63 - 10 * k) * 2 ^ (10 * k) * one) with (2 ^ (63 - 10 * k) * one * 2 ^ (10 * k)) by lia.
    apply N.mul_le_mono_r. exact A. }
  assert (2 ^ 63 <= rnd (x * 2 ^ (10 * k)) 1 / one) by (apply N.div_le_lower_bound; lia).
  now rewrite (proj2 (N.leb_le _ _) H0).
Qed.

Lemma fin_close neg D k den : 0 < den -> k <= 6 -> D * 2 ^ (10 * k) <= (2 ^ 63 - 2 ^ 11) * den ->
  exists r, finish neg false (Fin (rnd (D * one) den)) k = Ok (signed neg r) /\
    (2 ^ 50 * Z.abs (Z.of_N (r * den) - Z.of_N (D * 2 ^ (10 * k))) <= 2 ^ 49 * Z.of_N den + Z.of_N (D * 2 ^ (10 * k)) + Z.of_N den)%Z.
Proof.
  intros Hd Hk HV. unfold finish. pose proof one_pos as O. pose proof half_big as HB. pose proof one_half as OH.
  pose proof (rnd_err (D * one) den Hd) as E1.
  set (x := rnd (D * one) den) in *.
  assert (Rx : repr x) by (apply rnd_repr; auto).
  rewrite rnd_exact by (now apply repr_scale).
  set (S := 2 ^ (10 * k)) in *.
  assert (HS : S <= 2 ^ 60) by (apply N.pow_le_mono_r; lia). assert (HS0 : 0 < S) by apply pow2_pos.
  set (y := x * S). set (V := D * S) in *.
  assert (E2 : (2 ^ 53 * Z.abs (Z.of_N (y * den) - Z.of_N (V * one)) <= 2 ^ 52 * Z.of_N (den * S) + Z.of_N (V * one))%Z).
  { unfold y, V. replace (x * S * den) with (S * (x * den)) by lia. replace (D * S * one) with (S * (D * one)) by lia.
    replace (den * S) with (S * den) by lia. revert E1. generalize (x * den) (D * one). intros a b E1. rewrite !N2Z.inj_mul.
    rewrite <- Z.mul_sub_distr_l, Z.abs_mul. rewrite (Z.abs_eq (Z.of_N S)) by apply N2Z.is_nonneg.
    apply (Z.mul_le_mono_nonneg_l _ _ (Z.of_N S)) in E1; [|apply N2Z.is_nonneg].
    eapply Z.le_trans; [|eapply Z.le_trans; [exact E1|]]; apply Z.eq_le_incl; ring. }
  assert (Bd : den * S <= 2 ^ 60 * den) by nia.
  assert (Co : 2 ^ 201 * den <= den * one). { rewrite OH. change (2 ^ 201) with (2 * 2 ^ 200). nia. }
  assert (VO : V * one <= (2 ^ 63 - 2 ^ 11) * (den * one)) by nia.
  assert (Hy : y < 2 ^ 63 * one).
  { apply (N.mul_lt_mono_pos_r den); [exact Hd|]. replace (2 ^ 63 * one * den) with (2 ^ 63 * (den * one)) by lia.
    revert E2 Bd Co VO. generalize (y * den) (V * one) (den * S) (den * one). intros a b c e E2 Bd Co VO.
    change (2 ^ 53)%Z with 9007199254740992%Z in E2. change (2 ^ 52)%Z with 4503599627370496%Z in E2.
    change (2 ^ 60) with 1152921504606846976 in Bd. change (2 ^ 63 - 2 ^ 11) with 9223372036854773760 in VO. change (2 ^ 63) with 9223372036854775808.
    change (2 ^ 201) with 3213876088517980551083924184682325205044405987565585670602752 in Co. lia. }
  assert (Q : y / one < 2 ^ 63) by (apply N.div_lt_upper_bound; lia).
  rewrite (proj2 (N.leb_gt _ _) Q).
  set (z := rnd (y + half) 1). exists (z / one). split; [unfold signed; destruct neg; reflexivity|].
  pose proof (rnd_err (y + half) 1 ltac:(lia)) as E3. fold z in E3. rewrite N.mul_1_r in E3.
  pose proof (N.div_mod z one ltac:(lia)) as DZ. pose proof (N.mod_lt z one ltac:(lia)) as MZ.
  set (r := z / one) in *. set (t := z mod one) in *.
  assert (E4 : (2 ^ 53 * Z.abs (Z.of_N (r * one) - Z.of_N y) <= 2 ^ 53 * Z.of_N half + 2 ^ 52 + Z.of_N y + Z.of_N half)%Z).
  { clear - DZ MZ E3 OH. change (2 ^ 53)%Z with 9007199254740992%Z in *. change (2 ^ 52)%Z with 4503599627370496%Z in *.
    rewrite (N.mul_comm r one). revert DZ MZ E3. generalize (one * r). intros a DZ MZ E3. lia. }
  assert (E5 : (2 ^ 53 * Z.abs (Z.of_N (r * den * one) - Z.of_N (y * den)) <= 2 ^ 53 * Z.of_N (den * half) + 2 ^ 52 * Z.of_N den + Z.of_N (y * den) + Z.of_N (den * half))%Z).
  { replace (r * den * one) with (den * (r * one)) by lia. replace (y * den) with (den * y) by lia. revert E4. generalize (r * one). intros a E4.
    rewrite !N2Z.inj_mul, <- Z.mul_sub_distr_l, Z.abs_mul. rewrite (Z.abs_eq (Z.of_N den)) by apply N2Z.is_nonneg.
    apply (Z.mul_le_mono_nonneg_l _ _ (Z.of_N den)) in E4; [|apply N2Z.is_nonneg].
    eapply Z.le_trans; [|eapply Z.le_trans; [exact E4|]]; apply Z.eq_le_incl; ring. }
  assert (F : (2 ^ 53 * Z.abs (Z.of_N (r * den * one) - Z.of_N (V * one)) <= (2 ^ 52 * Z.of_N den + 8 * Z.of_N V + 8 * Z.of_N den) * Z.of_N one)%Z).
  { assert (Ch : den * one = 2 * (den * half)) by (rewrite OH; lia).
    rewrite !Z.mul_add_distr_r, <- !Z.mul_assoc. rewrite <- !N2Z.inj_mul.
    revert E2 E5 Bd Co Ch. generalize (r * den * one) (y * den) (V * one) (den * S) (den * one) (den * half).
    intros a b c e f g E2 E5 Bd Co Ch.
    change (2 ^ 53)%Z with 9007199254740992%Z in *. change (2 ^ 52)%Z with 4503599627370496%Z in *.
    change (2 ^ 60) with 1152921504606846976 in Bd.
    change (2 ^ 201) with 3213876088517980551083924184682325205044405987565585670602752 in Co. lia. }
  clear - F O. change (2 ^ 53)%Z with (2 ^ 50 * 8)%Z in F. change (2 ^ 52)%Z with (2 ^ 49 * 8)%Z in F.
  rewrite (N2Z.inj_mul _ one), (N2Z.inj_mul V one) in F. rewrite <- Z.mul_sub_distr_r, Z.abs_mul in F. rewrite (Z.abs_eq (Z.of_N one)) in F by lia.
  apply (Z.mul_le_mono_pos_r _ _ (8 * Z.of_N one)); [lia|].
  replace (2 ^ 50 * Z.abs (Z.of_N (r * den) - Z.of_N V) * (8 * Z.of_N one))%Z with (2 ^ 50 * 8 * (Z.abs (Z.of_N (r * den) - Z.of_N V) * Z.of_N one))%Z by ring.
  replace ((2 ^ 49 * Z.of_N den + Z.of_N V + Z.of_N den) * (8 * Z.of_N one))%Z with ((2 ^ 49 * 8 * Z.of_N den + 8 * Z.of_N V + 8 * Z.of_N den) * Z.of_N one)%Z by ring.
  exact F.
Qed.

(** ** Lexing *)
Lemma isdig_spec c : isdig c = true <-> 48 <= c <= 57.
Proof. unfold isdig. rewrite andb_true_iff, !N.leb_le. lia. Qed.
Lemma isdig_false c : ~ (48 <= c <= 57) -> isdig c = false.
Proof. intros H. destruct (isdig c) eqn:E; auto. apply isdig_spec in E. contradiction. Qed.
Definition nodig (l : list N) : Prop := match l with [] => True | c :: _ => ~ (48 <= c <= 57) end.
Lemma span_app w r : digits w -> nodig r -> span_dig (w ++ r) = (w, r).
Proof.
  induction w as [|c w IH]; intros D R; cbn [app span_dig].
  - destruct r as [|c r]; auto. cbn [span_dig]. now rewrite isdig_false.
  - inversion D; subst. rewrite (proj2 (isdig_spec c)) by auto. now rewrite IH.
Qed.
Lemma decval_acc w a : fold_left (fun a c => 10 * a + (c - 48)) w a = a * 10 ^ len w + dec w.
Proof.
  revert a. induction w as [|c w IH]; intros a; cbn [fold_left dec].
  - rewrite len_nil. cbn. lia.
  - rewrite IH, len_cons, N.pow_add_r, N.pow_1_r. lia.
Qed.
Lemma decval_dec w : decval w = dec w.
Proof. unfold decval. now rewrite decval_acc. Qed.
Lemma dec_app a b : dec (a ++ b) = dec a * 10 ^ len b + dec b.
Proof. rewrite <- (decval_dec (a ++ b)), <- (decval_dec a). unfold decval. rewrite fold_left_app, decval_acc. reflexivity. Qed.
Lemma cstr_id l : ~ In 0 l -> cstr l = l.
Proof.
  induction l as [|c l IH]; intros H; cbn [cstr]; auto. destruct (c =? 0) eqn:E.
  - apply N.eqb_eq in E. exfalso. apply H. now left.
  - f_equal. apply IH. intros X. apply H. now right.
Qed.
Lemma no0_digits w : digits w -> ~ In 0 w.
Proof. intros D I. unfold digits in D. rewrite Forall_forall in D. specialize (D 0 I). lia. Qed.

Lemma head_is_cons c x l : head_is c (x :: l) = (x =? c). Proof. reflexivity. Qed.
Lemma neqb a b : a <> b -> (a =? b) = false. Proof. apply N.eqb_neq. Qed.

Lemma exponent_stops l : stops l -> exponent l = (false, 0, l).
Proof.
  intros [_ H]. unfold exponent. destruct l as [|c r]; auto. destruct H as (_ & _ & _ & _ & H).
  destruct (c =? 101) eqn:A; [|destruct (c =? 69) eqn:B]; cbn [orb]; auto; [apply N.eqb_eq in A|apply N.eqb_eq in B]; subst c.
  all: specialize (H ltac:(auto)); destruct r as [|d r']; [reflexivity|]; destruct H as [H1 H2]; rewrite !head_is_cons; cbn [tl].
  all: destruct (d =? 43) eqn:C; [apply N.eqb_eq in C; subst d; specialize (H2 ltac:(auto)); destruct r' as [|e r']; [reflexivity|]; cbn [span_dig]; now rewrite (isdig_false e)|].
  all: destruct (d =? 45) eqn:D; [apply N.eqb_eq in D; subst d; specialize (H2 ltac:(auto)); destruct r' as [|e r']; [reflexivity|]; cbn [span_dig]; now rewrite (isdig_false e)|].
  all: cbn [span_dig]; now rewrite (isdig_false d).
Qed.

Lemma stops_nodig l : stops l -> nodig l.
Proof. intros [_ H]. destruct l; cbn in *; tauto. Qed.

Lemma decimal_num w f wf r : w <> [] -> digits w -> fraction f wf -> stops r ->
  decimal (w ++ f ++ r) = Some (Fin (rnd (dec (w ++ wf) * one) (10 ^ len wf)), r).
Proof.
  intros Hw Dw Hf Hr. unfold decimal.
  assert (S1 : span_dig (w ++ f ++ r) = (w, f ++ r)).
  { apply span_app; auto. destruct Hf as [[-> _]|[-> _]]; [now apply stops_nodig|]. cbn. lia. }
  rewrite S1.
  assert (S2 : (if head_is 46 (f ++ r) then match w, span_dig (tl (f ++ r)) with
                                            | [], ([], _) => ([], f ++ r)
                                            | _, p => p end
                else ([], f ++ r)) = (wf, r)).
  { destruct Hf as [[-> ->]|[-> D]].
    - cbn [app]. destruct r as [|c r]; auto. rewrite head_is_cons. rewrite neqb; auto. destruct Hr as [_ Hr]. tauto.
    - cbn [app]. rewrite head_is_cons, N.eqb_refl. cbn [tl]. rewrite span_app by (auto; now apply stops_nodig).
      destruct w; [congruence|reflexivity]. }
  rewrite S2. rewrite exponent_stops by auto.
  destruct w as [|c w]; [congruence|]. cbn [app]. cbv zeta. now rewrite decval_dec, N.pow_0_r, N.mul_1_r.
Qed.

Lemma strtod_num other w f wf r : w <> [] -> digits w -> fraction f wf -> stops r ->
  strtod other (w ++ f ++ r) = Some (false, Fin (rnd (dec (w ++ wf) * one) (10 ^ len wf)), r).
Proof.
  intros Hw Dw Hf Hr. unfold strtod. pose proof (decimal_num w f wf r Hw Dw Hf Hr) as E.
  destruct w as [|c w]; [congruence|]. assert (Hc : 48 <= c <= 57) by now inversion Dw.
  cbn [app] in *. assert (W : skip_ws (c :: w ++ f ++ r) = c :: w ++ f ++ r).
  { cbn [skip_ws]. replace (isws c) with false; auto. unfold isws. symmetry. apply orb_false_iff. split; [apply neqb; lia|]. lia. }
  rewrite W. rewrite !head_is_cons. rewrite (neqb c 43), (neqb c 45) by lia. cbn [tl]. rewrite !head_is_cons.
  rewrite (neqb c 105), (neqb c 73), (neqb c 110), (neqb c 78) by lia. rewrite !orb_false_r.
  assert (X : (head_is 120 (w ++ f ++ r) || head_is 88 (w ++ f ++ r))%bool = false).
  { destruct w as [|d w].
    - cbn [app]. destruct Hf as [[-> ->]|[-> D]].
      + cbn [app]. destruct r as [|e r]; auto. rewrite !head_is_cons. destruct Hr as [_ Hr]. rewrite !neqb by tauto. reflexivity.
      + reflexivity.
    - cbn [app]. rewrite !head_is_cons. assert (48 <= d <= 57) by (inversion Dw; subst; now inversion H2). rewrite !neqb by lia. reflexivity. }
  rewrite X, andb_false_r. rewrite E. reflexivity.
Qed.

Lemma no0_frac f wf : fraction f wf -> ~ In 0 f.
Proof. intros [[-> _]|[-> D]]; [tauto|]. intros [H|H]; [discriminate|]. exact (no0_digits _ D H). Qed.

Lemma parse_num other neg w f wf r : w <> [] -> digits w -> fraction f wf -> stops r ->
  parse other (sign neg ++ w ++ f ++ r) [] =
  match unit (hd 0 r) with
  | None => Bad
  | Some k => if tail_ok r then finish neg false (Fin (rnd (dec (w ++ wf) * one) (10 ^ len wf))) k else Bad
  end.
Proof.
  intros Hw Dw Hf Hr. unfold parse. rewrite app_nil_r.
  assert (N0 : cstr (sign neg ++ w ++ f ++ r) = sign neg ++ w ++ f ++ r).
  { apply cstr_id. intros I. apply in_app_or in I. destruct I as [I|I].
    - destruct neg; cbn in I; [destruct I as [I|I]; [discriminate|tauto]|tauto].
    - apply in_app_or in I. destruct I as [I|I]; [exact (no0_digits _ Dw I)|]. apply in_app_or in I.
      destruct I as [I|I]; [exact (no0_frac _ _ Hf I)|]. exact (proj1 Hr I). }
  rewrite N0. destruct neg; cbn [sign app].
  - rewrite head_is_cons, N.eqb_refl. cbn [tl]. now rewrite (strtod_num other w f wf r).
  - destruct w as [|c w]; [congruence|]. cbn [app]. rewrite head_is_cons.
    assert (48 <= c <= 57) by now inversion Dw. rewrite (neqb c 45) by lia.
    change (c :: w ++ f ++ r) with ((c :: w) ++ f ++ r). now rewrite (strtod_num other (c :: w) f wf r).
Qed.

(** ** Suffixes *)
Lemma unit_spec c k : unit_of c k -> unit c = Some k.
Proof. unfold unit_of. cbn [In]. intros H. repeat (destruct H as [H|H]; [injection H as <- <-; reflexivity|]). contradiction. Qed.
Lemma unit_bB c : bB c -> unit c = Some 0. Proof. intros [-> | ->]; reflexivity. Qed.
Lemma unit_le c k : unit c = Some k -> k <= 6.
Proof. unfold unit. intros H. repeat match type of H with context[if ?b then _ else _] => destruct b end; try discriminate; injection H as <-; lia. Qed.
Lemma unit_inv c k : unit c = Some k -> c = 0 \/ (bB c /\ k = 0) \/ unit_of c k.
Proof.
  unfold unit, unit_of, bB. intros H.
  repeat match type of H with context[if ?b then _ else _] => let E := fresh "E" in destruct b eqn:E end; try discriminate; injection H as <-;
    repeat match goal with E : (_ || _)%bool = true |- _ => apply orb_true_iff in E; destruct E as [E|E] | E : (_ =? _) = true |- _ => apply N.eqb_eq in E; subst end; cbn [In]; auto 20.
Qed.
Lemma suffix_unit r k : suffix r k -> unit (hd 0 r) = Some k /\ tail_ok r = true.
Proof.
  intros H; inversion H; subst; cbn [hd]; (split; [first [reflexivity|now apply unit_bB|now apply unit_spec]|]); try reflexivity;
    match goal with B : bB _ |- _ => destruct B as [-> | ->]; reflexivity end.
Qed.
Lemma loose_unit r : loose r -> unit (hd 0 r) = Some 0 /\ tail_ok r = true.
Proof.
  intros H; inversion H; subst; cbn [hd]; (split; [now apply unit_bB|]); try reflexivity;
    match goal with B : bB ?c |- context[?c] => destruct B as [-> | ->]; reflexivity end.
Qed.
Lemma tail_inv r k : ~ In 0 r -> unit (hd 0 r) = Some k -> tail_ok r = true -> suffix r k \/ (loose r /\ k = 0).
Proof.
  intros N0 U T. destruct r as [|c r]. { cbn in U. injection U as <-. left. constructor. }
  cbn [hd] in U. apply unit_inv in U.
  assert (R : r = [] \/ r = [105] \/ (exists b, bB b /\ r = [b]) \/ (exists b, bB b /\ r = [105; b])).
  { unfold tail_ok in T. destruct r as [|d r]; auto. right.
    rewrite head_is_cons in T. destruct (d =? 105) eqn:E.
    - apply N.eqb_eq in E. subst d. cbn [tl] in T. destruct r as [|e r]; auto. right. right. rewrite !head_is_cons in T. exists e.
      destruct ((e =? 66) || (e =? 98))%bool eqn:F; [|discriminate]. cbn [tl] in T. destruct r; [|discriminate].
      split; auto. apply orb_true_iff in F. rewrite !N.eqb_eq in F. exact F.
    - right. left. rewrite !head_is_cons in T. exists d. destruct ((d =? 66) || (d =? 98))%bool eqn:F; [|discriminate]. cbn [tl] in T. destruct r; [|discriminate].
      split; auto. apply orb_true_iff in F. rewrite !N.eqb_eq in F. exact F. }
  destruct U as [-> |[[B ->]|U]]. { exfalso. apply N0. now left. }
  - destruct R as [-> |[-> |[(b & Hb & ->)|(b & Hb & ->)]]]; [left; now constructor|right; split; auto; now constructor|right; split; auto; now constructor|right; split; auto; now constructor].
  - left. destruct R as [-> |[-> |[(b & Hb & ->)|(b & Hb & ->)]]]; now constructor.
Qed.
Lemma suffix_stops r k : suffix r k -> stops r.
Proof.
  assert (U : forall c j, unit_of c j -> 58 <= c /\ c <> 120 /\ c <> 88).
  { intros c j H. unfold unit_of in H. cbn [In] in H. repeat (destruct H as [H|H]; [injection H as <- <-; lia|]). contradiction. }
  assert (B : forall b, bB b -> 58 <= b /\ b <> 120 /\ b <> 88 /\ b <> 69 /\ b <> 101) by (intros b [-> | ->]; lia).
  intros H; inversion H; subst; unfold stops; cbn [In];
    repeat match goal with X : unit_of _ _ |- _ => apply U in X | X : bB _ |- _ => apply B in X end; repeat split; try tauto; try lia.
Qed.

Lemma suffix_le r k : suffix r k -> k <= 6.
Proof. intros H. apply suffix_unit in H. destruct H as [H _]. exact (unit_le _ _ H). Qed.
Lemma pow10_pos j : 0 < 10 ^ j. Proof. apply N.neq_0_lt_0. apply N.pow_nonzero. lia. Qed.

Lemma pow1024 k : 1024 ^ k = 2 ^ (10 * k).
Proof. rewrite N.pow_mul_r. reflexivity. Qed.

(** ** Results *)
Lemma human_exact_pf other neg w r k : w <> [] -> digits w -> suffix r k ->
  dec w <= 2 ^ 53 -> dec w * 1024 ^ k < 2 ^ 63 ->
  (dec w * 1024 ^ k < 2 ^ 52 \/ dec w * 1024 ^ k mod 2 = 0) ->
  parse other (sign neg ++ w ++ r) [] = Ok (signed neg (dec w * 1024 ^ k)).
Proof.
  rewrite pow1024. intros Hw Dw Hs Hn Hv He.
  change (w ++ r) with (w ++ [] ++ r). rewrite (parse_num other neg w [] [] r Hw Dw (or_introl (conj eq_refl eq_refl)) (suffix_stops _ _ Hs)).
  destruct (suffix_unit r k Hs) as [-> ->]. rewrite app_nil_r. rewrite <- (N.mul_1_r (dec w)) at 1. apply fin_exact; auto. exact (pow10_pos 0).
Qed.
Lemma human_exact_frac_pf other neg w f wf r k n : w <> [] -> digits w -> fraction f wf -> suffix r k ->
  dec (w ++ wf) = n * 10 ^ len wf -> n <= 2 ^ 53 -> n * 1024 ^ k < 2 ^ 63 -> (n * 1024 ^ k < 2 ^ 52 \/ n * 1024 ^ k mod 2 = 0) ->
  parse other (sign neg ++ w ++ f ++ r) [] = Ok (signed neg (n * 1024 ^ k)).
Proof.
  rewrite pow1024. intros Hw Dw Hf Hs E Hn Hv He.
  rewrite (parse_num other neg w f wf r Hw Dw Hf (suffix_stops _ _ Hs)).
  destruct (suffix_unit r k Hs) as [-> ->]. rewrite E. apply fin_exact; auto. apply pow10_pos.
Qed.
Lemma human_close_pf other neg w f wf r k : w <> [] -> digits w -> fraction f wf -> suffix r k ->
  let num := dec (w ++ wf) * 1024 ^ k in let den := 10 ^ len wf in
  num <= (2 ^ 63 - 2 ^ 11) * den ->
  exists v, parse other (sign neg ++ w ++ f ++ r) [] = Ok (signed neg v) /\
    (2 ^ 50 * Z.abs (Z.of_N (v * den) - Z.of_N num) <= 2 ^ 49 * Z.of_N den + Z.of_N num + Z.of_N den)%Z.
Proof.
  cbv zeta. rewrite pow1024. intros Hw Dw Hf Hs H.
  rewrite (parse_num other neg w f wf r Hw Dw Hf (suffix_stops _ _ Hs)).
  destruct (suffix_unit r k Hs) as [-> ->]. apply fin_close; auto; [apply pow10_pos|eapply suffix_le; eauto].
Qed.
Lemma human_over_pf other neg w f wf r k : w <> [] -> digits w -> fraction f wf -> suffix r k ->
  2 ^ 63 * 10 ^ len wf <= dec (w ++ wf) * 1024 ^ k -> parse other (sign neg ++ w ++ f ++ r) [] = Ub.
Proof.
  rewrite pow1024. intros Hw Dw Hf Hs H.
  rewrite (parse_num other neg w f wf r Hw Dw Hf (suffix_stops _ _ Hs)).
  destruct (suffix_unit r k Hs) as [-> ->]. apply fin_over; auto; [apply pow10_pos|eapply suffix_le; eauto].
Qed.
Lemma finish_not_bad neg x k : finish neg false (Fin x) k <> Bad.
Proof. unfold finish. destruct (_ <=? _); discriminate. Qed.
Lemma human_accepts_pf other neg w f wf r : w <> [] -> digits w -> fraction f wf -> stops r ->
  parse other (sign neg ++ w ++ f ++ r) [] <> Bad <-> (exists k, suffix r k) \/ loose r.
Proof.
  intros Hw Dw Hf Hr. rewrite (parse_num other neg w f wf r) by auto. split.
  - intros H. destruct (unit (hd 0 r)) as [k|] eqn:U; [|congruence]. destruct (tail_ok r) eqn:T; [|congruence].
    destruct (tail_inv r k (proj1 Hr) U T) as [X|[X _]]; [left; eauto|auto].
  - intros [[k H]|H].
    + destruct (suffix_unit r k H) as [-> ->]. apply finish_not_bad.
    + destruct (loose_unit r H) as [-> ->]. apply finish_not_bad.
Qed.

(** ** Printing *)
Lemma show_fuel_spec f n : n < 2 ^ N.of_nat f -> (0 < f)%nat -> digits (show_fuel f n) /\ show_fuel f n <> [] /\ dec (show_fuel f n) = n.
Proof.
  revert n. induction f as [|f IH]; intros n H F; [lia|]. cbn [show_fuel]. destruct (n <? 10) eqn:E.
  - apply N.ltb_lt in E. split; [constructor; [lia|constructor]|]. split; [discriminate|]. cbn [dec]. rewrite len_nil. cbn [N.pow]. lia.
  - apply N.ltb_ge in E.
    assert (2 ^ N.of_nat (S f) = 2 * 2 ^ N.of_nat f) as P. { rewrite Nat2N.inj_succ, N.pow_succ_r'. lia. }
    assert (A : n / 10 < 2 ^ N.of_nat f). { rewrite P in H. apply N.div_lt_upper_bound; lia. }
    destruct f as [|f]. { change (2 ^ N.of_nat 1) with 2 in H. lia. }
    destruct (IH (n / 10) A ltac:(lia)) as (D & NE & V).
    assert (B : n mod 10 < 10) by (apply N.mod_lt; lia).
    split; [|split].
    + unfold digits. apply Forall_app. split; auto. constructor; [lia|constructor].
    + intros X. apply app_eq_nil in X. destruct X. discriminate.
    + rewrite dec_app, V. cbn [dec]. rewrite len_nil, len_cons, len_nil. change (10 ^ (1 + 0)) with 10. change (10 ^ 0) with 1.
      pose proof (N.div_mod n 10 ltac:(lia)). lia.
Qed.
Lemma show_spec n : digits (show n) /\ show n <> [] /\ dec (show n) = n.
Proof.
  unfold show. apply show_fuel_spec; [|lia]. rewrite Nat2N.inj_succ, N2Nat.id, <- N.add_1_r.
  destruct (N.eq_dec n 0) as [->|E]; [cbn; lia|]. apply log2_le_pow; [lia|reflexivity].
Qed.
Lemma shrink_spec f : forall n u m u', 1024 <= n -> shrink f n u = (m, u') ->
  exists j, u' = (u + j)%nat /\ (j <= f)%nat /\ m * 1024 ^ N.of_nat j <= n < (m + 1) * 1024 ^ N.of_nat j /\ 1024 <= m /\ ((j < f)%nat -> m < 2 ^ 20).
Proof.
  induction f as [|f IH]; intros n u m u' Hn E; cbn [shrink] in E.
  - injection E as <- <-. exists 0%nat. change (N.of_nat 0) with 0. rewrite N.pow_0_r. split; [lia|]. split; [lia|]. split; [lia|]. split; [lia|]. lia.
  - change (1024 * 1024) with 1048576 in E. destruct (1048576 <=? n) eqn:C.
    + apply N.leb_le in C. apply IH in E; [|apply N.div_le_lower_bound; lia]. destruct E as (j & -> & J & (B1 & B2) & M & T).
      exists (S j). rewrite Nat2N.inj_succ, N.pow_succ_r'. set (P := 1024 ^ N.of_nat j) in *.
      pose proof (N.div_mod n 1024 ltac:(lia)). pose proof (N.mod_lt n 1024 ltac:(lia)).
      split; [lia|]. split; [lia|]. split; [|split; auto; intros; apply T; lia].
      revert B1 B2 H H0. generalize (n / 1024) (n mod 1024). intros q r B1 B2 H H0.
      replace (m * (1024 * P)) with (1024 * (m * P)) by lia. replace ((m + 1) * (1024 * P)) with (1024 * ((m + 1) * P)) by lia.
      revert B1 B2. generalize (m * P) ((m + 1) * P). intros a b B1 B2. lia.
    + apply N.leb_gt in C. injection E as <- <-. exists 0%nat. change (N.of_nat 0) with 0. rewrite N.pow_0_r. change (2 ^ 20) with 1048576. lia.
Qed.

Lemma letter_unit u : (u <= 5)%nat -> unit_of (letter u) (N.of_nat u + 1).
Proof. intros H. unfold unit_of, letter. do 6 (destruct u as [|u]; [cbn; tauto|]). lia. Qed.

Lemma fixed_spec n p : p = 10 \/ p = 100 ->
  exists w f wf, fixed n p = w ++ f /\ w <> [] /\ digits w /\ fraction f wf /\ dec (w ++ wf) = rne (n * p) 1024 /\ 10 ^ len wf = p.
Proof.
  intros Hp. unfold fixed. set (t := rne (n * p) 1024). destruct (show_spec (t / p)) as (D & NE & V).
  exists (show (t / p)). assert (B : t mod 10 < 10) by (apply N.mod_lt; lia).
  destruct Hp as [-> | ->].
  - exists [46; 48 + t mod 10], [48 + t mod 10]. change (10 =? 10) with true. cbv iota.
    split; [reflexivity|]. split; auto. split; auto. split. { right. split; auto. constructor; [lia|constructor]. }
    split; [|reflexivity]. rewrite dec_app, V. cbn [dec]. rewrite len_cons, len_nil. change (10 ^ (1 + 0)) with 10. change (10 ^ 0) with 1.
    pose proof (N.div_mod t 10 ltac:(lia)). lia.
  - exists [46; 48 + t mod 100 / 10; 48 + t mod 10], [48 + t mod 100 / 10; 48 + t mod 10]. change (100 =? 10) with false. cbv iota.
    assert (C : t mod 100 / 10 < 10). { apply N.div_lt_upper_bound; [lia|]. assert (t mod 100 < 100) by (apply N.mod_lt; lia). lia. }
    split; [reflexivity|]. split; auto. split; auto. split. { right. split; auto. constructor; [lia|constructor; [lia|constructor]]. }
    split; [|reflexivity]. rewrite dec_app, V. cbn [dec]. rewrite !len_cons, len_nil. change (10 ^ (1 + (1 + 0))) with 100. change (10 ^ (1 + 0)) with 10. change (10 ^ 0) with 1.
    clear - C B. lia.
Qed.

Lemma print_big b m u : b <> (- 2 ^ 63)%Z -> 1024 <= Z.abs_N b -> shrink 6 (Z.abs_N b) 0 = (m, u) ->
  print b = sign (b <? 0)%Z ++ fixed m (if (u =? 0)%nat then 10 else 100) ++ [letter u; 105; 66].
Proof.
  intros H1 H2 E. unfold print. rewrite (proj2 (Z.eqb_neq _ _) H1). rewrite (proj2 (N.ltb_ge _ _) H2), E. reflexivity.
Qed.
Lemma signed_abs b : signed (b <? 0)%Z (Z.abs_N b) = b.
Proof. unfold signed. destruct (b <? 0)%Z eqn:E; lia. Qed.
Lemma signed_dist b r : (Z.abs (signed (b <? 0)%Z r - b) = Z.abs (Z.of_N r - Z.of_N (Z.abs_N b)))%Z.
Proof. unfold signed. destruct (b <? 0)%Z eqn:E; lia. Qed.

Lemma human_small_pf other b : Z.abs_N b < 1024 -> parse other (print b) [] = Ok b.
Proof.
  intros H. unfold print. rewrite (proj2 (Z.eqb_neq b (- 2 ^ 63))) by lia. rewrite (proj2 (N.ltb_lt _ _) H).
  destruct (show_spec (Z.abs_N b)) as (D & NE & V).
  change (if (b <? 0)%Z then [45] else []) with (sign (b <? 0)%Z).
  rewrite (human_exact_pf other (b <? 0)%Z (show (Z.abs_N b)) [66] 0 NE D); rewrite ?V, ?N.pow_0_r, ?N.mul_1_r.
  - now rewrite signed_abs.
  - apply SByte. now left.
  - lia.
  - lia.
  - left. lia.
Qed.
Lemma human_roundtrip_pf other b : (Z.abs b <= 2 ^ 63 - 2 ^ 57)%Z ->
  exists b', parse other (print b) [] = Ok b' /\ (16 * Z.abs (b' - b) <= Z.abs b)%Z.
Proof.
  intros Hb. destruct (N.lt_ge_cases (Z.abs_N b) 1024) as [S|S].
  { exists b. split; [now apply human_small_pf|]. lia. }
  destruct (shrink 6 (Z.abs_N b) 0) as [m u] eqn:E. rewrite (print_big b m u) by (auto; lia).
  destruct (shrink_spec 6 _ _ _ _ S E) as (j & Ej & J & (B1 & B2) & M & T). cbn in Ej. subst j.
  assert (U5 : (u <= 5)%nat).
  { destruct (Nat.eq_dec u 6) as [-> |]; [|lia]. change (1024 ^ N.of_nat 6) with 1152921504606846976 in B1. lia. }
  specialize (T ltac:(lia)). set (n := Z.abs_N b) in *. set (W := 1024 ^ N.of_nat u) in *.
  set (p := if (u =? 0)%nat then 10 else 100).
  assert (Hp : p = 10 \/ p = 100) by (unfold p; destruct (u =? 0)%nat; auto).
  destruct (fixed_spec m p Hp) as (w & f & wf & -> & NE & D & F & V & L).
  assert (Hs : suffix [letter u; 105; 66] (N.of_nat u + 1)) by (apply SUnitIB; [now apply letter_unit|now left]).
  rewrite <- app_assoc. pose proof (human_close_pf other (b <? 0)%Z w f wf _ _ NE D F Hs) as C. cbv zeta in C. rewrite V, L in C.
  set (t := rne (m * p) 1024) in *.
  pose proof (rne_err (m * p) 1024 ltac:(lia)) as R. fold t in R.
  replace (1024 ^ (N.of_nat u + 1)) with (1024 * W) in C by (rewrite N.pow_add_r, N.pow_1_r; apply N.mul_comm).
  assert (HW : 1 <= W). { pose proof (N.pow_nonzero 1024 (N.of_nat u) ltac:(lia)). fold W in H. lia. }
  assert (HW2 : W <= 2 ^ 50). { unfold W. rewrite pow1024. apply N.pow_le_mono_r; lia. }
  set (V' := t * (1024 * W)) in *.
  (* the printed number, in bytes times p *)
  assert (E1 : (2 * Z.abs (Z.of_N V' - Z.of_N (m * W * p)) <= 1024 * Z.of_N W)%Z).
  { unfold V'. replace (t * (1024 * W)) with (W * (t * 1024)) by lia. replace (m * W * p) with (W * (m * p)) by lia.
    revert R. generalize (t * 1024) (m * p). intros x y R. rewrite !N2Z.inj_mul, <- Z.mul_sub_distr_l, Z.abs_mul.
    rewrite (Z.abs_eq (Z.of_N W)) by lia. apply (Z.mul_le_mono_nonneg_l _ _ (Z.of_N W)) in R; [|lia]. lia. }
  assert (Hn : Z.of_N n = Z.abs b) by (unfold n; lia).
  assert (MW : m * W = n \/ p = 100).
  { unfold p. destruct (u =? 0)%nat eqn:Q; auto. left. apply Nat.eqb_eq in Q. subst u. change W with 1 in *. lia. }
  assert (MW2 : n < m * W + W) by lia. assert (MW3 : 1024 * W <= n) by (clear - B1 M; nia).
  destruct C as (r & -> & C).
  { clear - E1 Hb Hn B1 MW2 HW2 Hp. change (2 ^ 63 - 2 ^ 11) with 9223372036854773760. change (2 ^ 63 - 2 ^ 57)%Z with 9079256848778919936%Z in Hb. change (2 ^ 50) with 1125899906842624 in HW2.
    revert E1 B1 MW2. generalize V' (m * W). intros v mw E1 B1 MW2. destruct Hp as [-> | ->]; lia. }
  exists (signed (b <? 0)%Z r). split; auto. rewrite signed_dist, <- Hn. fold n.
  change (2 ^ 50)%Z with 1125899906842624%Z in C. change (2 ^ 49)%Z with 562949953421312%Z in C.
  assert (Hn2 : n <= 9079256848778919936). { change (2 ^ 63 - 2 ^ 57)%Z with 9079256848778919936%Z in Hb. lia. }
  clear - C E1 MW MW2 MW3 B1 HW Hp Hn2.
  revert C E1 MW MW2 B1. generalize V' (m * W). intros v mw C E1 MW MW2 B1.
  destruct Hp as [-> | ->].
  - destruct MW as [-> |MW]; [|discriminate].
    assert (n < W + n) by lia. assert (W <= 1125899906842624 * W) by lia.
    lia.
  - lia.
Qed.

Lemma human_print_exact_pf other neg n k : 0 < n < 1024 -> n * 1024 ^ k < 2 ^ 63 ->
  parse other (print (signed neg (n * 1024 ^ k))) [] = Ok (signed neg (n * 1024 ^ k)).
Proof.
  intros Hn Hv. destruct (N.eq_dec k 0) as [-> |K].
  { apply human_small_pf. rewrite N.pow_0_r, N.mul_1_r in *. unfold signed. destruct neg; lia. }
  set (v := n * 1024 ^ k) in *. set (b := signed neg v).
  assert (A : Z.abs_N b = v) by (unfold b, signed; destruct neg; lia).
  assert (Kp : 1024 ^ k = 1024 * 1024 ^ (k - 1)). { rewrite <- N.pow_succ_r'. f_equal. lia. }
  assert (P1 : 1 <= 1024 ^ (k - 1)). { pose proof (N.pow_nonzero 1024 (k - 1) ltac:(lia)). lia. }
  assert (S0 : 1024 <= v) by (unfold v; rewrite Kp; clear - Hn P1; nia).
  assert (K6 : k <= 6).
  { destruct (N.le_gt_cases k 6); auto. exfalso.
    assert (1024 ^ 7 <= 1024 ^ k) by (apply N.pow_le_mono_r; lia). change (1024 ^ 7) with 1180591620717411303424 in H0.
    unfold v in Hv. change (2 ^ 63) with 9223372036854775808 in Hv. clear - H0 Hv Hn. nia. }
  assert (Hs : shrink 6 v 0 = (n * 1024, N.to_nat (k - 1))).
  { unfold v. assert (C : k = 1 \/ k = 2 \/ k = 3 \/ k = 4 \/ k = 5 \/ k = 6) by lia.
    assert (G : forall f x u, x < 1048576 -> shrink f x u = (x, u)).
    { intros [|f] x u X; auto. cbn [shrink]. change (1024 * 1024) with 1048576. now rewrite (proj2 (N.leb_gt _ _) X). }
    assert (G2 : forall f j u, shrink (S f) (n * 1024 ^ (j + 2)) u = shrink f (n * 1024 ^ (j + 1)) (Datatypes.S u)).
    { intros f j u. cbn [shrink]. change (1024 * 1024) with 1048576.
      assert (Q : n * 1024 ^ (j + 2) = n * 1024 ^ (j + 1) * 1024). { replace (j + 2) with (N.succ (j + 1)) by lia. rewrite N.pow_succ_r'. lia. }
      assert (Q2 : 1048576 <= n * 1024 ^ (j + 2)).
      { rewrite N.pow_add_r. change (1024 ^ 2) with 1048576. pose proof (N.pow_nonzero 1024 j ltac:(lia)). assert (1 <= 1024 ^ j) by lia. clear - Hn H0. nia. }
      rewrite (proj2 (N.leb_le _ _) Q2). rewrite Q, N.div_mul by lia. reflexivity. }
    assert (G3 : forall f u, shrink f (n * 1024 ^ (0 + 1)) u = (n * 1024, u)).
    { intros f u. change (1024 ^ (0 + 1)) with 1024. apply G. lia. }
    destruct C as [-> |[-> |[-> |[-> |[-> | ->]]]]].
    - apply G3.
    - exact (eq_trans (G2 5%nat 0 0%nat) (G3 5%nat 1%nat)).
    - exact (eq_trans (G2 5%nat 1 0%nat) (eq_trans (G2 4%nat 0 1%nat) (G3 4%nat 2%nat))).
    - exact (eq_trans (G2 5%nat 2 0%nat) (eq_trans (G2 4%nat 1 1%nat) (eq_trans (G2 3%nat 0 2%nat) (G3 3%nat 3%nat)))).
    - exact (eq_trans (G2 5%nat 3 0%nat) (eq_trans (G2 4%nat 2 1%nat) (eq_trans (G2 3%nat 1 2%nat) (eq_trans (G2 2%nat 0 3%nat) (G3 2%nat 4%nat))))).
    - exact (eq_trans (G2 5%nat 4 0%nat) (eq_trans (G2 4%nat 3 1%nat) (eq_trans (G2 3%nat 2 2%nat) (eq_trans (G2 2%nat 1 3%nat) (eq_trans (G2 1%nat 0 4%nat) (G3 1%nat 5%nat)))))). }
  rewrite <- A in Hs, S0. rewrite (print_big b _ _) with (3 := Hs) by (auto; change (2 ^ 63) with 9223372036854775808 in Hv; unfold b, signed; destruct neg; lia).
  set (p := if (N.to_nat (k - 1) =? 0)%nat then 10 else 100).
  assert (Hp : p = 10 \/ p = 100) by (unfold p; destruct (_ =? 0)%nat; auto).
  destruct (fixed_spec (n * 1024) p Hp) as (w & f & wf & -> & NE & D & F & V & L).
  replace (n * 1024 * p) with (n * p * 1024) in V by lia. rewrite rne_mul in V by lia.
  assert (Hsf : suffix [letter (N.to_nat (k - 1)); 105; 66] k).
  { apply SUnitIB; [|now left]. replace k with (N.of_nat (N.to_nat (k - 1)) + 1) at 2 by lia. apply letter_unit. lia. }
  rewrite <- app_assoc. rewrite (human_exact_frac_pf other (b <? 0)%Z w f wf _ k n NE D F Hsf).
  - f_equal. fold v. rewrite <- A. apply signed_abs.
  - rewrite V, L. reflexivity.
  - change (2 ^ 53) with 9007199254740992. lia.
  - exact Hv.
  - right. fold v. unfold v. rewrite Kp. replace (n * (1024 * 1024 ^ (k - 1))) with (n * 512 * 1024 ^ (k - 1) * 2) by lia. apply N.mod_mul. lia.
Qed.
