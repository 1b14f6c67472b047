(** Proofs of C90. *)
From Coq Require Import Bool NArith List Lia ZifyBool ZifyN ZifyNat Btauto Arith.
Import ListNotations.
From Verif Require Import MurModel RngProof MurSpec.
Open Scope N_scope.

Lemma u32_lt : forall x, u32 x < 2 ^ 32. Proof. intros. apply N.mod_lt. discriminate. Qed.
Lemma mul_inj : forall c d x y, u32 (c * d) = 1 -> x < 2 ^ 32 -> y < 2 ^ 32 -> u32 (x * c) = u32 (y * c) -> x = y.
Proof.
  intros c d x y H Hx Hy E.
  assert (A : forall z, z < 2 ^ 32 -> u32 (u32 (z * c) * d) = z).
  { intros z Hz. unfold u32 in *. rewrite N.mul_mod_idemp_l by discriminate. rewrite <- N.mul_assoc.
    rewrite <- N.mul_mod_idemp_r by discriminate. rewrite H, N.mul_1_r. apply N.mod_small. exact Hz. }
  rewrite <- (A x Hx), <- (A y Hy), E. reflexivity.
Qed.
Lemma rotl_bit : forall x r i, x < 2 ^ 32 -> r <= 32 -> N.testbit (rotl32 x r) i = if i <? r then N.testbit x (i + (32 - r)) else if i <? 32 then N.testbit x (i - r) else false.
Proof.
  intros x r i Hx Hr. unfold rotl32, u32. rewrite <- N.land_ones, N.lor_spec, N.land_spec, N.shiftr_spec by lia.
  destruct (N.ltb_spec i r) as [L|L].
  - rewrite N.shiftl_spec_low by exact L. reflexivity.
  - rewrite N.shiftl_spec_high by lia. rewrite (lt_bit x 32 (i + (32 - r))) by (try exact Hx; lia). rewrite orb_false_r.
    destruct (N.ltb_spec i 32); [rewrite N.ones_spec_low by assumption; apply andb_true_r|rewrite N.ones_spec_high by assumption; apply andb_false_r].
Qed.
Lemma rotl_lt : forall x r, x < 2 ^ 32 -> r <= 32 -> rotl32 x r < 2 ^ 32.
Proof.
  intros x r Hx Hr. apply bit_lt. intros i Hi. rewrite rotl_bit by assumption. destruct (N.ltb_spec i r); [lia|]. destruct (N.ltb_spec i 32); [lia|reflexivity].
Qed.
Lemma rotl_inj : forall x y r, x < 2 ^ 32 -> y < 2 ^ 32 -> r <= 32 -> rotl32 x r = rotl32 y r -> x = y.
Proof.
  intros x y r Hx Hy Hr E. apply N.bits_inj. intros i. destruct (N.lt_ge_cases i 32) as [L|L]; [|rewrite (lt_bit x 32), (lt_bit y 32) by assumption; reflexivity].
  destruct (N.lt_ge_cases (i + r) 32) as [L2|L2].
  - apply (f_equal (fun z => N.testbit z (i + r))) in E. rewrite !rotl_bit in E by assumption.
    destruct (N.ltb_spec (i + r) r); [lia|]. destruct (N.ltb_spec (i + r) 32); [|lia]. replace (i + r - r) with i in E by lia. exact E.
  - apply (f_equal (fun z => N.testbit z (i + r - 32))) in E. rewrite !rotl_bit in E by assumption.
    destruct (N.ltb_spec (i + r - 32) r); [|lia]. replace (i + r - 32 + (32 - r)) with i in E by lia. exact E.
Qed.
Lemma lxor_inj : forall a b c, N.lxor a b = N.lxor a c -> b = c.
Proof. intros a b c H. apply (f_equal (N.lxor a)) in H. rewrite <- !N.lxor_assoc, N.lxor_nilpotent, !N.lxor_0_l in H. exact H. Qed.
Lemma lxor_inj_l : forall a b c, N.lxor b a = N.lxor c a -> b = c.
Proof. intros a b c H. rewrite (N.lxor_comm b), (N.lxor_comm c) in H. exact (lxor_inj a b c H). Qed.

Definition e1 : N := 0xdee13bb1.
Definition e2 : N := 0x56ed309b.
Definition e3 : N := 0xcccccccd.
Definition e4 : N := 0xa5cb9243.
Definition e5 : N := 0x7ed1b41d.
Lemma scramble_lt : forall k, scramble k < 2 ^ 32. Proof. intros. apply u32_lt. Qed.
Lemma scramble_inj : forall j k, j < 2 ^ 32 -> k < 2 ^ 32 -> scramble j = scramble k -> j = k.
Proof.
  intros j k Hj Hk H. unfold scramble in H. apply (mul_inj _ e2) in H; [|reflexivity|apply rotl_lt; [apply u32_lt|discriminate]|apply rotl_lt; [apply u32_lt|discriminate]].
  apply rotl_inj in H; [|apply u32_lt|apply u32_lt|discriminate]. apply (mul_inj _ e1) in H; [exact H|reflexivity|assumption|assumption].
Qed.
Lemma absorb_lt : forall h k, absorb h k < 2 ^ 32. Proof. intros. apply u32_lt. Qed.
Lemma add_inj : forall c x y, u32 (x + c) = u32 (y + c) -> u32 x = u32 y.
Proof.
  intros c x y H. unfold u32 in *. apply (f_equal (fun z => (z + (2 ^ 32 - c mod 2 ^ 32)) mod 2 ^ 32)) in H. rewrite !N.add_mod_idemp_l in H by discriminate.
  assert (Q : forall z, z + c + (2 ^ 32 - c mod 2 ^ 32) = z + (c / 2 ^ 32 + 1) * 2 ^ 32).
  { intros z. pose proof (N.div_mod c (2 ^ 32)). pose proof (N.mod_lt c (2 ^ 32)). lia. }
  rewrite !Q, !N.mod_add in H by discriminate. exact H.
Qed.
Lemma absorb_x : forall a b, a < 2 ^ 32 -> b < 2 ^ 32 -> u32 (rotl32 a 13 * 5 + 0xe6546b64) = u32 (rotl32 b 13 * 5 + 0xe6546b64) -> a = b.
Proof.
  intros a b Ha Hb H. apply add_inj in H. apply (mul_inj _ e3) in H; [|reflexivity|apply rotl_lt; [assumption|discriminate]|apply rotl_lt; [assumption|discriminate]].
  apply rotl_inj in H; [exact H|assumption|assumption|discriminate].
Qed.
Lemma absorb_inj_h : forall h h' k, h < 2 ^ 32 -> h' < 2 ^ 32 -> absorb h k = absorb h' k -> h = h'.
Proof. intros h h' k H H' E. apply absorb_x in E; try (apply lxor_lt; [assumption|apply scramble_lt]). exact (lxor_inj_l _ _ _ E). Qed.
Lemma absorb_inj_k : forall h j k, h < 2 ^ 32 -> j < 2 ^ 32 -> k < 2 ^ 32 -> absorb h j = absorb h k -> j = k.
Proof.
  intros h j k H Hj Hk E. apply absorb_x in E; try (apply lxor_lt; [assumption|apply scramble_lt]). apply lxor_inj in E. apply scramble_inj; assumption.
Qed.
Lemma xs_lt32 : forall k z, z < 2 ^ 32 -> xs k z < 2 ^ 32.
Proof. intros. apply lxor_lt; [assumption|]. apply shiftr_lt. assumption. Qed.
Lemma fmix_inj : forall a b, a < 2 ^ 32 -> b < 2 ^ 32 -> fmix a = fmix b -> a = b.
Proof.
  intros a b Ha Hb H. change (xs 16 (u32 (xs 13 (u32 (xs 16 a * 0x85ebca6b)) * 0xc2b2ae35)) = xs 16 (u32 (xs 13 (u32 (xs 16 b * 0x85ebca6b)) * 0xc2b2ae35))) in H.
  apply xs_inj in H; [|discriminate]. apply (mul_inj _ e5) in H; [|reflexivity|apply xs_lt32, u32_lt|apply xs_lt32, u32_lt].
  apply xs_inj in H; [|discriminate]. apply (mul_inj _ e4) in H; [|reflexivity|apply xs_lt32; assumption|apply xs_lt32; assumption].
  apply xs_inj in H; [exact H|discriminate].
Qed.
Lemma fmix_lt : forall a, fmix a < 2 ^ 32.
Proof. intros. unfold fmix. cbv zeta. apply (xs_lt32 16), u32_lt. Qed.

(** ** Reading *)
Lemma blocks_app : forall d a b i h, blocks d (a + b) i h = match blocks d a i h with Some h' => blocks d b (i + a) h' | None => None end.
Proof.
  intros d a. induction a as [|a IH]; intros b i h; cbn [blocks Nat.add]; [rewrite Nat.add_0_r; reflexivity|]. destruct (load d (4 * i)); [|reflexivity].
  rewrite IH. replace (S i + a)%nat with (i + S a)%nat by lia. reflexivity.
Qed.
Lemma blocks_ext : forall d d' n i h, (forall j, (4 * i <= j < 4 * (i + n))%nat -> nth_error d j = nth_error d' j) -> blocks d n i h = blocks d' n i h.
Proof.
  intros d d' n. induction n as [|n IH]; intros i h H; cbn [blocks]; [reflexivity|].
  replace (load d (4 * i)) with (load d' (4 * i)) by (unfold load; rewrite !H by lia; reflexivity). destruct (load d' (4 * i)); [|reflexivity]. apply IH. intros j Hj. apply H. lia.
Qed.
Lemma blocks_some : forall d n i h, h < 2 ^ 32 -> (4 * (i + n) <= length d)%nat -> exists r, blocks d n i h = Some r /\ r < 2 ^ 32.
Proof.
  intros d n. induction n as [|n IH]; intros i h Hh H; cbn [blocks]; [exists h; split; [reflexivity|exact Hh]|].
  assert (A : forall j, (j < length d)%nat -> exists b, nth_error d j = Some b). { intros j Hj. destruct (nth_error d j) eqn:E; [eexists; reflexivity|]. apply nth_error_None in E. lia. }
  unfold load. destruct (A (4 * i)%nat) as [a ->]; [lia|]. destruct (A (4 * i + 1)%nat) as [b ->]; [lia|]. destruct (A (4 * i + 2)%nat) as [c ->]; [lia|].
  destruct (A (4 * i + 3)%nat) as [e ->]; [lia|]. apply IH; [apply absorb_lt|lia].
Qed.
Lemma blocks_inj : forall d n i h h' r, h < 2 ^ 32 -> h' < 2 ^ 32 -> blocks d n i h = Some r -> blocks d n i h' = Some r -> h = h'.
Proof.
  intros d n. induction n as [|n IH]; intros i h h' r Hh Hh' E E'; cbn [blocks] in *; [congruence|]. destruct (load d (4 * i)) as [k|]; [|discriminate].
  apply (absorb_inj_h h h' k Hh Hh'). exact (IH (S i) _ _ r (absorb_lt h k) (absorb_lt h' k) E E').
Qed.
(** The tail is a fixed number, or absent. *)
Definition tword (d : list N) (nb : nat) : option N :=
  let rd j := nth_error d (4 * nb + j) in
  match Nat.modulo (length d) 4 with
  | 3%nat => match rd 2%nat, rd 1%nat, rd 0%nat with Some c, Some b, Some a => Some (scramble (N.lxor (N.lxor (N.shiftl c 16) (N.shiftl b 8)) a)) | _, _, _ => None end
  | 2%nat => match rd 1%nat, rd 0%nat with Some b, Some a => Some (scramble (N.lxor (N.shiftl b 8) a)) | _, _ => None end
  | 1%nat => match rd 0%nat with Some a => Some (scramble a) | None => None end
  | _ => Some 0
  end.
Lemma tail_word : forall d nb h, tail d nb h = match tword d nb with Some w => Some (N.lxor h w) | None => None end.
Proof.
  intros d nb h. unfold tail, tword. cbv zeta.
  destruct (length d mod 4)%nat as [|[|[|[|]]]]; try (rewrite N.lxor_0_r; reflexivity); repeat match goal with |- context [nth_error ?l ?j] => destruct (nth_error l j) end; reflexivity.
Qed.
Lemma tword_some : forall d, exists w, tword d (length d / 4) = Some w /\ w < 2 ^ 32.
Proof.
  intros d. pose proof (Nat.div_mod (length d) 4). pose proof (Nat.mod_upper_bound (length d) 4).
  assert (A : forall j, (j < length d)%nat -> exists b, nth_error d j = Some b). { intros j Hj. destruct (nth_error d j) eqn:E; [eexists; reflexivity|]. apply nth_error_None in E. lia. }
  unfold tword. cbv zeta. set (nb := (length d / 4)%nat) in *. destruct (length d mod 4)%nat as [|[|[|[|]]]] eqn:E.
  - exists 0. split; reflexivity.
  - destruct (A (4 * nb + 0)%nat) as [a ->]; [lia|]. eexists. split; [reflexivity|apply scramble_lt].
  - destruct (A (4 * nb + 0)%nat) as [a ->]; [lia|]. destruct (A (4 * nb + 1)%nat) as [b ->]; [lia|]. eexists. split; [reflexivity|apply scramble_lt].
  - destruct (A (4 * nb + 0)%nat) as [a ->]; [lia|]. destruct (A (4 * nb + 1)%nat) as [b ->]; [lia|]. destruct (A (4 * nb + 2)%nat) as [c ->]; [lia|].
    eexists. split; [reflexivity|apply scramble_lt].
  - lia.
Qed.
Lemma murmur_eq : forall d s, s < 2 ^ 32 -> exists h w, blocks d (length d / 4) 0 s = Some h /\ h < 2 ^ 32 /\ tword d (length d / 4) = Some w /\ w < 2 ^ 32 /\
  Murmur d s = Some (fmix (N.lxor (N.lxor h w) (N.of_nat (length d)))).
Proof.
  intros d s Hs. pose proof (Nat.div_mod (length d) 4). destruct (blocks_some d (length d / 4) 0 s Hs) as (h & E & Hh); [lia|]. destruct (tword_some d) as (w & W & Hw).
  exists h, w. repeat split; try assumption. unfold Murmur. rewrite E, tail_word, W. reflexivity.
Qed.
Theorem murmur_safe_pf : forall d s, s < 2 ^ 32 -> exists h, Murmur d s = Some h /\ h < 2 ^ 32.
Proof. intros d s Hs. destruct (murmur_eq d s Hs) as (h & w & _ & _ & _ & _ & ->). eexists. split; [reflexivity|apply fmix_lt]. Qed.
Theorem murmur_seed_pf : forall d s s', fits d -> s < 2 ^ 32 -> s' < 2 ^ 32 -> Murmur d s = Murmur d s' -> s = s'.
Proof.
  intros d s s' Hd Hs Hs' E. destruct (murmur_eq d s Hs) as (h & w & B & Hh & W & Hw & M). destruct (murmur_eq d s' Hs') as (h' & w' & B' & Hh' & W' & Hw' & M').
  rewrite M, M' in E. injection E as E. rewrite W in W'. injection W' as <-. apply fmix_inj in E; try (repeat apply lxor_lt; assumption).
  apply lxor_inj_l, lxor_inj_l in E. subst h'. exact (blocks_inj d _ _ s s' h Hs Hs' B B').
Qed.
Lemma lor4 : forall a b c d a' b' c' d', a < 256 -> b < 256 -> c < 256 -> a' < 256 -> b' < 256 -> c' < 256 ->
  a + 256 * (b + 256 * (c + 256 * d)) = a' + 256 * (b' + 256 * (c' + 256 * d')) -> a = a' /\ b = b' /\ c = c' /\ d = d'.
Proof. intros. lia. Qed.
Lemma sh_add : forall a b k, a < 2 ^ k -> N.lxor (N.shiftl b k) a = b * 2 ^ k + a.
Proof.
  intros a b k H. rewrite N.shiftl_mul_pow2. assert (E : N.land (b * 2 ^ k) a = 0).
  { apply N.bits_inj. intros i. rewrite N.land_spec, N.bits_0, <- N.shiftl_mul_pow2. destruct (N.lt_ge_cases i k) as [L|L]; [rewrite N.shiftl_spec_low by exact L; reflexivity|].
    rewrite (lt_bit a k i H L). apply andb_false_r. }
  symmetry. apply N.add_nocarry_lxor. exact E.
Qed.
Theorem murmur_block_pf : forall p x y q s, bytes x -> bytes y -> fits (p ++ x ++ q) -> s < 2 ^ 32 -> Nat.modulo (length p) 4 = 0%nat -> length x = length y ->
  (length x = 4%nat \/ (length x < 4)%nat /\ q = []) -> Murmur (p ++ x ++ q) s = Murmur (p ++ y ++ q) s -> x = y.
Proof.
  intros p x y q s Bx By F Hs Hp Hl Hc E.
  destruct (murmur_eq (p ++ x ++ q) s Hs) as (h & w & B & Hh & W & Hw & M). destruct (murmur_eq (p ++ y ++ q) s Hs) as (h' & w' & B' & Hh' & W' & Hw' & M').
  rewrite M, M' in E. injection E as E.
  assert (L : length (p ++ y ++ q) = length (p ++ x ++ q)) by (rewrite !app_length; lia). rewrite L in *. set (len := length (p ++ x ++ q)) in *.
  apply fmix_inj in E; try (repeat apply lxor_lt; assumption). apply lxor_inj_l in E.
  assert (Rp : forall j, (j < length p)%nat -> nth_error (p ++ x ++ q) j = nth_error (p ++ y ++ q) j). { intros j Hj. rewrite !nth_error_app1 by exact Hj. reflexivity. }
  assert (Rq : forall j, (length p + length x <= j)%nat -> nth_error (p ++ x ++ q) j = nth_error (p ++ y ++ q) j).
  { intros j Hj. rewrite !(nth_error_app2 p) by lia. rewrite !nth_error_app2 by lia. rewrite Hl. reflexivity. }
  assert (Rx : forall j, (j < length x)%nat -> nth_error (p ++ x ++ q) (length p + j) = nth_error x j /\ nth_error (p ++ y ++ q) (length p + j) = nth_error y j).
  { intros j Hj. rewrite !(nth_error_app2 p) by lia. replace (length p + j - length p)%nat with j by lia. rewrite !nth_error_app1 by lia. split; reflexivity. }
  pose proof (Nat.div_mod len 4). pose proof (Nat.mod_upper_bound len 4). pose proof (Nat.div_mod (length p) 4). set (a := (length p / 4)%nat) in *. set (nb := (len / 4)%nat) in *.
  assert (Len : len = (length p + length x + length q)%nat) by (unfold len; rewrite !app_length; lia).
  destruct Hc as [Hx | [Hx ->]].
  - assert (w = w').
    { unfold tword in W, W'. cbv zeta in W, W'. fold len in W. rewrite L in W'. rewrite !Rq in W by lia. rewrite W in W'. injection W' as <-. reflexivity. }
    subst w'. apply lxor_inj_l in E. subst h'. replace nb with (a + S (nb - a - 1))%nat in B, B' by lia. rewrite blocks_app in B, B'.
    rewrite (blocks_ext (p ++ y ++ q) (p ++ x ++ q) a 0) in B' by (intros j Hj; symmetry; apply Rp; lia).
    destruct (blocks_some (p ++ x ++ q) a 0 s Hs) as (g & G & Hg); [fold len; lia|]. rewrite G in B, B'. cbn [blocks Nat.add] in B, B'.
    destruct x as [|x0 [|x1 [|x2 [|x3 [|]]]]]; try discriminate Hx. destruct y as [|y0 [|y1 [|y2 [|y3 [|]]]]]; try discriminate Hl.
    unfold load in B, B'. replace (4 * a)%nat with (length p + 0)%nat in B, B' by lia.
    rewrite <- !Nat.add_assoc in B, B'. cbn [Nat.add] in B, B'.
    destruct (Rx 0%nat) as [X0 Y0]; [cbn; lia|]. destruct (Rx 1%nat) as [X1 Y1]; [cbn; lia|]. destruct (Rx 2%nat) as [X2 Y2]; [cbn; lia|]. destruct (Rx 3%nat) as [X3 Y3]; [cbn; lia|].
    rewrite X0, X1, X2, X3 in B. rewrite Y0, Y1, Y2, Y3 in B'. cbn [nth_error] in B, B'.
    rewrite (blocks_ext (p ++ [y0; y1; y2; y3] ++ q) (p ++ [x0; x1; x2; x3] ++ q)) in B' by (intros j Hj; symmetry; apply Rq; cbn [length] in *; lia).
    unfold bytes in Bx, By. repeat match goal with H : Forall _ (_ :: _) |- _ => inversion H; clear H; subst end. cbv beta in *.
    pose proof (blocks_inj _ _ _ _ _ _ (absorb_lt _ _) (absorb_lt _ _) B B') as Q. change (2 ^ 32) with 4294967296 in *.
    apply (absorb_inj_k g) in Q; [|exact Hg|change (2 ^ 32) with 4294967296; lia|change (2 ^ 32) with 4294967296; lia].
    apply lor4 in Q; try assumption. destruct Q as (-> & -> & -> & ->). reflexivity.
  - assert (Nb : nb = a). { cbn [length] in Len. lia. }
    assert (h = h'). { rewrite (blocks_ext (p ++ x ++ []) (p ++ y ++ [])) in B by (intros j Hj; apply Rp; lia). rewrite B in B'. injection B' as <-. reflexivity. }
    subst h'. apply lxor_inj in E. subst w'. unfold tword in W, W'. cbv zeta in W, W'. fold len in W. rewrite L in W'.
    assert (Md : (len mod 4)%nat = length x). { cbn [length] in Len. lia. }
    rewrite Md in W, W'. rewrite Nb in W, W'. replace (4 * a)%nat with (length p) in W, W' by lia.
    unfold bytes in Bx, By.
    destruct x as [|x0 [|x1 [|x2 [|]]]]; [| | | |cbn [length] in Hx; lia]; destruct y as [|y0 [|y1 [|y2 [|]]]]; try discriminate Hl; cbn [length] in W, W'.
    + reflexivity.
    + destruct (Rx 0%nat) as [X0 Y0]; [cbn; lia|]. rewrite X0 in W. rewrite Y0 in W'. cbn [nth_error] in W, W'.
      repeat match goal with H : Forall _ (_ :: _) |- _ => inversion H; clear H; subst end. rewrite <- W' in W. injection W as W.
      apply scramble_inj in W; [subst; reflexivity|change (2 ^ 32) with 4294967296; lia|change (2 ^ 32) with 4294967296; lia].
    + destruct (Rx 0%nat) as [X0 Y0]; [cbn; lia|]. destruct (Rx 1%nat) as [X1 Y1]; [cbn; lia|]. rewrite X0, X1 in W. rewrite Y0, Y1 in W'. cbn [nth_error] in W, W'.
      repeat match goal with H : Forall _ (_ :: _) |- _ => inversion H; clear H; subst end. rewrite <- W' in W. injection W as W. cbv beta in *.
      rewrite !(sh_add _ _ 8) in W by assumption. change (2 ^ 8) with 256 in W.
      apply scramble_inj in W; [|change (2 ^ 32) with 4294967296; lia|change (2 ^ 32) with 4294967296; lia].
      assert (x0 = y0 /\ x1 = y1) as [-> ->] by lia. reflexivity.
    + destruct (Rx 0%nat) as [X0 Y0]; [cbn; lia|]. destruct (Rx 1%nat) as [X1 Y1]; [cbn; lia|]. destruct (Rx 2%nat) as [X2 Y2]; [cbn; lia|].
      rewrite X0, X1, X2 in W. rewrite Y0, Y1, Y2 in W'. cbn [nth_error] in W, W'.
      repeat match goal with H : Forall _ (_ :: _) |- _ => inversion H; clear H; subst end. rewrite <- W' in W. injection W as W. cbv beta in *.
      rewrite !N.lxor_assoc, !(sh_add _ _ 8) in W by assumption. change (2 ^ 8) with 256 in W.
      rewrite !(sh_add _ _ 16) in W by (change (2 ^ 16) with 65536; lia). change (2 ^ 16) with 65536 in W.
      apply scramble_inj in W; [|change (2 ^ 32) with 4294967296; lia|change (2 ^ 32) with 4294967296; lia].
      assert (x0 = y0 /\ x1 = y1 /\ x2 = y2) as (-> & -> & ->) by lia. reflexivity.
Qed.
Theorem fingerprint_pf : forall x, Fingerprint x <> 0 /\ Fingerprint x <> 1 /\ (1 < x -> Fingerprint x = x).
Proof. intros x. unfold Fingerprint. destruct (N.ltb_spec 1 x); repeat split; lia. Qed.
