(** C78: division by multiplication; the buckets of the map; the next prime. *)
From Verif Require Import Util LibdivModel LibdivSpec LibdivProof LibdivBucket.
From Verif Require CuckooModel.
Local Open Scope N_scope.

(** ** Every divisor but 0, every number. [wide64 f lim]: [f] is the wide division of the build, defined for divisors below [lim]
    ([div_asm] on x86, [divlu] elsewhere); [mul64]: the high half of the product with or without 128-bit integers. *)
Theorem div_u64 : forall f lim mul d, wide64 f lim -> mul64 mul -> 0 < d -> d < lim ->
  exists s, gen 64 f d = Some s /\ forall n, n < 2 ^ 64 -> do_div 64 mul n s = n / d.
Proof. exact div_u64_pf. Qed.
Print Assumptions div_u64.
Theorem div_u32 : forall d, 0 < d -> d < 2 ^ 32 ->
  exists s, gen 32 (div_asm 32) d = Some s /\ forall n, n < 2 ^ 32 -> do_div 32 mullhi_u32 n s = n / d.
Proof. exact div_u32_pf. Qed.
Print Assumptions div_u32.
(** The algorithm of get_algorithm gives the same. *)
Theorem div_alg : forall w mul n s, match get_algorithm s with 0 => do_alg0 w n s | 1 => do_alg1 mul n s | _ => do_alg2 w mul n s end = do_div w mul n s.
Proof. exact div_alg_pf. Qed.
Print Assumptions div_alg.
(** The portable helpers, for all operands. *)
Theorem div_mullhi : forall x y, x < 2 ^ 64 -> y < 2 ^ 64 -> mullhi_u64 x y = x * y / 2 ^ 64.
Proof. exact mullhi_u64_ok. Qed.
Print Assumptions div_mullhi.
Theorem div_wide_partial : forall u1 u0 v, u1 < v -> u0 < 2 ^ 64 -> v < 2 ^ 63 ->
  divlu u1 u0 v = Some ((u1 * 2 ^ 64 + u0) / v, (u1 * 2 ^ 64 + u0) mod v).
Proof. exact divlu_ok. Qed.
Print Assumptions div_wide_partial.
Example div_met : exists s t u, gen 64 (div_asm 64) 7 = Some s /\ get_algorithm s = 2 /\ do_div 64 mullhi_u64 1000 s = 142 /\
  gen 64 divlu 10 = Some t /\ get_algorithm t = 1 /\ do_div 64 mullhi_u64 (2 ^ 64 - 1) t = 1844674407370955161 /\
  gen 64 divlu 64 = Some u /\ get_algorithm u = 0 /\ do_div 64 mullhi_u64 1000 u = 15.
Proof. do 3 eexists. repeat apply conj; vm_compute; reflexivity. Qed.
(** FINDING. Elsewhere than on x86, a divisor of 2^63 or more that is not a power of two is undefined (a shift by 64). *)
Theorem div_u64_refuted : forall d, 2 ^ 63 <= d -> d < 2 ^ 64 -> ~ power_of_two d -> gen 64 divlu d = None.
Proof.
  intros d L H Np. assert (D : 0 < d) by (apply (N.lt_le_trans _ (2 ^ 63)); [reflexivity|exact L]). unfold gen, wr.
  assert (K : N.log2 d = 63) by (apply N.log2_unique; [lia|split; assumption]).
  assert (E1 : (d + 2 ^ 64 - 1) mod 2 ^ 64 = d - 1). { replace (d + 2 ^ 64 - 1) with (d - 1 + 1 * 2 ^ 64) by lia. rewrite N.mod_add by discriminate. apply N.mod_small. lia. }
  rewrite E1. destruct (N.eqb_spec (N.land d (d - 1)) 0) as [Z|_]; [apply pow_test in Z; [|exact D]; exfalso; apply Np; now exists (N.log2 d)|].
  assert (C : clz 64 d = Some 0) by (unfold clz; destruct d; [discriminate D|]; rewrite K; reflexivity). rewrite C. change (64 - 1 - 0) with 63.
  unfold divlu. destruct (N.leb_spec d (2 ^ 63)) as [X|X]; [exfalso; apply Np; exists 63; apply N.le_antisymm; assumption|]. rewrite C. reflexivity.
Qed.
Print Assumptions div_u64_refuted.

(** ** Buckets: for every number of buckets the map can have (what GetPrimeNotLessThan returns for 16 or more, in 32 bits), FromHash is the
    remainder, for every hash. *)
Theorem bucket_mod : forall f lim fuel v count, wide64 f lim -> 16 <= v -> get_prime fuel v = Some count -> count < 2 ^ 32 ->
  exists s, gen 64 f count = Some s /\ forall h, h < 2 ^ 64 -> from_hash s count h = h mod count.
Proof.
  intros f lim fuel v count W V G L. destruct (not_pow fuel v count ltac:(lia) G) as [P Np]. apply (bucket_pf f lim); auto; [lia| ]. destruct W; apply (N.lt_trans _ _ _ L); reflexivity.
Qed.
Print Assumptions bucket_mod.
Lemma lxor_64 a b : a < 2 ^ 64 -> b < 2 ^ 64 -> N.lxor a b < 2 ^ 64.
Proof.
  intros A B. destruct (N.eq_dec (N.lxor a b) 0) as [->|Z]; [reflexivity|]. apply N.log2_lt_pow2; [lia|]. apply (N.le_lt_trans _ _ _ (N.log2_lxor a b)).
  assert (X : forall x, x < 2 ^ 64 -> N.log2 x < 64) by (intros x Hx; destruct (N.eq_dec x 0) as [->|]; [reflexivity|apply N.log2_lt_pow2; [lia|exact Hx]]).
  apply N.max_lub_lt; auto.
Qed.
(** So the buckets of a key are those of the model of the map (C33). *)
Theorem bucket_cuckoo : forall f lim fuel v count, wide64 f lim -> 16 <= v -> get_prime fuel v = Some count -> count < 2 ^ 32 ->
  exists s, gen 64 f count = Some s /\ forall k, k < 2 ^ 64 ->
    N.of_nat (CuckooModel.hash CuckooModel.kMask1 (N.to_nat count) k) = from_hash s count (N.lxor CuckooModel.kMask1 k) /\
    N.of_nat (CuckooModel.hash CuckooModel.kMask2 (N.to_nat count) k) = from_hash s count (N.lxor CuckooModel.kMask2 k).
Proof.
  intros f lim fuel v count W V G L. destruct (bucket_mod f lim fuel v count W V G L) as (s & E & H). exists s. split; [exact E|]. intros k K. unfold CuckooModel.hash.
  rewrite !N2Nat.id. split; symmetry; apply H; apply lxor_64; auto; reflexivity.
Qed.
Print Assumptions bucket_cuckoo.
Example bucket_met : get_prime 20 16 = Some 17 /\ exists s, gen 64 divlu 17 = Some s /\ from_hash s 17 (2 ^ 64 - 1) = 0 /\ from_hash s 17 100 = 15.
Proof. split; [reflexivity|]. eexists. repeat apply conj; vm_compute; reflexivity. Qed.
(** The number must not be a power of two: 32 would go to bucket 16 of 16. *)
Example bucket_power : exists s, gen 64 divlu 16 = Some s /\ from_hash s 16 32 = 16.
Proof. eexists. split; vm_compute; reflexivity. Qed.

(** FINDING. Reserve() of an empty map takes the number of buckets in 32 bits, without the minimum of 16: for 2^34 entries it makes one
    bucket, for which FromHash is wrong: every key but a few goes outside of the table. *)
Theorem bucket_reserve_refuted : exists s, reserve_count 5 (2 ^ 34) = Some 1 /\ gen 64 (div_asm 64) 1 = Some s /\ from_hash s 1 4 = 2.
Proof. eexists. repeat apply conj; vm_compute; reflexivity. Qed.
Print Assumptions bucket_reserve_refuted.

(** ** GetPrimeNotLessThan. Full statement: for every v, it returns the least prime that is at least v. Missing: v of 0, 1, 2 (it returns
    1, 1, 3), and results of 65535 * 65535 or more, where the bound of the loop wraps around. *)
Theorem prime_partial : forall fuel v p, 3 <= v -> get_prime fuel v = Some p -> p < 65535 * 65535 -> next_prime v p.
Proof. exact next_prime_pf. Qed.
Print Assumptions prime_partial.
Theorem prime_returns_partial : forall v q, 3 <= v -> v <= q -> prime q -> q < 65535 * 65535 -> exists fuel p, get_prime fuel v = Some p /\ p <= q.
Proof. exact next_prime_returns_pf. Qed.
Print Assumptions prime_returns_partial.
Example prime_met : get_prime 40 114 = Some 127 /\ get_prime 10 3 = Some 3 /\ prime 3.
Proof. repeat split; try reflexivity. intros d D. pose proof (divides_le d 3 eq_refl D). destruct D as [k E]. assert (d = 0 \/ d = 1 \/ d = 2 \/ d = 3) as [->|[->|[->| ->]]] by lia; lia. Qed.
(** FINDING. From 2^32 on it never returns. *)
Theorem prime_refuted : forall fuel v, 2 ^ 32 <= v -> get_prime fuel v = None.
Proof. exact next_prime_hangs_pf. Qed.
Print Assumptions prime_refuted.
Theorem prime_small_refuted : exists v p, get_prime 5 v = Some p /\ ~ next_prime v p.
Proof. exists 2, 3. split; [reflexivity|]. intros (_ & _ & H). assert (X : prime 2). { split; [reflexivity|]. intros d D. pose proof (divides_le d 2 eq_refl D). destruct D as [k E]. assert (d = 0 \/ d = 1 \/ d = 2) as [->|[->| ->]] by lia; lia. } specialize (H 2 ltac:(lia) X). lia. Qed.
Print Assumptions prime_small_refuted.
