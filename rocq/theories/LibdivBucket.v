From Verif Require Import Util LibdivModel LibdivSpec LibdivProof.
Local Open Scope N_scope.

(** ** Dividers for the compiled code *)
Inductive wide64 : (N -> N -> N -> option (N * N)) -> N -> Prop :=
| w_asm : wide64 (div_asm 64) (2 ^ 64)
| w_c : wide64 divlu (2 ^ 63).
Lemma wide64_ok f lim d : wide64 f lim -> 0 < d -> d < lim -> wide_ok 64 f d /\ d < 2 ^ 64.
Proof. intros [] D L; (split; [|(exact L || (apply (N.lt_trans _ _ _ L); reflexivity))]); [now apply asm_ok|now apply divlu_wide]. Qed.
Inductive mul64 : (N -> N -> N) -> Prop := m_128 : mul64 mullhi_u64_128 | m_c : mul64 mullhi_u64.
Lemma mul64_ok f : mul64 f -> forall x y, x < 2 ^ 64 -> y < 2 ^ 64 -> f x y = x * y / 2 ^ 64.
Proof. intros [] x y Hx Hy; [now apply mullhi_128_ok|now apply mullhi_u64_ok]. Qed.
Theorem div_u64_pf f lim mul d : wide64 f lim -> mul64 mul -> 0 < d -> d < lim -> exists s, gen 64 f d = Some s /\ forall n, n < 2 ^ 64 -> do_div 64 mul n s = n / d.
Proof.
  intros W M D L. destruct (wide64_ok _ _ _ W D L) as [Wd L']. destruct (gen_made 64 (or_intror eq_refl) f d D L' Wd) as (s & E & Hm). exists s. split; [exact E|].
  intros n Hn. exact (do_ok 64 (or_intror eq_refl) mul (mul64_ok _ M) d s n D Hm Hn).
Qed.
Theorem div_u32_pf d : 0 < d -> d < 2 ^ 32 -> exists s, gen 32 (div_asm 32) d = Some s /\ forall n, n < 2 ^ 32 -> do_div 32 mullhi_u32 n s = n / d.
Proof.
  intros D L. destruct (gen_made 32 (or_introl eq_refl) (div_asm 32) d D L (asm_ok 32 d D)) as (s & E & Hm). exists s. split; [exact E|].
  intros n Hn. exact (do_ok 32 (or_introl eq_refl) mullhi_u32 mullhi_u32_ok d s n D Hm Hn).
Qed.
(** The algorithm by its number. *)
Definition by_alg (w : N) (mul : N -> N -> N) (n : N) (s : divider) : N := match get_algorithm s with 0 => do_alg0 w n s | 1 => do_alg1 mul n s | _ => do_alg2 w mul n s end.
Theorem div_alg_pf w mul n s : by_alg w mul n s = do_div w mul n s.
Proof. unfold by_alg, get_algorithm, do_div, do_alg0, do_alg1, do_alg2. destruct (N.land (more s) SHIFT_PATH =? 0); cbn [negb]; [|reflexivity]. destruct (N.land (more s) ADD_MARKER =? 0); reflexivity. Qed.
Lemma pow_log d : d <> 2 ^ N.log2 d -> ~ power_of_two d.
Proof. intros H (k & ->). apply H. now rewrite N.log2_pow2 by lia. Qed.
Theorem bucket_pf f lim count : wide64 f lim -> 0 < count -> count < lim -> count < 2 ^ 32 -> ~ power_of_two count ->
  exists s, gen 64 f count = Some s /\ forall h, h < 2 ^ 64 -> from_hash s count h = h mod count.
Proof.
  intros W D L L32 Np. destruct (wide64_ok _ _ _ W D L) as [Wd L']. destruct (gen_made 64 (or_intror eq_refl) f count D L' Wd) as (s & E & Hm). exists s. split; [exact E|]. intros h Hh.
  assert (P : (if get_algorithm s =? 1 then do_alg1 mullhi_u64 h s else do_alg2 64 mullhi_u64 h s) = h / count).
  { rewrite <- (do_ok 64 (or_intror eq_refl) mullhi_u64 mullhi_u64_ok count s h D Hm Hh), <- div_alg_pf. unfold by_alg.
    rewrite (alg_made 64 (or_intror eq_refl) count s Hm). destruct (N.eqb_spec count (2 ^ N.log2 count)) as [X|_]; [exfalso; apply Np; now exists (N.log2 count)|]. destruct (N.land (more s) 64 =? 0); reflexivity. }
  assert (Lm : h mod count < count) by (apply N.mod_lt; lia).
  assert (Sb : sub64 (h mod two64) (h / count * count) = h mod count) by (apply sub64_rem; [apply N.div_mod'|]; exact (N.lt_trans _ _ _ Lm L')).
  unfold from_hash. rewrite P. rewrite (N.mod_small h two64) in Sb by exact Hh. rewrite Sb. apply N.mod_small. exact (N.lt_trans _ _ _ Lm L32).
Qed.

(** ** Primes *)
Definition limit : N := 65535 * 65535.
Lemma divides_le d p : 0 < p -> (d | p) -> d <= p. Proof. intros P [k E]. subst p. assert (0 < k) by (destruct k; lia). nia. Qed.
Lemma mod_div a b : b <> 0 -> a mod b = 0 <-> (b | a). Proof. intros. apply N.mod_divide. assumption. Qed.
(** No divisor below [i] (other than 1). *)
Definition no_div (i val : N) : Prop := forall d, 1 < d -> d < i -> ~ (d | val).
Lemma loop_ok fuel : forall i val, val < limit -> i mod 2 = 1 -> 5 <= i -> i <= 65535 -> ~ (2 | val) -> no_div i val ->
  match prime_loop fuel i val with Some true => exists j, val < j * j /\ 1 < j /\ no_div j val | Some false => exists j, (j | val) /\ 1 < j /\ j * j <= val | None => True end.
Proof.
  induction fuel as [|fuel IH]; intros i val L O I5 I6 N2 Nd; [exact I|]. cbn [prime_loop].
  assert (Ii : i * i <= limit) by (apply N.mul_le_mono; assumption). assert (limit < two32) by reflexivity. rewrite (N.mod_small (i * i)) by lia.
  destruct (N.leb_spec (i * i) val) as [A|A]; [|exists i; repeat split; [exact A|lia|exact Nd]].
  destruct (N.eqb_spec (val mod i) 0) as [B|B]; [apply mod_div in B; [|lia]; exists i; repeat split; auto; lia|].
  assert (I7 : i <> 65535) by (intros ->; unfold limit in *; lia). assert (i + 2 <= 65535). { destruct (N.eq_dec i 65534) as [->|]; [discriminate O|lia]. }
  rewrite (N.mod_small (i + 2)) by (assert (65535 < two32) by reflexivity; lia). apply IH; auto; try lia.
  intros d D1 D2. destruct (N.lt_ge_cases d i) as [X|X]; [now apply Nd|]. assert (d = i \/ d = i + 1) as [-> | ->] by lia.
  - rewrite <- mod_div by lia. exact B.
  - intros Y. apply N2. apply (N.divide_trans _ (i + 1)); [|exact Y]. apply mod_div; [lia|]. rewrite N.add_mod, O by lia. reflexivity.
Qed.
Lemma loop_fuel fuel : forall i val, val < limit -> i mod 2 = 1 -> 5 <= i -> i <= 65535 -> 65535 < i + 2 * N.of_nat fuel -> prime_loop fuel i val <> None.
Proof.
  induction fuel as [|fuel IH]; intros i val L O I5 I6 F; [lia|]. cbn [prime_loop]. assert (Ii : i * i <= limit) by (apply N.mul_le_mono; assumption). assert (limit < two32) by reflexivity. rewrite (N.mod_small (i * i)) by lia.
  destruct (N.leb_spec (i * i) val) as [A|A]; [|discriminate]. destruct (val mod i =? 0); [discriminate|].
  assert (I7 : i <> 65535) by (intros ->; unfold limit in *; lia). assert (i + 2 <= 65535). { destruct (N.eq_dec i 65534) as [->|]; [discriminate O|lia]. }
  rewrite (N.mod_small (i + 2)) by (assert (65535 < two32) by reflexivity; lia). apply IH; auto; lia.
Qed.
Lemma no_div_prime j val : 1 < val -> val < j * j -> 1 < j -> no_div j val -> prime val.
Proof.
  intros V L J Nd. split; [exact V|]. intros d [k E]. destruct (N.eq_dec d 1) as [|D1]; [now left|right].
  assert (D0 : d <> 0) by (intros ->; lia). assert (J1 : j <= d). { destruct (N.lt_ge_cases d j) as [X|X]; [|exact X]. exfalso. apply (Nd d); [lia|exact X|now exists k]. }
  destruct (N.eq_dec k 1) as [->|K1]; [lia|exfalso]. assert (K0 : k <> 0) by (intros ->; lia).
  assert (J2 : j <= k). { destruct (N.lt_ge_cases k j) as [X|X]; [|exact X]. exfalso. apply (Nd k); [lia|exact X|]. exists d. lia. }
  assert (j * j <= k * d) by (apply N.mul_le_mono; assumption). lia.
Qed.
Lemma is_prime_ok fuel val : 3 <= val -> val < limit -> match is_prime fuel val with Some true => prime val | Some false => ~ prime val | None => True end.
Proof.
  intros V L. unfold is_prime. destruct (N.ltb_spec val 4) as [A|A].
  - assert (val = 3) as -> by lia. apply (no_div_prime 2); try lia. intros d D1 D2. lia.
  - destruct (N.eqb_spec (val mod 2) 0) as [B|B]; [cbn; intros [_ P]; destruct (P 2); [now apply mod_div|lia|lia]|].
    destruct (N.eqb_spec (val mod 3) 0) as [C|C]; [cbn; intros [_ P]; destruct (P 3); [now apply mod_div|lia|lia]|]. cbn [orb].
    assert (N2 : ~ (2 | val)) by (rewrite <- mod_div by lia; exact B). assert (N3 : ~ (3 | val)) by (rewrite <- mod_div by lia; exact C).
    pose proof (loop_ok fuel 5 val L eq_refl ltac:(lia) ltac:(lia) N2) as X. destruct (prime_loop fuel 5 val) as [[|]|]; [| |exact I].
    + destruct X as (j & J1 & J2 & J3); [|apply (no_div_prime j); auto; lia]. intros d D1 D2 D3. assert (d = 2 \/ d = 3 \/ d = 4) as [-> |[-> | ->]] by lia; auto. apply N2. apply (N.divide_trans _ 4); [now exists 2|exact D3].
    + destruct X as (j & J1 & J2 & J3); [|intros [_ P]; destruct (P j J1); [lia|subst; nia]]. intros d D1 D2 D3. assert (d = 2 \/ d = 3 \/ d = 4) as [-> |[-> | ->]] by lia; auto. apply N2. apply (N.divide_trans _ 4); [now exists 2|exact D3].
Qed.
Lemma is_prime_fuel fuel val : val < limit -> 32768 <= N.of_nat fuel -> is_prime fuel val <> None.
Proof. intros L F. unfold is_prime. destruct (val <? 4); [discriminate|]. destruct (_ || _); [discriminate|]. apply loop_fuel; auto; lia. Qed.
Lemma prime_odd q : prime q -> 3 <= q -> q mod 2 = 1.
Proof. intros [_ P] Q. destruct (N.eq_dec (q mod 2) 0) as [E|E]; [apply mod_div in E; [|lia]; destruct (P 2 E); lia|]. pose proof (N.mod_lt q 2). lia. Qed.
Lemma odd_step v q : v mod 2 = 1 -> q mod 2 = 1 -> v <= q -> q <> v -> v + 2 <= q.
Proof. intros A B C D. destruct (N.eq_dec q (v + 1)) as [->|]; [|lia]. exfalso. rewrite N.add_mod, A in B by lia. discriminate. Qed.
Lemma from_ok fuel : forall v p, v mod 2 = 1 -> 3 <= v -> prime_from fuel v = Some p -> p < limit -> v <= p /\ p mod 2 = 1 /\ prime p /\ forall q, v <= q -> prime q -> p <= q.
Proof.
  induction fuel as [|fuel IH]; intros v p O V H L; [discriminate|]. cbn [prime_from] in H. destruct (v <? two64 - 1); [|discriminate].
  destruct (is_prime (S fuel) v) as [[|]|] eqn:E; [| |discriminate].
  - injection H as <-. pose proof (is_prime_ok (S fuel) v V L) as X. rewrite E in X. repeat split; try lia; try apply X; auto.
  - assert (O2 : (v + 2) mod 2 = 1) by (replace (v + 2) with (v + 1 * 2) by lia; now rewrite N.mod_add by lia).
    destruct (IH (v + 2) p O2 ltac:(lia) H L) as (A & B & C & D). repeat split; try lia; try apply C; auto. intros q Q1 Q2.
    apply D; [|exact Q2]. apply odd_step; auto; [apply prime_odd; [exact Q2|lia]|]. intros ->. pose proof (is_prime_ok (S fuel) v V ltac:(lia)) as X. rewrite E in X. exact (X Q2).
Qed.
Lemma start_ok v : 3 <= v -> let u := if v mod 2 =? 0 then v + 1 else v in u mod 2 = 1 /\ 3 <= u /\ v <= u /\ forall q, v <= q -> prime q -> u <= q.
Proof.
  intros V. cbn. destruct (N.eqb_spec (v mod 2) 0) as [E|E].
  - assert ((v + 1) mod 2 = 1) by (rewrite N.add_mod, E by lia; reflexivity). repeat split; try lia; auto. intros q Q1 Q2. assert (q <> v); [|lia]. intros ->. pose proof (prime_odd v Q2 V). lia.
  - pose proof (N.mod_lt v 2). repeat split; try lia; auto.
Qed.
Theorem next_prime_pf fuel v p : 3 <= v -> get_prime fuel v = Some p -> p < limit -> next_prime v p.
Proof.
  intros V H L. destruct (start_ok v V) as (A & B & C & D). destruct (from_ok _ _ _ A B H L) as (E & F & G & K). split; [lia|]. split; [exact G|]. intros q Q1 Q2. apply K; auto.
Qed.
Lemma from_fuel q : prime q -> q < limit -> forall fuel v, v mod 2 = 1 -> 3 <= v -> v <= q -> 32768 + (q - v) < N.of_nat fuel -> exists p, prime_from fuel v = Some p /\ p < limit.
Proof.
  intros Pq Lq. induction fuel as [|fuel IH]; intros v O V G F; [lia|]. cbn [prime_from]. assert (limit < two64 - 1) by reflexivity. destruct (N.ltb_spec v (two64 - 1)) as [_|X]; [|lia].
  pose proof (is_prime_fuel (S fuel) v ltac:(lia) ltac:(lia)) as Nf. pose proof (is_prime_ok (S fuel) v V ltac:(lia)) as X. destruct (is_prime (S fuel) v) as [[|]|]; [exists v; split; [reflexivity|lia]| |congruence].
  assert (v + 2 <= q) by (apply odd_step; auto; [apply prime_odd; [exact Pq|lia]|intros ->; exact (X Pq)]). apply IH; lia.
Qed.
Theorem next_prime_returns_pf v q : 3 <= v -> v <= q -> prime q -> q < limit -> exists fuel p, get_prime fuel v = Some p /\ p <= q.
Proof.
  intros V G P L. destruct (start_ok v V) as (A & B & C & D). set (u := if v mod 2 =? 0 then v + 1 else v) in *. destruct (from_fuel q P L (N.to_nat (32769 + (q - u))) u A B (D q G P) ltac:(lia)) as (p & E & Lp).
  eexists _, p. split; [exact E|]. destruct (from_ok _ _ _ A B E Lp) as (_ & _ & _ & K). apply K; auto.
Qed.
Theorem next_prime_hangs_pf fuel v : two32 <= v -> get_prime fuel v = None.
Proof.
  intros V. assert (Lp : forall f i val, two32 <= val -> prime_loop f i val <> Some true).
  { induction f as [|f IH]; intros i val G; [discriminate|]. cbn [prime_loop]. destruct (N.leb_spec ((i * i) mod two32) val) as [_|X]; [destruct (val mod i =? 0); [discriminate|now apply IH]|]. pose proof (N.mod_lt (i * i) two32). assert (two32 <> 0) by discriminate. lia. }
  assert (Pf : forall f u, two32 <= u -> prime_from f u = None).
  { induction f as [|f IH]; intros u G; [reflexivity|]. cbn [prime_from]. destruct (u <? two64 - 1); [|reflexivity].
    assert (X : is_prime (S f) u <> Some true). { unfold is_prime. destruct (N.ltb_spec u 4); [assert (4 < two32) by reflexivity; lia|]. destruct (_ || _); [discriminate|]. now apply Lp. }
    destruct (is_prime (S f) u) as [[|]|]; [congruence|apply IH; lia|reflexivity]. }
  unfold get_prime. apply Pf. destruct (v mod 2 =? 0); lia.
Qed.
(** Every number of buckets is good for [from_hash]. *)
Lemma not_pow fuel v p : 3 <= v -> get_prime fuel v = Some p -> 3 <= p /\ ~ power_of_two p.
Proof.
  intros V H. destruct (start_ok v V) as (A & B & _ & _). unfold get_prime in H. set (u := if v mod 2 =? 0 then v + 1 else v) in *. clearbody u.
  assert (X : 3 <= p /\ p mod 2 = 1).
  { revert u A B H. induction fuel as [|fuel IH]; intros u A B H; [discriminate|]. cbn [prime_from] in H. destruct (u <? two64 - 1); [|discriminate]. destruct (is_prime (S fuel) u) as [[|]|]; [injection H as <-; auto| |discriminate].
    apply (IH (u + 2)); auto; [replace (u + 2) with (u + 1 * 2) by lia; now rewrite N.mod_add by lia|lia]. }
  destruct X as [X1 X2]. split; [exact X1|]. intros (k & ->). destruct k as [|k] using N.peano_ind; [cbn in X1; lia|]. rewrite N.pow_succ_r', N.mul_comm, N.mod_mul in X2 by lia. discriminate.
Qed.
