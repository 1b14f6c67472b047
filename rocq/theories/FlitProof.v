From Verif Require Import Util FlitModel.
Open Scope N_scope.

(** ** Little-endian lists *)
Lemma le_bytes_length n x : length (le_bytes n x) = n.
Proof. revert x; induction n; simpl; auto. Qed.
Lemma le_val_app n x r : le_val (le_bytes n x ++ r) = x mod 256 ^ N.of_nat n + 256 ^ N.of_nat n * le_val r.
Proof.
  revert x; induction n as [|n IH]; intros x.
  - simpl. rewrite N.mod_1_r. destruct (le_val r); reflexivity.
  - cbn [le_bytes le_val app]. rewrite IH.
    replace (N.of_nat (S n)) with (N.succ (N.of_nat n)) by lia. rewrite N.pow_succ_r'.
    rewrite N.mod_mul_r by (try apply N.pow_nonzero; lia). lia.
Qed.
Lemma le_val_bytes n x : le_val (le_bytes n x) = x mod 256 ^ N.of_nat n.
Proof. rewrite <- (app_nil_r (le_bytes n x)), le_val_app. simpl le_val. lia. Qed.
Lemma le_bytes_range n x b : In b (le_bytes n x) -> b < 256.
Proof. revert x; induction n; simpl; intros x H; [tauto|]. destruct H as [<-|H]; eauto. lia. Qed.

Lemma le_bytes_take n k x : (k <= n)%nat -> firstn k (le_bytes n x) = le_bytes k x.
Proof.
  revert k x; induction n; destruct k; simpl; intros; auto; try lia. f_equal. apply IHn. lia.
Qed.

Lemma len_le_bytes n x : len (le_bytes n x) = N.of_nat n.
Proof. unfold len. now rewrite le_bytes_length. Qed.

(** ** Bit counting *)
Lemma ctz_odd k m : countr_zero 64 (2 ^ k * (2 * m + 1)) = k.
Proof.
  revert k. apply N.peano_ind.
  - rewrite N.pow_0_r, N.mul_1_l. unfold countr_zero. destruct m; reflexivity.
  - intros k IH. rewrite N.pow_succ_r', <- N.mul_assoc.
    destruct (2 ^ k * (2 * m + 1)) as [|p] eqn:E.
    + exfalso. apply N.mul_eq_0 in E as [E|E]; [|lia]. revert E. apply N.pow_nonzero. lia.
    + change (countr_zero 64 (2 * N.pos p)) with (1 + countr_zero 64 (N.pos p)). lia.
Qed.
Lemma ctz_width a b v : v <> 0 -> countr_zero a v = countr_zero b v.
Proof. destruct v; simpl; congruence. Qed.

Lemma forall_lt_dec (P : N -> bool) (n : nat) :
  forallb (fun i => P (N.of_nat i)) (seq 0 n) = true -> forall i, i < N.of_nat n -> P i = true.
Proof.
  intros H i Hi. rewrite forallb_forall in H. specialize (H (N.to_nat i)).
  rewrite N2Nat.id in H. apply H. apply in_seq. lia.
Qed.
Lemma div7_ok i : i < 63 -> Div7Small i = i / 7.
Proof.
  intros. apply N.eqb_eq. apply (forall_lt_dec (fun i => Div7Small i =? i / 7) 63); [vm_compute; reflexivity|].
  exact H.
Qed.
Lemma xor_minus64 i : i < 64 -> N.lxor 63 (63 - i) = i.
Proof.
  intros. apply N.eqb_eq. apply (forall_lt_dec (fun i => N.lxor 63 (63 - i) =? i) 64); [vm_compute; reflexivity|auto].
Qed.
Lemma xor_minus32 i : i < 32 -> N.lxor 31 (31 - i) = i.
Proof.
  intros. apply N.eqb_eq. apply (forall_lt_dec (fun i => N.lxor 31 (31 - i) =? i) 32); [vm_compute; reflexivity|auto].
Qed.

Lemma log2_lt v k : v < 2 ^ k -> 0 < k -> N.log2 v < k.
Proof.
  intros H Hk. destruct (N.eq_dec v 0) as [->|Hv]; [simpl; lia|].
  apply N.log2_lt_pow2; lia.
Qed.
Lemma lor1_bounds v : v <= N.lor v 1 <= v + 1 /\ N.lor v 1 <> 0.
Proof.
  destruct v as [|[p|p|]]; simpl; lia.
Qed.
Lemma lor1_lt v k : 0 < k -> v < 2 ^ k -> N.lor v 1 < 2 ^ k.
Proof.
  intros Hk H. replace (2 ^ k) with (2 * 2 ^ (k - 1)) in * by (rewrite <- N.pow_succ_r'; f_equal; lia).
  destruct v as [|[p|p|]]; simpl N.lor; lia.
Qed.

Definition wok (w : N) : Prop := w = 4 \/ w = 8.

Lemma enc_index w v : wok w -> v < 2 ^ (8 * w) ->
  EncodingLength w v = 1 + Div7Small (N.log2 (N.lor v 1)) /\ N.log2 (N.lor v 1) < 8 * w.
Proof.
  intros Hw Hv. pose proof (lor1_lt v (8 * w) ltac:(destruct Hw; lia) Hv) as Hl.
  pose proof (proj2 (lor1_bounds v)) as Hnz.
  pose proof (log2_lt _ _ Hl ltac:(destruct Hw; lia)) as Hlog.
  split; auto. unfold EncodingLength, countl_zero. cbv zeta. f_equal. f_equal.
  destruct (N.lor v 1) as [|p] eqn:E; [congruence|].
  destruct Hw as [-> | ->].
  - change (4 * 8 - 1) with 31. apply xor_minus32. lia.
  - change (8 * 8 - 1) with 63. apply xor_minus64. lia.
Qed.

(** The encoder picks n with v < 2^(7n), n <= w. *)
Lemma enc_len_ok w v : wok w -> v < kLarge w ->
  let n := EncodingLength w v in 1 <= n <= w /\ v < 2 ^ (7 * n) /\ (n = 1 \/ 2 ^ (7 * (n - 1)) <= v).
Proof.
  intros Hw Hv n. unfold kLarge in Hv.
  assert (Hv' : v < 2 ^ (8 * w)).
  { eapply N.lt_le_trans; [exact Hv|]. apply N.pow_le_mono_r; lia. }
  destruct (enc_index w v Hw Hv') as [E _]. unfold n. rewrite E.
  pose proof (lor1_lt v (7 * w) ltac:(destruct Hw; lia) Hv) as Hl.
  pose proof (log2_lt _ _ Hl ltac:(destruct Hw; lia)) as Hlog.
  rewrite div7_ok by (destruct Hw; lia).
  set (i := N.log2 (N.lor v 1)) in *.
  pose proof (lor1_bounds v) as [Hb Hnz].
  destruct (N.log2_spec (N.lor v 1)) as [S1 S2]; [lia|]. fold i in S1, S2.
  split; [destruct Hw; lia|]. split.
  - eapply N.le_lt_trans; [apply Hb|]. eapply N.lt_le_trans; [exact S2|].
    apply N.pow_le_mono_r; lia.
  - destruct (N.eq_dec (i / 7) 0) as [Ez|Ez]; [left; lia|right].
    assert (P : 2 ^ (7 * (1 + i / 7 - 1)) <= 2 ^ i) by (apply N.pow_le_mono_r; lia).
    assert (Q : 2 <= 2 ^ (7 * (1 + i / 7 - 1))).
    { change 2 with (2 ^ 1) at 1. apply N.pow_le_mono_r; lia. }
    (* v|1 >= 2^(7k), an even number > 1, so v >= it *)
    assert (Hev : 2 ^ (7 * (1 + i / 7 - 1)) = 2 * 2 ^ (7 * (1 + i / 7 - 1) - 1)).
    { rewrite <- N.pow_succ_r'. f_equal. lia. }
    destruct v as [|[p|p|]]; simpl N.lor in *; lia.
Qed.

Lemma pow256 n : 256 ^ n = 2 ^ (8 * n).
Proof. change 256 with (2 ^ 8). now rewrite N.pow_mul_r. Qed.

Lemma prefix_ok w v : wok w -> v < kLarge w ->
  let n := EncodingLength w v in
  with_prefix w v n = 2 ^ (n - 1) * (2 * v + 1) /\ 2 ^ (n - 1) * (2 * v + 1) < 2 ^ (8 * n).
Proof.
  intros Hw Hv n. destruct (enc_len_ok w v Hw Hv) as (Hn & Hlt & _). fold n in Hn, Hlt.
  assert (B : 2 ^ (n - 1) * (2 * v + 1) < 2 ^ (8 * n)).
  { replace (8 * n) with ((n - 1) + N.succ (7 * n)) by lia. rewrite N.pow_add_r, N.pow_succ_r'.
    apply N.mul_lt_mono_pos_l; [|lia].
    assert (2 ^ (n - 1) <> 0) by (apply N.pow_nonzero; lia). lia. }
  split; auto.
  assert (B2 : 2 ^ (8 * n) <= 2 ^ (8 * w)) by (apply N.pow_le_mono_r; lia).
  assert (Hbig : 2 * v + 1 < 2 ^ (8 * w)).
  { unfold kLarge in Hv. replace (8 * w) with (7 * w + w) by lia. rewrite N.pow_add_r.
    assert (2 ^ w >= 2) by (destruct Hw; subst; vm_compute; discriminate). nia. }
  unfold with_prefix. rewrite (N.mod_small (v * 2)) by lia. rewrite (N.mod_small (v * 2 + 1)) by lia.
  rewrite N.mod_small by lia. lia.
Qed.

Lemma encode_len w v : wok w -> v < 2 ^ (8 * w) ->
  len (EncodeT w v) = (if kLarge w <=? v then w + 1 else EncodingLength w v) /\
  1 <= len (EncodeT w v) <= w + 1.
Proof.
  intros Hw Hv. unfold EncodeT. destruct (N.leb_spec (kLarge w) v) as [H|H].
  - rewrite len_cons, len_le_bytes. lia.
  - cbv zeta. rewrite len_le_bytes. destruct (enc_len_ok w v Hw H) as (Hn & _). lia.
Qed.

(** Loading [k] bytes of [le_bytes n x ++ r], n <= k. *)
Lemma load_enc k n x r : n <= k -> k <= n + len r -> x < 2 ^ (8 * n) ->
  load k (le_bytes (N.to_nat n) x ++ r) = Some (x + 2 ^ (8 * n) * le_val (take (k - n) r)).
Proof.
  intros H1 H2 Hx. unfold load. rewrite len_app, len_le_bytes, N2Nat.id.
  destruct (N.leb_spec k (n + len r)); [|lia]. f_equal.
  unfold take at 1. rewrite firstn_app, le_bytes_length.
  rewrite firstn_all2 by (rewrite le_bytes_length; lia).
  replace (N.to_nat k - N.to_nat n)%nat with (N.to_nat (k - n)) by lia.
  fold (take (k - n) r). rewrite le_val_app, N2Nat.id, pow256. now rewrite N.mod_small.
Qed.

Lemma decomp n v Y : 1 <= n ->
  2 ^ (n - 1) * (2 * v + 1) + 2 ^ (8 * n) * Y = 2 ^ (n - 1) * (2 * (v + 2 ^ (7 * n) * Y) + 1).
Proof.
  intros. replace (8 * n) with (N.succ (7 * n + (n - 1))) by lia.
  rewrite N.pow_succ_r', N.pow_add_r. ring.
Qed.

Lemma low_byte k m : k <= 7 -> (2 ^ k * (2 * m + 1)) mod 256 <> 0 /\
  ((2 ^ k * (2 * m + 1)) mod 256) mod 2 ^ (k + 1) = 2 ^ k.
Proof.
  intros Hk.
  assert (C : k = 0 \/ k = 1 \/ k = 2 \/ k = 3 \/ k = 4 \/ k = 5 \/ k = 6 \/ k = 7) by lia.
  destruct C as [->|[->|[->|[->|[->|[->|[->| ->]]]]]]];
    match goal with |- context [2 ^ (?a + 1)] =>
      let x := eval vm_compute in (2 ^ (a + 1)) in change (2 ^ (a + 1)) with x;
      let y := eval vm_compute in (2 ^ a) in change (2 ^ a) with y end; lia.
Qed.

Lemma land_ones' x w k : k <= w -> N.land x ((2 ^ k + (2 ^ w - 1)) mod 2 ^ w) = x mod 2 ^ k.
Proof.
  intros H. assert (Hp : 2 ^ w <> 0) by (apply N.pow_nonzero; lia).
  assert (Hk : 2 ^ k <> 0) by (apply N.pow_nonzero; lia).
  assert (2 ^ k <= 2 ^ w) by (apply N.pow_le_mono_r; lia).
  replace (2 ^ k + (2 ^ w - 1)) with (2 ^ k - 1 + 1 * 2 ^ w) by lia.
  rewrite N.mod_add, N.mod_small by lia.
  rewrite <- N.land_ones, N.ones_equiv. do 2 f_equal. lia.
Qed.

(** What a parser does with a loaded word X + 2^(8n)Y. *)
Lemma decode_word w n v Y : wok w -> 1 <= n <= w -> v < 2 ^ (7 * n) ->
  let X := 2 ^ (n - 1) * (2 * v + 1) in
  let val := X + 2 ^ (8 * n) * Y in
  N.land val 255 <> kMaxLenHeader w /\ N.land val 255 <> 0 /\ countr_zero (8 * w) val = n - 1 /\
  N.shiftr (val mod 2 ^ (8 * n)) n = v.
Proof.
  intros Hw Hn Hv X val.
  assert (E : val = 2 ^ (n - 1) * (2 * (v + 2 ^ (7 * n) * Y) + 1)) by (apply decomp; lia).
  change 255 with (N.ones 8). rewrite N.land_ones. change (2 ^ 8) with 256.
  destruct (low_byte (n - 1) (v + 2 ^ (7 * n) * Y) ltac:(destruct Hw; lia)) as [L1 L2].
  rewrite <- E in L1, L2. repeat split; auto.
  - intros Eq. rewrite Eq in L2. replace (n - 1 + 1) with n in L2 by lia. revert L2.
    assert (C : n = 1 \/ n = 2 \/ n = 3 \/ n = 4 \/ n = 5 \/ n = 6 \/ n = 7 \/ n = 8) by (destruct Hw; lia).
    destruct Hw as [-> | ->]; destruct C as [->|[->|[->|[->|[->|[->|[->| ->]]]]]]]; try lia; vm_compute; discriminate.
  - rewrite E. rewrite (ctz_width (8 * w) 64). apply ctz_odd.
    intros E0. apply N.mul_eq_0 in E0 as [E0|E0]; [|lia]. revert E0. apply N.pow_nonzero. lia.
  - unfold val. rewrite (N.mul_comm (2 ^ (8 * n)) Y), N.mod_add by (apply N.pow_nonzero; lia).
    assert (X < 2 ^ (8 * n)).
    { unfold X. replace (8 * n) with ((n - 1) + N.succ (7 * n)) by lia. rewrite N.pow_add_r, N.pow_succ_r'.
      apply N.mul_lt_mono_pos_l; [|lia].
      assert (2 ^ (n - 1) <> 0) by (apply N.pow_nonzero; lia). lia. }
    rewrite N.mod_small by auto. rewrite N.shiftr_div_pow2. unfold X.
    assert (E2 : 2 ^ n = 2 ^ (n - 1) * 2).
    { rewrite N.mul_comm, <- N.pow_succ_r'. f_equal. lia. }
    rewrite E2. rewrite <- N.div_div by (try apply N.pow_nonzero; lia).
    rewrite (N.mul_comm (2 ^ (n - 1))), N.div_mul by (apply N.pow_nonzero; lia). lia.
Qed.

Lemma encode_small w v : v < kLarge w ->
  EncodeT w v = le_bytes (N.to_nat (EncodingLength w v)) (with_prefix w v (EncodingLength w v)).
Proof. intros H. unfold EncodeT. destruct (N.leb_spec (kLarge w) v); [lia|reflexivity]. Qed.

Lemma header_mod w r : wok w -> N.land (kMaxLenHeader w + 256 * r) 255 = kMaxLenHeader w.
Proof.
  intros Hw. change 255 with (N.ones 8). rewrite N.land_ones. change (2 ^ 8) with 256.
  rewrite (N.mul_comm 256), N.mod_add by lia. destruct Hw as [-> | ->]; reflexivity.
Qed.

(** The value seen by ParseT on the encoding of v. *)
Lemma ParseT_encode over w v r : wok w -> v < 2 ^ (8 * w) -> w <= len (EncodeT w v ++ r) ->
  ParseT over w (EncodeT w v ++ r) =
    if (2 ^ (7 * (w - 1)) <=? v) && (v <? kLarge w)
    then match over with
         | Some s => Some (w, N.shiftr (N.land (le_val (EncodeT w v)) ((s + (2 ^ (8 * w) - 1)) mod 2 ^ (8 * w))) w)
         | None => None end
    else Some (len (EncodeT w v), v).
Proof.
  intros Hw Hv Hlen. destruct (N.lt_ge_cases v (kLarge w)) as [Hs|Hl].
  - rewrite (encode_small w v Hs) in *.
    destruct (enc_len_ok w v Hw Hs) as (Hn & Hlt & Hge).
    destruct (prefix_ok w v Hw Hs) as [Ep Bp].
    set (n := EncodingLength w v) in *. rewrite Ep in *.
    rewrite len_app, len_le_bytes, N2Nat.id in Hlen.
    unfold ParseT. rewrite load_enc by (auto; lia).
    set (Y := le_val (take (w - n) r)).
    destruct (decode_word w n v Y Hw Hn Hlt) as (D1 & D2 & D3 & D4).
    set (val := 2 ^ (n - 1) * (2 * v + 1) + 2 ^ (8 * n) * Y) in *.
    apply N.eqb_neq in D1. rewrite D1, D3. cbv zeta. replace (n - 1 + 1) with n by lia.
    rewrite len_le_bytes, N2Nat.id. unfold shl1.
    destruct (N.ltb_spec v (kLarge w)); [|lia]. rewrite andb_true_r.
    destruct (N.ltb_spec (n * 8) (8 * w)) as [Hnw|Hnw].
    + rewrite (N.mul_comm n 8), land_ones' by lia. rewrite D4.
      destruct (N.ltb_spec n (8 * w)); [|lia].
      destruct (N.leb_spec (2 ^ (7 * (w - 1))) v) as [G|G]; auto.
      exfalso. assert (2 ^ (7 * n) <= 2 ^ (7 * (w - 1))) by (apply N.pow_le_mono_r; lia). lia.
    + assert (Enw : n = w) by lia. clear Hnw. destruct (N.eqb_spec (n * 8) (8 * w)); [|lia].
      destruct Hge as [Hge|Hge]; [destruct Hw; lia|]. replace (n - 1) with (w - 1) in Hge by lia.
      destruct (N.leb_spec (2 ^ (7 * (w - 1))) v); [|lia].
      destruct over as [s|]; auto. destruct (N.ltb_spec n (8 * w)); [|lia].
      assert (EY : val = le_val (le_bytes (N.to_nat n) (2 ^ (n - 1) * (2 * v + 1)))).
      { unfold val, Y. replace (w - n) with 0 by lia. rewrite take_0. change (le_val []) with 0. rewrite N.mul_0_r, N.add_0_r.
        rewrite le_val_bytes, N2Nat.id, pow256, N.mod_small by auto. reflexivity. }
      rewrite EY. rewrite Enw. reflexivity.
  - assert (E : EncodeT w v = kMaxLenHeader w :: le_bytes (N.to_nat w) v).
    { unfold EncodeT. destruct (N.leb_spec (kLarge w) v); [auto|lia]. }
    rewrite E in *. rewrite len_cons, len_le_bytes, N2Nat.id.
    destruct (N.ltb_spec v (kLarge w)); [lia|]. rewrite andb_false_r.
    simpl app in Hlen. rewrite len_cons, len_app, len_le_bytes, N2Nat.id in Hlen.
    unfold ParseT, load. cbn [app]. rewrite len_cons, len_app, len_le_bytes, N2Nat.id.
    destruct (N.leb_spec w (1 + (w + len r))); [|lia].
    assert (T : exists z, take w (kMaxLenHeader w :: le_bytes (N.to_nat w) v ++ r) = kMaxLenHeader w :: z).
    { unfold take. destruct (N.to_nat w) eqn:Ew; [destruct Hw; lia|]. simpl. eauto. }
    destruct T as [z ->]. cbn [le_val]. rewrite header_mod, N.eqb_refl by auto.
    change (drop 1 (kMaxLenHeader w :: le_bytes (N.to_nat w) v ++ r)) with (le_bytes (N.to_nat w) v ++ r).
    rewrite len_app, len_le_bytes, N2Nat.id.
    destruct (N.leb_spec w (w + len r)); [|lia].
    rewrite take_app_eq by (rewrite len_le_bytes; lia).
    rewrite le_val_bytes, N2Nat.id, pow256, N.mod_small by auto. f_equal. f_equal. lia.
Qed.

(** With a true wide shift (1 << width = 0) the mask is all ones. *)
Lemma wide_mask w v : wok w -> 2 ^ (7 * (w - 1)) <= v -> v < kLarge w ->
  N.shiftr (N.land (le_val (EncodeT w v)) ((0 + (2 ^ (8 * w) - 1)) mod 2 ^ (8 * w))) w = v /\
  len (EncodeT w v) = w.
Proof.
  intros Hw Hge Hs. rewrite (encode_small w v Hs).
  destruct (enc_len_ok w v Hw Hs) as (Hn & Hlt & _).
  destruct (prefix_ok w v Hw Hs) as [Ep Bp].
  set (n := EncodingLength w v) in *. rewrite Ep.
  assert (n = w).
  { destruct (N.lt_ge_cases n w); [|lia]. exfalso.
    assert (2 ^ (7 * n) <= 2 ^ (7 * (w - 1))) by (apply N.pow_le_mono_r; lia). lia. }
  clearbody n. subst n. rewrite len_le_bytes, N2Nat.id, le_val_bytes, N2Nat.id, pow256, N.mod_small by auto.
  split; auto.
  rewrite N.add_0_l. rewrite (N.mod_small (2 ^ (8 * w) - 1)) by lia.
  replace (2 ^ (8 * w) - 1) with (N.ones (8 * w)) by (rewrite N.ones_equiv; lia).
  rewrite N.land_ones.
  destruct (decode_word w w v 0 Hw Hn Hlt) as (_ & _ & _ & D). now rewrite N.mul_0_r, N.add_0_r in D.
Qed.

Lemma flit_roundtrip_pf : forall w v rest, w = 4 \/ w = 8 -> v < 2 ^ (8 * w) ->
  w <= len (EncodeT w v ++ rest) ->
  ParseT (Some 0) w (EncodeT w v ++ rest) = Some (len (EncodeT w v), v) /\
  1 <= len (EncodeT w v) <= w + 1.
Proof.
  intros w v r Hw Hv Hlen. split; [|now apply encode_len]. rewrite ParseT_encode by auto.
  destruct ((2 ^ (7 * (w - 1)) <=? v) && (v <? kLarge w)) eqn:E; auto.
  apply andb_prop in E as [E1 E2]. apply N.leb_le in E1. apply N.ltb_lt in E2.
  destruct (wide_mask w v Hw E1 E2) as [-> ->]. reflexivity.
Qed.

Lemma flit_roundtrip_std_pf : forall w v rest, w = 4 \/ w = 8 -> v < 2 ^ (8 * w) ->
  w <= len (EncodeT w v ++ rest) ->
  (ParseT None w (EncodeT w v ++ rest) = Some (len (EncodeT w v), v) /\ ~ (2 ^ (7 * (w - 1)) <= v < 2 ^ (7 * w))) \/
  (ParseT None w (EncodeT w v ++ rest) = None /\ 2 ^ (7 * (w - 1)) <= v < 2 ^ (7 * w)).
Proof.
  intros w v r Hw Hv Hlen. rewrite ParseT_encode by auto. unfold kLarge.
  destruct (N.leb_spec (2 ^ (7 * (w - 1))) v), (N.ltb_spec v (2 ^ (7 * w))); cbn [andb]; [right|left|left|left]; split; auto; lia.
Qed.

Lemma flit_parse64fast_pf : forall over m, Parse64Fast over m = ParseT over 8 m.
Proof. reflexivity. Qed.

Lemma x86_bad_pf : forall v rest, 2 ^ 49 <= v < 2 ^ 56 ->
  Parse64Fast (Some 1) (EncodeT 8 v ++ rest) = Some (8, 0).
Proof.
  intros v r Hv. rewrite flit_parse64fast_pf.
  assert (Hv8 : v < 2 ^ (8 * 8)) by (change (2 ^ (8 * 8)) with two64; change (2^56) with 72057594037927936 in Hv; unfold two64; lia).
  assert (Hw : wok 8) by (right; reflexivity).
  assert (Hl : len (EncodeT 8 v) = 8).
  { apply (wide_mask 8 v Hw); [change (7 * (8 - 1)) with 49|unfold kLarge; change (7 * 8) with 56]; lia. }
  rewrite ParseT_encode; auto.
  2:{ rewrite len_app, Hl. lia. }
  unfold kLarge. change (7 * (8 - 1)) with 49. change (7 * 8) with 56.
  destruct (N.leb_spec (2 ^ 49) v); [|lia]. destruct (N.ltb_spec v (2 ^ 56)); [|lia].
  cbn [andb]. replace ((1 + (2 ^ (8 * 8) - 1)) mod 2 ^ (8 * 8)) with 0 by reflexivity.
  now rewrite N.land_0_r, N.shiftr_0_l.
Qed.

Lemma flit_fast_encoder_pf : forall w v, w = 4 \/ w = 8 -> v < 2 ^ (8 * w) ->
  let (bytes, n) := EncodeTFast w v in
  n = len (EncodeT w v) /\ take n bytes = EncodeT w v /\ len bytes <= w + 1.
Proof.
  intros w v Hw Hv. unfold EncodeTFast. destruct (N.leb_spec (kLarge w) v) as [H|H].
  - assert (E : EncodeT w v = kMaxLenHeader w :: le_bytes (N.to_nat w) v).
    { unfold EncodeT. destruct (N.leb_spec (kLarge w) v); [auto|lia]. }
    rewrite E, len_cons, len_le_bytes. repeat split; try lia.
    apply take_all. rewrite len_cons, len_le_bytes. lia.
  - cbv zeta. rewrite (encode_small w v H), !len_le_bytes, !N2Nat.id.
    destruct (enc_len_ok w v Hw H) as (Hn & _). repeat split; try lia.
    unfold take. apply le_bytes_take. lia.
Qed.

Lemma encode_head w v : wok w -> v < 2 ^ (8 * w) ->
  exists b t, EncodeT w v = b :: t /\ b < 256 /\
    ((b = kMaxLenHeader w /\ kLarge w <= v /\ t = le_bytes (N.to_nat w) v) \/
     (v < kLarge w /\ b <> kMaxLenHeader w /\ b <> 0 /\ b = with_prefix w v (EncodingLength w v) mod 256 /\
      countr_zero 8 b + 1 = len (b :: t))).
Proof.
  intros Hw Hv. destruct (N.lt_ge_cases v (kLarge w)) as [Hs|Hl].
  - rewrite (encode_small w v Hs).
    destruct (enc_len_ok w v Hw Hs) as (Hn & Hlt & _).
    destruct (prefix_ok w v Hw Hs) as [Ep Bp].
    assert (Hlen := len_le_bytes (N.to_nat (EncodingLength w v)) (with_prefix w v (EncodingLength w v))).
    set (n := EncodingLength w v) in *.
    destruct (N.to_nat n) as [|k] eqn:Ek; [lia|]. cbn [le_bytes] in *.
    eexists _, _. split; [reflexivity|]. split; [lia|]. right. split; auto.
    rewrite Hlen, Ep.
    destruct (decode_word w n v 0 Hw Hn Hlt) as (D1 & D2 & D3 & D4).
    rewrite N.mul_0_r, N.add_0_r in *.
    change 255 with (N.ones 8) in *. rewrite N.land_ones in *. change (2 ^ 8) with 256 in *.
    repeat split; auto.
    (* ctz of the low byte *)
    assert (C : n = 1 \/ n = 2 \/ n = 3 \/ n = 4 \/ n = 5 \/ n = 6 \/ n = 7 \/ n = 8) by (destruct Hw; lia).
    rewrite (ctz_width 8 64 _ D2).
    assert (X : exists q, (2 ^ (n - 1) * (2 * v + 1)) mod 256 = 2 ^ (n - 1) * (2 * q + 1)).
    { exists (v mod 2 ^ (8 - n)).
      destruct C as [->|[->|[->|[->|[->|[->|[->| ->]]]]]]];
       repeat match goal with |- context [2 ^ ?a] => let x := eval vm_compute in (2 ^ a) in change (2 ^ a) with x end; lia. }
    destruct X as [q ->]. rewrite ctz_odd. lia.
  - unfold EncodeT. destruct (N.leb_spec (kLarge w) v); [|lia].
    eexists _, _. split; [reflexivity|]. split; [destruct Hw; subst; vm_compute; reflexivity|]. left. auto.
Qed.

Lemma flit_parse_length_pf : forall w v rest, w = 4 \/ w = 8 -> v < 2 ^ (8 * w) ->
  ParseLengthT w (EncodeT w v ++ rest) = Some (len (EncodeT w v)).
Proof.
  intros w v r Hw Hv. destruct (encode_head w v Hw Hv) as (b & t & E & Hb & C).
  rewrite E. cbn [app ParseLengthT]. destruct C as [(-> & _ & ->)|(Hs & Hh & Hz & _ & Hc)].
  - rewrite N.eqb_refl, len_cons, len_le_bytes. f_equal. lia.
  - apply N.eqb_neq in Hh. rewrite Hh. f_equal. lia.
Qed.

Lemma flit_length_pf : forall v, v < 2 ^ 63 -> len (EncodeT 8 v) = EncodingLength 8 v.
Proof.
  intros v Hv. assert (Hw : wok 8) by (right; auto).
  assert (Hv8 : v < 2 ^ (8 * 8)) by (eapply N.lt_trans; [exact Hv|reflexivity]).
  rewrite (proj1 (encode_len 8 v Hw Hv8)).
  destruct (N.leb_spec (kLarge 8) v) as [H|H]; auto.
  rewrite (proj1 (enc_index 8 v Hw Hv8)). unfold kLarge in H. change (7 * 8) with 56 in H.
  assert (L : N.log2 (N.lor v 1) < 63) by (apply log2_lt; [apply lor1_lt; auto; lia|lia]).
  assert (G : 56 <= N.log2 (N.lor v 1)).
  { apply N.log2_le_pow2; [pose proof (lor1_bounds v); lia|].
    pose proof (proj1 (proj1 (lor1_bounds v))). lia. }
  rewrite div7_ok by auto. lia.
Qed.
Lemma flit_length32_pf : forall v, v < 2 ^ 32 -> len (EncodeT 4 v) = EncodingLength 4 v.
Proof.
  intros v Hv. assert (Hw : wok 4) by (left; auto).
  rewrite (proj1 (encode_len 4 v Hw Hv)).
  destruct (N.leb_spec (kLarge 4) v) as [H|H]; auto.
  rewrite (proj1 (enc_index 4 v Hw Hv)). unfold kLarge in H. change (7 * 4) with 28 in H.
  assert (L : N.log2 (N.lor v 1) < 32) by (apply log2_lt; [apply lor1_lt; auto; lia|lia]).
  assert (G : 28 <= N.log2 (N.lor v 1)).
  { apply N.log2_le_pow2; [pose proof (lor1_bounds v); lia|].
    pose proof (proj1 (proj1 (lor1_bounds v))). lia. }
  rewrite div7_ok by lia. lia.
Qed.

Lemma flit_length_high_pf : forall v, 2 ^ 63 <= v < 2 ^ 64 ->
  len (EncodeT 8 v) = 9 /\ EncodingLength 8 v = 10.
Proof.
  intros v Hv. assert (Hw : wok 8) by (right; auto).
  assert (Hv8 : v < 2 ^ (8 * 8)) by tauto.
  rewrite (proj1 (encode_len 8 v Hw Hv8)).
  assert (kLarge 8 <= v).
  { unfold kLarge. change (7 * 8) with 56. change (2^56) with 72057594037927936. change (2^63) with 9223372036854775808 in Hv. lia. }
  destruct (N.leb_spec (kLarge 8) v); [|lia]. split; auto.
  rewrite (proj1 (enc_index 8 v Hw Hv8)).
  assert (L : N.log2 (N.lor v 1) < 64) by (apply log2_lt; [apply lor1_lt; [lia|apply Hv]|lia]).
  assert (G : 63 <= N.log2 (N.lor v 1)).
  { apply N.log2_le_pow2; [pose proof (lor1_bounds v); lia|].
    pose proof (proj1 (proj1 (lor1_bounds v))). lia. }
  replace (N.log2 (N.lor v 1)) with 63 by lia. reflexivity.
Qed.

(** ** Parse64Safe *)
Lemma ctz8_lt b : b <> 0 -> b < 256 -> countr_zero 8 b < 8.
Proof.
  intros H1 H2. assert (F : (negb (b =? 0)) = true) by (destruct (N.eqb_spec b 0); auto).
  pose proof (forall_lt_dec (fun b => (b =? 0) || (countr_zero 8 b <? 8)) 256 ltac:(vm_compute; reflexivity) b H2) as X.
  simpl in X. destruct (N.eqb_spec b 0); [congruence|]. simpl in X. now apply N.ltb_lt in X.
Qed.
Lemma ctz8_eq7 b : b < 256 -> (countr_zero 8 b = 7 <-> b = 128).
Proof.
  intros H2.
  pose proof (forall_lt_dec (fun b => Bool.eqb (countr_zero 8 b =? 7) (b =? 128)) 256 ltac:(vm_compute; reflexivity) b H2) as X.
  simpl in X. apply Bool.eqb_prop in X. rewrite <- N.eqb_eq, X. apply N.eqb_eq.
Qed.

Lemma flit_safe_ub_iff_pf : forall v0 m, Forall (fun b => b < 256) m ->
  (Parse64Safe None v0 m = None <->
     m = [] \/ (len m = 8 /\ hd 0 m = 0) \/ (8 <= len m /\ hd 0 m = 128)).
Proof.
  intros v0 m Hm. destruct m as [|b r]; simpl.
  - tauto.
  - inversion Hm as [|? ? Hb Hr]; subst. cbn [hd].
    destruct (N.eqb_spec b 0) as [->|Hz].
    + destruct (N.ltb_spec (len (0 :: r)) 8) as [H|H].
      * split; [discriminate|]. intros [?|[[? ?]|[? ?]]]; [discriminate|lia|lia].
      * rewrite len_cons in *. unfold load. destruct (N.leb_spec 8 (len r)).
        -- split; [destruct (_ <? _); discriminate|]. intros [?|[[? ?]|[? ?]]]; [discriminate|lia|lia].
        -- split; auto. intros _. right. left. split; lia.
    + cbv zeta. pose proof (ctz8_lt b Hz Hb). pose proof (ctz8_eq7 b Hb).
      destruct (N.ltb_spec (len (b :: r)) (countr_zero 8 b + 1)) as [H3|H3].
      * split; [discriminate|]. intros [?|[[? ?]|[? ?]]]; [discriminate|lia|].
        assert (countr_zero 8 b = 7) by tauto. lia.
      * unfold shl1. destruct (N.ltb_spec ((countr_zero 8 b + 1) * 8) 64) as [H4|H4].
        -- split; [discriminate|]. intros [?|[[? ?]|[? ?]]]; [discriminate|lia|].
           assert (countr_zero 8 b = 7) by tauto. lia.
        -- assert (E7 : countr_zero 8 b = 7) by lia. rewrite E7 in *.
           change ((7 + 1) * 8 =? 64) with true. cbn [andb].
           split; auto. intros _. right. right. split; [lia|tauto].
Qed.

Lemma load_take k l : k <= len l -> load k l = Some (le_val (take k l)).
Proof. intros. unfold load. destruct (N.leb_spec k (len l)); [auto|lia]. Qed.

Lemma flit_safe_roundtrip_pf : forall v v0 rest, v < 2 ^ 64 -> v0 < 2 ^ 64 ->
  Parse64Safe (Some 0) v0 (EncodeT 8 v ++ rest) = Some (len (EncodeT 8 v), v).
Proof.
  intros v v0 r Hv Hv0. assert (Hw : wok 8) by (right; auto).
  destruct (encode_head 8 v Hw Hv) as (b & t & E & Hb & C).
  destruct C as [(-> & Hl & ->)|(Hs & Hh & Hz & Hbm & Hc)].
  - rewrite E. cbn [app Parse64Safe]. change (kMaxLenHeader 8) with 0.
    rewrite N.eqb_refl, !len_cons, len_app, len_le_bytes.
    destruct (N.ltb_spec (1 + (N.of_nat (N.to_nat 8) + len r)) 8); [lia|].
    rewrite load_take by (rewrite len_app, len_le_bytes; lia).
    rewrite take_app_eq by (rewrite len_le_bytes; lia).
    rewrite le_val_bytes. change (256 ^ N.of_nat (N.to_nat 8)) with (2 ^ 64).
    rewrite N.mod_small by auto. unfold kLarge in Hl. change (7 * 8) with 56 in Hl.
    destruct (N.ltb_spec v (2 ^ 56)); [lia|]. reflexivity.
  - pose proof (encode_small 8 v Hs) as Es.
    destruct (enc_len_ok 8 v Hw Hs) as (Hn & Hlt & _).
    destruct (prefix_ok 8 v Hw Hs) as [Ep Bp].
    assert (Hlen : len (b :: t) = EncodingLength 8 v) by (rewrite <- E, Es, len_le_bytes; lia).
    set (n := EncodingLength 8 v) in *.
    rewrite E. cbn [app Parse64Safe]. apply N.eqb_neq in Hz. rewrite Hz, Hc, Hlen. cbv zeta.
    change (b :: t ++ r) with ((b :: t) ++ r). rewrite len_app, Hlen.
    destruct (N.ltb_spec (n + len r) n); [lia|].
    rewrite take_app_eq by auto. rewrite <- E, Es, Ep, le_val_bytes, N2Nat.id, pow256, (N.mod_small _ (2 ^ (8 * n))) by auto.
    destruct (decode_word 8 n v 0 Hw Hn Hlt) as (_ & _ & _ & D4). rewrite N.mul_0_r, N.add_0_r in D4.
    rewrite N.mod_small in D4 by auto.
    assert (P : 2 ^ (8 * n) <> 0) by (apply N.pow_nonzero; lia).
    unfold shl1. destruct (N.ltb_spec (n * 8) 64) as [H8|H8].
    + rewrite (N.mul_comm n 8). change two64 with (2 ^ 64). rewrite land_ones' by lia.
      rewrite N.mod_add by auto. rewrite N.mod_small by auto. rewrite D4. reflexivity.
    + assert (n = 8) by lia. clear Hlen Hc. clearbody n. subst n. change (8 * 8 =? 64) with true. cbv iota.
      change (8 * 8) with 64 in *. rewrite (N.div_small v0) by auto. rewrite N.mul_0_l, N.add_0_r.
      replace ((0 + (two64 - 1)) mod two64) with (N.ones 64) by reflexivity.
      rewrite N.land_ones, N.mod_small by auto. rewrite D4. reflexivity.
Qed.

(** A truncated encoding is rejected (except the one-byte-short 9-byte case, which is the
    out-of-range read). *)
Lemma flit_safe_truncated_pf : forall over v v0 k, v < 2 ^ 64 -> 0 < k < len (EncodeT 8 v) ->
  ~ (2 ^ 56 <= v /\ k = 8) ->
  Parse64Safe over v0 (take k (EncodeT 8 v)) = Some (0, v0).
Proof.
  intros over v v0 k Hv Hk Hex. assert (Hw : wok 8) by (right; auto).
  destruct (encode_head 8 v Hw Hv) as (b & t & E & Hb & C). rewrite E in *.
  assert (T : exists z, take k (b :: t) = b :: z /\ len (b :: z) = k).
  { unfold take. destruct (N.to_nat k) as [|k'] eqn:Ek; [lia|]. simpl. eexists; split; [reflexivity|].
    rewrite len_cons in *. unfold len in *. rewrite firstn_length. lia. }
  destruct T as (z & -> & Hz). cbn [Parse64Safe]. rewrite Hz.
  destruct C as [(-> & Hl & ->)|(Hs & Hh & Hnz & Hbm & Hc)].
  - change (kMaxLenHeader 8 =? 0) with true. cbv iota.
    rewrite len_cons, len_le_bytes in Hk. unfold kLarge in Hl. change (7 * 8) with 56 in Hl.
    destruct (N.ltb_spec k 8); auto. exfalso. apply Hex. split; auto. lia.
  - apply N.eqb_neq in Hnz. rewrite Hnz, Hc. cbv zeta.
    destruct (N.ltb_spec k (len (b :: t))); [auto|lia].
Qed.

(** ** ZigZag *)
Lemma lxor_ones a n : a < 2 ^ n -> N.lxor a (2 ^ n - 1) = 2 ^ n - 1 - a.
Proof.
  intros H. replace (2 ^ n - 1) with (N.ones n) by (rewrite N.ones_equiv; lia).
  change (N.lxor a (N.ones n)) with (N.lnot a n). destruct (N.eq_dec a 0) as [->|Ha].
  - rewrite N.lnot_0_l. lia.
  - apply N.lnot_sub_low. apply N.log2_lt_pow2; lia.
Qed.

Section ZZ.
Variable wd : N.
Hypothesis Hwd : wd = 32 \/ wd = 64.
Let half := 2 ^ (wd - 1).

Lemma zz_pows : 2 ^ wd = 2 * half /\ Z.of_N (2 ^ wd) = (2 ^ Z.of_N wd)%Z /\ (2 ^ (Z.of_N wd - 1) = Z.of_N half)%Z /\ 0 < half.
Proof. unfold half. destruct Hwd as [-> | ->]; vm_compute; auto. Qed.

Lemma enc_spec t : (- Z.of_N half <= t < Z.of_N half)%Z ->
  ZigZagEncode wd t = Z.to_N (if (0 <=? t)%Z then 2 * t else - 2 * t - 1)%Z.
Proof.
  intros Ht. destruct zz_pows as (P1 & P2 & P3 & P4).
  assert (Sh : Z.shiftr t (Z.of_N (wd - 1)) = if (0 <=? t)%Z then 0%Z else (-1)%Z).
  { rewrite Z.shiftr_div_pow2 by lia. replace (Z.of_N (wd - 1)) with (Z.of_N wd - 1)%Z by (destruct Hwd; subst; lia).
    rewrite P3. destruct (Z.leb_spec 0 t).
    - apply Z.div_small. lia.
    - symmetry. apply (Z.div_unique_pos t (Z.of_N half) (-1) (t + Z.of_N half)); lia. }
  unfold ZigZagEncode. rewrite Sh. unfold to_unsigned. rewrite <- P2.
  destruct (Z.leb_spec 0 t) as [H|H].
  - rewrite Z.mod_0_l by lia. simpl (Z.to_N 0). rewrite N.lxor_0_r.
    rewrite Z.mod_small by lia. rewrite N.mod_small by lia. lia.
  - replace ((-1) mod Z.of_N (2 ^ wd))%Z with (Z.of_N (2 ^ wd) - 1)%Z.
    2:{ apply (Z.mod_unique_pos _ _ (-1)); lia. }
    replace (t mod Z.of_N (2 ^ wd))%Z with (t + Z.of_N (2 ^ wd))%Z.
    2:{ apply (Z.mod_unique_pos _ _ (-1)); lia. }
    replace (Z.to_N (Z.of_N (2 ^ wd) - 1)) with (2 ^ wd - 1) by lia.
    replace ((Z.to_N (t + Z.of_N (2 ^ wd)) * 2) mod 2 ^ wd) with (Z.to_N (2 * t + Z.of_N (2 ^ wd))).
    2:{ apply (N.mod_unique _ _ 1); lia. }
    rewrite lxor_ones by lia. lia.
Qed.

Lemma dec_spec u : u < 2 ^ wd ->
  ZigZagDecode wd u = (if N.eqb (N.modulo u 2) 0 then Z.of_N (N.div u 2) else - Z.of_N (N.div u 2) - 1)%Z.
Proof.
  intros Hu. destruct zz_pows as (P1 & P2 & P3 & P4).
  unfold ZigZagDecode. rewrite N.shiftr_div_pow2. change (2 ^ 1) with 2.
  change 1 with (N.ones 1). rewrite N.land_ones. change (2 ^ 1) with 2.
  unfold to_unsigned, to_signed. rewrite <- P2. fold half.
  destruct (N.eqb_spec (u mod 2) 0) as [E|E].
  - rewrite E. simpl (- Z.of_N 0)%Z. rewrite Z.mod_0_l by lia. simpl (Z.to_N 0). rewrite N.lxor_0_r.
    destruct (N.ltb_spec (u / 2) half); lia.
  - replace (u mod 2) with 1 by lia. change (- Z.of_N 1)%Z with (-1)%Z.
    replace ((-1) mod Z.of_N (2 ^ wd))%Z with (Z.of_N (2 ^ wd) - 1)%Z.
    2:{ apply (Z.mod_unique_pos _ _ (-1)); lia. }
    replace (Z.to_N (Z.of_N (2 ^ wd) - 1)) with (2 ^ wd - 1) by lia.
    rewrite lxor_ones by lia. destruct (N.ltb_spec (2 ^ wd - 1 - u / 2) half); lia.
Qed.

Lemma zz_dec_enc t : (- Z.of_N half <= t < Z.of_N half)%Z -> ZigZagDecode wd (ZigZagEncode wd t) = t.
Proof.
  intros Ht. destruct zz_pows as (P1 & P2 & P3 & P4).
  rewrite dec_spec; rewrite enc_spec by auto.
  - destruct (Z.leb_spec 0 t).
    + destruct (N.eqb_spec (N.modulo (Z.to_N (2 * t)) 2) 0) as [E|E]; lia.
    + destruct (N.eqb_spec (N.modulo (Z.to_N (- 2 * t - 1)) 2) 0) as [E|E]; lia.
  - destruct (Z.leb_spec 0 t); lia.
Qed.
Lemma zz_enc_dec u : u < 2 ^ wd -> ZigZagEncode wd (ZigZagDecode wd u) = u /\
  (- Z.of_N half <= ZigZagDecode wd u < Z.of_N half)%Z.
Proof.
  intros Hu. destruct zz_pows as (P1 & P2 & P3 & P4).
  rewrite dec_spec by auto. destruct (N.eqb_spec (u mod 2) 0) as [E|E]; split; try lia; rewrite enc_spec by lia.
  - destruct (Z.leb_spec 0 (Z.of_N (u / 2))); lia.
  - destruct (Z.leb_spec 0 (- Z.of_N (u / 2) - 1)); lia.
Qed.
End ZZ.

Lemma zigzag_bijection_pf : forall wd, wd = 32 \/ wd = 64 ->
  (forall t, (- 2 ^ (Z.of_N wd - 1) <= t < 2 ^ (Z.of_N wd - 1))%Z ->
     ZigZagEncode wd t < 2 ^ wd /\ ZigZagDecode wd (ZigZagEncode wd t) = t) /\
  (forall u, u < 2 ^ wd ->
     (- 2 ^ (Z.of_N wd - 1) <= ZigZagDecode wd u < 2 ^ (Z.of_N wd - 1))%Z /\
     ZigZagEncode wd (ZigZagDecode wd u) = u).
Proof.
  intros wd Hwd. destruct (zz_pows wd Hwd) as (P1 & P2 & P3 & P4). rewrite !P3.
  split; intros x Hx.
  - split; [|now apply zz_dec_enc]. rewrite enc_spec by auto. destruct (Z.leb_spec 0 x); lia.
  - destruct (zz_enc_dec wd Hwd x Hx). auto.
Qed.
Lemma zigzag_small_pf : forall wd k t, wd = 32 \/ wd = 64 -> k < wd ->
  (- 2 ^ Z.of_N k < t < 2 ^ Z.of_N k)%Z -> ZigZagEncode wd t < 2 ^ (k + 1).
Proof.
  intros wd k t Hwd Hk Ht. destruct (zz_pows wd Hwd) as (P1 & P2 & P3 & P4).
  assert (Hle : (2 ^ Z.of_N k <= Z.of_N (2 ^ (wd - 1)))%Z).
  { rewrite <- P3. apply Z.pow_le_mono_r; lia. }
  rewrite enc_spec by (auto; lia).
  assert (Z.of_N (2 ^ (k + 1)) = (2 * 2 ^ Z.of_N k)%Z).
  { rewrite N2Z.inj_pow. replace (Z.of_N (k + 1)) with (Z.succ (Z.of_N k)) by lia.
    rewrite Z.pow_succ_r by lia. reflexivity. }
  destruct (Z.leb_spec 0 t); lia.
Qed.

Lemma flit_minimal_pf : forall w v, w = 4 \/ w = 8 -> v < 2 ^ (8 * w) ->
  let n := len (EncodeT w v) in
  (n <= w -> v < 2 ^ (7 * n)) /\ (n = 1 \/ 2 ^ (7 * (n - 1)) <= v).
Proof.
  intros w v Hw Hv n. unfold n. rewrite (proj1 (encode_len w v Hw Hv)).
  destruct (N.leb_spec (kLarge w) v) as [H|H].
  - split; [lia|]. right. unfold kLarge in H. now replace (w + 1 - 1) with w by lia.
  - destruct (enc_len_ok w v Hw H) as (Hn & H1 & H2). auto.
Qed.

Lemma encode_4_8 v : v < 2 ^ 28 -> EncodeT 4 v = EncodeT 8 v.
Proof.
  intros Hv.
  assert (W4 : wok 4) by (left; auto). assert (W8 : wok 8) by (right; auto).
  assert (S4 : v < kLarge 4) by exact Hv.
  assert (S8 : v < kLarge 8) by (eapply N.lt_trans; [exact Hv|reflexivity]).
  rewrite !encode_small by auto.
  destruct (prefix_ok 4 v W4 S4) as [-> _]. destruct (prefix_ok 8 v W8 S8) as [-> _].
  assert (E : EncodingLength 4 v = EncodingLength 8 v).
  { rewrite (proj1 (enc_index 4 v W4 ltac:(eapply N.lt_trans; [exact Hv|reflexivity]))).
    now rewrite (proj1 (enc_index 8 v W8 ltac:(eapply N.lt_trans; [exact Hv|reflexivity]))). }
  now rewrite E.
Qed.

Lemma flit_fast_u32_pf : forall v rest, v < 2 ^ 28 -> 8 <= len (EncodeT 4 v ++ rest) ->
  Parse64Fast None (EncodeT 4 v ++ rest) = Some (len (EncodeT 4 v), v).
Proof.
  intros v r Hv Hl. rewrite encode_4_8 in * by auto. rewrite flit_parse64fast_pf.
  assert (Hv8 : v < 2 ^ (8 * 8)) by (eapply N.lt_trans; [exact Hv|reflexivity]).
  destruct (flit_roundtrip_std_pf 8 v r ltac:(auto) Hv8 Hl) as [[H _]|[_ H]]; auto.
  exfalso. change (2 ^ (7 * (8 - 1))) with 562949953421312 in H. change (2 ^ 28) with 268435456 in Hv. lia.
Qed.

Lemma flit_fast_u32_bad_pf : forall v rest, 2 ^ 28 <= v < 2 ^ 32 -> 3 <= len rest ->
  Parse64Fast None (EncodeT 4 v ++ rest) = Some (5, 8 * v).
Proof.
  intros v r Hv Hr.
  assert (E : EncodeT 4 v = 16 :: le_bytes 4 v).
  { unfold EncodeT. change (kLarge 4) with (2 ^ 28). destruct (N.leb_spec (2 ^ 28) v); [reflexivity|lia]. }
  rewrite E. unfold Parse64Fast, load.
  rewrite len_app. change (len (16 :: le_bytes 4 v)) with 5. destruct (N.leb_spec 8 (5 + len r)); [|lia].
  assert (T : take 8 ((16 :: le_bytes 4 v) ++ r) = 16 :: le_bytes 4 v ++ take 3 r) by reflexivity.
  rewrite T. cbn [le_val]. rewrite le_val_app. change (256 ^ N.of_nat 4) with 4294967296.
  set (Y := le_val (take 3 r)). rewrite (N.mod_small v) by apply Hv.
  change 255 with (N.ones 8). rewrite N.land_ones. change (2 ^ 8) with 256.
  assert (M : (16 + 256 * (v + 4294967296 * Y)) mod 256 = 16) by lia. rewrite M.
  change (16 =? 0) with false. cbv iota.
  assert (C : countr_zero 64 (16 + 256 * (v + 4294967296 * Y)) = 4).
  { replace (16 + 256 * (v + 4294967296 * Y)) with (2 ^ 4 * (2 * (8 * (v + 4294967296 * Y)) + 1)).
    - apply ctz_odd.
    - change (2 ^ 4) with 16. lia. }
  rewrite C. cbv zeta. change (4 + 1) with 5. unfold shl1. change (5 * 8 <? 64) with true. cbv iota.
  change two64 with (2 ^ 64). rewrite land_ones' by (vm_compute; discriminate). change (5 <? 64) with true. cbv iota.
  f_equal. f_equal. rewrite N.shiftr_div_pow2. change (2 ^ (5 * 8)) with 1099511627776. change (2 ^ 5) with 32.
  change (2 ^ 32) with 4294967296 in Hv. lia.
Qed.

Lemma bytes_val_lt l : Forall (fun b => b < 256) l -> le_val l < 256 ^ len l.
Proof.
  induction 1 as [|b l Hb Hl IH]; [reflexivity|]. rewrite len_cons. cbn [le_val].
  replace (1 + len l) with (N.succ (len l)) by lia. rewrite N.pow_succ_r'. lia.
Qed.
