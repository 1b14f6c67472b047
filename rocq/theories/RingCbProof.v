(** Proofs for RingCbProps.v. *)
From Verif Require Import Util Conc RingCbModel RingCbSpec.
From Coq Require Import Lia.

(** ** user_data *)
Lemma ones32 : (two32 - 1)%N = N.ones 32. Proof. reflexivity. Qed.
Lemma pow32 : (2 ^ 32)%N = two32. Proof. reflexivity. Qed.
Lemma low_lor a tag : (a < two32)%N -> N.land (N.lor a (N.shiftl tag 32)) (two32 - 1) = a.
Proof.
  intros H. rewrite ones32, N.land_lor_distr_l, !N.land_ones, pow32, N.shiftl_mul_pow2, pow32.
  rewrite N.mod_mul by discriminate. rewrite N.lor_0_r. now apply N.mod_small.
Qed.
Lemma high_lor a tag : (a < two32)%N -> N.shiftr (N.lor a (N.shiftl tag 32)) 32 = tag.
Proof.
  intros H. rewrite N.shiftr_lor. rewrite (N.shiftr_div_pow2 a), pow32, N.div_small by auto. rewrite N.lor_0_l.
  rewrite N.shiftr_shiftl_l by lia. now rewrite N.sub_diag, N.shiftl_0_r.
Qed.
Lemma encode_low i tag : (i < limit)%N -> N.land (encode i tag) (two32 - 1) = (i + cb_base)%N.
Proof. intros H. apply low_lor. unfold limit, cb_base, two32 in *. lia. Qed.
Lemma encode_high i tag : (i < limit)%N -> N.shiftr (encode i tag) 32 = tag.
Proof. intros H. apply high_lor. unfold limit, cb_base, two32 in *. lia. Qed.
Lemma encode_max i tag : (i < limit)%N -> (encode i tag =? u64_max)%N = false.
Proof.
  intros H. apply N.eqb_neq. intros E. apply (encode_low i tag) in H as L. rewrite E in L.
  change (N.land u64_max (two32 - 1)) with 4294967295%N in L. unfold limit, cb_base in *. lia.
Qed.
Lemma ignore_low tag : N.land (N.lor ignore_index (N.shiftl tag 32)) (two32 - 1) = 0%N.
Proof. apply low_lor. reflexivity. Qed.

(** ** Lists *)
Definition cbs (l : list sub) : list nat := flat_map (fun x => match scb x with Some c => [c] | None => [] end) l.
Lemma cbs_app a b : cbs (a ++ b) = cbs a ++ cbs b.
Proof. unfold cbs. now rewrite flat_map_app. Qed.
Lemma cbs_in l c : In c (cbs l) <-> exists k x, nth_error l k = Some x /\ scb x = Some c.
Proof.
  unfold cbs. rewrite in_flat_map. split.
  - intros (x & H & E). apply In_nth_error in H as [k H]. exists k, x. split; auto. destruct (scb x); [destruct E; [congruence|easy]|easy].
  - intros (k & x & H & E). exists x. split; [now apply nth_error_In in H|]. rewrite E. now left.
Qed.
Lemma split_at {A} (l : list A) k x : nth_error l k = Some x -> l = firstn k l ++ x :: skipn (S k) l.
Proof.
  revert k. induction l as [|y l IH]; intros [|k] H; try discriminate; cbn in *; [congruence|]. f_equal. now apply IH.
Qed.
Lemma drop_in {A} (l : list A) k x y : nth_error l k = Some x -> In y (drop_at k l) -> In y l.
Proof. intros H. unfold drop_at. rewrite (split_at l k x H) at 3. rewrite !in_app_iff. cbn. tauto. Qed.

(** ** The free list *)
Inductive chain (e : list entry) : option nat -> list nat -> Prop :=
| ch_nil : chain e None []
| ch_cons i nx l : nth_error e i = Some (None, nx) -> chain e nx l -> chain e (Some i) (i :: l).

Lemma chain_set e o l i x : chain e o l -> ~ In i l -> chain (set i x e) o l.
Proof.
  induction 1; intros N; [constructor|]. apply (ch_cons _ _ nx); [|apply IHchain; intros ?; apply N; now right].
  rewrite set_nth_error_neq; auto. intros ->. apply N. now left.
Qed.
Lemma linked_len n : forall a, length (linked a n) = n.
Proof. induction n as [|[|n] IH]; intros a; auto. change (S (length (linked (S a) (S n))) = S (S n)). now rewrite IH. Qed.
Lemma linked_nth n : forall a i, i < n -> nth_error (linked a n) i = Some (None, if S i =? n then None else Some (S (a + i))).
Proof.
  induction n as [|n IH]; intros a i H; [lia|]. destruct n as [|n].
  - replace i with 0 by lia. reflexivity.
  - destruct i as [|i]; [cbn; now rewrite Nat.add_0_r|].
    change (nth_error (linked (S a) (S n)) i = Some (None, if S i =? S n then None else Some (S (a + S i)))).
    rewrite IH by lia. now rewrite Nat.add_succ_r.
Qed.
Lemma linked_none n a i c ix : nth_error (linked a n) i = Some (Some c, ix) -> False.
Proof.
  intros H. assert (i < n) by (rewrite <- (linked_len n a); apply nth_error_Some; congruence). rewrite linked_nth in H; auto. discriminate.
Qed.
Lemma chain_seq e a n : (forall i, i < n -> nth_error e (a + i) = Some (None, if S i =? n then None else Some (S (a + i)))) ->
  forall m i, i + m = n -> 0 < m -> chain e (Some (a + i)) (seq (a + i) m).
Proof.
  intros H. induction m as [|m IH]; intros i Hi Hm; [lia|]. cbn [seq].
  apply (ch_cons _ _ (if S i =? n then None else Some (S (a + i)))); [apply H; lia|].
  destruct (Nat.eqb_spec (S i) n).
  - replace m with 0 by lia. constructor.
  - replace (S (a + i)) with (a + S i) by lia. apply IH; lia.
Qed.

Record K (s : st) : Prop := mk_K {
  k_chain : exists l, chain (ents s) (nfree s) l /\ NoDup l /\ forall i ix, nth_error (ents s) i = Some (None, ix) -> In i l;
  k_fl : forall x, In x (fl s) -> (stag x < two32)%N /\
           match scb x with
           | Some c => exists i ix, nth_error (ents s) i = Some (Some c, ix) /\ ud x = encode (N.of_nat i) (stag x)
           | None => ud x = N.lor ignore_index (N.shiftl (stag x) 32)
           end;
  k_nd : NoDup (cbs (fl s));
  k_ent : forall i c ix, nth_error (ents s) i = Some (Some c, ix) -> In c (cbs (fl s));
  k_uniq : forall i j c ix jx, nth_error (ents s) i = Some (Some c, ix) -> nth_error (ents s) j = Some (Some c, jx) -> i = j;
  k_len : 1 <= length (ents s) /\ (N.of_nat (length (ents s)) < limit)%N;
  k_pend : pending s = length (cbs (fl s));
  k_new : forall c, nid s <= c -> ~ In c (cbs (fl s)) /\ ended s c = 0;
  k_old : forall c, c < nid s -> In c (cbs (fl s)) /\ ended s c = 0 \/ ~ In c (cbs (fl s)) /\ ended s c = 1
}.

Lemma K_init n : 1 <= n -> (N.of_nat n < limit)%N -> K (init n).
Proof.
  intros H1 H2. unfold init. split; cbn [ents nfree fl pending nid ended].
  - exists (seq 0 n). destruct n as [|n]; [lia|]. split; [|split].
    + apply (chain_seq _ 0 (S n)) with (i := 0); [|lia|lia]. intros i Hi. now apply linked_nth.
    + apply seq_NoDup.
    + intros i ix H. apply in_seq. split; [lia|]. rewrite <- (linked_len (S n) 0). apply nth_error_Some. congruence.
  - easy.
  - constructor.
  - intros i c ix H. now apply linked_none in H.
  - intros i j c ix jx H. now apply linked_none in H.
  - rewrite linked_len. auto.
  - reflexivity.
  - auto.
  - lia.
Qed.

Lemma nodup_app_disj (a b : list nat) : NoDup a -> NoDup b -> (forall x, In x a -> ~ In x b) -> NoDup (a ++ b).
Proof.
  induction a as [|x a IH]; cbn; intros Ha Hb H; auto. inversion Ha; subst. constructor; [|apply IH; auto].
  rewrite in_app_iff. intros [X|X]; [auto|]. now apply (H x); [left|].
Qed.

Lemma K_regrow s : K s -> nfree s = None -> (N.of_nat (length (ents s)) * 2 < limit)%N -> K (regrow s).
Proof.
  intros [(l & C & ND & F) P2 P3 P4 P5 P6 P7 P8 P9] En L. rewrite En in C. inversion C; subst l. destruct P6 as [L1 L2].
  set (n := length (ents s)) in *.
  assert (A1 : forall i, i < n -> nth_error (ents s ++ linked n n) i = nth_error (ents s) i) by (intros; now apply nth_error_app1).
  assert (A2 : forall i, n <= i -> nth_error (ents s ++ linked n n) i = nth_error (linked n n) (i - n)) by (intros; now apply nth_error_app2).
  assert (A3 : forall i c ix, nth_error (ents s ++ linked n n) i = Some (Some c, ix) -> nth_error (ents s) i = Some (Some c, ix)).
  { intros i c ix H. destruct (Nat.lt_ge_cases i n); [now rewrite A1 in H|]. rewrite A2 in H by auto. now apply linked_none in H. }
  unfold regrow. fold n. split; cbn [ents nfree fl pending nid ended]; auto.
  - exists (seq n n). split; [|split].
    + replace (Some n) with (Some (n + 0)) by (f_equal; lia). replace (seq n n) with (seq (n + 0) n) by (f_equal; lia).
      apply (chain_seq _ n n); [|lia|lia]. intros i Hi. rewrite A2 by lia. replace (n + i - n) with i by lia. now apply linked_nth.
    + apply seq_NoDup.
    + intros i ix H. apply in_seq. destruct (Nat.lt_ge_cases i n).
      * rewrite A1 in H by auto. now apply F in H.
      * split; auto. assert (i < length (ents s ++ linked n n)) by (apply nth_error_Some; congruence). rewrite app_length, linked_len in H1. fold n in H1. lia.
  - intros x Hx. destruct (P2 x Hx) as [T X]. split; auto. destruct (scb x); auto. destruct X as (i & ix & X & Y). exists i, ix. split; auto.
    rewrite A1; auto. apply nth_error_Some. congruence.
  - intros i c ix H. apply A3 in H. eauto.
  - intros i j c ix jx H H'. apply A3 in H. apply A3 in H'. eauto.
  - rewrite app_length, linked_len. fold n. split; lia.
Qed.

Lemma K_take s tag i : K s -> nfree s = Some i -> (tag < two32)%N -> exists s', take_entry s tag = Next s' /\ K s' /\ mode s' = mode s.
Proof.
  intros [(l & C & ND & F) P2 P3 P4 P5 P6 P7 P8 P9] En Ht. unfold take_entry. rewrite En in *. inversion C as [|i' nx l' Hi C']; subst.
  rewrite Hi. eexists. split; [reflexivity|]. split; [|reflexivity].
  assert (Li : i < length (ents s)) by (apply nth_error_Some; congruence). destruct P6 as [L1 L2]. inversion ND as [|? ? Ni ND']; subst.
  destruct (P8 (nid s)) as [N1 N2]; [lia|].
  assert (A : forall j c ix, nth_error (set i (Some (nid s), nx) (ents s)) j = Some (Some c, ix) -> j = i /\ c = nid s \/ j <> i /\ nth_error (ents s) j = Some (Some c, ix)).
  { intros j c ix H. destruct (Nat.eq_dec j i) as [->|Hj]; [rewrite set_nth_error_eq in H by auto; left; split; congruence|].
    rewrite set_nth_error_neq in H by auto. auto. }
  assert (Q : cbs (fl s ++ [mk_s (encode (N.of_nat i) tag) (Some (nid s)) tag]) = cbs (fl s) ++ [nid s]) by (now rewrite cbs_app).
  split; cbn [ents nfree fl pending nid ended]; rewrite ?Q.
  - exists l'. split; [now apply chain_set|]. split; [auto|]. intros j ix H. destruct (Nat.eq_dec j i) as [->|Hj].
    + rewrite set_nth_error_eq in H by auto. discriminate.
    + rewrite set_nth_error_neq in H by auto. apply F in H as [H|H]; congruence.
  - intros x Hx. apply in_app_iff in Hx as [Hx|[<-|[]]].
    + destruct (P2 x Hx) as [T X]. split; auto. destruct (scb x) as [c|] eqn:Ec; auto. destruct X as (j & ix & X & Y). exists j, ix. split; auto.
      rewrite set_nth_error_neq; auto. congruence.
    + cbn. split; auto. exists i, nx. split; auto. now rewrite set_nth_error_eq.
  - apply nodup_app_disj; auto; [repeat constructor; easy|]. intros x X [<-|[]]. auto.
  - intros j c ix H. apply in_app_iff. apply A in H as [[_ ->]|[_ H]]; [right; now left|left; eauto].
  - intros j k c jx kx H1 H2. apply A in H1 as [[-> ->]|[X1 H1]]; apply A in H2 as [[-> H2]|[X2 H2]]; auto.
    + apply P4 in H2. easy.
    + subst c. apply P4 in H1. easy.
    + eauto.
  - rewrite set_length. auto.
  - rewrite app_length. cbn. lia.
  - intros c Hc. destruct (P8 c) as [X Y]; [lia|]. split; auto. rewrite in_app_iff. intros [Z|[Z|[]]]; [auto|lia].
  - intros c Hc. rewrite in_app_iff. destruct (Nat.eq_dec c (nid s)) as [->|Hn]; [left; split; auto; right; now left|].
    destruct (P9 c) as [[X Y]|[X Y]]; [lia|auto|]. right. split; auto. intros [Z|[Z|[]]]; [auto|congruence].
Qed.

Lemma K_submit s cb tag : K s -> calm s (Submit cb tag) = true ->
  match submit s cb tag with Next s' => K s' | Ub => False | Stuck => True end.
Proof.
  intros HK HC. unfold submit. destruct (N.ltb_spec tag two32) as [Ht|Ht]; [|exact I]. cbn [negb].
  destruct cb.
  - destruct (nfree s) as [i|] eqn:En.
    + destruct (K_take s tag i HK En Ht) as (s' & -> & X & _). exact X.
    + assert (X : match (if (N.of_nat (length (ents s)) * 2 <? limit)%N then take_entry (regrow s) tag else Stuck) with Next s' => K s' | Ub => False | Stuck => True end).
      { destruct (N.ltb_spec (N.of_nat (length (ents s)) * 2) limit) as [L|L]; [|exact I].
        destruct (K_take (regrow s) tag (length (ents s)) (K_regrow s HK En L) eq_refl Ht) as (s' & -> & X & _). exact X. }
      cbn in HC. rewrite En in HC. destruct (mode s) as [|c t [|]]; [exact X|discriminate HC|exact X].
  - destruct HK as [(l & C & ND & F) P2 P3 P4 P5 P6 P7 P8 P9].
    assert (Q : cbs (fl s ++ [mk_s (N.lor ignore_index (N.shiftl tag 32)) None tag]) = cbs (fl s)) by (rewrite cbs_app; cbn; now rewrite app_nil_r).
    split; cbn [ents nfree fl pending nid ended]; rewrite ?Q; eauto.
    intros x Hx. apply in_app_iff in Hx as [Hx|[<-|[]]]; [eauto|]. cbn. auto.
Qed.

(** What a completion does. *)
Lemma complete_cb s k more c tag : K s -> in_flight s k c tag ->
  exists s', complete s k more = Next s' /\ K s' /\ mode s' = Run c tag more /\
    (if more then fl s' = fl s /\ ended s' = ended s else ~ In c (cbs (fl s')) /\ ended s' c = 1).
Proof.
  intros HK (x & Hx & Ec & Et). unfold complete. rewrite Hx. pose proof HK as [(l & C & ND & F) P2 P3 P4 P5 P6 P7 P8 P9].
  pose proof (nth_error_In _ _ Hx) as Ix. destruct (P2 x Ix) as [T X]. rewrite Ec in X. destruct X as (i & ix & Hi & Hu).
  assert (Li : i < length (ents s)) by (apply nth_error_Some; congruence). destruct P6 as [L1 L2].
  assert (Li' : (N.of_nat i < limit)%N) by lia. rewrite Hu, encode_low, encode_high, encode_max by auto.
  rewrite (proj2 (N.leb_le _ _)) by lia. replace (N.to_nat (N.of_nat i + cb_base - cb_base)) with i by lia. rewrite Hi, Et.
  assert (Ic : In c (cbs (fl s))) by eauto.
  destruct more.
  - eexists. split; [reflexivity|]. cbn [mode fl ended]. split; [|auto]. split; cbn; eauto.
  - eexists. split; [reflexivity|]. cbn [mode fl ended].
    assert (Sp := split_at _ _ _ Hx). set (fa := firstn k (fl s)) in *. set (fb := skipn (S k) (fl s)) in *.
    assert (Hcbs : cbs (fl s) = cbs fa ++ c :: cbs fb).
    { rewrite Sp, cbs_app. f_equal. change (x :: fb) with ([x] ++ fb). rewrite cbs_app. unfold cbs at 1. cbn. now rewrite Ec. }
    assert (Hd : cbs (drop_at k (fl s)) = cbs fa ++ cbs fb) by (unfold drop_at; fold fa fb; apply cbs_app).
    rewrite Hcbs in P3. apply NoDup_remove in P3 as [P3 P3'].
    assert (Cin : forall v, In v (cbs (fl s)) <-> v = c \/ In v (cbs fa ++ cbs fb)).
    { intros v. rewrite Hcbs, !in_app_iff. cbn. split; [intros [A|[A|A]]|intros [A|[A|A]]]; auto. }
    assert (Nl : ~ In i l).
    { intros A. clear -C A Hi. induction C; cbn in A; [auto|]. destruct A as [->|A]; [congruence|auto]. }
    assert (Cn : c < nid s). { destruct (Nat.lt_ge_cases c (nid s)); auto. destruct (P8 c) as [A _]; auto. easy. }
    assert (E0 : ended s c = 0). { destruct (P9 c Cn) as [[_ A]|[A _]]; [auto|easy]. }
    split; [|split; [reflexivity|]].
    2: { rewrite Hd. split; auto. now rewrite upd_eq, E0. }
    assert (A : forall j d jx, nth_error (set i (None, nfree s) (ents s)) j = Some (Some d, jx) -> j <> i /\ nth_error (ents s) j = Some (Some d, jx) /\ d <> c).
    { intros j d jx H. destruct (Nat.eq_dec j i) as [->|Hj]; [rewrite set_nth_error_eq in H by auto; discriminate|].
      rewrite set_nth_error_neq in H by auto. split; auto. split; auto. intros ->. apply Hj. eauto. }
    split; cbn [ents nfree fl pending nid ended]; rewrite ?Hd.
    + exists (i :: l). split; [|split].
      * apply (ch_cons _ _ (nfree s)); [now rewrite set_nth_error_eq|now apply chain_set].
      * now constructor.
      * intros j jx H. destruct (Nat.eq_dec j i) as [->|Hj]; [now left|]. right. rewrite set_nth_error_neq in H by auto. eauto.
    + intros y Hy. assert (Iy : In y (fl s)) by (eapply drop_in; eauto). destruct (P2 y Iy) as [T' X]. split; auto.
      destruct (scb y) as [d|] eqn:Ed; auto. destruct X as (j & jx & Hj & Hv). exists j, jx. split; auto.
      assert (j <> i). { intros ->. assert (d = c) by congruence. subst d. apply P3'.
        rewrite <- Hd. apply In_nth_error in Hy as [m Hm]. apply cbs_in. eauto. }
      now rewrite set_nth_error_neq by auto.
    + auto.
    + intros j d jx H. apply A in H as (H1 & H2 & H3). apply P4 in H2. apply Cin in H2 as [H2|H2]; [congruence|auto].
    + intros j m d jx mx H1 H2. apply A in H1 as (_ & H1 & _). apply A in H2 as (_ & H2 & _). eauto.
    + rewrite set_length. auto.
    + rewrite P7, Hcbs, !app_length. cbn. lia.
    + intros d Hd'. destruct (P8 d Hd') as [X Y]. split; [intros Z; apply X; apply Cin; auto|]. rewrite upd_neq by lia. auto.
    + intros d Hd'. destruct (Nat.eq_dec d c) as [->|Hn]; [right; rewrite upd_eq, E0; auto|]. rewrite upd_neq by auto.
      destruct (P9 d Hd') as [[X Y]|[X Y]].
      * left. split; auto. apply Cin in X as [X|X]; [congruence|auto].
      * right. split; auto. intros Z. apply X. apply Cin. auto.
Qed.

Lemma complete_none s k more x : K s -> nth_error (fl s) k = Some x -> scb x = None ->
  exists s', complete s k more = Next s' /\ K s' /\ mode s' = Out /\ ended s' = ended s.
Proof.
  intros HK Hx Ec. unfold complete. rewrite Hx. pose proof HK as [(l & C & ND & F) P2 P3 P4 P5 P6 P7 P8 P9].
  pose proof (nth_error_In _ _ Hx) as Ix. destruct (P2 x Ix) as [T X]. rewrite Ec in X. rewrite X, ignore_low. cbn [N.leb cb_base].
  change (cb_base <=? 0)%N with false. eexists. split; [reflexivity|]. split; [|auto].
  destruct more; [split; cbn; eauto|].
  assert (Q : cbs (drop_at k (fl s)) = cbs (fl s)).
  { unfold drop_at. rewrite (split_at _ _ _ Hx) at 3. rewrite !cbs_app. f_equal. change (x :: skipn (S k) (fl s)) with ([x] ++ skipn (S k) (fl s)).
    rewrite cbs_app. unfold cbs at 2. cbn. now rewrite Ec. }
  split; cbn [ents nfree fl pending nid ended]; rewrite ?Q; eauto. intros y Hy. apply P2. eapply drop_in; eauto.
Qed.

Lemma K_cstep s l : K s -> match cstep s l with Next s' => K s' | Ub => False | Stuck => True end.
Proof.
  intros HK. unfold cstep. destruct (calm s l) eqn:HC; [|exact I]. destruct l as [cb tag|k more|]; cbn [step].
  - now apply K_submit.
  - destruct (mode s); [|exact I]. destruct (nth_error (fl s) k) as [x|] eqn:Hx; [|unfold complete; rewrite Hx; exact I].
    destruct (scb x) as [c|] eqn:Ec.
    + destruct (complete_cb s k more c (stag x) HK) as (s' & -> & X & _); [exists x; auto|exact X].
    + destruct (complete_none s k more x HK Hx Ec) as (s' & -> & X & _). exact X.
  - destruct (mode s) eqn:Em; [exact I|]. destruct HK. split; cbn; auto.
Qed.

Lemma cbs_inj l : NoDup (cbs l) -> forall k1 k2 x1 x2 c, nth_error l k1 = Some x1 -> nth_error l k2 = Some x2 ->
  scb x1 = Some c -> scb x2 = Some c -> k1 = k2.
Proof.
  induction l as [|y l IH]; intros ND k1 k2 x1 x2 c H1 H2 E1 E2; [destruct k1; discriminate|].
  change (cbs (y :: l)) with ((match scb y with Some c => [c] | None => [] end) ++ cbs l) in ND.
  assert (ND' : NoDup (cbs l)) by (destruct (scb y); [now inversion ND|exact ND]).
  destruct k1 as [|k1], k2 as [|k2]; cbn in H1, H2; auto.
  - exfalso. injection H1 as ->. rewrite E1 in ND. apply NoDup_cons_iff in ND as [ND _]. apply ND. apply cbs_in. eauto.
  - exfalso. injection H2 as ->. rewrite E2 in ND. apply NoDup_cons_iff in ND as [ND _]. apply ND. apply cbs_in. eauto.
  - f_equal. eauto.
Qed.

(** Using up the free list. *)
Lemma fill l : forall s, K s -> chain (ents s) (nfree s) l -> NoDup l -> mode s = Out -> (forall x, In x (fl s) -> scb x <> None) ->
  exists s', exec step s (repeat (Submit true 0%N) (length l)) = Next s' /\ nfree s' = None /\ mode s' = Out /\ length (fl s') = length l + length (fl s) /\
    K s' /\ (forall x, In x (fl s') -> scb x <> None).
Proof.
  induction l as [|i l IH]; intros s HK C ND M Hf.
  - exists s. inversion C. split; [reflexivity|]. auto.
  - inversion C as [|? nx ? Hi C']; subst. apply NoDup_cons_iff in ND as [Ni ND]. cbn [length repeat exec].
    destruct (K_take s 0%N i HK) as (s1 & E1 & K1 & M1); auto; [reflexivity|].
    assert (E2 : step s (Submit true 0%N) = Next s1) by (cbn [step]; unfold submit; change (0 <? two32)%N with true; cbn [negb]; now rewrite <- H).
    rewrite E2. unfold take_entry in E1. rewrite <- H, Hi in E1. injection E1 as E1.
    assert (A1 : ents s1 = set i (Some (nid s), nx) (ents s)) by (now rewrite <- E1).
    assert (A2 : nfree s1 = nx) by (now rewrite <- E1).
    assert (A3 : fl s1 = fl s ++ [mk_s (encode (N.of_nat i) 0) (Some (nid s)) 0%N]) by (now rewrite <- E1).
    destruct (IH s1) as (s' & E & X & Y & Z & W & V); auto; rewrite ?A1, ?A2, ?A3.
    + now apply chain_set.
    + congruence.
    + intros x Hx. apply in_app_iff in Hx as [Hx|[<-|[]]]; [auto|discriminate].
    + exists s'. split; auto. split; auto. split; auto. split; auto. rewrite Z, A3, app_length. cbn. lia.
Qed.

Section N.
  Variable n : nat.
  Hypothesis Hn : 1 <= n /\ (N.of_nat n < limit)%N.
  Lemma ring_safe_pf : safe cstep (init n).
  Proof. apply (reach_inv cstep K (init n) K_cstep). apply K_init; apply Hn. Qed.
  Lemma K_reach s : reachable cstep (init n) s -> K s.
  Proof. apply (reach_inv cstep K (init n) K_cstep). apply K_init; apply Hn. Qed.

  Lemma cbs_flying s c : In c (cbs (fl s)) <-> flying s c.
  Proof.
    rewrite cbs_in. unfold flying, in_flight. split.
    - intros (k & x & H & E). exists k, (stag x), x. auto.
    - intros (k & t & x & H & E & _). eauto.
  Qed.

  Lemma ring_completion_pf s k c tag more : reachable cstep (init n) s -> mode s = Out -> in_flight s k c tag ->
    exists s', step s (Complete k more) = Next s' /\ mode s' = Run c tag more /\ (more = false -> ~ flying s' c).
  Proof.
    intros R M F. apply K_reach in R as HK. destruct (complete_cb s k more c tag HK F) as (s' & E & _ & X & Y).
    exists s'. cbn [step]. rewrite M. split; auto. split; auto. intros ->. rewrite <- cbs_flying. apply Y.
  Qed.
  Lemma ring_ignored_pf s k x more : reachable cstep (init n) s -> mode s = Out -> nth_error (fl s) k = Some x -> scb x = None ->
    exists s', step s (Complete k more) = Next s' /\ mode s' = Out.
  Proof.
    intros R M F Ec. apply K_reach in R as HK. destruct (complete_none s k more x HK F Ec) as (s' & E & _ & X & _).
    exists s'. cbn [step]. rewrite M. auto.
  Qed.
  Lemma ring_once_pf s c : reachable cstep (init n) s -> submitted s c ->
    flying s c /\ ended s c = 0 \/ ~ flying s c /\ ended s c = 1.
  Proof. intros R H. apply K_reach in R as HK. rewrite <- cbs_flying. now apply (k_old s HK). Qed.
  Lemma ring_tags_pf s k1 k2 x1 x2 : reachable cstep (init n) s -> nth_error (fl s) k1 = Some x1 -> nth_error (fl s) k2 = Some x2 ->
    scb x1 <> None -> ud x1 = ud x2 -> k1 = k2.
  Proof.
    intros R H1 H2 N E. apply K_reach in R as HK. pose proof (nth_error_In _ _ H1) as H1'. pose proof (nth_error_In _ _ H2) as H2'.
    destruct (k_fl s HK x1 H1') as [T1 X1], (k_fl s HK x2 H2') as [T2 X2].
    destruct (scb x1) as [c1|] eqn:Ec1; [|easy]. destruct X1 as (i & ix & Hi & U1). destruct (k_len s HK) as [_ L].
    assert (Li : (N.of_nat i < limit)%N). { assert (i < length (ents s)) by (apply nth_error_Some; congruence). lia. }
    destruct (scb x2) as [c2|] eqn:Ec2.
    - destruct X2 as (j & jx & Hj & U2).
      assert (Lj : (N.of_nat j < limit)%N). { assert (j < length (ents s)) by (apply nth_error_Some; congruence). lia. }
      assert (A := encode_low (N.of_nat i) (stag x1) Li). assert (B := encode_low (N.of_nat j) (stag x2) Lj).
      assert (A' := encode_high (N.of_nat i) (stag x1) Li). assert (B' := encode_high (N.of_nat j) (stag x2) Lj).
      rewrite <- U1 in A, A'. rewrite <- U2 in B, B'. rewrite E in A, A'. assert (i = j) by lia. subst j. apply (cbs_inj _ (k_nd s HK) k1 k2 x1 x2 c1); auto. congruence.
    - exfalso. assert (A := encode_low (N.of_nat i) (stag x1) Li). assert (B := ignore_low (stag x2)). rewrite <- X2, <- E, U1, A in B.
      unfold cb_base in B. lia.
  Qed.
  Lemma ring_pending_pf s : reachable cstep (init n) s -> exists l, NoDup l /\ pending s = length l /\ forall c, In c l <-> flying s c.
  Proof.
    intros R. apply K_reach in R as HK. exists (cbs (fl s)). split; [apply (k_nd s HK)|]. split; [apply (k_pend s HK)|]. intros c. apply cbs_flying.
  Qed.

  Lemma ring_safe_refuted_pf : ~ safe step (init n).
  Proof.
    intros H. destruct (K_init n (proj1 Hn) (proj2 Hn)) as [(l & C & ND & F) _ _ _ _ _ _ _ _].
    destruct (fill l (init n) (K_init n (proj1 Hn) (proj2 Hn)) C ND eq_refl) as (s & E & X & Y & Z & W & V); [easy|].
    assert (Ll : length l <> 0).
    { destruct l; [|discriminate]. inversion C as [A|]. unfold init in A. cbn in A. destruct n; [lia|discriminate]. }
    destruct (fl s) as [|x r] eqn:Ef; [cbn in Z; lia|]. destruct (scb x) as [c|] eqn:Ec; [|now apply (V x); [left|]].
    assert (F0 : in_flight s 0 c (stag x)) by (exists x; rewrite Ef; auto).
    destruct (complete_cb s 0 true c (stag x) W F0) as (s' & E' & _ & M' & _).
    apply (H (repeat (Submit true 0%N) (length l) ++ [Complete 0 true; Submit true 0%N])). rewrite exec_app, E. cbn [exec].
    assert (E2 : step s (Complete 0 true) = Next s') by (cbn [step]; now rewrite Y). rewrite E2. cbn [step]. unfold submit.
    change (0 <? two32)%N with true. cbn [negb].
    assert (Nf : nfree s' = None).
    { unfold complete in E'. rewrite Ef in E'. cbn [nth_error] in E'. destruct (cb_base <=? _)%N; [|injection E' as <-; exact X].
      destruct (_ =? _)%N; [discriminate|]. destruct (nth_error _ _) as [[[f|] ix]|]; [|discriminate E'|discriminate E'].
      apply (f_equal (obs nfree)) in E'. cbn [obs nfree] in E'. congruence. }
    rewrite Nf, M'. reflexivity.
  Qed.
End N.
