(** Proofs about sockets on io_uring. *)
From Verif Require Import Util Conc USockModel USockSpec.
From Coq Require Import Permutation.
Local Open Scope Z_scope.

(** ** The descriptor word *)
Lemma low_bits r fl : 0 <= fl < 16 -> Z.land (Z.shiftl r kFdShift) fl = 0.
Proof.
  intros H. apply Z.bits_inj'. intros n Hn. rewrite Z.land_spec, Z.bits_0. unfold kFdShift.
  destruct (Z_lt_le_dec n 4).
  - rewrite Z.shiftl_spec_low by lia. reflexivity.
  - replace fl with (fl mod 2 ^ 4) by (apply Z.mod_small; lia).
    rewrite Z.mod_pow2_bits_high by lia. apply andb_false_r.
Qed.
Lemma pack_add r fl : 0 <= fl < 16 -> pack r fl = r * 16 + fl.
Proof.
  intros H. unfold pack. pose proof (low_bits r fl H) as L.
  rewrite <- Z.lxor_lor, <- Z.add_nocarry_lxor by auto.
  unfold kFdShift. rewrite Z.shiftl_mul_pow2 by lia. change (2 ^ 4) with 16. lia.
Qed.
Lemma shifted_div w : shifted w = w / 16.
Proof. unfold shifted, kFdShift. rewrite Z.shiftr_div_pow2 by lia. reflexivity. Qed.
Lemma shifted_pack r fl : 0 <= fl < 16 -> shifted (pack r fl) = r.
Proof. intros H. rewrite pack_add by auto. rewrite shifted_div. lia. Qed.
Lemma land1 w : Z.land w IS_SHUTDOWN = w mod 2.
Proof. unfold IS_SHUTDOWN. change 1 with (Z.ones 1). now rewrite Z.land_ones by lia. Qed.
Lemma land2 w : 0 <= Z.land w IS_UDS < 16 /\ Z.land w IS_UDS mod 2 = 0.
Proof.
  unfold IS_UDS. assert (Z.land w 2 = 0 \/ Z.land w 2 = 2) as [E|E]; [|rewrite E; auto with zarith..].
  - destruct (Z.testbit w 1) eqn:T; [right|left]; apply Z.bits_inj'; intros n Hn; rewrite Z.land_spec.
    + destruct (Z.eq_dec n 1) as [->|D]; [now rewrite T|].
      change 2 with (2 ^ 1). rewrite (Z.pow2_bits_false 1 n) by lia. apply andb_false_r.
    + rewrite Z.bits_0. destruct (Z.eq_dec n 1) as [->|D]; [now rewrite T|].
      change 2 with (2 ^ 1). rewrite (Z.pow2_bits_false 1 n) by lia. apply andb_false_r.
Qed.
Lemma lor1 w : is_shut w = false -> Z.lor w IS_SHUTDOWN = w + 1.
Proof.
  unfold is_shut. intros H. apply negb_false_iff, Z.eqb_eq in H.
  rewrite <- Z.lxor_lor, <- Z.add_nocarry_lxor by auto. reflexivity.
Qed.
Lemma shut_mod w : is_shut w = negb (w mod 2 =? 0).
Proof. unfold is_shut. now rewrite land1. Qed.
Lemma shifted_shut w : is_shut w = false -> shifted (Z.lor w IS_SHUTDOWN) = shifted w.
Proof.
  intros H. rewrite lor1 by auto. rewrite shut_mod in H. rewrite !shifted_div.
  apply negb_false_iff, Z.eqb_eq in H. lia.
Qed.
Lemma is_uds_add w d : (d = 0 \/ d = 1) -> w mod 2 + d < 2 -> is_uds (w + d) = is_uds w.
Proof.
  intros D M. unfold is_uds, IS_UDS. f_equal. f_equal.
  assert (L : forall v, Z.land v 2 = 2 * ((v / 2) mod 2)).
  { intros v. apply Z.bits_inj'. intros n Hn. rewrite Z.land_spec.
    rewrite (Z.mul_comm 2), <- (Z.shiftl_mul_pow2 _ 1) by lia.
    change 2 with (2 ^ 1). rewrite <- (Z.shiftr_div_pow2 v 1) by lia.
    rewrite <- (Z.land_ones _ 1) by lia. change (2 ^ 1) with 2.
    destruct (Z.eq_dec n 1) as [->|Dn].
    - rewrite Z.shiftl_spec, Z.land_spec, Z.shiftr_spec by lia. reflexivity.
    - change 2 with (2 ^ 1). rewrite (Z.pow2_bits_false 1 n) by lia. rewrite andb_false_r.
      destruct (Z_lt_le_dec n 1); [now rewrite Z.shiftl_spec_low by lia|].
      rewrite Z.shiftl_spec, Z.land_spec by lia.
      replace (Z.testbit (Z.ones 1) (n - 1)) with false; [symmetry; apply andb_false_r|].
      symmetry. apply Z.ones_spec_high. lia. }
  rewrite !L. f_equal. f_equal. lia.
Qed.

Arguments shifted : simpl never.
Arguments pack : simpl never.
Arguments sent_by : simpl never.
Arguments got_by : simpl never.
Arguments file_of : simpl never.
Arguments is_shut : simpl never.
Arguments Z.leb : simpl never.
Arguments Z.ltb : simpl never.
Arguments Z.eqb : simpl never.
Arguments Z.land : simpl never.

(** ** Maps *)
Lemma zupd_eq {A} (m : Z -> A) k v : zupd m k v k = v.
Proof. unfold zupd. now rewrite Z.eqb_refl. Qed.
Lemma zupd_neq {A} (m : Z -> A) k v j : j <> k -> zupd m k v j = m j.
Proof. unfold zupd. intros H. now rewrite (proj2 (Z.eqb_neq j k) H). Qed.
Lemma nupd_eq {A} (m : nat -> A) k v : nupd m k v k = v.
Proof. unfold nupd. now rewrite Nat.eqb_refl. Qed.
Lemma nupd_neq {A} (m : nat -> A) k v j : j <> k -> nupd m k v j = m j.
Proof. unfold nupd. intros H. now rewrite (proj2 (Nat.eqb_neq j k) H). Qed.

(** ** The invariant *)
Definition FdOk (x : st) : Prop :=
  (forall s w, socks x s = Some w ->
     w = -1 \/ (0 <= w /\ fdt x (shifted w) <> None /\ ext x (shifted w) = false)) /\
  (forall s1 s2 fd, owns x s1 fd -> owns x s2 fd -> s1 = s2) /\
  (forall fd, fdt x fd <> None -> 0 <= fd /\ (ext x fd = true \/ exists s, owns x s fd)) /\
  (forall fd, ext x fd = true -> fdt x fd <> None).
Definition ReqOk (x : st) (q : req) : Prop :=
  exists w f, socks x (q_sock q) = Some w /\ 0 <= w /\ shifted w = q_fd q /\ q_sub q = q_fd q /\
    fdt x (q_fd q) = Some f /\
    nth_error (calls x) (q_op q) =
      Some {| c_sock := q_sock q; c_kind := q_kind q; c_file := Some f; c_data := q_data q |} /\
    (forall fo, q_stage q = Flight fo -> fo = Some f).
Definition PendOk (x : st) : Prop := forall q, In q (pend x) -> ReqOk x q.
Definition BytesOk (x : st) : Prop :=
  forall f, sent x f = sent_by (calls x) f (log x) /\
            arrived x f = got_by (calls x) f (log x) ++ inq x f.
Definition IdsOk (x : st) : Prop :=
  Permutation (map q_op (pend x) ++ map fst (log x)) (seq 0 (length (calls x))).
Definition Inv (x : st) : Prop := FdOk x /\ PendOk x /\ BytesOk x /\ IdsOk x.

Lemma inv_init : Inv init.
Proof.
  unfold Inv, FdOk, PendOk, BytesOk, IdsOk. cbn. repeat apply conj.
  - intros s w H. discriminate H.
  - intros s1 s2 fd (w & H & _). discriminate H.
  - intros fd H. now elim H.
  - intros fd H. discriminate H.
  - intros q [].
  - intros f. now split.
  - constructor.
Qed.

(** ** Descriptors *)
Lemma fd_open x s w fd : FdOk x -> socks x s = Some (-1) -> kfree x fd = true ->
  0 <= w -> shifted w = fd -> FdOk (set_sock (kopen x fd) s (Some w)).
Proof.
  intros (A & B & C & D) Hs Hf Hw Hsh. unfold kfree in Hf.
  destruct (fdt x fd) eqn:Ef; [now rewrite andb_false_r in Hf|].
  assert (Ex : ext x fd = false) by (destruct (ext x fd) eqn:E; auto; now elim (D fd E)).
  assert (NoOwn : forall s', owns x s' fd -> False).
  { intros s' (w' & H & H0 & H1). destruct (A _ _ H) as [->|(_ & H2 & _)]; [lia|]. rewrite H1 in H2. congruence. }
  assert (O : forall s' fd', owns (set_sock (kopen x fd) s (Some w)) s' fd' ->
             (s' = s /\ fd' = fd) \/ (s' <> s /\ owns x s' fd')).
  { intros s' fd' (w' & H & H0 & H1). cbn in H. destruct (Nat.eq_dec s' s) as [->|Ne].
    - rewrite nupd_eq in H. injection H as <-. left. split; congruence.
    - rewrite nupd_neq in H by auto. right. split; auto. now exists w'. }
  unfold FdOk. cbn. repeat apply conj.
  - intros s' w' H. destruct (Nat.eq_dec s' s) as [->|Ne].
    + rewrite nupd_eq in H. injection H as <-. right. rewrite Hsh, zupd_eq. repeat split; auto. discriminate.
    + rewrite nupd_neq in H by auto. destruct (A _ _ H) as [->|(H0 & H1 & H2)]; auto. right.
      repeat split; auto. rewrite zupd_neq; auto. intros E. rewrite E in H1. auto.
  - intros s1 s2 fd' H1 H2. apply O in H1, H2.
    destruct H1 as [[-> ->]|[N1 H1]], H2 as [[-> E2]|[N2 H2]]; auto; try (subst fd').
    + now elim (NoOwn _ H2).
    + now elim (NoOwn _ H1).
    + eauto.
  - intros fd' H. destruct (Z.eq_dec fd' fd) as [->|Ne].
    + split; [lia|]. right. exists s. exists w. cbn. rewrite nupd_eq. auto.
    + rewrite zupd_neq in H by auto. destruct (C _ H) as [H0 [H1|(s' & w' & H1 & H2 & H3)]]; split; auto.
      right. exists s', w'. cbn. rewrite nupd_neq; auto. intros ->. rewrite Hs in H1. injection H1 as <-. lia.
  - intros fd' H. destruct (Z.eq_dec fd' fd) as [->|Ne]; [rewrite zupd_eq; discriminate|].
    rewrite zupd_neq by auto. auto.
Qed.

Lemma fd_open_new x s w fd : FdOk x -> socks x s = None -> kfree x fd = true ->
  0 <= w -> shifted w = fd -> FdOk (set_sock (kopen x fd) s (Some w)).
Proof.
  intros F Hs Hf Hw Hsh.
  assert (F1 : FdOk (set_sock x s (Some (-1)))).
  { destruct F as (A & B & C & D). unfold FdOk. cbn. repeat apply conj; auto.
    - intros s' w' H. destruct (Nat.eq_dec s' s) as [->|Ne].
      + rewrite nupd_eq in H. injection H as <-. auto.
      + rewrite nupd_neq in H by auto. eauto.
    - intros s1 s2 fd' (w1 & H1 & P1 & Q1) (w2 & H2 & P2 & Q2). cbn in H1, H2.
      assert (s1 <> s) by (intros ->; rewrite nupd_eq in H1; injection H1 as <-; lia).
      assert (s2 <> s) by (intros ->; rewrite nupd_eq in H2; injection H2 as <-; lia).
      rewrite nupd_neq in H1, H2 by auto. apply (B s1 s2 fd'); [now exists w1|now exists w2].
    - intros fd' H. destruct (C _ H) as [H0 [H1|(s' & w' & H1 & H2 & H3)]]; split; auto.
      right. exists s', w'. cbn. rewrite nupd_neq; auto. congruence. }
  pose proof (fd_open (set_sock x s (Some (-1))) s w fd F1) as K. cbn in K. rewrite nupd_eq in K.
  specialize (K eq_refl Hf Hw Hsh).
  assert (E : forall s', nupd (nupd (socks x) s (Some (-1))) s (Some w) s' = nupd (socks x) s (Some w) s').
  { intros s'. unfold nupd. now destruct (Nat.eqb s' s). }
  destruct K as (A & B & C & D). cbn in A, C, D. unfold FdOk, owns in *. cbn in *.
  repeat apply conj; auto.
  - intros s' w' H. apply (A s'). now rewrite E.
  - intros s1 s2 fd' (w1 & H1) (w2 & H2). apply (B s1 s2 fd').
    + exists w1. now rewrite E.
    + exists w2. now rewrite E.
  - intros fd' H. destruct (C fd' H) as [H0 [H1|(s' & w' & H1)]]; split; auto. right. exists s', w'. now rewrite <- E.
Qed.

(** The socket gives its descriptor up: [m] and [e] are the new tables. *)
Lemma fd_drop x s w (v : option Z) (m : Z -> option nat) (e : Z -> bool) : FdOk x -> socks x s = Some w -> 0 <= w ->
  v = None \/ v = Some (-1) ->
  (forall fd, fd <> shifted w -> m fd = fdt x fd /\ e fd = ext x fd) ->
  (m (shifted w) <> None <-> e (shifted w) = true) ->
  FdOk (set_sock (set_ext (set_fdt x m) e) s v).
Proof.
  intros (A & B & C & D) Hs Hw Hv Ho Hm.
  assert (Own : owns x s (shifted w)) by now exists w.
  assert (O : forall s' fd', owns (set_sock (set_ext (set_fdt x m) e) s v) s' fd' ->
             s' <> s /\ fd' <> shifted w /\ owns x s' fd').
  { intros s' fd' (w' & H & H0 & H1). cbn in H. assert (Ne : s' <> s).
    { intros ->. rewrite nupd_eq in H. destruct Hv as [-> | ->]; [discriminate|]. injection H as <-. lia. }
    rewrite nupd_neq in H by auto. assert (Ow : owns x s' fd') by now exists w'. split; auto. split; auto.
    intros ->. now apply Ne, (B s' s (shifted w)). }
  unfold FdOk. cbn. repeat apply conj.
  - intros s' w' H. destruct (Nat.eq_dec s' s) as [->|Ne].
    + rewrite nupd_eq in H. destruct Hv as [-> | ->]; [discriminate|]. injection H as <-. auto.
    + rewrite nupd_neq in H by auto. destruct (A _ _ H) as [->|(H0 & H1 & H2)]; auto. right.
      assert (N2 : shifted w' <> shifted w).
      { intros E. apply Ne. apply (B s' s (shifted w)); auto. now exists w'. }
      destruct (Ho _ N2) as [-> ->]. auto.
  - intros s1 s2 fd' H1 H2. apply O in H1, H2. eapply B; [apply H1|apply H2].
  - intros fd' H. destruct (Z.eq_dec fd' (shifted w)) as [->|Ne].
    + split; [|left; now apply Hm]. destruct (A _ _ Hs) as [->|(_ & H1 & _)]; [lia|]. now apply C in H1.
    + destruct (Ho _ Ne) as [E1 E2]. rewrite E1 in H. rewrite E2.
      destruct (C _ H) as [H0 [H1|(s' & w' & H1 & H2 & H3)]]; split; auto. right. exists s', w'. cbn.
      rewrite nupd_neq; auto. intros ->. rewrite Hs in H1. injection H1 as <-. auto.
  - intros fd' H. destruct (Z.eq_dec fd' (shifted w)) as [->|Ne]; [now apply Hm|].
    destruct (Ho _ Ne) as [E1 E2]. rewrite E1. rewrite E2 in H. auto.
Qed.

(** ** Calls *)
Lemma sent_by_app cs f a b : sent_by cs f (a ++ b) = sent_by cs f a ++ sent_by cs f b.
Proof. apply flat_map_app. Qed.
Lemma got_by_app cs f a b : got_by cs f (a ++ b) = got_by cs f a ++ got_by cs f b.
Proof. apply flat_map_app. Qed.
Lemma by_calls cs c f lg : (forall i, In i (map fst lg) -> (i < length cs)%nat) ->
  sent_by (cs ++ [c]) f lg = sent_by cs f lg /\ got_by (cs ++ [c]) f lg = got_by cs f lg.
Proof.
  induction lg as [|e lg IH]; intros H; [now split|]. destruct IH as [I1 I2].
  { intros i Hi. apply H. now right. }
  assert (Hi : (fst e < length cs)%nat) by (apply H; now left).
  unfold sent_by, got_by in *. cbn [flat_map]. rewrite I1, I2, nth_error_app1 by auto. now split.
Qed.
Lemma ids_in x i : IdsOk x -> In i (map q_op (pend x)) \/ In i (map fst (log x)) -> (i < length (calls x))%nat.
Proof.
  intros P H. apply in_or_app in H. apply (Permutation_in i P) in H. apply in_seq in H. lia.
Qed.

Lemma perm_filter p i : NoDup (map q_op p) -> In i (map q_op p) ->
  Permutation (map q_op (filter (fun q => negb (Nat.eqb (q_op q) i)) p) ++ [i]) (map q_op p).
Proof.
  induction p as [|q p IH]; intros ND Hin; [destruct Hin|]. cbn in ND, Hin. inversion ND as [|? ? N1 N2]; subst.
  cbn [filter]. destruct (Nat.eqb_spec (q_op q) i) as [E|Ne]; cbn [negb].
  - subst i. replace (filter _ p) with p.
    + cbn. symmetry. apply Permutation_cons_append.
    + clear -N1. induction p as [|a p IH]; auto. cbn in N1. cbn [filter].
      destruct (Nat.eqb_spec (q_op a) (q_op q)) as [E|Ne]; [elim N1; auto|]. cbn [negb]. f_equal. apply IH. auto.
  - destruct Hin as [E|Hin]; [congruence|]. cbn. constructor. auto.
Qed.

Lemma ids_report x i r : IdsOk x -> In i (map q_op (pend x)) -> IdsOk (report x i r).
Proof.
  unfold IdsOk. cbn. intros P Hin. rewrite map_app. cbn.
  assert (ND : NoDup (map q_op (pend x))).
  { assert (Q : NoDup (map q_op (pend x) ++ map fst (log x))).
    { eapply Permutation_NoDup; [symmetry; exact P|apply seq_NoDup]. }
    clear -Q. induction (map q_op (pend x)); [constructor|]. inversion Q; subst. constructor; auto.
    intros H. apply H1. apply in_or_app. auto. }
  etransitivity; [|exact P].
  etransitivity; [|apply Permutation_app_tail; apply (perm_filter (pend x) i ND Hin)].
  rewrite <- app_assoc. apply Permutation_app_head. apply Permutation_app_comm.
Qed.
Lemma ids_now x s k w d r : IdsOk x -> IdsOk (report (add_call x s k w d) (length (calls x)) r).
Proof.
  intros P. assert (F : filter (fun q => negb (Nat.eqb (q_op q) (length (calls x)))) (pend x) = pend x).
  { assert (H : forall q, In q (pend x) -> q_op q <> length (calls x)).
    { intros q Hq. assert (q_op q < length (calls x))%nat; [|lia]. apply (ids_in x); auto. left. now apply in_map. }
    clear P. induction (pend x) as [|a p IH]; auto. cbn [filter].
    destruct (Nat.eqb_spec (q_op a) (length (calls x))) as [E|Ne]; [elim (H a); [now left|auto]|].
    cbn [negb]. f_equal. apply IH. intros q Hq. apply H. now right. }
  unfold IdsOk in *. cbn. rewrite F, map_app, app_length, seq_app, app_assoc. cbn.
  apply Permutation_app_tail. exact P.
Qed.
Lemma ids_push x s k w d q : IdsOk x -> q_op q = length (calls x) ->
  IdsOk (set_pend (add_call x s k w d) (pend x ++ [q])).
Proof.
  unfold IdsOk. cbn. intros P E. rewrite map_app, app_length, seq_app. cbn. rewrite E.
  etransitivity; [|apply Permutation_app_tail; exact P].
  rewrite <- !app_assoc. apply Permutation_app_head. cbn. apply Permutation_cons_append.
Qed.
Lemma put_ids x q : map q_op (pend (put_req x q)) = map q_op (pend x).
Proof.
  cbn. rewrite map_map. apply map_ext. intros p. destruct (Nat.eqb_spec (q_op p) (q_op q)); auto.
Qed.

Lemma find_in x i q : find_req x i = Some q -> In q (pend x) /\ q_op q = i.
Proof. intros H. apply find_some in H. destruct H as [H1 H2]. split; auto. now apply Nat.eqb_eq. Qed.

(** Requests of sockets that keep their descriptor stay good. *)
Lemma req_keep x y q : ReqOk x q -> fdt y (q_fd q) = fdt x (q_fd q) ->
  (forall w, socks x (q_sock q) = Some w -> 0 <= w ->
     exists w', socks y (q_sock q) = Some w' /\ 0 <= w' /\ shifted w' = shifted w) ->
  (forall c, nth_error (calls x) (q_op q) = Some c -> nth_error (calls y) (q_op q) = Some c) -> ReqOk y q.
Proof.
  intros (w & f & H1 & H2 & H3 & H4 & H5 & H6 & H7) E1 E2 E3.
  destruct (E2 w H1 H2) as (w' & W1 & W2 & W3). exists w', f. rewrite E1. repeat split; auto. congruence.
Qed.

Lemma pend_now x s k w d r : PendOk x ->
  PendOk (report (add_call x s k w d) (length (calls x)) r).
Proof.
  intros P q Hq. cbn in Hq. apply filter_In in Hq. destruct Hq as [Hq _]. apply P in Hq.
  apply (req_keep x); auto.
  - intros w' H H0. exists w'. auto.
  - intros c H. cbn. rewrite nth_error_app1; auto. apply nth_error_Some. congruence.
Qed.
Lemma pend_report x i r : PendOk x -> PendOk (report x i r).
Proof.
  intros P q Hq. cbn in Hq. apply filter_In in Hq. destruct Hq as [Hq _]. exact (P q Hq).
Qed.
Lemma pend_push x s k w f d q : PendOk x -> socks x s = Some w -> 0 <= w -> fdt x (shifted w) = Some f ->
  q_op q = length (calls x) -> q_sock q = s -> q_kind q = k -> q_fd q = shifted w -> q_sub q = shifted w ->
  q_data q = d -> (forall fo, q_stage q <> Flight fo) ->
  PendOk (set_pend (add_call x s k w d) (pend x ++ [q])).
Proof.
  intros P Hs Hw Hf E1 E2 E3 E4 E5 E6 E7 p Hp. cbn in Hp. apply in_app_or in Hp. destruct Hp as [Hp|[<-|[]]].
  - apply P in Hp. apply (req_keep x); auto.
    + intros w' H H0. exists w'. auto.
    + intros c H. cbn. rewrite nth_error_app1; auto. apply nth_error_Some. congruence.
  - exists w, f. rewrite E1, E2, E3, E4, E5, E6. cbn. repeat split; auto.
    + rewrite nth_error_app2, Nat.sub_diag by lia. cbn. unfold file_of. now rewrite Hf.
    + intros fo H. now elim (E7 fo).
Qed.
Lemma pend_put x q q' : PendOk x -> In q (pend x) -> q_op q' = q_op q -> q_sock q' = q_sock q ->
  q_kind q' = q_kind q -> q_fd q' = q_fd q -> q_data q' = q_data q -> q_sub q' = q_fd q ->
  (forall fo, q_stage q' = Flight fo -> fo = fdt x (q_fd q)) -> PendOk (put_req x q').
Proof.
  intros P Hq E1 E2 E3 E4 E5 E6 E7 p Hp. cbn in Hp. apply in_map_iff in Hp. destruct Hp as (a & Ha & Ia).
  destruct (Nat.eqb (q_op a) (q_op q')).
  - subst p. destruct (P q Hq) as (w & f & H1 & H2 & H3 & H4 & H5 & H6 & H7). exists w, f.
    rewrite E1, E2, E3, E4, E5, E6. cbn. repeat split; auto. intros fo H. rewrite (E7 fo H). auto.
  - subst p. exact (P a Ia).
Qed.

Lemma bytes_quiet x i r cs : BytesOk x -> IdsOk x ->
  match r with RSent _ | RGot _ => False | _ => True end ->
  (cs = calls x \/ exists c, cs = calls x ++ [c]) ->
  forall f, sent x f = sent_by cs f (log x ++ [(i, r)]) /\
            arrived x f = got_by cs f (log x ++ [(i, r)]) ++ inq x f.
Proof.
  intros B I R C f. rewrite sent_by_app, got_by_app.
  assert (E : sent_by cs f [(i, r)] = [] /\ got_by cs f [(i, r)] = []).
  { unfold sent_by, got_by. cbn. destruct (nth_error cs i); destruct r; try easy. }
  destruct E as [-> ->]. rewrite !app_nil_r. destruct C as [->|[c ->]]; [apply B|].
  destruct (by_calls (calls x) c f (log x)) as [-> ->]; [|apply B].
  intros j Hj. apply (ids_in x); auto.
Qed.

(** One transfer and its result: the bytes of the file [f] of call [i]. *)
Lemma bytes_transfer x k f d cap n x1 v i c cs : BytesOk x -> IdsOk x ->
  transfer x k f d cap n = Some (x1, v) -> nth_error cs i = Some c -> c_file c = Some f -> c_data c = d ->
  (cs = calls x \/ exists c', cs = calls x ++ [c']) ->
  forall g, sent x1 g = sent_by cs g (log x ++ [(i, v)]) /\
            arrived x1 g = got_by cs g (log x ++ [(i, v)]) ++ inq x1 g.
Proof.
  intros B I T N1 N2 N3 C g.
  assert (Old : sent_by cs g (log x) = sent x g /\ got_by cs g (log x) ++ inq x g = arrived x g).
  { destruct (B g) as [B1 B2]. destruct C as [->|[c' ->]]; [now rewrite B1, B2|].
    destruct (by_calls (calls x) c' g (log x)) as [-> ->]; [|now rewrite B1, B2].
    intros j Hj. apply (ids_in x); auto. }
  destruct Old as [O1 O2]. rewrite sent_by_app, got_by_app, O1.
  assert (S1 : forall r, sent_by cs g [(i, r)] = match r with RSent m => if Nat.eqb f g then firstn m d else [] | _ => [] end).
  { intros r. unfold sent_by. cbn. rewrite N1, N2, N3. destruct r; auto. now rewrite app_nil_r. }
  assert (S2 : forall r, got_by cs g [(i, r)] = match r with RGot l => if Nat.eqb f g then l else [] | _ => [] end).
  { intros r. unfold got_by. cbn. rewrite N1, N2. destruct r; auto. now rewrite app_nil_r. }
  rewrite S1, S2. unfold transfer in T.
  assert (W : forall n0, Some (set_bytes x (nupd (sent x) f (sent x f ++ firstn n0 d)) (inq x) (arrived x), RSent n0) = Some (x1, v) ->
    sent x1 g = sent x g ++ match v with RSent m => if Nat.eqb f g then firstn m d else [] | _ => [] end /\
    arrived x1 g = (got_by cs g (log x) ++ match v with RGot l => if Nat.eqb f g then l else [] | _ => [] end) ++ inq x1 g).
  { intros n0 E. injection E as <- <-. cbn. rewrite app_nil_r. split; [|auto]. destruct (Nat.eqb_spec f g) as [->|Ne].
    - now rewrite nupd_eq.
    - rewrite nupd_neq by auto. now rewrite app_nil_r. }
  assert (R : forall n0, Some (set_bytes x (sent x) (nupd (inq x) f (skipn n0 (inq x f))) (arrived x), RGot (firstn n0 (inq x f))) = Some (x1, v) ->
    sent x1 g = sent x g ++ match v with RSent m => if Nat.eqb f g then firstn m d else [] | _ => [] end /\
    arrived x1 g = (got_by cs g (log x) ++ match v with RGot l => if Nat.eqb f g then l else [] | _ => [] end) ++ inq x1 g).
  { intros n0 E. injection E as <- <-. cbn. rewrite app_nil_r. split; [auto|]. rewrite <- O2.
    destruct (Nat.eqb_spec f g) as [->|Ne].
    - rewrite nupd_eq, <- app_assoc. now rewrite firstn_skipn.
    - rewrite nupd_neq by auto. now rewrite app_nil_r. }
  destruct k; try (destruct (n <=? length d)%nat; [eauto|discriminate]);
    try (destruct (n <=? _)%nat; [eauto|discriminate]).
  - destruct (n =? 0)%nat; [|discriminate]. injection T as <- <-. now rewrite !app_nil_r.
  - discriminate.
Qed.
Lemma transfer_same x k f d cap n x1 v : transfer x k f d cap n = Some (x1, v) ->
  fdt x1 = fdt x /\ ext x1 = ext x /\ socks x1 = socks x /\ pend x1 = pend x /\ calls x1 = calls x /\
  log x1 = log x /\ nfile x1 = nfile x.
Proof.
  unfold transfer. destruct k; repeat match goal with |- context [if ?c then _ else _] => destruct c end;
    intros H; try discriminate; injection H as <- <-; cbn; auto 10.
Qed.

Lemma idle_other x s q : idle x s = true -> In q (pend x) -> q_sock q <> s.
Proof.
  unfold idle. intros H Hq E. apply negb_true_iff in H.
  assert (existsb (fun q => Nat.eqb (q_sock q) s) (pend x) = true); [|congruence].
  apply existsb_exists. exists q. split; auto. now apply Nat.eqb_eq.
Qed.

(** The socket gives up its descriptor while nothing waits on it. *)
Lemma inv_drop x s w v m e : Inv x -> idle x s = true -> socks x s = Some w -> 0 <= w ->
  v = None \/ v = Some (-1) ->
  (forall fd, fd <> shifted w -> m fd = fdt x fd /\ e fd = ext x fd) ->
  (m (shifted w) <> None <-> e (shifted w) = true) ->
  Inv (set_sock (set_ext (set_fdt x m) e) s v).
Proof.
  intros (F & P & B & I) Hi Hs Hw Hv Ho Hm. split; [eapply fd_drop; eauto|]. split; [|split; [exact B|exact I]].
  intros q Hq. cbn in Hq. pose proof (idle_other _ _ _ Hi Hq) as Ne. pose proof (P q Hq) as R.
  apply (req_keep x); auto.
  - cbn. destruct R as (w' & f & R1 & R2 & R3 & _). apply Ho. rewrite <- R3. intros E. apply Ne.
    destruct F as (_ & FB & _). apply (FB _ _ (shifted w)); [now exists w'|now exists w].
  - intros w' H H0. exists w'. cbn. rewrite nupd_neq by auto. auto.
Qed.

Lemma inv_close x s w : Inv x -> idle x s = true -> socks x s = Some w -> Inv (close x s w).
Proof.
  intros H Hi Hs. unfold close. destruct (Z.ltb_spec w 0); auto.
  apply (inv_drop x s w (Some (-1)) (zupd (fdt x) (shifted w) None) (ext x)); auto.
  - intros fd Ne. now rewrite zupd_neq.
  - rewrite zupd_eq. destruct H as [(A & _) _]. destruct (A _ _ Hs) as [->|(_ & _ & E)]; [lia|].
    rewrite E. split; [now intros []|discriminate].
Qed.

Lemma inv_destroy x s w : Inv x -> idle x s = true -> socks x s = Some w ->
  Inv (set_sock (close x s w) s None).
Proof.
  intros H Hi Hs. pose proof H as (F & P & B & I). unfold close. destruct (Z.ltb_spec w 0).
  - assert (w = -1) as ->.
    { destruct F as (A & _). destruct (A _ _ Hs) as [->|(H1 & _)]; auto. lia. }
    split; [|split; [|split; [exact B|exact I]]].
    + destruct F as (A & FB & C & D).
      assert (O : forall s' fd', owns (set_sock x s None) s' fd' <-> owns x s' fd').
      { intros s' fd'. split; intros (w' & H1 & H2 & H3); exists w'; cbn in *.
        - assert (s' <> s) by (intros ->; rewrite nupd_eq in H1; discriminate). rewrite nupd_neq in H1 by auto. auto.
        - rewrite nupd_neq; auto. intros ->. rewrite Hs in H1. injection H1 as <-. lia. }
      repeat apply conj; cbn; auto.
      * intros s' w' H1. apply (A s'). destruct (Nat.eq_dec s' s) as [->|Ne].
        -- rewrite nupd_eq in H1. discriminate.
        -- now rewrite nupd_neq in H1.
      * intros s1 s2 fd' H1 H2. apply O in H1, H2. eauto.
      * intros fd' H1. destruct (C _ H1) as [H2 [H3|[s' H3]]]; split; auto. right. exists s'. now apply O.
    + intros q Hq. cbn in Hq. pose proof (idle_other _ _ _ Hi Hq) as Ne. apply (req_keep x); auto.
      intros w' H1 H2. exists w'. cbn. rewrite nupd_neq by auto. auto.
  - assert (E : Inv (set_sock (set_ext (set_fdt x (zupd (fdt x) (shifted w) None)) (ext x)) s None)).
    { apply (inv_drop x s w None); auto.
      - intros fd Ne. now rewrite zupd_neq.
      - rewrite zupd_eq. destruct F as (A & _). destruct (A _ _ Hs) as [->|(_ & _ & E)]; [lia|].
        rewrite E. split; [now intros []|discriminate]. }
    destruct E as ((A & FB & C & D) & P' & B' & I').
    assert (X : forall s', nupd (nupd (socks x) s (Some (-1))) s None s' = nupd (socks x) s None s').
    { intros s'. unfold nupd. now destruct (Nat.eqb s' s). }
    split; [|split; [|split; [exact B'|exact I']]].
    + unfold FdOk, owns in *. cbn in *. repeat apply conj; auto.
      * intros s' w' H1. rewrite X in H1. eauto.
      * intros s1 s2 fd' (w1 & H1) (w2 & H2). rewrite X in H1, H2. eauto.
      * intros fd' H1. destruct (C fd' H1) as [H2 [H3|(s' & w' & H3)]]; split; auto. right. exists s', w'. now rewrite X.
    + intros q Hq. apply (req_keep _ _ q (P' q Hq)); auto. intros w' H1 H2. exists w'. cbn in *. rewrite X. auto.
Qed.

(** A descriptor is opened for a socket that has none. *)
Lemma inv_open x s w fd : Inv x -> socks x s = Some (-1) \/ socks x s = None -> kfree x fd = true ->
  0 <= w -> shifted w = fd -> Inv (set_sock (kopen x fd) s (Some w)).
Proof.
  intros (F & P & B & I) Hs Hf Hw Hsh.
  split; [destruct Hs; [now apply fd_open|now apply fd_open_new]|]. split; [|split; [exact B|exact I]].
  intros q Hq. cbn in Hq. pose proof (P q Hq) as R. apply (req_keep x); auto.
  - cbn. apply zupd_neq. intros E. destruct R as (w' & f & _ & _ & _ & _ & R & _). rewrite E in R.
    unfold kfree in Hf. rewrite R in Hf. now rewrite andb_false_r in Hf.
  - intros w' H H0. exists w'. cbn. rewrite nupd_neq; auto. intros E. rewrite E in H. destruct Hs as [Hs|Hs]; rewrite Hs in H.
    + injection H as <-. lia.
    + discriminate.
Qed.

Lemma inv_now x s k w d r : Inv x -> match r with RSent _ | RGot _ => False | _ => True end ->
  Inv (report (add_call x s k w d) (length (calls x)) r).
Proof.
  intros (F & P & B & I) Hr. split; [exact F|]. split; [now apply pend_now|]. split; [|now apply ids_now].
  intros f. cbn. apply bytes_quiet; eauto.
Qed.
Lemma inv_push x s k w f d q : Inv x -> socks x s = Some w -> 0 <= w -> fdt x (shifted w) = Some f ->
  q_op q = length (calls x) -> q_sock q = s -> q_kind q = k -> q_fd q = shifted w -> q_sub q = shifted w ->
  q_data q = d -> (forall fo, q_stage q <> Flight fo) ->
  Inv (set_pend (add_call x s k w d) (pend x ++ [q])).
Proof.
  intros (F & P & B & I) H1 H2 H3 H4 H5 H6 H7 H8 H9 H10. split; [exact F|]. split; [eapply pend_push; eauto|].
  split; [|now apply ids_push].
  intros g. cbn. destruct (by_calls (calls x) {| c_sock := s; c_kind := k; c_file := file_of x w; c_data := d |} g (log x)) as [E1 E2].
  - intros i Hi. apply (ids_in x); auto.
  - rewrite E1, E2. apply B.
Qed.
Lemma inv_put x q q' : Inv x -> In q (pend x) -> q_op q' = q_op q -> q_sock q' = q_sock q ->
  q_kind q' = q_kind q -> q_fd q' = q_fd q -> q_data q' = q_data q -> q_sub q' = q_fd q ->
  (forall fo, q_stage q' = Flight fo -> fo = fdt x (q_fd q)) -> Inv (put_req x q').
Proof.
  intros (F & P & B & I) H1 H2 H3 H4 H5 H6 H7 H8. split; [exact F|]. split; [eapply pend_put; eauto|].
  split; [exact B|]. unfold IdsOk. rewrite put_ids. exact I.
Qed.
Lemma inv_report x i r : Inv x -> In i (map q_op (pend x)) -> match r with RSent _ | RGot _ => False | _ => True end ->
  Inv (report x i r).
Proof.
  intros (F & P & B & I) Hin Hr. split; [exact F|]. split; [now apply pend_report|]. split; [|now apply ids_report].
  intros f. cbn. apply bytes_quiet; eauto.
Qed.

Lemma open_file x s w : Inv x -> socks x s = Some w -> 0 <= w -> exists f, fdt x (shifted w) = Some f.
Proof.
  intros ((A & _) & _) Hs Hw. destruct (A _ _ Hs) as [->|(_ & H & _)]; [lia|].
  destruct (fdt x (shifted w)) as [f|]; [now exists f|now elim H].
Qed.
Lemma closed_word x s w : Inv x -> socks x s = Some w -> w < 0 -> w = -1.
Proof. intros ((A & _) & _) Hs Hw. destruct (A _ _ Hs) as [->|(H & _)]; auto. lia. Qed.

(** [destruct] the first match of the goal. *)
Ltac dm := match goal with |- context [match ?c with _ => _ end] => destruct c eqn:? end.

Lemma kfree_nonneg x r : kfree x r = true -> 0 <= r.
Proof. unfold kfree. intros H. destruct (fdt x r); lia. Qed.

Lemma inv_create x s uds r : Inv x -> opened x s = false ->
  match create x s uds r with Next y => Inv y | Ub => False | Stuck => True end.
Proof.
  intros H Ho. unfold create, opened in *. destruct (socks x s) as [w|] eqn:Es; auto. destruct (r <? 0) eqn:Er; auto.
  destruct (kfree x r) eqn:Ek; auto.
  assert (w = -1) as -> by (apply (closed_word x s); auto; lia).
  assert (0 <= (if uds then IS_UDS else 0) < 16) by (destruct uds; unfold IS_UDS; lia).
  apply inv_open; auto.
  - rewrite pack_add by auto. apply kfree_nonneg in Ek. lia.
  - now apply shifted_pack.
Qed.

Lemma inv_transfer x q f n x1 v : Inv x -> In q (pend x) -> q_stage q = Flight (Some f) ->
  transfer x (q_kind q) f (q_data q) (q_cap q) n = Some (x1, v) -> Inv (report x1 (q_op q) v).
Proof.
  intros H Hq Eg Et. pose proof H as (F & P & B & I).
  destruct (transfer_same _ _ _ _ _ _ _ _ Et) as (E1 & E2 & E3 & E4 & E5 & E6 & _).
  destruct (P q Hq) as (w & f0 & R1 & R2 & R3 & R4 & R5 & R6 & R7). specialize (R7 _ Eg). injection R7 as <-.
  assert (D : FdOk x1 /\ PendOk x1 /\ IdsOk x1).
  { unfold FdOk, PendOk, ReqOk, IdsOk, owns in *. rewrite E1, E2, E3, E4, E5, E6. auto. }
  destruct D as (F1 & P1 & I1). split; [exact F1|]. split; [now apply pend_report|]. split.
  - intros g. cbn. rewrite E6. rewrite E5.
    exact (bytes_transfer x _ f _ _ _ _ _ _ _ (calls x) B I Et R6 eq_refl eq_refl (or_introl eq_refl) g).
  - apply ids_report; auto. rewrite E4. now apply in_map.
Qed.

Lemma inv_try x s w k f d cap n x2 v : Inv x -> socks x s = Some w -> file_of x w = Some f ->
  transfer (add_call x s k w d) k f d cap n = Some (x2, v) -> Inv (report x2 (length (calls x)) v).
Proof.
  intros H Hs Ef Et. pose proof H as (F & P & B & I).
  destruct (transfer_same _ _ _ _ _ _ _ _ Et) as (E1 & E2 & E3 & E4 & E5 & E6 & _). cbn in *.
  assert (Et0 : exists x0, transfer x k f d cap n = Some (x0, v) /\ sent x0 = sent x2 /\ inq x0 = inq x2 /\ arrived x0 = arrived x2).
  { unfold transfer in *. cbn in Et. destruct k; repeat match goal with H : context [if ?c then _ else _] |- _ => destruct c end;
      try discriminate Et; injection Et as <- <-; eexists; split; try reflexivity; auto. }
  destruct Et0 as (x0 & Et0 & S1 & S2 & S3).
  pose proof (inv_now x s k w d (RErr 0) H Logic.I) as (F1 & P1 & _ & I1).
  split; [|split; [|split]].
  - unfold FdOk, owns in *. cbn in *. rewrite E1, E2, E3. exact F1.
  - intros q Hq. cbn in Hq. rewrite E4 in Hq. destruct (P1 q Hq) as (w' & f' & R). cbn in R. exists w', f'. cbn.
    rewrite E1, E3, E5. exact R.
  - intros g. cbn. rewrite E5, E6.
    rewrite <- S1, <- S2, <- S3.
    eapply (bytes_transfer x k f d cap n x0 v (length (calls x))); eauto.
    + rewrite nth_error_app2, Nat.sub_diag by lia. reflexivity.
    + exact Ef.
    + reflexivity.
  - unfold IdsOk in *. cbn in *. rewrite E4, E5, E6. rewrite map_app in *. exact I1.
Qed.

Lemma inv_step x l : Inv x -> match cstep x l with Next y => Inv y | Ub => False | Stuck => True end.
Proof.
  intros H. unfold cstep. destruct (calm x l) eqn:Hc; [|exact Logic.I]. pose proof H as (F & P & B & I).
  destruct l; cbn [step calm] in *.
  - (* LNew *) destruct (socks x s) eqn:Es; [exact Logic.I|]. split; [|split; [|split; [exact B|exact I]]].
    + destruct F as (A & FB & C & D).
      assert (O : forall s' fd', owns (set_sock x s (Some (-1))) s' fd' <-> owns x s' fd').
      { intros s' fd'. split; intros (w' & H1 & H2 & H3); exists w'; cbn in *.
        - assert (s' <> s) by (intros ->; rewrite nupd_eq in H1; injection H1 as <-; lia). rewrite nupd_neq in H1 by auto. auto.
        - rewrite nupd_neq; auto. intros ->. rewrite Es in H1. discriminate. }
      repeat apply conj; cbn; auto.
      * intros s' w' H1. destruct (Nat.eq_dec s' s) as [->|Ne].
        -- rewrite nupd_eq in H1. injection H1 as <-. auto.
        -- rewrite nupd_neq in H1 by auto. eauto.
      * intros s1 s2 fd' H1 H2. apply O in H1, H2. eauto.
      * intros fd' H1. destruct (C _ H1) as [H2 [H3|[s' H3]]]; split; auto. right. exists s'. now apply O.
    + intros q Hq. cbn in Hq. apply (req_keep x); auto. intros w' H1 H2. exists w'. cbn.
      rewrite nupd_neq; auto. intros E. rewrite E in H1. congruence.
  - (* LCreate *) apply inv_create; auto. now apply negb_true_iff in Hc.
  - (* LConnect *) unfold connect. unfold opened in Hc. destruct (socks x s) as [w|] eqn:Es; [|exact Logic.I].
    assert (w = -1) as -> by (apply (closed_word x s); auto; lia).
    change (-1 =? -1) with true. cbn [negb]. destruct (r <? 0) eqn:Er; [now apply inv_now|].
    destruct (kfree x r) eqn:Ek; [|exact Logic.I].
    assert (Hs0 : shifted (pack r 0) = r) by (apply shifted_pack; lia).
    assert (Hp0 : 0 <= pack r 0) by (rewrite pack_add by lia; apply kfree_nonneg in Ek; lia).
    assert (H1 : Inv (set_sock (kopen x r) s (Some (pack r 0)))) by (apply inv_open; auto).
    eapply (inv_push (set_sock (kopen x r) s (Some (pack r 0))) s KConnect (pack r 0) (nfile x) []); try reflexivity; auto; cbn.
    + apply nupd_eq.
    + rewrite Hs0. apply zupd_eq.
    + intros fo E. discriminate E.
  - (* LBind *) unfold bind. destruct (socks x s) as [w|] eqn:Es; [|exact Logic.I].
    destruct (Z.eqb_spec w (-1)) as [->|Ne].
    + assert (Ho : opened x s = false) by (unfold opened; rewrite Es; reflexivity).
      pose proof (inv_create x s false r1 H Ho) as K. pose proof (eq_refl (create x s false r1)) as K2.
      unfold create in K2 at 2. rewrite Es in K2.
      destruct (create x s false r1) as [| |y]; auto. cbn [andb].
      destruct (r1 <? 0) eqn:Er; auto. destruct (kfree x r1) eqn:Ek; [|discriminate]. injection K2 as ->.
      destruct (r2 <? 0); [|exact K]. cbn. rewrite nupd_eq. apply inv_close; auto. cbn. apply nupd_eq.
    + cbn [andb]. destruct (r2 <? 0); [|exact H]. rewrite Es. now apply inv_close.
  - (* LListen *) unfold listen. destruct (socks x s) as [w|] eqn:Es; [|exact Logic.I].
    destruct (r <? 0); [now apply inv_close|exact H].
  - (* LAccept *) unfold accept, opened in *. destruct (socks x s) as [w|] eqn:Es; [|exact Logic.I].
    destruct (open_file x s w H Es) as [f Ef]; [lia|].
    eapply (inv_push x s KAccept w); try reflexivity; eauto; [lia|]. intros fo E. discriminate E.
  - (* LAccept4 *) unfold accept4. destruct (find_req x i) as [q|] eqn:Eq; [|exact Logic.I].
    apply find_in in Eq. destruct Eq as [Hq Ei].
    destruct (q_stage q) eqn:Eg; try exact Logic.I.
    destruct (P q Hq) as (w & f & R1 & R2 & R3 & R4 & R5 & R6 & R7). rewrite R1.
    destruct (r <? 0) eqn:Er.
    + destruct (- r =? EAGAIN).
      * apply (inv_put x q); auto. cbn. intros fo E. discriminate E.
      * apply inv_report; auto. subst i. now apply in_map.
    + rewrite R5. destruct (socks x s') eqn:Es'; [exact Logic.I|]. destruct (kfree x r) eqn:Ek; [|exact Logic.I].
      destruct (land2 w) as [L1 _]. fold kInheritedFlags in L1.
      apply inv_report; auto.
      * apply inv_open; auto.
        -- rewrite pack_add by auto. apply kfree_nonneg in Ek. lia.
        -- now apply shifted_pack.
      * cbn. subst i. now apply in_map.
  - (* LShutdown *) unfold shutdown. destruct (socks x s) as [w|] eqn:Es; [|exact Logic.I].
    destruct (w <? 0) eqn:Ew; auto. destruct (is_shut w) eqn:Eh; auto.
    pose proof (shifted_shut w Eh) as Sh. assert (Nn : 0 <= Z.lor w IS_SHUTDOWN) by (rewrite lor1 by auto; lia).
    set (w1 := Z.lor w IS_SHUTDOWN) in *. clearbody w1.
    split; [|split; [|split; [exact B|exact I]]].
    + destruct F as (A & FB & C & D).
      assert (O : forall s' fd', owns (set_sock x s (Some w1)) s' fd' <-> owns x s' fd').
      { intros s' fd'. split; intros (w' & H1 & H2 & H3); cbn in *; destruct (Nat.eq_dec s' s) as [->|Ne].
        - rewrite nupd_eq in H1. injection H1 as <-. exists w. split; auto. split; [lia|congruence].
        - rewrite nupd_neq in H1 by auto. now exists w'.
        - rewrite Es in H1. injection H1 as <-. exists w1. cbn. rewrite nupd_eq. split; auto. split; [lia|congruence].
        - exists w'. cbn. now rewrite nupd_neq. }
      repeat apply conj; cbn; auto.
      * intros s' w' H1. destruct (Nat.eq_dec s' s) as [->|Ne].
        -- rewrite nupd_eq in H1. injection H1 as <-. right. split; [lia|]. rewrite Sh.
           destruct (A _ _ Es) as [->|(_ & X)]; [discriminate|exact X].
        -- rewrite nupd_neq in H1 by auto. eauto.
      * intros s1 s2 fd' H1 H2. apply O in H1, H2. eauto.
      * intros fd' H1. destruct (C _ H1) as [H2 [H3|[s' H3]]]; split; auto. right. exists s'. now apply O.
    + intros q Hq. cbn in Hq. apply (req_keep x); auto. intros w' H1 H2. cbn.
      destruct (Nat.eq_dec (q_sock q) s) as [E|Ne].
      * rewrite E, nupd_eq. rewrite E, Es in H1. injection H1 as <-. eauto.
      * rewrite nupd_neq by auto. eauto.
  - (* LClose *) destruct (socks x s) as [w|] eqn:Es; [|exact Logic.I]. now apply inv_close.
  - (* LDetach *) destruct (socks x s) as [w|] eqn:Es; [|exact Logic.I]. destruct (w <? 0) eqn:Ew; auto.
    apply (inv_drop x s w (Some (-1)) (fdt x) (zupd (ext x) (shifted w) true)); auto; [lia|..].
    + intros fd Ne. now rewrite zupd_neq.
    + rewrite zupd_eq. destruct (open_file x s w H Es) as [f Ef]; [lia|]. rewrite Ef. split; [auto|discriminate].
  - (* LDestroy *) destruct (socks x s) as [w|] eqn:Es; [|exact Logic.I]. now apply inv_destroy.
  - (* LStart *) unfold start. unfold opened in Hc. destruct (socks x s) as [w|] eqn:Es.
    2: { destruct k; exact Logic.I. }
    assert (Push : forall k0, 0 <= w -> Inv (set_pend (add_call x s k0 w d) (pend x ++
       [{| q_op := length (calls x); q_sock := s; q_kind := k0; q_fd := shifted w; q_sub := shifted w;
           q_data := d; q_cap := cap; q_stage := Filled |}]))).
    { intros k0 Hw. destruct (open_file x s w H Es Hw) as [f Ef]. eapply inv_push; try reflexivity; eauto.
      intros fo E. discriminate E. }
    assert (Shut : w < 0 -> is_shut w = true) by (intros L; rewrite (closed_word x s w H Es L); reflexivity).
    destruct k; try exact Logic.I; cbn [shut_error] in *;
      (destruct (is_shut w) eqn:Eh; [first [now apply inv_now|apply Push; lia]|apply Push]);
      try (destruct (Z_lt_le_dec w 0) as [L|L]; [specialize (Shut L); congruence|exact L]); lia.
  - (* LTry *) unfold try_io. destruct k; try exact Logic.I; destruct (socks x s) as [w|] eqn:Es; try exact Logic.I;
      cbn [shut_error]; (destruct (is_shut w); [now apply inv_now|]); (destruct (r <? 0); [now apply inv_now|]);
      (destruct (file_of x w) as [f|] eqn:Ef; [|exact Logic.I]);
      match goal with |- context [transfer ?a ?b ?c ?d ?e ?f] => destruct (transfer a b c d e f) as [[x2 v]|] eqn:Et end;
      try exact Logic.I; eapply inv_try; eauto.
  - (* LSubmit *) unfold submit. destruct (find_req x i) as [q|] eqn:Eq; [|exact Logic.I].
    apply find_in in Eq. destruct Eq as [Hq Ei]. destruct (q_stage q) eqn:Eg; try exact Logic.I.
    destruct (P q Hq) as (w & f & R1 & R2 & R3 & R4 & R5 & R6 & R7).
    apply (inv_put x q); auto. cbn. intros fo E. injection E as <-. now rewrite R4.
  - (* LDone *) unfold done. destruct (find_req x i) as [q|] eqn:Eq; [|exact Logic.I].
    apply find_in in Eq. destruct Eq as [Hq Ei]. destruct (q_stage q) as [|fo|] eqn:Eg; try exact Logic.I.
    destruct (P q Hq) as (w & f & R1 & R2 & R3 & R4 & R5 & R6 & R7). rewrite R1, andb_false_r.
    rewrite (R7 _ Eg). rewrite (R7 _ Eg) in Eg.
    assert (Rep : forall v, match v with RSent _ | RGot _ => False | _ => True end -> Inv (report x i v)).
    { intros v Hv. apply inv_report; auto. subst i. now apply in_map. }
    assert (Put : forall g, (forall fo, g <> Flight fo) -> Inv (put_req x (at_stage q g))).
    { intros g Hg. apply (inv_put x q); auto. cbn. intros fo' E. now elim (Hg fo'). }
    assert (Tr : forall k, k = q_kind q -> match transfer x k f (q_data q) (q_cap q) (Z.to_nat r) with
                 | Some (x1, v) => Inv (report x1 i v) | None => True end).
    { intros k ->. destruct (transfer _ _ _ _ _ _) as [[x1 v]|] eqn:Et; auto. subst i. eapply inv_transfer; eauto. }
    destruct (q_kind q) eqn:Ek;
      try (destruct (r <? 0); [destruct (again _ _); [apply Put; discriminate|now apply Rep]|];
           specialize (Tr _ eq_refl); match goal with |- context [transfer ?a ?b ?c ?d ?e ?f] => destruct (transfer a b c d e f) as [[x1 v]|] end; auto).
    destruct (negb (Z.land r POLL_BAD =? 0)); [now apply Rep|apply Put; discriminate].
  - (* LPeer *) split; [exact F|]. split; [exact P|]. split; [|exact I]. intros g. cbn. destruct (B g) as [B1 B2].
    split; auto. destruct (Nat.eq_dec g f) as [->|Ne].
    + rewrite !nupd_eq, B2, app_assoc. reflexivity.
    + now rewrite !nupd_neq.
  - (* LExtOpen *) destruct (kfree x fd) eqn:Ek; [|exact Logic.I]. pose proof (kfree_nonneg _ _ Ek) as Nn. unfold kfree in Ek.
    assert (En : fdt x fd = None) by (destruct (fdt x fd); [now rewrite andb_false_r in Ek|auto]).
    destruct F as (A & FB & C & D). split; [|split; [|split; [exact B|exact I]]].
    + repeat apply conj; cbn; auto.
      * intros s w H1. destruct (A _ _ H1) as [->|(H2 & H3 & H4)]; auto. right.
        assert (shifted w <> fd) by (intros E; rewrite E in H3; auto). rewrite !zupd_neq by auto. auto.
      * intros fd' H1. destruct (Z.eq_dec fd' fd) as [->|Ne]; [rewrite zupd_eq; auto|]. rewrite zupd_neq in H1 by auto. rewrite zupd_neq by auto. now apply C.
      * intros fd' H1. destruct (Z.eq_dec fd' fd) as [->|Ne]; [rewrite zupd_eq; discriminate|]. rewrite zupd_neq in H1 by auto. rewrite zupd_neq by auto. auto.
    + intros q Hq. pose proof (P q Hq) as R. apply (req_keep x); eauto. cbn. apply zupd_neq. intros E.
      destruct R as (w & f & _ & _ & _ & _ & R & _). congruence.
  - (* LExtClose *) destruct (ext x fd) eqn:Ee; [|exact Logic.I].
    destruct F as (A & FB & C & D). split; [|split; [|split; [exact B|exact I]]].
    + repeat apply conj; cbn; auto.
      * intros s w H1. destruct (A _ _ H1) as [->|(H2 & H3 & H4)]; auto. right.
        assert (shifted w <> fd) by congruence. rewrite !zupd_neq by auto. auto.
      * intros fd' H1. destruct (Z.eq_dec fd' fd) as [->|Ne]; [now rewrite zupd_eq in H1|]. rewrite zupd_neq in H1 by auto. rewrite zupd_neq by auto. now apply C.
      * intros fd' H1. destruct (Z.eq_dec fd' fd) as [->|Ne]; [now rewrite zupd_eq in H1|]. rewrite zupd_neq in H1 by auto. rewrite zupd_neq by auto. auto.
    + intros q Hq. pose proof (P q Hq) as R. apply (req_keep x); eauto. cbn. apply zupd_neq. intros E.
      destruct R as (w & f & R1 & R2 & R3 & _ & R & _). destruct (A _ _ R1) as [->|(_ & _ & X)]; [lia|]. congruence.
Qed.

(** ** The theorems *)
Lemma inv_reach x : reachable cstep init x -> Inv x.
Proof. apply (reach_inv cstep Inv init inv_step inv_init). Qed.

Lemma usock_safe_pf : safe cstep init.
Proof. apply (reach_inv cstep Inv init inv_step inv_init). Qed.

Lemma usock_out_pf x f : reachable cstep init x -> sent x f = sent_by (calls x) f (log x).
Proof. intros R. apply inv_reach in R. apply R. Qed.
Lemma usock_in_pf x f : reachable cstep init x -> arrived x f = got_by (calls x) f (log x) ++ inq x f.
Proof. intros R. apply inv_reach in R. apply R. Qed.

Lemma answers_count x i : length (answers x i) = count_occ Nat.eq_dec (map fst (log x)) i.
Proof.
  unfold answers. rewrite map_length. induction (log x) as [|e lg IH]; auto. cbn [filter map count_occ].
  destruct (Nat.eqb_spec (fst e) i) as [E|Ne]; destruct (Nat.eq_dec (fst e) i); try congruence. cbn. now rewrite IH.
Qed.
Lemma waiting_in x i : waiting x i <-> In i (map q_op (pend x)).
Proof.
  unfold waiting. rewrite in_map_iff. split; intros (q & H1 & H2); exists q; auto.
Qed.

Lemma usock_once_pf x i : reachable cstep init x -> (i < length (calls x))%nat ->
  (waiting x i /\ answers x i = []) \/ (~ waiting x i /\ exists r, answers x i = [r]).
Proof.
  intros R Hi. apply inv_reach in R. destruct R as (_ & _ & _ & I).
  assert (C : count_occ Nat.eq_dec (map q_op (pend x) ++ map fst (log x)) i = 1%nat).
  { rewrite (proj1 (Permutation_count_occ Nat.eq_dec _ _) I i).
    assert (S1 : In i (seq 0 (length (calls x)))) by (apply in_seq; lia).
    pose proof (proj1 (NoDup_count_occ' Nat.eq_dec _) (seq_NoDup (length (calls x)) 0) i S1). auto. }
  rewrite count_occ_app, <- answers_count in C.
  destruct (in_dec Nat.eq_dec i (map q_op (pend x))) as [Hin|Hn].
  - left. split; [now apply waiting_in|]. apply (count_occ_In Nat.eq_dec) in Hin.
    apply length_zero_iff_nil. lia.
  - right. split; [now rewrite waiting_in|]. apply (count_occ_not_In Nat.eq_dec) in Hn. rewrite Hn in C.
    destruct (answers x i) as [|r [|r' l]]; cbn in C; try lia. now exists r.
Qed.

Lemma usock_fds_pf x : reachable cstep init x ->
  (forall fd, fdt x fd <> None ->
     (ext x fd = true /\ forall s, ~ owns x s fd) \/
     (ext x fd = false /\ exists s, owns x s fd /\ forall s', owns x s' fd -> s' = s)) /\
  (forall s fd, owns x s fd -> fdt x fd <> None).
Proof.
  intros R. apply inv_reach in R. destruct R as ((A & FB & C & D) & _).
  assert (Ow : forall s fd, owns x s fd -> fdt x fd <> None /\ ext x fd = false).
  { intros s fd (w & H1 & H2 & <-). destruct (A _ _ H1) as [->|(_ & H)]; [lia|exact H]. }
  split; [|intros s fd H; now apply Ow in H].
  intros fd H. destruct (C fd H) as [_ [E|[s Hs]]].
  - left. split; auto. intros s Hs. apply Ow in Hs. destruct Hs. congruence.
  - right. split; [now apply Ow in Hs|]. exists s. split; auto. intros s' Hs'. eauto.
Qed.

Lemma usock_close_pf x s y : reachable cstep init x -> cstep x (LClose s) = Next y ->
  (forall fd, owns x s fd -> fdt x fd <> None /\ fdt y fd = None /\ forall fd', fd' <> fd -> fdt y fd' = fdt x fd') /\
  ((forall fd, ~ owns x s fd) -> y = x) /\
  (forall fd, ~ owns y s fd) /\
  (forall s' fd, s' <> s -> (owns y s' fd <-> owns x s' fd)).
Proof.
  intros R E. pose proof (usock_fds_pf x R) as [_ Ow]. apply inv_reach in R.
  unfold cstep in E. destruct (calm x (LClose s)); [|discriminate]. cbn [step] in E.
  destruct (socks x s) as [w|] eqn:Es; [|discriminate]. injection E as <-. unfold close.
  destruct (Z.ltb_spec w 0) as [L|L].
  - rewrite (closed_word x s w R Es L) in Es.
    assert (No : forall fd, ~ owns x s fd) by (intros fd (w' & H1 & H2 & _); rewrite Es in H1; injection H1 as <-; lia).
    repeat apply conj; auto. + intros fd H. now elim (No fd). + intros s' fd _. reflexivity.
  - repeat apply conj.
    + intros fd H. split; [now apply (Ow s)|]. destruct H as (w' & H1 & H2 & H3). rewrite Es in H1. injection H1 as <-.
      cbn. rewrite H3. split; [apply zupd_eq|]. intros fd' Ne. now apply zupd_neq.
    + intros No. elim (No (shifted w)). now exists w.
    + intros fd (w' & H1 & H2 & _). cbn in H1. rewrite nupd_eq in H1. injection H1 as <-. lia.
    + intros s' fd Ne. unfold owns. cbn. rewrite nupd_neq by auto. reflexivity.
Qed.

(** Files are not shared. *)
Definition FilesOk (x : st) : Prop :=
  (forall fd f, fdt x fd = Some f -> (f < nfile x)%nat) /\
  (forall a b f, fdt x a = Some f -> fdt x b = Some f -> a = b).
Lemma files_open x fd : FilesOk x -> FilesOk (kopen x fd).
Proof.
  intros [A B]. split; cbn.
  - intros d f H. destruct (Z.eq_dec d fd) as [->|Ne].
    + rewrite zupd_eq in H. injection H as <-. lia.
    + rewrite zupd_neq in H by auto. apply A in H. lia.
  - intros a b f H1 H2. destruct (Z.eq_dec a fd) as [->|Na], (Z.eq_dec b fd) as [->|Nb]; auto.
    + rewrite zupd_eq in H1. injection H1 as <-. rewrite zupd_neq in H2 by auto. apply A in H2. lia.
    + rewrite zupd_eq in H2. injection H2 as <-. rewrite zupd_neq in H1 by auto. apply A in H1. lia.
    + rewrite zupd_neq in H1, H2 by auto. eauto.
Qed.
Lemma files_close x fd : FilesOk x -> FilesOk (kclose x fd).
Proof.
  intros [A B]. assert (S1 : forall d f, zupd (fdt x) fd None d = Some f -> fdt x d = Some f).
  { intros d f H. destruct (Z.eq_dec d fd) as [->|Ne]; [now rewrite zupd_eq in H|now rewrite zupd_neq in H]. }
  split; cbn; eauto.
Qed.
Lemma files_sockclose x s w : FilesOk x -> FilesOk (close x s w).
Proof. intros H. unfold close. destruct (w <? 0); auto. exact (files_close x (shifted w) H). Qed.
Lemma files_same x y : FilesOk x -> fdt y = fdt x -> nfile y = nfile x -> FilesOk y.
Proof. unfold FilesOk. now intros H -> ->. Qed.
Lemma files_step x l y : FilesOk x -> step x l = Next y -> FilesOk y.
Proof.
  intros H E. destruct l; cbn [step] in E;
    unfold create, connect, bind, listen, accept, accept4, shutdown, start, try_io, submit, done, create in E;
    repeat match type of E with context [match ?c with _ => _ end] => destruct c eqn:? end;
    try discriminate E; try (injection E as <-);
    repeat match goal with T : transfer _ _ _ _ _ _ = Some _ |- _ => apply transfer_same in T; destruct T as (?T1 & _ & _ & _ & _ & _ & ?T2) end;
    repeat match goal with X : Next _ = Next _ |- _ => injection X as <- end;
    first [exact H | exact (files_open _ _ H) | exact (files_close _ _ H)
          | apply files_sockclose; first [exact H | exact (files_open _ _ H)]
          | exact (files_sockclose _ _ _ H)
          | exact (files_same x _ H T1 T2) | idtac].
  all: match goal with X : _ = Next ?z |- _ => assert (F0 : FilesOk z) end;
    [|auto using files_sockclose];
    repeat match goal with X : context [if ?c then _ else _] |- _ => destruct c eqn:? end; try discriminate;
    match goal with X : Next _ = Next _ |- _ => injection X as <- end;
    first [exact H | exact (files_open _ _ H)].
Qed.

Lemma usock_files_pf x a b : reachable cstep init x -> fdt x a <> None -> fdt x a = fdt x b -> a = b.
Proof.
  intros R N1 E. assert (F : FilesOk x).
  { apply (reach_step cstep FilesOk init); auto.
    - intros y l z H. unfold cstep. destruct (calm y l); [|discriminate]. now apply files_step.
    - split; cbn; intros; discriminate. }
  destruct (fdt x a) as [f|] eqn:Ea; [|now elim N1]. destruct F as [_ F]. now apply (F a b f).
Qed.

(** The file of a waiting call is still the one behind its socket. *)
Lemma usock_waiting_pf x i c : reachable cstep init x -> waiting x i -> nth_error (calls x) i = Some c ->
  exists fd, owns x (c_sock c) fd /\ fdt x fd = c_file c /\ c_file c <> None.
Proof.
  intros R (q & Hq & <-) Hc. apply inv_reach in R. destruct R as (_ & P & _).
  destruct (P q Hq) as (w & f & R1 & R2 & R3 & R4 & R5 & R6 & R7). rewrite R6 in Hc. injection Hc as <-. cbn.
  exists (q_fd q). split; [now exists w|]. split; [auto|discriminate].
Qed.

(** ** Shutdown *)
Lemma usock_shutdown_sets_pf x s y w : step x (LShutdown s) = Next y -> socks x s = Some w -> 0 <= w ->
  exists w', socks y s = Some w' /\ is_shut w' = true /\ shifted w' = shifted w /\ is_uds w' = is_uds w.
Proof.
  cbn [step]. unfold shutdown. intros E Hs Hw. rewrite Hs in E. destruct (Z.ltb_spec w 0); [lia|].
  destruct (is_shut w) eqn:Eh.
  - injection E as <-. exists w. auto.
  - injection E as <-. exists (Z.lor w IS_SHUTDOWN). cbn. rewrite nupd_eq. split; auto.
    pose proof (shifted_shut w Eh) as Sh. rewrite lor1 in * by auto. rewrite shut_mod in *.
    apply negb_false_iff, Z.eqb_eq in Eh. split; [|split; auto].
    + apply negb_true_iff, Z.eqb_neq. lia.
    + apply is_uds_add; lia.
Qed.

Lemma sock_close x s w t : socks (close x s w) t =
  if (w <? 0) then socks x t else nupd (socks x) s (Some (-1)) t.
Proof. unfold close. now destruct (w <? 0). Qed.

Lemma shut_m1 : is_shut (-1) = true. Proof. reflexivity. Qed.
(** A socket that was shut down stays so until it is opened again or destroyed. *)
Lemma usock_shut_stays_pf x l y s w : step x l = Next y -> socks x s = Some w -> is_shut w = true ->
  match l with
  | LCreate t _ _ | LConnect t _ | LBind t _ _ | LDestroy t => t <> s
  | _ => True
  end -> exists w', socks y s = Some w' /\ is_shut w' = true.
Proof.
  intros E Hs Hw Hl.
  assert (Cl : forall t wt, socks x t = Some wt -> exists w', socks (close x t wt) s = Some w' /\ is_shut w' = true).
  { intros t wt Ht. rewrite sock_close. destruct (wt <? 0); [now exists w|]. destruct (Nat.eq_dec s t) as [->|Ne].
    - rewrite nupd_eq. now exists (-1).
    - rewrite nupd_neq by auto. now exists w. }
  assert (Up : forall t v, t <> s -> nupd (socks x) t v s = Some w) by (intros t v Ne; now rewrite nupd_neq by auto).
  destruct l; cbn [step] in E.
  - destruct (socks x s0) eqn:E0; [discriminate|]. injection E as <-. exists w. cbn. rewrite nupd_neq; auto. congruence.
  - unfold create in E. destruct (socks x s0); [|discriminate]. destruct (r <? 0); [injection E as <-; eauto|].
    destruct (kfree x r); [|discriminate]. injection E as <-. cbn. eauto.
  - unfold connect in E. destruct (socks x s0); [|discriminate]. destruct (negb _); [discriminate|].
    destruct (r <? 0); [injection E as <-; cbn; eauto|]. destruct (kfree x r); [|discriminate]. injection E as <-. cbn. eauto.
  - unfold bind, create in E. destruct (socks x s0) as [v|] eqn:E0; [|discriminate].
    destruct (v =? -1); cbn [andb] in E.
    + destruct (r1 <? 0); [injection E as <-; eauto|]. destruct (kfree x r1); [|discriminate].
      destruct (r2 <? 0).
      * cbn in E. rewrite nupd_eq in E. injection E as <-. rewrite sock_close.
        destruct (_ <? 0); cbn; repeat rewrite nupd_neq by auto; eauto.
      * injection E as <-. cbn. eauto.
    + destruct (r2 <? 0); [|injection E as <-; eauto]. rewrite E0 in E. injection E as <-. eauto.
  - unfold listen in E. destruct (socks x s0) eqn:E0; [|discriminate]. destruct (r <? 0); injection E as <-; eauto.
  - unfold accept in E. destruct (socks x s0); [|discriminate]. injection E as <-. cbn. eauto.
  - unfold accept4 in E. destruct (find_req x i) as [q|]; [|discriminate]. destruct (q_stage q); try discriminate.
    destruct (socks x (q_sock q)); [|discriminate]. destruct (r <? 0).
    + destruct (- r =? EAGAIN); injection E as <-; cbn; eauto.
    + destruct (fdt x (q_fd q)); [|discriminate]. destruct (socks x s') eqn:E'; [discriminate|].
      destruct (kfree x r); [|discriminate]. injection E as <-. cbn. exists w. rewrite nupd_neq; auto. congruence.
  - unfold shutdown in E. destruct (socks x s0) as [v|] eqn:E0; [|discriminate].
    destruct (v <? 0); [injection E as <-; eauto|]. destruct (is_shut v) eqn:Ev; injection E as <-; [eauto|].
    cbn. exists w. rewrite nupd_neq; auto. congruence.
  - destruct (socks x s0) eqn:E0; [|discriminate]. injection E as <-. eauto.
  - destruct (socks x s0) as [v|] eqn:E0; [|discriminate]. destruct (v <? 0); injection E as <-; [eauto|].
    cbn. destruct (Nat.eq_dec s s0) as [->|Ne]; [rewrite nupd_eq; exists (-1)|rewrite nupd_neq by auto]; eauto.
  - destruct (socks x s0) as [v|] eqn:E0; [|discriminate]. injection E as <-. cbn. rewrite nupd_neq by auto. eauto.
  - unfold start in E. destruct k; try discriminate; (destruct (socks x s0) as [v|]; [|discriminate]);
      cbn [shut_error] in E; try destruct (is_shut v); injection E as <-; cbn; eauto.
  - unfold try_io in E. destruct k; try discriminate; (destruct (socks x s0) as [v|]; [|discriminate]);
      cbn [shut_error] in E; (destruct (is_shut v); [injection E as <-; cbn; eauto|]);
      (destruct (r <? 0); [injection E as <-; cbn; eauto|]); (destruct (file_of x v); [|discriminate]);
      match type of E with context [transfer ?a ?b ?c ?d ?e ?f] => destruct (transfer a b c d e f) as [[x2 u]|] eqn:Et end;
      try discriminate; apply transfer_same in Et; destruct Et as (_ & _ & Et & _); injection E as <-; cbn; rewrite Et; cbn; eauto.
  - unfold submit in E. destruct (find_req x i) as [q|]; [|discriminate]. destruct (q_stage q); try discriminate.
    injection E as <-. cbn. eauto.
  - unfold done in E. destruct (find_req x i) as [q|]; [|discriminate]. destruct (q_stage q) as [|fo|]; try discriminate.
    destruct (blocking _ && _); [discriminate|].
    repeat match type of E with
    | context [transfer ?a ?b ?c ?d ?e ?f] => destruct (transfer a b c d e f) as [[x2 u]|] eqn:?
    | context [match ?c with _ => _ end] => destruct c eqn:?
    end; try discriminate E;
    repeat match goal with T : transfer _ _ _ _ _ _ = Some _ |- _ => apply transfer_same in T; destruct T as (_ & _ & T & _) end;
    injection E as <-; cbn; try (match goal with T : socks _ = socks x |- _ => rewrite T end); eauto.
  - injection E as <-. cbn. eauto.
  - destruct (kfree x fd); [|discriminate]. injection E as <-. cbn. eauto.
  - destruct (ext x fd); [|discriminate]. injection E as <-. cbn. eauto.
Qed.

(** Calls on it fail at once, and touch nothing. *)
Lemma usock_shutdown_partial_pf x s w k d cap : socks x s = Some w -> is_shut w = true ->
  (k = KWrite \/ k = KAsyncWrite \/ k = KAsyncRead \/ exists dw, k = KRecvMsg dw) ->
  exists y, step x (LStart s k d cap) = Next y /\
    answers y (length (calls x)) = answers x (length (calls x)) ++ [RErr ECONNABORTED] /\
    sent y = sent x /\ inq y = inq x /\ fdt y = fdt x /\ socks y = socks x /\
    (forall q, In q (pend y) -> In q (pend x)).
Proof.
  intros Hs Hw Hk. cbn [step]. unfold start. rewrite Hs, Hw.
  exists (report (add_call x s k w d) (length (calls x)) (RErr ECONNABORTED)).
  assert (A : answers (report (add_call x s k w d) (length (calls x)) (RErr ECONNABORTED)) (length (calls x)) =
              answers x (length (calls x)) ++ [RErr ECONNABORTED]).
  { unfold answers. cbn. rewrite filter_app, map_app. cbn. now rewrite Nat.eqb_refl. }
  repeat apply conj; auto.
  - destruct Hk as [->|[->|[->|[dw ->]]]]; reflexivity.
  - intros q Hq. cbn in Hq. now apply filter_In in Hq.
Qed.
Lemma usock_try_shutdown_pf x s w k d cap r : socks x s = Some w -> is_shut w = true -> k = KTrySend \/ k = KTryRecv ->
  exists y, step x (LTry s k d cap r) = Next y /\
    answers y (length (calls x)) = answers x (length (calls x)) ++
      [RErr (match k with KTrySend => EPIPE | _ => ECONNABORTED end)] /\
    sent y = sent x /\ inq y = inq x.
Proof.
  intros Hs Hw Hk. cbn [step]. unfold try_io. rewrite Hs, Hw.
  exists (report (add_call x s k w d) (length (calls x)) (RErr (match k with KTrySend => EPIPE | _ => ECONNABORTED end))).
  repeat apply conj; auto.
  - destruct Hk as [->| ->]; reflexivity.
  - unfold answers. cbn. rewrite filter_app, map_app. cbn. now rewrite Nat.eqb_refl.
Qed.

(** ** No call is forgotten: the kernel always has, or can take, its request. *)
Lemma find_unique x q : IdsOk x -> In q (pend x) -> find_req x (q_op q) = Some q.
Proof.
  intros I Hq. unfold find_req.
  assert (ND : NoDup (map q_op (pend x))).
  { assert (Q : NoDup (map q_op (pend x) ++ map fst (log x))).
    { eapply Permutation_NoDup; [symmetry; exact I|apply seq_NoDup]. }
    clear -Q. induction (map q_op (pend x)); [constructor|]. inversion Q; subst. constructor; auto.
    intros H. apply H1. apply in_or_app. auto. }
  clear I. induction (pend x) as [|a p IH]; [destruct Hq|]. cbn in ND. inversion ND; subst. cbn [find].
  destruct Hq as [->|Hq]; [now rewrite Nat.eqb_refl|].
  destruct (Nat.eqb_spec (q_op a) (q_op q)) as [E|Ne]; auto. elim H1. rewrite E. now apply in_map.
Qed.
Lemma usock_alive_pf x i e : reachable cstep init x -> waiting x i -> 0 < e ->
  (exists y, cstep x (LSubmit i) = Next y) \/ (exists y, cstep x (LDone i (- e)) = Next y) \/
  (exists y, cstep x (LAccept4 i (- e) 0) = Next y).
Proof.
  intros R (q & Hq & <-) He. apply inv_reach in R. destruct R as (F & P & B & I).
  pose proof (find_unique x q I Hq) as Fd.
  destruct (P q Hq) as (w & f & R1 & R2 & R3 & R4 & R5 & R6 & R7).
  unfold cstep. cbn [calm step]. unfold submit, done, accept4. rewrite Fd, R1.
  destruct (q_stage q) as [|fo|] eqn:Eg.
  - left. eauto.
  - right. left. rewrite (R7 _ eq_refl), andb_false_r. destruct (Z.ltb_spec (- e) 0); [|lia].
    destruct (q_kind q) eqn:Ek; cbn [negb]; try (destruct (again _ _); eauto). destruct (negb _); eauto.
  - right. right. destruct (Z.ltb_spec (- e) 0); [|lia]. destruct (_ =? _); eauto.
Qed.

(** ** EAGAIN *)
Definition NoAgain (x : st) : Prop := forall i e c, In (i, RErr e) (log x) -> nth_error (calls x) i = Some c ->
  c_kind c = KWrite \/ c_kind c = KRecv false \/ c_kind c = KRecvMsg false -> e <> EAGAIN.

Definition stubborn (k : kind) : Prop := k = KWrite \/ k = KRecv false \/ k = KRecvMsg false.
Lemma noagain_grow x y : NoAgain x -> IdsOk x -> (calls y = calls x \/ exists c, calls y = calls x ++ [c]) ->
  (log y = log x \/ exists i v, log y = log x ++ [(i, v)] /\
     forall e c, v = RErr e -> nth_error (calls y) i = Some c -> stubborn (c_kind c) -> e <> EAGAIN) -> NoAgain y.
Proof.
  intros NA I C L i e c Hin Hc Hk.
  assert (Old : In (i, RErr e) (log x) -> e <> EAGAIN).
  { intros H. apply (NA i e c); auto. destruct C as [C|[c' C]]; rewrite C in Hc; auto.
    rewrite nth_error_app1 in Hc; auto. apply (ids_in x); auto. right. apply in_map_iff. exists (i, RErr e). auto. }
  destruct L as [L|(j & v & L & K)]; rewrite L in Hin; auto.
  apply in_app_or in Hin. destruct Hin as [Hin|[Hin|[]]]; auto. injection Hin as -> ->. eauto.
Qed.
Ltac quiet x := apply (noagain_grow x); [assumption|assumption| |];
  [first [now left | right; cbn; eauto; fail]|first [now left | right; do 2 eexists; split; [cbn; reflexivity|]; try discriminate]].
Lemma last_call {A} (l : list A) (a c : A) : nth_error (l ++ [a]) (length l) = Some c -> c = a.
Proof. rewrite nth_error_app2, Nat.sub_diag by lia. cbn. congruence. Qed.

Lemma noagain_step x l y : Inv x /\ NoAgain x -> cstep x l = Next y -> Inv y /\ NoAgain y.
Proof.
  intros [H NA] E. split; [pose proof (inv_step x l H) as K; now rewrite E in K|].
  pose proof H as (F & P & B & I). unfold cstep in E. destruct (calm x l); [|discriminate].
  assert (Cl : forall t w z, NoAgain z -> NoAgain (close z t w)) by (intros t w z N1; unfold close; destruct (w <? 0); exact N1).
  destruct l; cbn [step] in E.
  - destruct (socks x s); [discriminate|]. injection E as <-. exact NA.
  - unfold create in E. destruct (socks x s); [|discriminate]. destruct (r <? 0); [injection E as <-; exact NA|].
    destruct (kfree x r); [|discriminate]. injection E as <-. exact NA.
  - unfold connect in E. destruct (socks x s); [|discriminate]. destruct (negb _); [discriminate|].
    destruct (r <? 0).
    + injection E as <-. quiet x. intros e c _ Hc [K|[K|K]]; cbn in Hc; apply last_call in Hc; subst c; discriminate K.
    + destruct (kfree x r); [|discriminate]. injection E as <-. quiet x.
  - unfold bind, create in E. destruct (socks x s) as [v|] eqn:E0; [|discriminate].
    destruct (v =? -1); cbn [andb] in E.
    + destruct (r1 <? 0); [injection E as <-; exact NA|]. destruct (kfree x r1); [|discriminate].
      destruct (r2 <? 0).
      * cbn in E. rewrite nupd_eq in E. injection E as <-. apply Cl. exact NA.
      * injection E as <-. exact NA.
    + destruct (r2 <? 0); [|injection E as <-; exact NA]. rewrite E0 in E. injection E as <-. now apply Cl.
  - unfold listen in E. destruct (socks x s); [|discriminate]. destruct (r <? 0); injection E as <-; auto.
  - unfold accept in E. destruct (socks x s); [|discriminate]. injection E as <-. quiet x.
  - unfold accept4 in E. destruct (find_req x i) as [q|]; [|discriminate]. destruct (q_stage q); try discriminate.
    destruct (socks x (q_sock q)); [|discriminate]. destruct (r <? 0).
    + destruct (Z.eqb_spec (- r) EAGAIN) as [_|Ne]; injection E as <-; [exact NA|]. quiet x.
      intros e c Ee _ _. injection Ee as <-. exact Ne.
    + destruct (fdt x (q_fd q)); [|discriminate]. destruct (socks x s'); [discriminate|].
      destruct (kfree x r); [|discriminate]. injection E as <-. quiet x.
  - unfold shutdown in E. destruct (socks x s) as [v|]; [|discriminate].
    destruct (v <? 0); [injection E as <-; exact NA|]. destruct (is_shut v); injection E as <-; exact NA.
  - destruct (socks x s); [|discriminate]. injection E as <-. auto.
  - destruct (socks x s) as [v|]; [|discriminate]. destruct (v <? 0); injection E as <-; exact NA.
  - destruct (socks x s) as [v|]; [|discriminate]. injection E as <-. exact (Cl s v x NA).
  - unfold start in E. destruct k; try discriminate; (destruct (socks x s) as [v|]; [|discriminate]);
      cbn [shut_error] in E; try destruct (is_shut v); injection E as <-; quiet x;
      intros e c Ee _ _; injection Ee as <-; discriminate.
  - unfold try_io in E. destruct k; try discriminate; (destruct (socks x s) as [v|]; [|discriminate]);
      cbn [shut_error] in E;
      (destruct (is_shut v); [injection E as <-; quiet x; intros e c Ee _ _; injection Ee as <-; discriminate|]);
      (destruct (r <? 0); [injection E as <-; quiet x; intros e c _ Hc [K|[K|K]]; cbn in Hc; apply last_call in Hc; subst c; discriminate K|]);
      (destruct (file_of x v); [|discriminate]);
      match type of E with context [transfer ?a ?b ?c ?d ?e ?f] => destruct (transfer a b c d e f) as [[x2 u]|] eqn:Et end;
      try discriminate; apply transfer_same in Et; destruct Et as (_ & _ & _ & _ & E5 & E6 & _); injection E as <-;
      cbn in E5, E6; apply (noagain_grow x); auto; cbn; rewrite ?E5, ?E6; eauto; right; do 2 eexists; (split; [reflexivity|]);
      intros e c _ Hc [K|[K|K]]; apply last_call in Hc; subst c; discriminate K.
  - unfold submit in E. destruct (find_req x i) as [q|]; [|discriminate]. destruct (q_stage q); try discriminate.
    injection E as <-. exact NA.
  - unfold done in E. destruct (find_req x i) as [q|] eqn:Fq; [|discriminate]. apply find_in in Fq. destruct Fq as [Hq Ei].
    destruct (P q Hq) as (w & f & R1 & R2 & R3 & R4 & R5 & R6 & R7). rewrite Ei in R6.
    destruct (q_stage q) as [|fo|]; try discriminate.
    destruct (blocking _ && _); [discriminate|].
    assert (Tr : forall k f0 x1 v, transfer x k f0 (q_data q) (q_cap q) (Z.to_nat r) = Some (x1, v) -> NoAgain (report x1 i v)).
    { intros k f0 x1 v T. assert (Hv : forall e, v <> RErr e).
      { intros e ->. clear -T. unfold transfer in T.
        destruct k; repeat match goal with H : context [if ?c then _ else _] |- _ => destruct c end; discriminate. }
      apply transfer_same in T. destruct T as (_ & _ & _ & _ & E5 & E6 & _).
      apply (noagain_grow x); auto; cbn; rewrite ?E5, ?E6; auto. right. do 2 eexists. split; [reflexivity|].
      intros e c Ee. now elim (Hv e). }
    assert (Er : forall k, k = q_kind q -> again k (- r) = false -> NoAgain (report x i (RErr (- r)))).
    { intros k -> A. quiet x. intros e c Ee Hc Hk. injection Ee as <-. cbn in Hc. rewrite R6 in Hc. injection Hc as <-. cbn in Hk.
      intros Ea. unfold again in A. rewrite Ea, Z.eqb_refl in A. destruct Hk as [K|[K|K]]; rewrite K in A; discriminate A. }
    destruct (q_kind q) eqn:Ek;
      try (destruct (r <? 0);
           [destruct (match fo with Some _ => _ | None => _ end); [discriminate|];
            destruct (again _ _) eqn:Ea; injection E as <-; [exact NA|exact (Er _ eq_refl Ea)]|];
           destruct fo as [f0|]; [|discriminate];
           match type of E with context [transfer ?a ?b ?c ?d ?e ?f] => destruct (transfer a b c d e f) as [[x1 v]|] eqn:Et end;
           [|discriminate]; injection E as <-; exact (Tr _ _ _ _ Et)).
    destruct (match fo with Some _ => _ | None => _ end); [discriminate|].
    destruct (negb _); injection E as <-; [|exact NA]. quiet x. intros e c Ee _ _. injection Ee as <-. discriminate.
  - injection E as <-. exact NA.
  - destruct (kfree x fd); [|discriminate]. injection E as <-. exact NA.
  - destruct (ext x fd); [|discriminate]. injection E as <-. exact NA.
Qed.
Lemma usock_errors_pf x i e c : reachable cstep init x -> In e (answers x i) -> nth_error (calls x) i = Some c ->
  c_kind c = KWrite \/ c_kind c = KRecv false \/ c_kind c = KRecvMsg false -> e <> RErr EAGAIN.
Proof.
  intros R Hin Hc Hk ->. unfold answers in Hin. apply in_map_iff in Hin. destruct Hin as ([j v] & E & Hin).
  apply filter_In in Hin. destruct Hin as [Hin E2]. cbn in *. apply Nat.eqb_eq in E2. subst.
  assert (J : Inv x /\ NoAgain x).
  { apply (reach_step cstep (fun x => Inv x /\ NoAgain x) init); auto.
    - exact noagain_step.
    - split; [exact inv_init|]. intros ? ? ? []. }
  now apply (proj2 J i EAGAIN c).
Qed.

(** ** The word that holds the descriptor *)
Lemma usock_word_pf fd (uds : bool) : 0 <= fd < 2 ^ 27 ->
  let w := pack fd (if uds then IS_UDS else 0) in
  0 <= w < 2 ^ 31 /\ shifted w = fd /\ is_shut w = false /\ is_uds w = uds /\
  let v := Z.lor w IS_SHUTDOWN in
  0 <= v < 2 ^ 31 /\ shifted v = fd /\ is_shut v = true /\ is_uds v = uds.
Proof.
  intros H. assert (Hf : 0 <= (if uds then IS_UDS else 0) < 16) by (destruct uds; unfold IS_UDS; lia).
  assert (Hf2 : (if uds then IS_UDS else 0) mod 2 = 0) by (destruct uds; reflexivity).
  cbn zeta. set (w := pack fd _). assert (Ew : w = fd * 16 + (if uds then IS_UDS else 0)) by (apply pack_add; auto).
  assert (Hsh : is_shut w = false) by (rewrite shut_mod, Ew; apply negb_false_iff, Z.eqb_eq; destruct uds; unfold IS_UDS; lia).
  assert (Hd : shifted w = fd) by (apply shifted_pack; auto).
  assert (Hu : is_uds w = uds).
  { unfold is_uds, w, pack. rewrite Z.land_lor_distr_l, (low_bits fd IS_UDS) by (unfold IS_UDS; lia). now destruct uds. }
  pose proof (shifted_shut w Hsh) as Hd2. rewrite lor1 in * by auto.
  assert (Hu2 : is_uds (w + 1) = uds).
  { rewrite <- Hu. apply is_uds_add; auto. rewrite shut_mod in Hsh. apply negb_false_iff, Z.eqb_eq in Hsh. lia. }
  repeat apply conj; auto; try congruence.
  - rewrite Ew. lia.
  - rewrite Ew. destruct uds; unfold IS_UDS; lia.
  - rewrite Ew. lia.
  - rewrite Ew. destruct uds; unfold IS_UDS; lia.
  - rewrite shut_mod. rewrite shut_mod in Hsh. apply negb_false_iff, Z.eqb_eq in Hsh. apply negb_true_iff, Z.eqb_neq. lia.
Qed.
Lemma usock_accepted_pf x i r s' y q w : step x (LAccept4 i r s') = Next y -> 0 <= r ->
  find_req x i = Some q -> socks x (q_sock q) = Some w ->
  exists v, socks y s' = Some v /\ shifted v = r /\ is_shut v = false /\ is_uds v = is_uds w /\
    fdt x r = None /\ fdt y r = Some (nfile x).
Proof.
  cbn [step]. unfold accept4. intros E Hr Hq Hw. rewrite Hq in E. destruct (q_stage q); try discriminate. rewrite Hw in E.
  destruct (Z.ltb_spec r 0); [lia|]. destruct (fdt x (q_fd q)); [|discriminate]. destruct (socks x s') eqn:Es; [discriminate|].
  destruct (kfree x r) eqn:Ek; [|discriminate]. injection E as <-. cbn.
  destruct (land2 w) as [L1 L2]. fold kInheritedFlags in L1, L2.
  exists (pack r (Z.land w kInheritedFlags)). rewrite nupd_eq, zupd_eq. repeat apply conj; auto.
  - now apply shifted_pack.
  - rewrite shut_mod, pack_add by auto. apply negb_false_iff, Z.eqb_eq. lia.
  - unfold is_uds, pack. rewrite Z.land_lor_distr_l, (low_bits r IS_UDS) by (unfold IS_UDS; lia). rewrite Z.lor_0_l.
    unfold kInheritedFlags. now rewrite <- Z.land_assoc, Z.land_diag.
  - unfold kfree in Ek. destruct (fdt x r); auto. now rewrite andb_false_r in Ek.
Qed.
