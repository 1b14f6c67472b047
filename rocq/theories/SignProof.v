From Coq Require Import String Ascii Sorting.Permutation Sorting.Sorted.
From Verif Require Import Util UrlModel UrlSpec UrlProof SignModel SignSpec.
Local Open Scope N_scope.
Local Open Scope list_scope.

(** ** The two vocabularies *)
Lemma str_text s : str s = text s. Proof. reflexivity. Qed.
Lemma to_lower_eq s : to_lower s = lower_case s. Proof. reflexivity. Qed.
Lemma strip_eq s : strip s = rev (drop_white (rev (drop_white s))). Proof. reflexivity. Qed.
Lemma with_sep_join c ps : with_sep c ps = join c ps.
Proof. reflexivity. Qed.
Lemma hex_eq s : HexEncode s = lower_hex s.
Proof.
  unfold HexEncode, lower_hex. apply flat_map_ext. intros b.
  rewrite N.shiftr_div_pow2. change (N.land b 15) with (N.land b (N.ones 4)). now rewrite N.land_ones.
Qed.
Lemma str_eq_spec a : forall b, str_eq a b = true <-> a = b.
Proof.
  induction a as [|x a IH]; intros [|y b]; simpl; split; try discriminate; auto.
  - intros H. apply andb_prop in H as [H1 H2]. apply N.eqb_eq in H1. apply IH in H2. congruence.
  - intros [= -> ->]. rewrite N.eqb_refl. now apply IH.
Qed.
Lemma starts_with_spec p : forall s, starts_with s p = true <-> exists t, s = p ++ t.
Proof.
  induction p as [|x p IH]; intros s.
  - destruct s; simpl; split; eauto.
  - simpl. destruct s as [|y s]; [split; [discriminate|intros [t H]; discriminate]|]. split.
    + intros H. apply andb_prop in H as [H1 H2]. apply N.eqb_eq in H1. apply IH in H2 as [t ->]. subst. eauto.
    + intros [t H]. injection H as -> ->. simpl. rewrite N.eqb_refl. simpl. apply IH. eauto.
Qed.
Lemma is_signed_spec n : is_signed n = true <-> must_sign n.
Proof.
  unfold is_signed, must_sign. rewrite !orb_true_iff, !str_eq_spec, starts_with_spec, !str_text.
  split; [|tauto]. intros [[[H|H]|H]|H]; auto; right.
  - exists (text "date"). now rewrite H.
  - exists (text "security-token"). now rewrite H.
Qed.

(** ** Order *)
Lemma str_lt_spec a : forall b, str_lt a b = true <-> lex_lt a b.
Proof.
  induction a as [|x a IH]; intros [|y b]; simpl; split; try discriminate; try (intros H; now inversion H); auto.
  - intros _. constructor.
  - destruct (N.ltb_spec x y); [now constructor|]. destruct (N.ltb_spec y x); [discriminate|].
    assert (x = y) by lia. subst. intros H1. apply lex_tail. now apply IH.
  - intros H. inversion H; subst.
    + destruct (N.ltb_spec x y); auto; lia.
    + destruct (N.ltb_spec y y); auto. now apply IH.
Qed.
Lemma lex_total a : forall b, lex_lt a b \/ a = b \/ lex_lt b a.
Proof.
  induction a as [|x a IH]; intros [|y b]; auto; try (left; now constructor); try (right; right; now constructor).
  destruct (N.lt_trichotomy x y) as [H|[->|H]].
  - left. now constructor.
  - destruct (IH b) as [H|[->|H]]; auto; [left|right; right]; now constructor.
  - right; right. now constructor.
Qed.
Lemma lex_trans a : forall b c, lex_lt a b -> lex_lt b c -> lex_lt a c.
Proof.
  induction a as [|x a IH]; intros b c H1 H2; inversion H1; subst; inversion H2; subst;
    first [apply lex_nil | apply lex_head; lia | apply lex_tail; eauto].
Qed.
Lemma lex_irrefl a : ~ lex_lt a a.
Proof. induction a; intros H; inversion H; subst; auto. lia. Qed.

Lemma pair_lt_true p q : pair_lt p q = true -> before p q.
Proof.
  unfold pair_lt, before. destruct (str_lt (fst p) (fst q)) eqn:E1.
  - intros _. right; left. now apply str_lt_spec.
  - destruct (str_lt (fst q) (fst p)) eqn:E2; [discriminate|]. intros E3. right; right. split; [|now apply str_lt_spec].
    destruct (lex_total (fst p) (fst q)) as [H|[H|H]]; auto; apply str_lt_spec in H; congruence.
Qed.
Lemma pair_lt_false p q : pair_lt p q = false -> before q p.
Proof.
  unfold pair_lt, before. destruct (str_lt (fst p) (fst q)) eqn:E1; [discriminate|].
  destruct (str_lt (fst q) (fst p)) eqn:E2; [intros _; right; left; now apply str_lt_spec|]. intros E3.
  assert (E : fst p = fst q).
  { destruct (lex_total (fst p) (fst q)) as [H|[H|H]]; auto; apply str_lt_spec in H; congruence. }
  destruct (lex_total (snd p) (snd q)) as [H|[H|H]].
  - apply str_lt_spec in H. congruence.
  - left. destruct p, q; simpl in *; congruence.
  - right; right. auto.
Qed.
Lemma before_trans p q r : before p q -> before q r -> before p r.
Proof.
  unfold before. intros [->|[H|[H1 H2]]]; auto; intros [<-|[K|[K1 K2]]]; auto.
  - right; left. eapply lex_trans; eauto.
  - right; left. now rewrite <- K1.
  - right; left. now rewrite H1.
  - right; right. split; [congruence|]. eapply lex_trans; eauto.
Qed.

Lemma insert_perm x l : Permutation (insert x l) (x :: l).
Proof.
  induction l as [|y l IH]; simpl; auto. destruct (pair_lt y x); auto.
  rewrite IH. apply perm_swap.
Qed.
Lemma sort_perm l : Permutation (sort l) l.
Proof. induction l as [|x l IH]; simpl; auto. rewrite insert_perm. now constructor. Qed.
Lemma insert_sorted x l : StronglySorted before l -> StronglySorted before (insert x l).
Proof.
  induction 1 as [|y l HS IH HF]; simpl.
  - repeat constructor.
  - destruct (pair_lt y x) eqn:E.
    + constructor; auto. apply Forall_forall. intros z Hz.
      apply (Permutation_in z (insert_perm x l)) in Hz. destruct Hz as [<-|Hz].
      * now apply pair_lt_true.
      * rewrite Forall_forall in HF. auto.
    + apply pair_lt_false in E. constructor; [now constructor|]. constructor; auto.
      rewrite Forall_forall in *. intros z Hz. eapply before_trans; eauto.
Qed.
Lemma sort_sorted l : StronglySorted before (sort l).
Proof. induction l; simpl; [constructor|]. now apply insert_sorted. Qed.

(** The sorted list is the only one. *)
Lemma before_antisym p q : before p q -> before q p -> p = q.
Proof.
  unfold before. intros [->|[H|[H1 H2]]]; auto; intros [K|[K|[K1 K2]]]; auto; exfalso.
  - eapply lex_irrefl, lex_trans; eauto.
  - rewrite K1 in H. now apply lex_irrefl in H.
  - rewrite H1 in K. now apply lex_irrefl in K.
  - eapply lex_irrefl, lex_trans; eauto.
Qed.
Lemma sorted_unique l1 : forall l2, StronglySorted before l1 -> StronglySorted before l2 -> Permutation l1 l2 -> l1 = l2.
Proof.
  induction l1 as [|x l1 IH]; intros l2 S1 S2 P.
  - apply Permutation_nil in P. now subst.
  - destruct l2 as [|y l2]; [apply Permutation_sym, Permutation_nil in P; discriminate|].
    inversion S1 as [|? ? A1 A2]; subst. inversion S2 as [|? ? B1 B2]; subst. rewrite Forall_forall in A2, B2.
    assert (x = y).
    { assert (In x (y :: l2)) by (apply (Permutation_in _ P); now left).
      assert (In y (x :: l1)) by (apply (Permutation_in _ (Permutation_sym P)); now left).
      simpl in *. destruct H as [|H]; auto. destruct H0 as [|H0]; auto. apply before_antisym; auto. }
    subst y. f_equal. apply IH; auto. now apply Permutation_cons_inv in P.
Qed.

(** ** Encoding *)
Lemma enc_byte c : c < 256 ->
  [37; digit (N.land (N.shiftr c 4) 15); digit (N.land c 15)] = [37; upper_digit (c / 16); upper_digit (c mod 16)].
Proof.
  intros H. destruct (nibbles c H) as (A & B & C). cbv zeta in *. 
  assert (N.land c 15 = c mod 16) by (change 15 with (N.ones 4); now rewrite N.land_ones).
  assert (N.land (N.shiftr c 4) 15 = c / 16) by lia. rewrite H0, H1. reflexivity.
Qed.
Lemma encode_uri (valid : N -> bool) slash s : bytes s ->
  (forall c, In c s -> valid c = unreserved c || (slash && (c =? 47))) ->
  encode_with valid s = uri_encode slash s.
Proof.
  induction 1 as [|c s Hc Hs IH]; intros V; auto. cbn [encode_with]. unfold uri_encode. simpl flat_map.
  rewrite V by now left. rewrite (enc_byte c Hc). f_equal. apply IH. intros d Hd. apply V. now right.
Qed.
Definition odd_char (c : N) : Prop := c = 33 \/ c = 42 \/ c = 40 \/ c = 41.
Lemma valid_unreserved c : ~ odd_char c -> IsValidUrlChar c = unreserved c.
Proof.
  unfold IsValidUrlChar, unreserved, isalnum, between, odd_char. simpl existsb. intros H.
  destruct (N.eqb_spec c 33); [tauto|]. destruct (N.eqb_spec c 42); [tauto|].
  destruct (N.eqb_spec c 40); [tauto|]. destruct (N.eqb_spec c 41); [tauto|].
  destruct ((48 <=? c) && (c <=? 57)), ((65 <=? c) && (c <=? 90)), ((97 <=? c) && (c <=? 122)); simpl; auto.
  destruct (c =? 45), (c =? 46), (c =? 95), (c =? 126); auto.
Qed.
Lemma uri_decodes slash s : bytes s -> decodes (uri_encode slash s) s.
Proof.
  intros H. rewrite <- (encode_uri (fun c => unreserved c || (slash && (c =? 47)))); auto.
  apply encode_decodes; auto. now destruct slash.
Qed.
Lemma split_encode v s :
  with_sep 47 (map (encode_with v) (StrSplit 47 s)) = encode_with (fun c => v c || (c =? 47)) s.
Proof.
  induction s as [|c s IH]; auto. cbn [StrSplit encode_with]. destruct (split_spec 47 s) as (Hn & _).
  destruct (N.eqb_spec c 47) as [->|Hc].
  - rewrite orb_true_r. simpl map. destruct (StrSplit 47 s) as [|p ps]; [tauto|].
    simpl map in *. simpl. f_equal. exact IH.
  - rewrite orb_false_r. destruct (StrSplit 47 s) as [|p ps]; [tauto|]. simpl map in *.
    cbn [encode_with]. destruct ps as [|p' ps]; simpl in *; rewrite <- IH; now rewrite ?app_assoc.
Qed.
Lemma decodes_self s : ~ In 37 s -> decodes s s.
Proof. induction s as [|c s IH]; intros H; constructor; simpl in H; auto. Qed.

Lemma canon_uri_ok path : bytes path -> (forall c, In c path -> c <> 37 /\ ~ odd_char c) ->
  canon_path path (canonical_uri path).
Proof.
  intros B H. exists path. split. { apply decodes_self. intros K. now apply H in K. }
  unfold canonical_uri. destruct (str_eq path [] || str_eq path [47]) eqn:E.
  - apply orb_prop in E as [E|E]; apply str_eq_spec in E; subst; reflexivity.
  - rewrite split_encode. destruct path as [|c p]; [discriminate|]. apply encode_uri; auto.
    intros d Hd. simpl andb. f_equal. apply valid_unreserved. now apply H.
Qed.

(** ** Query *)
Lemma uri_chars s c : bytes s -> In c (uri_encode false s) -> c <> 38 /\ c <> 61 /\ c <> 63.
Proof.
  unfold uri_encode. intros B H. apply in_flat_map in H as (b & Hb & Hc).
  unfold bytes in B. rewrite Forall_forall in B. specialize (B b Hb).
  destruct (unreserved b) eqn:E; simpl in Hc.
  - destruct Hc as [<-|[]]. repeat split; intros ->; discriminate.
  - assert (U : forall i, i < 16 -> upper_digit i <> 38 /\ upper_digit i <> 61 /\ upper_digit i <> 63).
    { intros i Hi. unfold upper_digit. destruct (N.ltb_spec i 10); lia. }
    destruct Hc as [<-|[<-|[<-|[]]]]; [lia| |]; apply U; lia.
Qed.
Lemma split_join c ps : ps <> [] -> Forall (fun p => ~ In c p) ps -> StrSplit c (join c ps) = ps.
Proof.
  intros Hn H. induction H as [|p ps Hp Hps IH]; [tauto|].
  assert (G : forall q r, ~ In c q -> StrSplit c (q ++ c :: r) = q :: StrSplit c r).
  { clear. induction q as [|x q IH]; intros r Hq; simpl.
    - now rewrite N.eqb_refl.
    - destruct (N.eqb_spec x c); [subst; simpl in Hq; tauto|]. rewrite IH by (simpl in Hq; tauto). reflexivity. }
  assert (G0 : forall q, ~ In c q -> StrSplit c q = [q]).
  { clear. induction q as [|x q IH]; intros Hq; auto. simpl. destruct (N.eqb_spec x c); [subst; simpl in Hq; tauto|].
    rewrite IH by (simpl in Hq; tauto). reflexivity. }
  destruct ps as [|p' ps]; simpl; auto. rewrite G by auto. f_equal. apply IH. discriminate.
Qed.
Lemma cut_at c k v : ~ In c k -> cut c (k ++ c :: v) = (k, Some v).
Proof.
  induction k as [|x k IH]; intros H; simpl; [now rewrite N.eqb_refl|].
  destruct (N.eqb_spec x c); [subst; simpl in H; tauto|]. rewrite IH by (simpl in H; tauto). reflexivity.
Qed.
Lemma cut_none c k : ~ In c k -> cut c k = (k, None).
Proof.
  induction k as [|x k IH]; intros H; simpl; auto.
  destruct (N.eqb_spec x c); [subst; simpl in H; tauto|]. rewrite IH by (simpl in H; tauto). reflexivity.
Qed.

Lemma param_no_amp p : param_bytes p -> ~ In 38 (param_text p).
Proof.
  intros [B1 B2] H. unfold param_text in H. apply in_app_or in H as [H|H].
  - apply uri_chars in H; auto. tauto.
  - destruct (snd p) as [v|]; [|tauto]. destruct H as [H|H]; [discriminate|]. apply uri_chars in H; auto. tauto.
Qed.
Lemma canon_query_ok q : encoded_query q -> canon_query q (canonical_query q).
Proof.
  intros (ps & B & E). destruct q as [|c0 q0]; [left; auto|]. right. split; [discriminate|].
  set (q := c0 :: q0) in *.
  set (raw := map (fun p => (uri_encode false (fst p), uri_encode false (param_value (snd p)))) ps).
  assert (Hne : ps <> []) by (intros ->; discriminate).
  assert (F38 : Forall (fun p => ~ In 38 p) (map param_text ps)).
  { apply Forall_forall. intros x Hx. apply in_map_iff in Hx as (p & <- & Hp). rewrite Forall_forall in B.
    apply param_no_amp. auto. }
  assert (ES : SplitQuery (Some q) = raw).
  { unfold SplitQuery. rewrite E, split_join; auto; [|now destruct ps]. rewrite map_map. unfold raw.
    apply map_ext_in. intros p Hp. rewrite Forall_forall in B. destruct (B p Hp) as [B1 B2].
    assert (N61 : ~ In 61 (uri_encode false (fst p))) by (intros H; apply uri_chars in H; auto; tauto).
    unfold param_text. destruct (snd p) as [v|]; [now rewrite cut_at|]. rewrite app_nil_r, cut_none; auto. }
  exists (map param_text ps), raw, (map (fun p => (fst p, param_value (snd p))) ps), (sort raw).
  split; [auto|]. split; [auto|]. split.
  { unfold raw. clear -B. induction B as [|p ps [B1 B2] Bs IH]; simpl; constructor; auto.
    unfold pair_of. simpl. split; [intros H; apply uri_chars in H; auto; tauto|].
    unfold param_text. destruct (snd p); simpl; [left|right]; auto. rewrite app_nil_r. auto. }
  split.
  { unfold raw. clear -B. induction B as [|p ps [B1 B2] Bs IH]; simpl; constructor; auto. simpl.
    split; now apply uri_decodes. }
  split; [rewrite map_map; apply sort_perm|]. split; [apply sort_sorted|].
  unfold canonical_query, q. fold q. now rewrite ES, with_sep_join.
Qed.

(** ** Headers *)
Lemma same_name_spec a b : same_name a b = true <-> lower_case a = lower_case b.
Proof. unfold same_name. now rewrite str_eq_spec, !to_lower_eq. Qed.
Lemma in_set h n v hs : In h (set_header n v hs) <-> h = (n, v) \/ (In h hs /\ lower_case (fst h) <> lower_case n).
Proof.
  unfold set_header. rewrite in_app_iff, filter_In. simpl.
  destruct (same_name n (fst h)) eqn:E; simpl.
  - apply same_name_spec in E. split; [intros [[_ H]|[H|[]]]; [discriminate|auto]|].
    intros [->|[_ H]]; auto.
  - assert (lower_case n <> lower_case (fst h)) by (intros H; apply same_name_spec in H; congruence).
    split; [intros [[H1 _]|[H1|[]]]; auto|]. intros [->|[H1 H2]]; auto.
Qed.
Lemma nodup_snoc {A} (l : list A) y : NoDup l -> ~ In y l -> NoDup (l ++ [y]).
Proof.
  induction l as [|x l IH]; simpl; intros G1 G2; [repeat constructor; auto|].
  inversion G1; subst. constructor; [|apply IH; auto].
  rewrite in_app_iff. simpl. intros [K|[K|[]]]; auto.
Qed.
Lemma set_nodup n v hs : NoDup (names hs) -> NoDup (names (set_header n v hs)).
Proof.
  unfold names, set_header. rewrite map_app. intros H. simpl.
  assert (G : NoDup (map (fun h : field => lower_case (fst h)) (filter (fun h => negb (same_name n (fst h))) hs)) /\
              ~ In (lower_case n) (map (fun h : field => lower_case (fst h)) (filter (fun h => negb (same_name n (fst h))) hs))).
  { split.
    - induction hs as [|h hs IH]; simpl; [constructor|]. inversion H; subst.
      destruct (same_name n (fst h)); simpl; auto. constructor; auto.
      intros K. apply in_map_iff in K as (x & Ex & Hx). apply filter_In in Hx as [Hx _].
      apply H2. rewrite <- Ex. now apply (in_map (fun h : field => lower_case (fst h))).
    - intros K. apply in_map_iff in K as (x & Ex & Hx). apply filter_In in Hx as [_ Hx].
      apply negb_true_iff in Hx. symmetry in Ex. apply same_name_spec in Ex. congruence. }
  destruct G as [G1 G2]. apply nodup_snoc; assumption.
Qed.
Lemma nodup_unique hs h1 h2 : NoDup (names hs) -> In h1 hs -> In h2 hs ->
  lower_case (fst h1) = lower_case (fst h2) -> h1 = h2.
Proof.
  unfold names. induction hs as [|h hs IH]; simpl; [tauto|]. intros H. inversion H; subst.
  intros [->|A] [->|B] E; auto.
  - exfalso. apply H2. rewrite E. now apply (in_map (fun h : field => lower_case (fst h))).
  - exfalso. apply H2. rewrite <- E. now apply (in_map (fun h : field => lower_case (fst h))).
Qed.
Lemma find_in n hs v : find_header n hs = Some v -> exists m, In (m, v) hs /\ lower_case m = lower_case n.
Proof.
  induction hs as [|h hs IH]; simpl; [discriminate|]. destruct (same_name n (fst h)) eqn:E.
  - intros [= <-]. exists (fst h). apply same_name_spec in E. destruct h; simpl in *. auto.
  - intros H. destruct (IH H) as (m & H1 & H2). eauto.
Qed.

Lemma squeeze_id v : single_blanks v -> squeeze v = v.
Proof.
  induction v as [|x v IH]; intros H; auto. destruct v as [|y v]; auto.
  assert (IHv : squeeze (y :: v) = y :: v).
  { apply IH. intros a b E. apply (H (x :: a) b). now rewrite E. }
  change (squeeze (x :: y :: v)) with (if (x =? 32) && (y =? 32) then squeeze (y :: v) else x :: squeeze (y :: v)).
  rewrite IHv. destruct (N.eqb_spec x 32), (N.eqb_spec y 32); auto. subst. exfalso. now apply (H [] v).
Qed.
Lemma drop_white_suffix v : exists p, v = p ++ drop_white v.
Proof.
  induction v as [|x v [p IH]]; [now exists []|]. simpl. destruct (white x); [|now exists []].
  exists (x :: p). simpl. congruence.
Qed.
Lemma strip_part v : exists a b, v = a ++ strip v ++ b.
Proof.
  rewrite strip_eq. destruct (drop_white_suffix v) as [p Hp].
  destruct (drop_white_suffix (rev (drop_white v))) as [q Hq].
  exists p, (rev q). rewrite <- rev_app_distr, <- Hq, rev_involutive. exact Hp.
Qed.
Lemma strip_tidy v : single_blanks v -> strip v = tidy v.
Proof.
  intros H. unfold tidy. rewrite <- strip_eq. symmetry. apply squeeze_id.
  intros a b E. destruct (strip_part v) as (p & q & K). rewrite E in K.
  apply (H (p ++ a) (b ++ q)). rewrite K, <- !app_assoc. reflexivity.
Qed.
Lemma strip_clean v : no_white v -> strip v = v.
Proof.
  intros H. rewrite strip_eq.
  assert (G : forall v, no_white v -> drop_white v = v).
  { clear. intros [|x v] H; auto. simpl. now rewrite (H x) by now left. }
  rewrite (G v H), G, rev_involutive; auto. intros c Hc. apply H. now apply in_rev.
Qed.
Lemma clean_single v : no_white v -> single_blanks v.
Proof.
  intros H a b ->. assert (E : white 32 = false) by (apply H, in_app_iff; right; now left). discriminate.
Qed.

Lemma signed_canon hs : NoDup (names hs) ->
  (forall h, In h hs -> must_sign (lower_case (fst h)) -> single_blanks (snd h)) ->
  canon_headers hs (signed_fields hs).
Proof.
  intros ND SB. unfold signed_fields. match goal with |- canon_headers _ (sort ?x) => set (l := x) end.
  assert (HI : forall n v, In (n, v) l <-> must_sign n /\ exists h, In h hs /\ lower_case (fst h) = n /\ tidy (snd h) = v).
  { intros n v. unfold l. rewrite in_map_iff. split.
    - intros (h & E & Hh). apply filter_In in Hh as [Hh HS]. rewrite to_lower_eq in *. injection E as <- <-.
      apply is_signed_spec in HS. split; auto. exists h. rewrite strip_tidy; auto.
    - intros (HS & h & Hh & <- & <-). exists h. rewrite to_lower_eq, strip_tidy by auto. split; auto.
      apply filter_In. split; auto. now apply is_signed_spec. }
  split.
  - assert (HN : NoDup (map fst (sort l))).
    { apply (Permutation_NoDup (l := map fst l)). { apply Permutation_map, Permutation_sym, sort_perm. }
      unfold l. rewrite map_map. simpl. clear -ND. unfold names in ND. induction hs as [|h hs IH]; simpl; [constructor|].
      inversion ND; subst. destruct (is_signed (to_lower (fst h))); simpl; auto. constructor; auto.
      intros K. apply in_map_iff in K as (x & Ex & Hx). apply filter_In in Hx as [Hx _].
      change (lower_case (fst x) = lower_case (fst h)) in Ex. apply H1. rewrite <- Ex. now apply (in_map (fun h : field => lower_case (fst h))). }
    pose proof (sort_sorted l) as HS. revert HN HS. generalize (sort l). clear. intros s HN HS.
    induction HS as [|p s HS IH HF]; constructor.
    + apply IH. now inversion HN.
    + inversion HN; subst. rewrite Forall_forall in *. intros q Hq. destruct (HF q Hq) as [->|[H|[H _]]]; auto.
      * exfalso. apply H1. now apply in_map.
      * exfalso. apply H1. rewrite H. now apply in_map.
  - intros n v. rewrite <- HI. split; intros H.
    + now apply (Permutation_in _ (sort_perm l)).
    + now apply (Permutation_in _ (Permutation_sym (sort_perm l))).
Qed.
Lemma must_host : must_sign (text "host"). Proof. now left. Qed.
Lemma must_amz n t : n = text "x-amz-" ++ t -> must_sign n. Proof. right. eauto. Qed.

(** What the fields are after [add_fields]. *)
Definition d_name := text "x-amz-date".
Definition p_name := text "x-amz-content-sha256".
Definition t_name := text "x-amz-security-token".
Lemma add_nodup c dt hs : NoDup (names hs) -> NoDup (names (add_fields c dt hs)).
Proof. intros. unfold add_fields. destruct (c_token c); auto using set_nodup. Qed.
Lemma add_in c dt hs h : In h (add_fields c dt hs) ->
  h = (d_name, dt) \/ h = (p_name, payload_hash hs) \/ (c_token c <> [] /\ h = (t_name, c_token c)) \/
  (In h hs /\ lower_case (fst h) <> d_name /\ lower_case (fst h) <> p_name).
Proof.
  unfold add_fields. intros H.
  assert (G : forall h, In h (set_header (str "x-amz-content-sha256") (payload_hash hs)
                                (set_header (str "x-amz-date") dt hs)) ->
              h = (d_name, dt) \/ h = (p_name, payload_hash hs) \/
              (In h hs /\ lower_case (fst h) <> d_name /\ lower_case (fst h) <> p_name)).
  { intros x Hx. apply in_set in Hx as [Hx|[Hx N1]]; auto. apply in_set in Hx as [Hx|[Hx N2]]; auto. }
  destruct (c_token c) as [|t0 t]; [apply G in H; tauto|].
  apply in_set in H as [H|[H _]].
  - right; right; left. split; [discriminate|auto].
  - apply G in H. tauto.
Qed.
Lemma add_has c dt hs : In (d_name, dt) (add_fields c dt hs) /\ In (p_name, payload_hash hs) (add_fields c dt hs) /\
  (c_token c <> [] -> In (t_name, c_token c) (add_fields c dt hs)) /\
  (forall h, In h hs -> lower_case (fst h) <> d_name -> lower_case (fst h) <> p_name ->
     (lower_case (fst h) <> t_name \/ c_token c = []) -> In h (add_fields c dt hs)).
Proof.
  unfold add_fields.
  assert (D : lower_case d_name <> lower_case p_name) by (vm_compute; discriminate).
  assert (T1 : lower_case d_name <> lower_case t_name) by (vm_compute; discriminate).
  assert (T2 : lower_case p_name <> lower_case t_name) by (vm_compute; discriminate).
  set (hs2 := set_header (str "x-amz-content-sha256") (payload_hash hs) (set_header (str "x-amz-date") dt hs)).
  assert (A : In (d_name, dt) hs2) by (apply in_set; right; split; [apply in_set; now left|exact D]).
  assert (B : In (p_name, payload_hash hs) hs2) by (apply in_set; now left).
  assert (C : forall h, In h hs -> lower_case (fst h) <> d_name -> lower_case (fst h) <> p_name -> In h hs2).
  { intros h H N1 N2. apply in_set. right. split; [apply in_set; right; split; auto|]; auto. }
  clearbody hs2. destruct (c_token c) as [|t0 t] eqn:E.
  - split; auto. split; auto. split; [tauto|]. auto.
  - split; [apply in_set; right; split; auto|]. split; [apply in_set; right; split; auto|].
    split; [intros _; apply in_set; now left|]. intros h H N1 N2 [N3|N3]; [|discriminate].
    apply in_set. right. split; auto.
Qed.
Lemma payload_clean hs :
  (forall h, In h hs -> lower_case (fst h) = p_name -> no_white (snd h)) -> no_white (payload_hash hs).
Proof.
  intros H. unfold payload_hash. destruct (find_header _ hs) as [v|] eqn:E.
  - apply find_in in E as (m & H1 & H2). specialize (H (m, v) H1). apply H. exact H2.
  - intros c Hc. assert (F : forallb (fun c => negb (white c)) kEmptyBodyHash = true) by (vm_compute; reflexivity).
    rewrite forallb_forall in F. apply F in Hc. now apply negb_true_iff.
Qed.

Lemma sign_accepted_pf : forall sha hmac c region datetime r, signable (c_token c) datetime (rq_target r) (rq_headers r) ->
  accepted sha hmac (c_id c) (c_secret c) region (rq_method r) (rq_target r)
    (rq_headers (Sign sha hmac c region datetime r)).
Proof.
  intros sha hmac c region dt r G. destruct G as [ND [hh [Hh1 Hh2]] SV SH ST SK SP SQ].
  unfold accepted, Sign. cbn [rq_headers].
  set (hs := add_fields c dt (rq_headers r)).
  set (auth := str "AWS4-HMAC-SHA256 Credential=" ++ _).
  assert (ND1 : NoDup (names hs)) by now apply add_nodup.
  pose proof (add_has c dt (rq_headers r)) as (A1 & A2 & A3 & A4). fold hs in A1, A2, A3, A4.
  assert (PC : no_white (payload_hash (rq_headers r))) by (apply payload_clean; auto).
  assert (SV1 : forall h, In h hs -> must_sign (lower_case (fst h)) -> single_blanks (snd h)).
  { intros h H M. apply add_in in H as [->|[->|[[_ ->]|(H & _)]]]; simpl; auto using clean_single. }
  assert (HC1 : canon_headers hs (signed_fields hs)) by now apply signed_canon.
  assert (HA : lower_case (text "Authorization") = text "authorization") by reflexivity.
  assert (NA : ~ must_sign (text "authorization")).
  { intros [M|[t M]]; [discriminate M|]. injection M. discriminate. }
  assert (HC2 : canon_headers (set_header (str "Authorization") auth hs) (signed_fields hs)).
  { destruct HC1 as [S1 S2]. split; auto. intros n v. rewrite S2. split; intros (M & h & Hh & E1 & E2); split; auto; exists h.
    - split; auto. apply in_set. right. split; auto. rewrite E1. intros K. rewrite str_text, HA in K. subst n. rewrite K in M. tauto.
    - apply in_set in Hh as [->|[Hh _]]; auto. change (text "authorization" = n) in E1. subst n. tauto. }
  destruct HC1 as [_ HI].
  assert (PQ : target_parts (rq_target r) (fst (ParseQuery (rq_target r))) (or_empty (snd (ParseQuery (rq_target r))))).
  { pose proof (parse_query_pf (rq_target r)) as PQ. destruct (ParseQuery (rq_target r)) as [path [query|]]; destruct PQ as [PQ ->]; split; auto. }
  destruct (ParseQuery (rq_target r)) as [path view] eqn:EP. cbn [fst snd] in PQ. set (query := or_empty view) in *.
  destruct (SP _ _ PQ) as [SP1 SP2]. specialize (SQ _ _ PQ).
  exists path, query, (canonical_uri path), (canonical_query query), (signed_fields hs), dt,
    (payload_hash (rq_headers r)), (tidy (snd hh)), auth.
  split; [exact PQ|]. split.
  { apply canon_uri_ok; auto. intros x Hx. destruct (SP2 x Hx) as (?&?&?&?&?). unfold odd_char. split; auto. tauto. }
  split; [now apply canon_query_ok|]. split; [exact HC2|].
  split. { apply HI. split; [eapply must_amz; reflexivity|]. exists (d_name, dt). split; auto. split; [reflexivity|].
           rewrite <- strip_tidy by now apply clean_single. now apply strip_clean. }
  split. { apply HI. split; [eapply must_amz; reflexivity|]. exists (p_name, payload_hash (rq_headers r)).
           split; auto. split; [reflexivity|]. rewrite <- strip_tidy by now apply clean_single. now apply strip_clean. }
  split. { apply HI. split; [apply must_host|]. exists hh. split; [|auto]. apply A4; auto; rewrite Hh2; try (vm_compute; discriminate).
           left. vm_compute; discriminate. }
  split.
  { intros h Hin. split.
    - intros E. apply in_set in Hin as [->|[_ Hn]]; auto. exfalso. apply Hn. rewrite E; reflexivity.
    - intros ->. exact HA. }
  split; [apply in_set; now left|].
  unfold auth, expected. rewrite !hex_eq. unfold canonical_request. rewrite EP.
  unfold signed_names, canonical_headers. rewrite !with_sep_join.
  repeat (rewrite <- !app_assoc; cbn [app]). rewrite <- ?app_assoc. reflexivity.
Qed.

Lemma sign_built_pf : forall fs, NoDup (names (fold_right (fun f hs => set_header (fst f) (snd f) hs) [] fs)).
Proof. induction fs as [|f fs IH]; simpl; [constructor|]. now apply set_nodup. Qed.
Lemma sign_frame_pf : forall sha hmac c region datetime r h,
  ~ In (lower_case (fst h)) [text "x-amz-date"; text "x-amz-content-sha256"; text "x-amz-security-token"; text "authorization"] ->
  (In h (rq_headers (Sign sha hmac c region datetime r)) <-> In h (rq_headers r)) /\
  rq_method (Sign sha hmac c region datetime r) = rq_method r /\
  rq_target (Sign sha hmac c region datetime r) = rq_target r.
Proof.
  intros sha hmac c region dt r h Hn. split; [|split; reflexivity]. unfold Sign. cbn [rq_headers].
  simpl in Hn. set (auth := str "AWS4-HMAC-SHA256 Credential=" ++ _). clearbody auth.
  rewrite in_set. assert (HA : lower_case (str "Authorization") = text "authorization") by reflexivity. rewrite HA.
  split.
  - intros [->|[H _]].
    + exfalso. simpl fst in Hn. rewrite HA in Hn. tauto.
    + apply add_in in H as [->|[->|[[_ ->]|(H & _)]]]; auto; exfalso; apply Hn; simpl fst; auto.
  - intros H. right. split; [|intros E; apply Hn; auto].
    apply add_has; auto. left. intros E. apply Hn. rewrite E. unfold t_name. auto.
Qed.
Lemma sign_token_pf : forall sha hmac c region datetime r, c_token c <> [] ->
  In (text "x-amz-security-token", c_token c) (rq_headers (Sign sha hmac c region datetime r)).
Proof.
  intros sha hmac c region dt r H. unfold Sign. cbn [rq_headers]. apply in_set. right. split; [|vm_compute; discriminate].
  destruct (add_has c dt (rq_headers r)) as (_ & _ & A & _). exact (A H).
Qed.
Lemma sign_old_token_refuted_pf : forall sha hmac c region datetime r h, c_token c = [] ->
  In h (rq_headers r) -> lower_case (fst h) = text "x-amz-security-token" ->
  In h (rq_headers (Sign sha hmac c region datetime r)).
Proof.
  intros sha hmac c region dt r h E H K. unfold Sign. cbn [rq_headers]. apply in_set. right. split.
  - destruct (add_has c dt (rq_headers r)) as (_ & _ & _ & A). apply A; auto; rewrite K; vm_compute; discriminate.
  - rewrite K. vm_compute. discriminate.
Qed.

Lemma s3_key_partial_pf : forall bucket key, ~ In 37 key -> ~ In 63 key ->
  asks_for (object_path true bucket key) key /\
  (~ In 37 bucket -> ~ In 63 bucket -> asks_for (object_path false bucket key) (bucket ++ 47 :: key)).
Proof.
  intros bucket key H1 H2. split.
  - exists (47 :: key), []. split.
    + split; [intros [H|H]; [discriminate|tauto]|]. right. auto.
    + apply decodes_self. intros [H|H]; [discriminate|tauto].
  - intros B1 B2. exists (47 :: bucket ++ 47 :: key), [].
    assert (G : forall x, x <> 47 -> ~ In x bucket -> ~ In x key -> ~ In x (47 :: bucket ++ 47 :: key)).
    { intros x A B C [H|H]; [congruence|]. apply in_app_iff in H as [H|[H|H]]; auto. }
    split; [split; [apply G; auto; lia|]; right; auto|]. apply decodes_self. apply G; auto; lia.
Qed.
Lemma target_cut t p q : target_parts t p q -> (fst (ParseQuery t), or_empty (snd (ParseQuery t))) = (p, q).
Proof.
  intros [H [->|[-> ->]]]; unfold ParseQuery; [now rewrite cut_at|now rewrite cut_none].
Qed.
Lemma asks_unique t k1 k2 : asks_for t k1 -> asks_for t k2 -> k1 = k2.
Proof.
  intros (p1 & q1 & A & D1) (p2 & q2 & B & D2). apply target_cut in A, B. rewrite A in B. injection B as <- <-.
  pose proof (decodes_det _ _ _ D1 D2) as E. now injection E.
Qed.

(** The canonical form is unique. *)
Lemma canon_path_unique w o1 o2 : canon_path w o1 -> canon_path w o2 -> o1 = o2.
Proof. intros (d1 & D1 & ->) (d2 & D2 & ->). now rewrite (decodes_det _ _ _ D1 D2). Qed.
Lemma pair_of_unique p a b : pair_of p a -> pair_of p b -> a = b.
Proof.
  assert (G : forall p a, pair_of p a -> a = (let (k, v) := cut 61 p in (k, or_empty v))).
  { clear. intros p [k v] [N [->|[-> E]]]; simpl in *; [now rewrite cut_at|]. rewrite cut_none by auto. now subst. }
  intros A B. rewrite (G _ _ A), (G _ _ B). reflexivity.
Qed.
Lemma forall2_unique {A B} (R : A -> B -> Prop) : (forall a b c, R a b -> R a c -> b = c) ->
  forall l m1 m2, Forall2 R l m1 -> Forall2 R l m2 -> m1 = m2.
Proof.
  intros U l m1 m2 H. revert m2. induction H; intros m2 K; inversion K; subst; auto. f_equal; eauto.
Qed.
Lemma canon_query_unique w o1 o2 : canon_query w o1 -> canon_query w o2 -> o1 = o2.
Proof.
  intros [[-> ->]|[W (ps1 & r1 & d1 & s1 & A1 & A2 & A3 & A4 & A5 & A6 & ->)]]
         [[E ->]|[W' (ps2 & r2 & d2 & s2 & B1 & B2 & B3 & B4 & B5 & B6 & ->)]]; auto; try congruence.
  assert (ps1 = ps2).
  { rewrite <- (split_join 38 ps1), <- (split_join 38 ps2); auto; [now rewrite A1, B1| |].
    - intros ->. simpl in B1. congruence.
    - intros ->. simpl in A1. congruence. }
  subst ps2. assert (r1 = r2) by (eapply forall2_unique; eauto using pair_of_unique). subst r2.
  assert (d1 = d2).
  { eapply forall2_unique; [|exact A4|exact B4]. intros a [b1 b2] [c1 c2] [H1 H2] [K1 K2]. simpl in *. f_equal; eapply decodes_det; eauto. }
  subst d2. f_equal. f_equal. apply sorted_unique; auto. rewrite A5. now symmetry.
Qed.
Lemma strict_sorted l : StronglySorted (fun p q : list N * list N => lex_lt (fst p) (fst q)) l -> StronglySorted before l.
Proof.
  induction 1 as [|p l HS IH HF]; constructor; auto. rewrite Forall_forall in *. intros q Hq. right; left. auto.
Qed.
Lemma strict_nodup l : StronglySorted (fun p q : list N * list N => lex_lt (fst p) (fst q)) l -> NoDup l.
Proof.
  induction 1 as [|p l HS IH HF]; constructor; auto. rewrite Forall_forall in HF. intros H. apply HF in H. now apply lex_irrefl in H.
Qed.
Lemma canon_headers_unique hs c1 c2 : canon_headers hs c1 -> canon_headers hs c2 -> c1 = c2.
Proof.
  intros [A1 A2] [B1 B2]. apply sorted_unique; auto using strict_sorted. apply NoDup_Permutation; auto using strict_nodup.
  intros [n v]. rewrite A2, B2. reflexivity.
Qed.
Lemma sign_canon_unique_pf : forall w hs,
  (forall o1 o2, canon_path w o1 -> canon_path w o2 -> o1 = o2) /\
  (forall o1 o2, canon_query w o1 -> canon_query w o2 -> o1 = o2) /\
  (forall c1 c2, canon_headers hs c1 -> canon_headers hs c2 -> c1 = c2).
Proof.
  intros w hs. split; [intros; eapply canon_path_unique; eauto|].
  split; [intros; eapply canon_query_unique; eauto|intros; eapply canon_headers_unique; eauto].
Qed.
