(** Proofs for the Azure credentials. *)
From Coq Require Import String Permutation Sorting.Sorted Lia.
From Verif Require Import Util UrlSpec UrlModel UrlProof SignModel SignProof.
From Verif Require CfgSpec CfgModel CfgProof.
From Verif Require Import SignSpec AzSpec AzModel.
Import ListNotations.
Local Open Scope N_scope.

(** ** Headers *)
Lemma field_find hs n : field_value hs (lower_case n) = or_empty (find_header n hs).
Proof.
  induction hs as [|h hs IH]; simpl; auto. destruct (list_eq_dec _ _ _) as [E|E].
  - assert (same_name n (fst h) = true) as -> by (apply same_name_spec; auto). reflexivity.
  - destruct (same_name n (fst h)) eqn:X; auto. apply same_name_spec in X. congruence.
Qed.
Lemma field_none hs n : (forall h, In h hs -> lower_case (fst h) <> n) -> field_value hs n = [].
Proof.
  induction hs as [|h hs IH]; simpl; auto. intros H. destruct (list_eq_dec _ _ _) as [E|E]; [|auto].
  exfalso. apply (H h); auto.
Qed.
Lemma find_set_same n v hs : find_header n (set_header n v hs) = Some v.
Proof.
  unfold set_header. induction hs as [|h hs IH]; simpl.
  - assert (same_name n n = true) as -> by now apply same_name_spec. reflexivity.
  - destruct (same_name n (fst h)) eqn:E; simpl; auto. now rewrite E.
Qed.
Lemma find_set_other m n v hs : lower_case m <> lower_case n -> find_header m (set_header n v hs) = find_header m hs.
Proof.
  intros D. unfold set_header. induction hs as [|h hs IH]; simpl.
  - destruct (same_name m n) eqn:E; auto. apply same_name_spec in E. congruence.
  - destruct (same_name n (fst h)) eqn:E; simpl.
    + rewrite IH. destruct (same_name m (fst h)) eqn:F; auto. apply same_name_spec in E, F. congruence.
    + now rewrite IH.
Qed.
Lemma length_ok hs : content_length hs = line (length_value hs).
Proof.
  unfold content_length, length_value, line. change (text "content-length") with (lower_case (str "Content-Length")).
  rewrite field_find. destruct (find_header _ hs) as [v|]; simpl or_empty.
  - destruct (str_eq v (str "0")) eqn:E; destruct (list_eq_dec N.eq_dec v (text "0")) as [F|F]; auto.
    + apply str_eq_spec in E. now elim F.
    + subst v. discriminate E.
  - destruct (list_eq_dec _ _ _); auto.
Qed.

Lemma strict_sort (l : fields) : NoDup (map fst l) -> StronglySorted (fun p q => lex_lt (fst p) (fst q)) (sort l).
Proof.
  intros ND. assert (HN : NoDup (map fst (sort l))).
  { apply (Permutation_NoDup (l := map fst l)); auto. apply Permutation_map, Permutation_sym, sort_perm. }
  pose proof (sort_sorted l) as HS. revert HN HS. generalize (sort l). clear. intros s HN HS.
  induction HS as [|p s HS IH HF]; constructor.
  + apply IH. now inversion HN.
  + inversion HN; subst. rewrite Forall_forall in *. intros q Hq. destruct (HF q Hq) as [->|[H|[H _]]]; auto.
    * exfalso. apply H1. now apply in_map.
    * exfalso. apply H1. rewrite H. now apply in_map.
Qed.

Lemma ms_canon hs : NoDup (names hs) ->
  (forall h, In h hs -> ms_name (lower_case (fst h)) -> fst h = lower_case (fst h) /\
     rev (drop_white (rev (drop_white (snd h)))) = snd h) ->
  (forall h, In h hs -> ms_name (fst h) -> ms_name (lower_case (fst h))) ->
  canon_ms hs (x_head hs).
Proof.
  intros ND MS LC. unfold x_head. set (l := filter _ hs).
  assert (IL : forall h, In h l <-> In h hs /\ ms_name (fst h)).
  { intros h. unfold l. rewrite filter_In, starts_with_spec. reflexivity. }
  split.
  - apply strict_sort. assert (E : map fst l = map (fun h => lower_case (fst h)) l).
    { apply map_ext_in. intros h Hh. apply IL in Hh as [A B]. apply MS; auto. }
    rewrite E. unfold l, names in *. clear -ND. induction hs as [|h hs IH]; simpl; [constructor|].
    inversion ND; subst. destruct (starts_with _ _); simpl; auto. constructor; auto.
    intros K. apply in_map_iff in K as (x & Ex & Hx). apply filter_In in Hx as [Hx _].
    apply H1. rewrite <- Ex. now apply (in_map (fun h : field => lower_case (fst h))).
  - intros n v. assert (P : In (n, v) (sort l) <-> In (n, v) l).
    { split; apply Permutation_in; [|apply Permutation_sym]; apply sort_perm. }
    rewrite P, IL. simpl. split.
    + intros [A B]. split; auto. exists (n, v). destruct (MS (n, v) A (LC _ A B)) as [C D]. simpl in *. auto.
    + intros [A [h [B [C D]]]]. rewrite <- C in A. destruct (MS h B A) as [E F]. rewrite F in D.
      destruct h as [hn hv]. simpl in *. assert (hn = n) by congruence. subst hv hn. rewrite <- C in *. split; auto.
      rewrite C in A. rewrite E in B. now rewrite C in B.
Qed.

Lemma lower_app a b : lower_case (a ++ b) = lower_case a ++ lower_case b.
Proof. apply map_app. Qed.
Lemma ms_lower n : ms_name n -> ms_name (lower_case n).
Proof. intros [t ->]. exists (lower_case t). now rewrite lower_app. Qed.

(** ** Parameters *)
Lemma map_dec_eq (raw : fields) : Forall (fun p => ~ In 61 (fst p)) raw ->
  map (fun a => let (k, v) := cut 61 a in (k, or_empty v)) (map (fun p => fst p ++ 61 :: snd p) raw) = raw.
Proof.
  induction 1 as [|[k v] raw H F IH]; simpl; auto. rewrite cut_at by auto. simpl. now f_equal.
Qed.
Lemma query_canon_ok args : Forall (fun p => snd p <> [] /\ bytes (snd p) /\ len (snd p) + 3 < two32 /\ exists d, decodes (snd p) d) args ->
  exists ds, Forall2 (fun r d => fst r = fst d /\ decodes (snd r) (snd d)) args ds /\
    query_canon args = Some (flat_map (fun d => 10 :: fst d ++ 58 :: snd d) ds).
Proof.
  induction 1 as [|[k v] args (A & B & C & d & D) F (ds & IH1 & IH2)].
  - exists []. split; constructor.
  - exists ((k, d) :: ds). split; [constructor; auto|]. cbn [query_canon fst snd] in *.
    rewrite (decode_of v d []); auto.
    + rewrite IH2. simpl. f_equal. f_equal. now rewrite <- !app_assoc.
    + destruct v; [congruence|]. unfold len. simpl length. lia.
Qed.
Lemma single_groups ds : flat_map (fun g : list N * list (list N) => map (fun v => (fst g, v)) (snd g)) (map (fun d => (fst d, [snd d])) ds) = ds.
Proof. induction ds as [|[n v] ds IH]; simpl; auto. now rewrite IH. Qed.
Lemma single_out (ds : fields) : flat_map (fun g : list N * list (list N) => 10 :: fst g ++ 58 :: join 44 (snd g)) (map (fun d => (fst d, [snd d])) ds)
  = flat_map (fun d => 10 :: fst d ++ 58 :: snd d) ds.
Proof. induction ds as [|[n v] ds IH]; simpl; auto. now rewrite IH. Qed.
Lemma forall2_fst (a b : fields) : Forall2 (fun r d => fst r = fst d /\ decodes (snd r) (snd d)) a b -> map fst a = map fst b.
Proof. induction 1 as [|x y a b [E _] F IH]; simpl; auto. now f_equal. Qed.
Lemma sorted_map {A} (R : list N -> list N -> Prop) (l : list (list N * A)) :
  StronglySorted R (map fst l) <-> StronglySorted (fun p q => R (fst p) (fst q)) l.
Proof.
  induction l as [|x l IH]; simpl; split; intros H; try constructor; inversion H; subst.
  - now apply IH.
  - rewrite Forall_forall in *. intros q Q. apply H3. now apply in_map.
  - now apply IH.
  - rewrite Forall_forall in *. intros q Q. apply in_map_iff in Q as (x0 & <- & Q). auto.
Qed.
Lemma params_ok path query target meth hs : signable meth target hs -> target_parts target path query ->
  exists out, query_canon (sort (SplitQuery (snd (ParseQuery target)))) = Some out /\ canon_params query out /\ fst (ParseQuery target) = path.
Proof.
  intros HS HT. destruct (s_query _ _ _ HS _ _ HT) as [E (raw & Q & ND & G)].
  assert (PQ : ParseQuery target = (path, match query with [] => None | _ => Some query end)).
  { destruct HT as [H1 [H2|[H2 H3]]]; unfold ParseQuery.
    - destruct query as [|c q]; [exfalso; specialize (E eq_refl); rewrite H2 in E; apply (f_equal (@length N)) in E; rewrite app_length in E; simpl in E; lia|].
      rewrite H2. now rewrite cut_at.
    - subst. now apply cut_none. }
  rewrite PQ. cbn [fst snd].
  assert (SQ : SplitQuery (match query with [] => None | _ => Some query end) = raw).
  { destruct Q as [[-> ->]|[Qn Qj]]; auto. destruct query as [|c q]; [congruence|]. unfold SplitQuery. rewrite <- Qj.
    rewrite split_join.
    - apply map_dec_eq. eapply Forall_impl; [|exact G]. simpl. tauto.
    - destruct raw; simpl in *; congruence.
    - apply Forall_forall. intros x X. apply in_map_iff in X as (p & <- & X). rewrite Forall_forall in G. destruct (G p X) as (A & B & C & D & _).
      intros I. apply in_app_or in I as [I|[I|I]]; auto. discriminate. }
  rewrite SQ. pose proof (sort_perm raw) as PM.
  assert (GS : Forall (fun p : list N * list N => fst p = lower_case (fst p) /\ snd p <> [] /\ bytes (snd p) /\ len (snd p) + 3 < two32 /\ exists d, decodes (snd p) d) (sort raw)).
  { apply Forall_forall. intros p P. apply (Permutation_in _ PM) in P. rewrite Forall_forall in G. destruct (G p P) as (A & B & C & D & X). auto. }
  destruct (query_canon_ok (sort raw)) as (ds & F & QC). { eapply Forall_impl; [|exact GS]. simpl. tauto. }
  exists (flat_map (fun d => 10 :: fst d ++ 58 :: snd d) ds). split; auto. split; auto.
  destruct (Permutation_Forall2 PM F) as (ds0 & P0 & F0).
  exists (map (fun p => fst p ++ 61 :: snd p) raw), raw, ds0, (map (fun d => (fst d, [snd d])) ds).
  split. { destruct Q as [[-> ->]|[Qn Qj]]; auto. }
  split. { apply Forall_forall. intros x X. apply in_map_iff in X as (p & <- & X). rewrite Forall_forall in G. destruct (G p X) as (A & B & C & D & _).
    intros I. apply in_app_or in I as [I|[I|I]]; auto. discriminate. }
  split. { clear -G. induction G as [|p raw (A & B & _) G IH]; simpl; constructor; auto. split; auto. }
  split. { clear -F0 G. revert ds0 F0. induction G as [|p raw (A & B & C & _) G IH]; intros ds0 F0; inversion F0; subst; constructor; auto.
    destruct H1 as [H1 H2]. split; auto. congruence. }
  split. { apply sorted_map. rewrite map_map. cbn [fst]. change (StronglySorted lex_lt (map fst ds)). rewrite <- (forall2_fst _ _ F). apply sorted_map. now apply strict_sort. }
  split. { apply Forall_forall. intros g X. apply in_map_iff in X as (d & <- & X). simpl. split; [discriminate|]. repeat constructor. }
  split. { rewrite single_groups. now symmetry. }
  now rewrite single_out.
Qed.

(** ** The signature *)
Definition sent_fields (date : list N) (hs : list field) : list field :=
  set_header (str "x-ms-version") (str "2025-01-05") (set_header (str "x-ms-date") date hs).
Lemma to_sign_ok account meth target hs : signable meth target hs ->
  exists s, to_sign account meth target hs = Some s /\ to_be_signed account meth target hs s.
Proof.
  intros HS. unfold to_sign.
  pose proof (parse_query_pf target) as PQ. destruct (ParseQuery target) as [path q] eqn:E.
  assert (HT : target_parts target path (or_empty q)).
  { destruct PQ as [A B]. split; auto. destruct q as [r|]; [left|right]; auto. }
  destruct (params_ok _ _ _ _ _ HS HT) as (out & Q1 & Q2 & _). rewrite E in Q1. cbn [snd] in Q1. rewrite Q1.
  eexists. split; [reflexivity|]. exists path, (or_empty q), (x_head hs), out. split; auto. split.
  { apply ms_canon; [apply (s_names _ _ _ HS)|apply (s_ms _ _ _ HS)|]. intros. now apply ms_lower. }
  split; auto.
  assert (Z : forall n, In n (std_before ++ std_after) -> field_value hs n = []).
  { intros n I. apply field_none. intros h H X. apply (s_std _ _ _ HS h H). now rewrite X. }
  assert (Z1 : flat_map (fun n => line (field_value hs n)) std_before = [10; 10]).
  { unfold std_before. cbn [flat_map]. rewrite !Z by (cbn; tauto). reflexivity. }
  assert (Z2 : flat_map (fun n => line (field_value hs n)) std_after = [10; 10; 10; 10; 10; 10; 10; 10]).
  { unfold std_after. cbn [flat_map]. rewrite !Z by (cbn; tauto). reflexivity. }
  assert (Z3 : flat_map (fun h : list N * list N => line (fst h ++ 58 :: snd h)) (x_head hs) = flat_map (fun p => fst p ++ 58 :: snd p ++ [10]) (x_head hs)).
  { apply flat_map_ext. intros p. unfold line. now rewrite <- app_assoc. }
  rewrite Z1, Z2, Z3, length_ok. unfold line. rewrite <- !app_assoc. reflexivity.
Qed.

(** The signed text does not depend on fields that are neither standard nor x-ms-*. *)
Lemma canon_ms_auth v hs cs : canon_ms hs cs -> canon_ms (set_header (str "Authorization") v hs) cs.
Proof.
  intros [A B]. split; auto. intros n x. rewrite B. split; intros [H (h & I & J & K)]; split; auto; exists h; split; auto.
  - apply in_set. right. split; auto. rewrite J. destruct H as [t ->]. intros X. discriminate X.
  - apply in_set in I. destruct I as [->|[I _]]; auto. simpl in J. destruct H as [t H]. rewrite H in J. discriminate J.
Qed.
Lemma field_value_auth v hs n : lower_case n = n -> n <> text "authorization" -> field_value (set_header (str "Authorization") v hs) n = field_value hs n.
Proof.
  intros L D. rewrite <- L, !field_find. rewrite find_set_other; auto. rewrite L. exact D.
Qed.
Lemma signed_auth account meth target hs s v : to_be_signed account meth target hs s ->
  to_be_signed account meth target (set_header (str "Authorization") v hs) s.
Proof.
  intros (path & query & cs & ps & A & B & C & ->). exists path, query, cs, ps. split; auto. split; [now apply canon_ms_auth|].
  split; auto. unfold length_value, std_before, std_after. cbn [flat_map].
  rewrite !field_value_auth by (reflexivity || discriminate). reflexivity.
Qed.
Lemma signable_sent meth target date hs : signable meth target hs -> rev (drop_white (rev (drop_white date))) = date ->
  signable meth target (sent_fields date hs).
Proof.
  intros [A B C D] E. unfold sent_fields. constructor; auto.
  - now apply set_nodup, set_nodup.
  - intros h I. apply in_set in I. destruct I as [->|[I _]]; [|apply in_set in I; destruct I as [->|[I _]]; [|auto]];
      cbn; intuition discriminate.
  - intros h I M. apply in_set in I. destruct I as [->|[I _]]; [|apply in_set in I; destruct I as [->|[I _]]; [|auto]]; auto.
Qed.
Lemma az_sign_pf : forall hmac b64 unb64 st date r key k, z_auth st = SharedKey key -> unb64 key = Some k ->
  signable (rq_method r) (rq_target r) (rq_headers r) -> rev (drop_white (rev (drop_white date))) = date ->
  exists hs s, Sign hmac b64 unb64 st date r = Signed (Build_request (rq_method r) (rq_target r) hs) /\
    to_be_signed (i_account (z_info st)) (rq_method r) (rq_target r) hs s /\
    authorization hs = text "SharedKey " ++ i_account (z_info st) ++ 58 :: b64 (hmac k s) /\
    field_value hs (text "x-ms-date") = date /\ field_value hs (text "x-ms-version") = text "2025-01-05".
Proof.
  intros hmac b64 unb64 st date r key k HA HK HS HD. unfold Sign. rewrite HA. unfold ComputeSignature. rewrite HK.
  fold (sent_fields date (rq_headers r)). destruct (to_sign_ok (i_account (z_info st)) _ _ _ (signable_sent _ _ _ _ HS HD)) as (s & -> & TB).
  eexists. exists s. split; [reflexivity|]. split; [now apply signed_auth|]. split.
  { unfold authorization. change (text "authorization") with (lower_case (str "Authorization")). rewrite field_find, find_set_same. reflexivity. }
  split.
  - change (text "x-ms-date") with (lower_case (str "x-ms-date")). rewrite field_find, find_set_other by discriminate.
    unfold sent_fields. rewrite find_set_other by discriminate. now rewrite find_set_same.
  - change (text "x-ms-version") with (lower_case (str "x-ms-version")). rewrite field_find, find_set_other by discriminate.
    unfold sent_fields. now rewrite find_set_same.
Qed.

(** The text is the only one. *)
Definition flatten (gs : list (list N * list (list N))) : fields := flat_map (fun g => map (fun v => (fst g, v)) (snd g)) gs.
Lemma flatten_in gs n v : In (n, v) (flatten gs) -> exists g, In g gs /\ fst g = n /\ In v (snd g).
Proof.
  unfold flatten. intros H. apply in_flat_map in H as (g & G & H). apply in_map_iff in H as (x & E & H).
  injection E as <- <-. eauto.
Qed.
Lemma flatten_sorted gs : StronglySorted (fun p q => lex_lt (fst p) (fst q)) gs ->
  Forall (fun g => snd g <> [] /\ StronglySorted no_gt (snd g)) gs -> StronglySorted before (flatten gs).
Proof.
  induction 1 as [|g gs HS IH HF]; intros F; inversion F; subst; [constructor|].
  unfold flatten. cbn [flat_map]. fold (flatten gs). destruct g as [n vs]. cbn [fst snd] in *. destruct H1 as [_ SV].
  assert (OUT : forall p, In p (flatten gs) -> lex_lt n (fst p)).
  { intros [m v] I. apply flatten_in in I as (g & G & <- & _). rewrite Forall_forall in HF. now apply HF. }
  specialize (IH H2). clear -SV OUT IH. induction SV as [|v vs SV IHv VF]; simpl; auto. constructor; auto.
  rewrite Forall_forall in *. intros q Q. apply in_app_or in Q as [Q|Q].
  - apply in_map_iff in Q as (x & <- & Q). destruct (VF x Q) as [->|L]; [now left|]. right. right. auto.
  - right. left. simpl. auto.
Qed.
Lemma app_split {A} (P : A -> Prop) (a b c d : list A) : Forall P a -> Forall P c -> Forall (fun x => ~ P x) b -> Forall (fun x => ~ P x) d ->
  a ++ b = c ++ d -> a = c /\ b = d.
Proof.
  intros Fa. revert c. induction Fa as [|x a X Fa IH]; intros [|y c] Fc Fb Fd E; simpl in E; auto.
  - subst b. inversion Fc; inversion Fb; subst. tauto.
  - subst d. inversion Fd; subst. tauto.
  - injection E as <- E. inversion Fc; subst. destruct (IH c) as [-> ->]; auto.
Qed.
Lemma map_pair_inj (n : list N) : forall a b : list (list N), map (fun v => (n, v)) a = map (fun v => (n, v)) b -> a = b.
Proof. induction a as [|x a IH]; intros [|y b] E; simpl in E; try discriminate; auto. injection E as <- E. f_equal; auto. Qed.
Lemma groups_unique g1 : forall g2, StronglySorted (fun p q => lex_lt (fst p) (fst q)) g1 -> StronglySorted (fun p q => lex_lt (fst p) (fst q)) g2 ->
  Forall (fun g => snd g <> []) g1 -> Forall (fun g => snd g <> []) g2 -> flatten g1 = flatten g2 -> g1 = g2.
Proof.
  induction g1 as [|[n vs] g1 IH]; intros [|[m ws] g2] S1 S2 F1 F2 E; auto.
  - inversion F2; subst. destruct ws; [simpl in *; congruence|discriminate E].
  - inversion F1; subst. destruct vs; [simpl in *; congruence|discriminate E].
  - apply StronglySorted_inv in S1 as [S1 L1]. apply StronglySorted_inv in S2 as [S2 L2].
    pose proof (Forall_inv F1) as V1. pose proof (Forall_inv F2) as V2. apply Forall_inv_tail in F1, F2. cbn [fst snd] in *.
    assert (n = m). { destruct vs; [congruence|]. destruct ws; [congruence|]. unfold flatten in E. simpl in E. congruence. }
    subst m. unfold flatten in E. cbn [flat_map fst snd] in E. fold (flatten g1) (flatten g2) in E.
    assert (OUT : forall g, Forall (fun q : list N * list (list N) => lex_lt n (fst q)) g -> Forall (fun p : list N * list N => ~ fst p = n) (flatten g)).
    { intros g G. apply Forall_forall. intros [k v] I X. simpl in X. subst k. apply flatten_in in I as (h & I & J & _).
      rewrite Forall_forall in G. apply G in I. rewrite J in I. now apply lex_irrefl in I. }
    assert (INN : forall l, Forall (fun p : list N * list N => fst p = n) (map (fun v => (n, v)) l)).
    { intros l. apply Forall_forall. intros x I. apply in_map_iff in I as (v & <- & _). reflexivity. }
    destruct (app_split (fun p : list N * list N => fst p = n) _ _ _ _ (INN vs) (INN ws) (OUT g1 L1) (OUT g2 L2) E) as [E1 E2].
    apply map_pair_inj in E1. subst ws. f_equal. apply IH; auto.
Qed.
Lemma params_unique q o1 o2 : canon_params q o1 -> canon_params q o2 -> o1 = o2.
Proof.
  intros (p1 & r1 & d1 & g1 & A1 & A2 & A3 & A4 & A5 & A6 & A7 & ->) (p2 & r2 & d2 & g2 & B1 & B2 & B3 & B4 & B5 & B6 & B7 & ->).
  assert (p1 = p2).
  { destruct A1 as [[-> ->]|[An A1]], B1 as [[Bn B1]|[Bn B1]]; try congruence.
    rewrite <- (split_join 38 p1), <- (split_join 38 p2); auto; try congruence; intros ->; simpl in *; congruence. }
  subst p2. assert (r1 = r2) by (eapply forall2_unique; eauto using pair_of_unique). subst r2.
  assert (d1 = d2).
  { eapply forall2_unique; [|exact A4|exact B4]. intros a [b1 b2] [c1 c2] [H1 H2] [K1 K2]. simpl in *. f_equal; [congruence|]. eapply decodes_det; eauto. }
  subst d2. f_equal. fold (flatten g1) in A7. fold (flatten g2) in B7.
  apply groups_unique; auto; try (eapply Forall_impl; [|eassumption]; simpl; tauto).
  apply sorted_unique; auto using flatten_sorted. rewrite A7. now symmetry.
Qed.
Lemma ms_unique hs c1 c2 : canon_ms hs c1 -> canon_ms hs c2 -> c1 = c2.
Proof.
  intros [A1 A2] [B1 B2]. apply sorted_unique; auto using strict_sorted. apply NoDup_Permutation; auto using strict_nodup.
  intros [n v]. rewrite A2, B2. reflexivity.
Qed.
Lemma az_text_unique_pf : forall account meth target hs s1 s2,
  to_be_signed account meth target hs s1 -> to_be_signed account meth target hs s2 -> s1 = s2.
Proof.
  intros account meth target hs s1 s2 (p1 & q1 & c1 & o1 & A1 & A2 & A3 & ->) (p2 & q2 & c2 & o2 & B1 & B2 & B3 & ->).
  apply target_cut in A1, B1. rewrite A1 in B1. injection B1 as <- <-.
  rewrite (ms_unique _ _ _ A2 B2), (params_unique _ _ _ A3 B3). reflexivity.
Qed.

(** *** Where it goes wrong *)
Lemma az_range_refuted_pf : forall hmac b64 unb64 st date key k, z_auth st = SharedKey key -> unb64 key = Some k ->
  exists hs s, Sign hmac b64 unb64 st date (Build_request (text "GET") (text "/c/k") [(text "Range", text "bytes=0-9")]) =
      Signed (Build_request (text "GET") (text "/c/k") hs) /\
    authorization hs = text "SharedKey " ++ i_account (z_info st) ++ 58 :: b64 (hmac k s) /\
    ~ to_be_signed (i_account (z_info st)) (text "GET") (text "/c/k") hs s.
Proof.
  intros hmac b64 unb64 st date key k HA HK. unfold Sign. rewrite HA. unfold ComputeSignature. rewrite HK. cbn [rq_method rq_target rq_headers].
  fold (sent_fields date [(text "Range", text "bytes=0-9")]).
  destruct (to_sign (i_account (z_info st)) (text "GET") (text "/c/k") (sent_fields date [(text "Range", text "bytes=0-9")])) as [s|] eqn:E; [|discriminate E].
  eexists. exists s. split; [reflexivity|]. split.
  { unfold authorization. change (text "authorization") with (lower_case (str "Authorization")). rewrite field_find, find_set_same. reflexivity. }
  intros (path & query & cs & ps & A & B & C & D).
  assert (H : exists t, s = text "GET" ++ [10; 10; 10; 10; 10; 10; 10; 10; 10; 10; 10; 10] ++ t).
  { injection E as <-. eexists. reflexivity. }
  destruct H as [t ->]. clear A B C E.
  change (sent_fields date [(text "Range", text "bytes=0-9")]) with [(text "Range", text "bytes=0-9"); (str "x-ms-date", date); (str "x-ms-version", str "2025-01-05")] in D.
  vm_compute in D. discriminate D.
Qed.
Lemma az_empty_refuted_pf : forall hmac b64 unb64 st date key k, z_auth st = SharedKey key -> unb64 key = Some k ->
  Sign hmac b64 unb64 st date (Build_request (text "GET") (text "/c?comp=list&prefix=") []) = SignUb.
Proof.
  intros hmac b64 unb64 st date key k HA HK. unfold Sign. rewrite HA. unfold ComputeSignature. rewrite HK.
  cbn [rq_method rq_target rq_headers]. unfold to_sign. assert (query_canon (sort (SplitQuery (snd (ParseQuery (text "/c?comp=list&prefix="))))) = None) by (vm_compute; reflexivity).
  destruct (ParseQuery (text "/c?comp=list&prefix=")) as [p q]. cbn [snd] in H. now rewrite H.
Qed.
Lemma az_twice_refuted_pf : forall account, exists s,
  to_sign account (text "GET") (text "/c?a=1&a=2") [] = Some s /\ ~ to_be_signed account (text "GET") (text "/c?a=1&a=2") [] s.
Proof.
  intros account. exists (text "GET" ++ [10; 10; 10; 10; 10; 10; 10; 10; 10; 10; 10; 10] ++ 47 :: account ++ text "/c" ++ 10 :: text "a:1" ++ 10 :: text "a:2").
  split; [vm_compute; reflexivity|]. intros H.
  assert (T : exists s', to_be_signed account (text "GET") (text "/c?a=1&a=2") [] s' /\
    s' = text "GET" ++ [10; 10; 10; 10; 10; 10; 10; 10; 10; 10; 10; 10] ++ 47 :: account ++ text "/c" ++ 10 :: text "a:1,2").
  { eexists. split; [|reflexivity]. exists (text "/c"), (text "a=1&a=2"), [], (10 :: text "a:1,2").
    split. { split; [vm_compute; intuition discriminate|left; reflexivity]. }
    split. { split; [constructor|]. intros n v. split; [intros []|]. intros [_ (h & [] & _)]. }
    split; [|reflexivity].
    exists [text "a=1"; text "a=2"], [(text "a", text "1"); (text "a", text "2")], [(text "a", text "1"); (text "a", text "2")], [(text "a", [text "1"; text "2"])].
    split. { right. split; [discriminate|reflexivity]. }
    split. { repeat constructor; vm_compute; intuition discriminate. }
    split. { repeat constructor; vm_compute; intuition discriminate. }
    split. { repeat constructor; discriminate. }
    split. { repeat constructor. }
    split. { constructor; [|constructor]. split; [discriminate|]. constructor; [repeat constructor|]. constructor; [|constructor].
      right. apply lex_head. reflexivity. }
    split; reflexivity. }
  destruct T as (s' & T & E). pose proof (az_text_unique_pf _ _ _ _ _ _ H T) as X. rewrite E in X. clear -X.
  apply app_inv_head, app_inv_head in X. injection X as X. apply app_inv_head in X. discriminate X.
Qed.

(** ** SAS *)
Lemma split_args q : query_args q (SplitQuery (Some q)).
Proof. destruct (proj2 split_query_pf q) as (ps & A & B & C & D). exists ps. auto. Qed.
Lemma query_args_unique q a b : query_args q a -> query_args q b -> a = b.
Proof.
  intros (p1 & A1 & A2 & A3 & A4) (p2 & B1 & B2 & B3 & B4).
  assert (p1 = p2) by (rewrite <- (split_join 38 p1), <- (split_join 38 p2); auto; congruence).
  subst p2. eapply forall2_unique; eauto using pair_of_unique.
Qed.
Lemma args_parse t p a : args_of t p a -> fst (ParseQuery t) = p /\ SplitQuery (snd (ParseQuery t)) = a /\ (snd (cut 63 t) = None -> a = [] /\ t = p) /\
  (forall q, snd (cut 63 t) = Some q -> t = p ++ 63 :: q /\ query_args q a).
Proof.
  intros [H1 [[-> ->]|(q & -> & HQ)]]; unfold ParseQuery.
  - rewrite cut_none by auto. simpl. split; auto. split; auto. split; auto. discriminate.
  - rewrite cut_at by auto. cbn [fst snd]. split; auto. split; [|split; [discriminate|]].
    + eapply query_args_unique; eauto using split_args.
    + intros q' [= <-]. auto.
Qed.
Lemma join_app c (a b : list (list N)) : a <> [] -> b <> [] -> join c (a ++ b) = join c a ++ c :: join c b.
Proof.
  intros Ha Hb. induction a as [|x a IH]; [congruence|]. destruct a as [|y a].
  - destruct b; [congruence|]. reflexivity.
  - specialize (IH ltac:(discriminate)). change (join c ((x :: y :: a) ++ b)) with (x ++ c :: join c ((y :: a) ++ b)). rewrite IH.
    change (join c (x :: y :: a)) with (x ++ c :: join c (y :: a)). now rewrite <- app_assoc.
Qed.
Lemma query_args_app q r a b : query_args q a -> query_args r b -> query_args (q ++ 38 :: r) (a ++ b).
Proof.
  intros (p1 & A1 & A2 & A3 & A4) (p2 & B1 & B2 & B3 & B4). exists (p1 ++ p2). split; [destruct p1; [congruence|discriminate]|].
  split; [rewrite join_app by auto; congruence|]. split; [now apply Forall_app|now apply Forall2_app].
Qed.
Lemma has_sig_spec t p a : args_of t p a -> TargetHasSasSignature t = true <-> has_sig a.
Proof.
  intros H. apply args_parse in H as (_ & E & _). unfold TargetHasSasSignature. rewrite E, existsb_exists. unfold has_sig. split.
  - intros ([n v] & I & J). simpl in J. apply andb_prop in J as [J K]. exists n, v. split; auto. split.
    + now apply same_name_spec in J.
    + intros ->. discriminate K.
  - intros (n & v & I & J & K). exists (n, v). split; auto. simpl. apply andb_true_intro. split.
    + apply same_name_spec. exact J.
    + destruct v; [congruence|]. reflexivity.
Qed.
Lemma add_sas t p a q b : args_of t p a -> query_args q b -> q <> [] ->
  (has_sig a -> AddSasToTarget t q = t) /\ (~ has_sig a -> args_of (AddSasToTarget t q) p (a ++ b)).
Proof.
  intros HA HQ NE. unfold AddSasToTarget. assert (str_eq q [] = false) as -> by now destruct q.
  pose proof (has_sig_spec _ _ _ HA) as HS. simpl orb. split; intros H.
  - apply HS in H. now rewrite H.
  - destruct (TargetHasSasSignature t); [exfalso; apply H; now apply HS|].
    pose proof (args_parse _ _ _ HA) as (_ & _ & P1 & P2). destruct HA as [H1 _].
    destruct (snd (cut 63 t)) as [r|].
    + destruct (P2 r eq_refl) as [-> Q]. split; auto. right. exists (r ++ 38 :: q). split; [now rewrite <- app_assoc|]. now apply query_args_app.
    + destruct (P1 eq_refl) as [-> ->]. split; auto. right. exists q. auto.
Qed.
Lemma az_sas_pf : forall hmac b64 unb64 st date r q b path args, z_auth st = Sas q -> q <> [] -> query_args q b ->
  args_of (rq_target r) path args ->
  exists t hs, Sign hmac b64 unb64 st date r = Signed (Build_request (rq_method r) t hs) /\
    (has_sig args -> t = rq_target r) /\ (~ has_sig args -> args_of t path (args ++ b)) /\
    authorization hs = authorization (rq_headers r).
Proof.
  intros hmac b64 unb64 st date r q b path args HA NE HQ HT. unfold Sign. rewrite HA. eexists. eexists. split; [reflexivity|].
  destruct (add_sas _ _ _ _ _ HT HQ NE) as [X Y]. split; auto. split; auto.
  unfold authorization. change (text "authorization") with (lower_case (str "Authorization")). rewrite !field_find.
  rewrite !find_set_other by discriminate. reflexivity.
Qed.
Lemma has_sig_dec a : has_sig a \/ ~ has_sig a.
Proof.
  induction a as [|[n v] a IH]; [right; intros (n & v & [] & _)|].
  destruct IH as [(m & w & I & J)|IH]; [left; exists m, w; simpl; auto|].
  destruct (list_eq_dec N.eq_dec (lower_case n) (text "sig")) as [E|E].
  - destruct v as [|c v].
    + right. intros (m & w & [I|I] & J & K); [congruence|]. apply IH. exists m, w. auto.
    + left. exists n, (c :: v). split; [now left|]. split; auto. discriminate.
  - right. intros (m & w & [I|I] & J & K); [congruence|]. apply IH. exists m, w. auto.
Qed.
Lemma args_total t : exists p a, args_of t p a.
Proof.
  pose proof (parse_query_pf t) as P. destruct (ParseQuery t) as [p [q|]].
  - destruct P as [A ->]. exists p, (SplitQuery (Some q)). split; auto. right. exists q. split; auto. apply split_args.
  - destruct P as [A ->]. exists p, []. split; auto.
Qed.
(** Signing again, as a retry does, adds the token no second time. *)
Lemma az_sas_again_pf : forall hmac b64 unb64 st d1 d2 r r1 r2 q b, z_auth st = Sas q -> query_args q b -> has_sig b ->
  Sign hmac b64 unb64 st d1 r = Signed r1 -> Sign hmac b64 unb64 st d2 r1 = Signed r2 -> rq_target r2 = rq_target r1.
Proof.
  intros hmac b64 unb64 st d1 d2 r r1 r2 q b HA HQ HS. unfold Sign. rewrite HA. intros [= <-] [= <-]. cbn [rq_target].
  assert (NE : q <> []).
  { intros ->. destruct HS as (n & v & I & J & K). pose proof (query_args_unique _ _ _ HQ (split_args [])) as E. rewrite E in I.
    simpl in I. destruct I as [I|[]]. injection I as <- <-. congruence. }
  destruct (args_total (rq_target r)) as (p & a & A). destruct (add_sas _ _ _ _ _ A HQ NE) as [X Y].
  destruct (has_sig_dec a) as [D|D].
  - rewrite (X D). auto.
  - specialize (Y D). destruct (add_sas _ _ _ _ _ Y HQ NE) as [Z _]. apply Z.
    destruct HS as (n & v & I & J & K). exists n, v. rewrite in_app_iff. auto.
Qed.

(** ** Connection strings *)
Lemma conn_part p k v : part_is p k v ->
  conn_parts [p] = match k with [] => [] | _ => [(to_lower k, v)] end.
Proof.
  intros (a & b & E & Na & Ta & Tb). apply CfgProof.trims_eq in Ta, Tb. cbn [conn_parts].
  destruct E as [->|[-> ->]].
  - destruct (CfgProof.strip_around a b Na) as (a' & b' & E & Na' & Ea & Eb & _). rewrite E.
    destruct (a' ++ 61 :: b') as [|c t] eqn:X; [destruct a'; discriminate|]. rewrite <- X. rewrite cut_at by auto.
    cbn [or_empty]. rewrite Ea, Eb, Ta, Tb. now destruct k.
  - assert (strip [] = []) by reflexivity. rewrite H in Tb. subst v.
    assert (S1 : strip (strip a) = strip a).
    { apply CfgProof.trims_eq. destruct (CfgProof.trims_strip a) as (x & y & _ & _ & _ & P & Q). exists [], []. rewrite app_nil_r. auto. }
    destruct (strip a) as [|c t] eqn:X; [now rewrite <- Ta|]. rewrite <- X in *.
    assert (NI : ~ In 61 (strip a)).
    { destruct (CfgProof.trims_strip a) as (x & y & E & _). intros I. apply Na. rewrite E. apply in_or_app. right. apply in_or_app. now left. }
    rewrite cut_none by auto. cbn [or_empty]. rewrite S1, Ta. now destruct k.
Qed.
Lemma part_total p : exists k v, part_is p k v.
Proof.
  pose proof (cut_spec 61 p) as H. destruct (cut 61 p) as [a [b|]]; destruct H as [Na ->].
  - exists (strip a), (strip b). exists a, b. split; auto. split; auto. split; apply CfgProof.trims_strip.
  - exists (strip a), []. exists a, []. split; auto. split; auto. split; [apply CfgProof.trims_strip|apply (CfgProof.trims_strip [])].
Qed.
Lemma part_unique p k1 v1 k2 v2 : part_is p k1 v1 -> part_is p k2 v2 -> k1 = k2 /\ v1 = v2.
Proof.
  intros (a & b & E & Na & Ta & Tb) (a' & b' & E' & Na' & Ta' & Tb'). apply CfgProof.trims_eq in Ta, Tb, Ta', Tb'.
  assert (X : a = a' /\ b = b').
  { destruct E as [->|[-> ->]], E' as [E'|[E' ->]].
    - apply (f_equal (cut 61)) in E'. rewrite !cut_at in E' by auto. split; congruence.
    - subst a'. exfalso. apply Na'. apply in_or_app. right. now left.
    - subst a. exfalso. apply Na. apply in_or_app. right. now left.
    - auto. }
  destruct X as [-> ->]. split; congruence.
Qed.
Lemma conn_cons p ps : conn_parts (p :: ps) = conn_parts [p] ++ conn_parts ps.
Proof.
  cbn [conn_parts]. destruct (strip p); auto. destruct (cut 61 _) as [k v]. destruct (strip k); auto.
Qed.
Lemma get_first ps k : k <> [] ->
  (exists a p b n, ps = a ++ p :: b /\ part_is p n (map_get (conn_parts ps) (to_lower k)) /\ lower_case n = lower_case k /\
      forall q m w, In q a -> part_is q m w -> lower_case m <> lower_case k) \/
  (map_get (conn_parts ps) (to_lower k) = [] /\ forall q m w, In q ps -> part_is q m w -> lower_case m <> lower_case k).
Proof.
  intros NK. induction ps as [|p ps IH]; [right; split; auto; intros q m w []|].
  destruct (part_total p) as (n & v & P). rewrite conn_cons, (conn_part _ _ _ P).
  destruct (list_eq_dec N.eq_dec (lower_case n) (lower_case k)) as [E|E].
  - left. exists [], p, ps, n. split; auto. split.
    + destruct n as [|c n]; [destruct k; [congruence|discriminate]|]. cbn [app map_get].
      assert (str_eq (to_lower (c :: n)) (to_lower k) = true) as -> by (apply str_eq_spec; exact E). exact P.
    + split; [exact E|]. intros q m w [].
  - assert (G : map_get (match n with [] => [] | _ => [(to_lower n, v)] end ++ conn_parts ps) (to_lower k) = map_get (conn_parts ps) (to_lower k)).
    { destruct n as [|c n]; auto. cbn [app map_get]. destruct (str_eq (to_lower (c :: n)) (to_lower k)) eqn:X; auto. apply str_eq_spec in X. now elim E. }
    rewrite G. destruct IH as [(a & p' & b & n' & -> & P' & L & F)|[Z F]].
    + left. exists (p :: a), p', b, n'. split; auto. split; auto. split; auto.
      intros q m w [<-|I] Q; [|eauto]. destruct (part_unique _ _ _ _ _ P Q) as [-> ->]. auto.
    + right. split; auto. intros q m w [<-|I] Q; [|eauto]. destruct (part_unique _ _ _ _ _ P Q) as [-> ->]. auto.
Qed.
Lemma az_setting_pf : forall s k, k <> [] -> setting s k (MapGet (ParseConnectionStringKV s) k).
Proof.
  intros s k NK. exists (StrSplit 59 s). destruct (split_spec 59 s) as (A & B & C). split; auto. split; auto. split; auto. now apply get_first.
Qed.
Lemma split_two {A} (R : A -> Prop) (a1 b1 a2 b2 : list A) p1 p2 : a1 ++ p1 :: b1 = a2 ++ p2 :: b2 -> R p1 -> R p2 ->
  (forall q, In q a1 -> ~ R q) -> (forall q, In q a2 -> ~ R q) -> p1 = p2.
Proof.
  revert a2. induction a1 as [|x a1 IH]; intros [|y a2] E R1 R2 F1 F2; simpl in E.
  - congruence.
  - injection E as <- _. exfalso. apply (F2 p1); simpl; auto.
  - injection E as -> _. exfalso. apply (F1 p2); simpl; auto.
  - injection E as <- E. apply (IH a2); auto; intros q I; [apply F1|apply F2]; now right.
Qed.
Lemma az_setting_unique_pf : forall s k v1 v2, setting s k v1 -> setting s k v2 -> v1 = v2.
Proof.
  intros s k v1 v2 (p1 & A1 & A2 & A3 & A4) (p2 & B1 & B2 & B3 & B4).
  assert (p1 = p2) by (rewrite <- (split_join 59 p1), <- (split_join 59 p2); auto; congruence). subst p2.
  set (R := fun p => exists n w, part_is p n w /\ lower_case n = lower_case k).
  destruct A4 as [(a & p & b & n & E & P & L & F)|[-> F]], B4 as [(a' & p' & b' & n' & E' & P' & L' & F')|[-> F']]; auto.
  - assert (p = p').
    { apply (split_two R a b a' b'); try congruence; unfold R; eauto; intros q I (m & w & Q & M); [eapply F|eapply F']; eauto. }
    subst p'. eapply part_unique; eauto.
  - exfalso. eapply F'; [|exact P|exact L]. rewrite E. apply in_or_app. right. now left.
  - exfalso. eapply F; [|exact P'|exact L']. rewrite E'. apply in_or_app. right. now left.
Qed.

(** ** Endpoints *)
Lemma strip_slash path : path <> [47] -> path <> [] -> prefix_is path (match rev path with 47 :: (_ :: _) as t => rev t | _ => path end).
Proof.
  intros N1 N2. right. split; auto. destruct (rev path) as [|c [|d t]] eqn:E.
  - apply (f_equal (@rev N)) in E. rewrite rev_involutive in E. simpl in E. congruence.
  - apply (f_equal (@rev N)) in E. rewrite rev_involutive in E. simpl in E. subst path.
    destruct (N.eq_dec c 47) as [->|D]; [congruence|].
    replace (match [c] with 47 :: (_ :: _) as t => rev t | _ => [c] end) with [c] by (destruct c as [|p]; auto; repeat (destruct p; auto)).
    right. split; auto. intros t T. destruct t as [|x t]; simpl in T; [congruence|]. injection T as _ T. destruct t; discriminate.
  - destruct (N.eq_dec c 47) as [->|D].
    + left. apply (f_equal (@rev N)) in E. rewrite rev_involutive in E. exact E.
    + replace (match c :: d :: t with 47 :: (_ :: _) as t => rev t | _ => path end) with path
        by (destruct c as [|p]; auto; repeat (destruct p; auto); congruence).
      right. split; auto. intros t' T. rewrite T, rev_app_distr in E. simpl in E. congruence.
Qed.
Lemma az_endpoint_pf : forall given s e u old, trims given s -> CfgSpec.url_text s e u -> (e = true \/ ~ In 58 (CfgSpec.u_host u)) ->
  CfgSpec.u_host u <> [] -> i_prefix old = [] ->
  exists p, prefix_is (CfgSpec.u_path u) p /\
    ParseEndpointHost given old = Some (Info
      (if list_eq_dec N.eq_dec (CfgSpec.u_port u) (CfgSpec.default_port (CfgSpec.u_tls u)) then CfgSpec.u_host u
       else CfgSpec.u_host u ++ 58 :: CfgSpec.u_port u) (i_account old) p (CfgSpec.u_tls u)).
Proof.
  intros given s e u old T U X HN OP. apply CfgProof.trims_eq in T. unfold ParseEndpointHost. rewrite T.
  pose proof (CfgProof.url_parsed_pf _ _ _ U X) as P.
  assert (SN : s <> []). { intros ->. rewrite <- P in HN. now apply HN. }
  destruct s as [|c s]; [congruence|]. rewrite P. destruct (CfgSpec.u_host u) as [|x h] eqn:EH; [congruence|].
  assert (PN : CfgSpec.u_path u <> []). { destruct U as [? ? ? ? ? ? ? ? ? ? [|] ?]; discriminate. }
  assert (ED : forall A (a b : A), (if str_eq (CfgSpec.u_port u) (if CfgSpec.u_tls u then str "443" else str "80") then a else b) =
    (if list_eq_dec N.eq_dec (CfgSpec.u_port u) (CfgSpec.default_port (CfgSpec.u_tls u)) then a else b)).
  { intros A a b. destruct (str_eq _ _) eqn:E; destruct (list_eq_dec _ _ _) as [F|F]; auto.
    - apply str_eq_spec in E. elim F. rewrite E. now destruct (CfgSpec.u_tls u).
    - rewrite F in E. destruct (CfgSpec.u_tls u); discriminate E. }
  cbv zeta. rewrite ED. destruct (str_eq (CfgSpec.u_path u) [47]) eqn:E.
  - apply str_eq_spec in E. exists []. rewrite OP. split; auto. left. auto.
  - eexists. split; [|reflexivity]. apply strip_slash; auto. intros F. rewrite F in E. discriminate.
Qed.
Lemma before_blob_spec h : match before_blob h with
  | Some a => exists t, h = a ++ text ".blob." ++ t /\ forall b s, h = b ++ text ".blob." ++ s -> (length a <= length b)%nat
  | None => forall b s, h <> b ++ text ".blob." ++ s
  end.
Proof.
  induction h as [|c h IH].
  - simpl. intros [|x b] s; discriminate.
  - cbn [before_blob]. destruct (starts_with (c :: h) (str ".blob.")) eqn:E.
    + apply starts_with_spec in E as [t E]. exists t. split; auto. intros. simpl. lia.
    + assert (NS : forall s, c :: h <> text ".blob." ++ s).
      { intros s X. assert (starts_with (c :: h) (str ".blob.") = true); [|congruence]. apply starts_with_spec. exists s. exact X. }
      destruct (before_blob h) as [a|]; simpl option_map.
      * destruct IH as (t & -> & M). exists t. split; auto. intros [|x b] s X; [exfalso; eapply NS; exact X|].
        injection X as _ X. simpl. apply M in X. lia.
      * intros [|x b] s X; [eapply NS; exact X|]. injection X as _ X. eapply IH; exact X.
Qed.

(** ** Loading *)
Lemma env_is w n v : env_value w n v <-> env w n = v.
Proof.
  unfold env_value, env. change (str n) with (text n). destruct (w_env w (text n)) as [x|]; split; intros H; auto.
  - destruct H as [H|[H _]]; congruence.
  - left. congruence.
  - destruct H as [H|[_ H]]; congruence.
Qed.
Lemma sas_ok g : sas_is g (NormalizeSasQuery g).
Proof.
  unfold NormalizeSasQuery. exists (strip g). split; [apply CfgProof.trims_strip|].
  destruct (strip g) as [|c t]; [right; split; [auto|discriminate]|].
  destruct (N.eq_dec c 63) as [->|D]; [now left|]. right.
  assert (E : match c :: t with 63 :: u => u | u => u end = c :: t).
  { destruct c as [|p]; auto. repeat (destruct p as [p|p|]; auto). congruence. }
  rewrite E. split; auto. intros u [= X _]. congruence.
Qed.
Lemma resolve_account w i o : ResolveEndpoint w i = Some o -> i_account i <> [] -> i_account o = i_account i.
Proof.
  assert (PE : forall e o', ParseEndpointHost e i = Some o' -> i_account o' = i_account i).
  { intros e o'. unfold ParseEndpointHost. destruct (strip e); [discriminate|]. cbv zeta. destruct (CfgSpec.u_host _); [discriminate|].
    intros [= <-]. reflexivity. }
  unfold ResolveEndpoint. intros H NE.
  set (got := match env w "AZURE_STORAGE_BLOB_ENDPOINT" with [] => _ | _ => _ end) in H.
  assert (G : forall o', got = Some o' -> i_account o' = i_account i).
  { unfold got. destruct (env w "AZURE_STORAGE_BLOB_ENDPOINT"); [|apply PE].
    destruct (env w "AZURE_STORAGE_ACCOUNT_URL"); [|apply PE]. destruct (i_account i) eqn:X; [congruence|].
    intros o' [= <-]. auto. }
  destruct got as [o'|]; [|discriminate]. specialize (G o' eq_refl). destruct (i_account o') eqn:X; [congruence|].
  injection H as <-. congruence.
Qed.
Lemma resolve_default w i o : env w "AZURE_STORAGE_BLOB_ENDPOINT" = [] -> env w "AZURE_STORAGE_ACCOUNT_URL" = [] ->
  ResolveEndpoint w i = Some o -> o = Info (default_endpoint (i_account i)) (i_account i) (i_prefix i) (i_tls i) /\ i_account i <> [].
Proof.
  intros E1 E2. unfold ResolveEndpoint. rewrite E1, E2. destruct (i_account i) eqn:X; [discriminate|]. cbn [i_account].
  intros [= <-]. split; auto. discriminate.
Qed.
Lemma account_env w req : req <> [] -> env_account w req = AccountInfoFromUri req.
Proof. destruct req; [congruence|reflexivity]. Qed.

Lemma parse_endpoint_is g old i : ParseEndpointHost g old = Some i -> i_prefix old = [] -> endpoint_is g i.
Proof.
  intros H OP s e u T U X.
  assert (HN : CfgSpec.u_host u <> []).
  { intros E. unfold ParseEndpointHost in H. rewrite (CfgProof.trims_eq _ _ T) in H. destruct s as [|c s]; [discriminate|].
    rewrite (CfgProof.url_parsed_pf _ _ _ U X), E in H. discriminate. }
  destruct (az_endpoint_pf _ _ _ _ old T U X HN OP) as (p & P & E). rewrite E in H. injection H as <-. auto.
Qed.
Lemma parse_account g old i : ParseEndpointHost g old = Some i -> i_account i = i_account old.
Proof.
  unfold ParseEndpointHost. destruct (strip g); [discriminate|]. cbv zeta. destruct (CfgSpec.u_host _); [discriminate|]. intros [= <-]. reflexivity.
Qed.
Lemma endpoint_ext g i j : endpoint_is g i -> i_endpoint j = i_endpoint i -> i_prefix j = i_prefix i -> i_tls j = i_tls i -> endpoint_is g j.
Proof. intros H A B C s e u T U X. rewrite A, B, C. now apply (H s e u). Qed.
Lemma string_loads w req st : TryConnectionString w req = Loads st -> from_string w req st /\ z_source st = FromString.
Proof.
  unfold TryConnectionString. destruct (env w "AZURE_STORAGE_CONNECTION_STRING") as [|c0 raw0] eqn:ER; [discriminate|].
  set (raw := c0 :: raw0) in *. pose proof (az_setting_pf raw) as GET.
  destruct (ParseConnectionStringKV raw) as [|m0 ms] eqn:EM; [discriminate|]. set (m := m0 :: ms) in *.
  destruct (same_name _ (str "true")); [discriminate|]. cbv zeta.
  pose proof (GET (text "AccountName") ltac:(discriminate)) as GA. pose proof (GET (text "AccountKey") ltac:(discriminate)) as GK.
  pose proof (GET (text "SharedAccessSignature") ltac:(discriminate)) as GS. pose proof (GET (text "BlobEndpoint") ltac:(discriminate)) as GB.
  pose proof (GET (text "EndpointSuffix") ltac:(discriminate)) as GX.
  change (str "AccountName") with (text "AccountName"). change (str "AccountKey") with (text "AccountKey").
  change (str "SharedAccessSignature") with (text "SharedAccessSignature"). change (str "BlobEndpoint") with (text "BlobEndpoint").
  change (str "EndpointSuffix") with (text "EndpointSuffix").
  set (a := MapGet m (text "AccountName")) in *. set (k := MapGet m (text "AccountKey")) in *. set (s := MapGet m (text "SharedAccessSignature")) in *.
  set (b := MapGet m (text "BlobEndpoint")) in *. set (x := MapGet m (text "EndpointSuffix")) in *.
  clearbody a k s b x. clear GET.
  set (got := match b with [] => _ | _ => _ end).
  assert (GOT : forall i, got = Some i -> i_account i = a /\ (b <> [] -> endpoint_is b i) /\
    (b = [] -> i = Info (public_endpoint a (if list_eq_dec N.eq_dec x [] then text "core.windows.net" else x)) a [] true /\ a <> [])).
  { unfold got. destruct b as [|b0 b1].
    - destruct a; [discriminate|]. intros i [= <-]. split; [reflexivity|]. split; [congruence|]. intros _. split; [|discriminate].
      unfold public_endpoint. destruct x; destruct (list_eq_dec _ _ _); try congruence; reflexivity.
    - intros i H. split; [now apply parse_account in H|]. split; [|discriminate]. intros _. now apply (parse_endpoint_is _ _ _ H). }
  destruct got as [i|]; [|discriminate]. specialize (GOT i eq_refl). destruct GOT as (GOT & GB1 & GB2).
  set (i' := match i_account i with [] => _ | _ => i end).
  assert (AI : a <> [] -> i' = i). { intros NA. unfold i'. rewrite GOT. destruct a; [congruence|]. reflexivity. }
  assert (BI : b <> [] -> endpoint_is b i'). { intros NB. apply (endpoint_ext _ i); auto; unfold i'; destruct (i_account i); reflexivity. }
  destruct (i_account i') as [|y ys] eqn:EI; [discriminate|]. rewrite <- EI in *.
  assert (NI : i_account i' <> []) by (rewrite EI; discriminate).
  destruct (HasMatchingAccount req (i_account i')) eqn:HM; [|discriminate]. simpl negb. cbv iota.
  assert (HR : a <> [] -> req <> [] -> lower_case a = lower_case req).
  { intros NA NR. rewrite (AI NA), GOT in HM. unfold HasMatchingAccount in HM. destruct req; [congruence|]. destruct a; [congruence|]. simpl in HM. now apply same_name_spec. }
  intros H. set (j := match req with [] => i' | _ => AccountInfoFromUri req end) in *.
  assert (CASE : (st = State FromString j (SharedKey k) /\ k <> []) \/
     (st = State FromString j (Sas (NormalizeSasQuery s)) /\ k = [] /\ NormalizeSasQuery s <> [])).
  { clear -H. destruct k as [|k0 k1]; [|left; split; [congruence|discriminate]].
    destruct (NormalizeSasQuery s) as [|s0 s1]; [discriminate|]. right. split; [congruence|]. split; [auto|discriminate]. }
  assert (SRC : z_source st = FromString) by (destruct CASE as [[-> _]|[-> _]]; reflexivity).
  assert (INF : z_info st = j) by (destruct CASE as [[-> _]|[-> _]]; reflexivity).
  split; auto. exists raw, a, k, s, b, x. split; [now apply env_is|]. split; [discriminate|].
  do 5 (split; [assumption|]). rewrite INF.
  split. { intros NK. destruct CASE as [[-> _]|[_ [K _]]]; [reflexivity|congruence]. }
  split. { intros K. destruct CASE as [[_ NK]|[-> [_ NS]]]; [congruence|]. exists (NormalizeSasQuery s). split; [apply sas_ok|]. auto. }
  split.
  - intros R. unfold j. rewrite R. split; [intros NA; rewrite (AI NA); auto|]. split; auto. split; auto.
    intros B0. destruct (GB2 B0) as [-> NA]. rewrite (AI NA). reflexivity.
  - intros NR. split; auto. unfold j. destruct req; [congruence|reflexivity].
Qed.
Lemma located_ok w req i : ResolveEndpoint w (env_account w req) = Some i -> located w req i.
Proof.
  intros H. exists (env w "AZURE_STORAGE_ACCOUNT"), (env w "AZURE_STORAGE_BLOB_ENDPOINT"), (env w "AZURE_STORAGE_ACCOUNT_URL").
  do 3 (split; [now apply env_is|]).
  assert (P0 : i_prefix (env_account w req) = []) by now destruct req.
  assert (T0 : i_tls (env_account w req) = true) by now destruct req.
  split. { intros NR. rewrite (resolve_account _ _ _ H); rewrite account_env by auto; auto. }
  split. { intros -> NA. now rewrite (resolve_account _ _ _ H). }
  assert (EP : forall e, match ParseEndpointHost e (env_account w req) with
      | Some o => Some match i_account o with [] => Info (i_endpoint o) (InferAccountNameFromHost (i_endpoint o)) (i_prefix o) (i_tls o) | _ => o end
      | None => None end = Some i -> endpoint_is e i).
  { intros e X. destruct (ParseEndpointHost e (env_account w req)) as [o|] eqn:E; [|discriminate]. injection X as <-.
    apply (endpoint_ext _ o); [now apply (parse_endpoint_is _ _ _ E)|..]; now destruct (i_account o). }
  split. { intros NE. apply EP. unfold ResolveEndpoint in H. now destruct (env w "AZURE_STORAGE_BLOB_ENDPOINT"). }
  split. { intros E NE. apply EP. unfold ResolveEndpoint in H. rewrite E in H. now destruct (env w "AZURE_STORAGE_ACCOUNT_URL"). }
  intros E1 E2. destruct (resolve_default _ _ _ E1 E2 H) as [-> NA]. rewrite P0, T0. split; auto.
Qed.
Lemma env_loads w req st : TryEnvSharedKey w req = Loads st -> from_env w req st /\ z_source st = FromEnv.
Proof.
  unfold TryEnvSharedKey, from_env. intros H.
  set (key := env w "AZURE_STORAGE_KEY") in *. set (sas := env w "AZURE_STORAGE_SAS_TOKEN") in *.
  destruct key as [|k0 k1] eqn:EK.
  - destruct (NormalizeSasQuery sas) as [|s0 s1] eqn:ES; [discriminate|].
    destruct (ResolveEndpoint w (env_account w req)) as [i|] eqn:ER; [|discriminate]. injection H as <-. cbn [z_info z_auth z_source].
    split; auto. split; [now apply located_ok|]. exists [], sas. split; [now apply env_is|]. split; [now apply env_is|].
    split; [congruence|]. intros _. exists (s0 :: s1). split; [rewrite <- ES; apply sas_ok|]. split; [discriminate|reflexivity].
  - destruct (ResolveEndpoint w (env_account w req)) as [i|] eqn:ER; [|discriminate]. destruct (i_account i) eqn:EA; [discriminate|].
    injection H as <-. cbn [z_info z_auth z_source].
    split; auto. split; [now apply located_ok|]. exists (k0 :: k1), sas. split; [now apply env_is|]. split; [now apply env_is|].
    split; [|discriminate]. intros _. rewrite EA. split; [reflexivity|discriminate].
Qed.
Lemma text_chars p out c : url_text p out -> In c out -> literal p c \/ c = 37 \/ upper_hex c.
Proof.
  induction 1 as [|x s L T IH|a b s A B T IH]; intros I; [destruct I|destruct I as [<-|I]; auto|].
  destruct I as [<-|[<-|[<-|I]]]; auto.
Qed.
Lemma encoded_clean out c : url_text [45; 95; 46; 33; 126; 42; 40; 41] out -> In c out -> c <> 38 /\ c <> 61 /\ c <> 63 /\ c <> 47.
Proof.
  intros T I. destruct (text_chars _ _ _ T I) as [L|[->|H]].
  - unfold literal in L. simpl in L. destruct L as [L|[L|[L|L]]]; repeat split; intros ->; try lia; intuition discriminate.
  - repeat split; discriminate.
  - unfold upper_hex in H. repeat split; intros ->; lia.
Qed.
Lemma imds_ok w t : bytes (env w "AZURE_CLIENT_ID") -> imds_target w = Some t -> asks_identity (env w "AZURE_CLIENT_ID") t.
Proof.
  intros B. unfold imds_target.
  assert (BS : bytes (text "https://storage.azure.com/")) by (vm_compute; repeat constructor).
  destruct (url_encode_spec_pf (str "https://storage.azure.com/") (str "/metadata/identity/oauth2/token" ++ str "?api-version=" ++ str "2018-02-01" ++ str "&resource=") BS)
    as (o1 & -> & T1 & _ & D1).
  assert (N1 : ~ In 38 o1 /\ ~ In 61 o1). { split; intros I; apply (encoded_clean _ _ T1) in I; tauto. }
  assert (P63 : ~ In 63 identity_path) by (vm_compute; intuition discriminate).
  assert (A1 : ~ In 38 (text "api-version=2018-02-01")) by (vm_compute; intuition discriminate).
  assert (A2 : ~ In 38 (text "resource=" ++ o1)).
  { intros I. apply in_app_or in I as [I|I]; [revert I; vm_compute; intuition discriminate|tauto]. }
  assert (Q1 : pair_of (text "api-version=2018-02-01") (text "api-version", text "2018-02-01")).
  { split; [vm_compute; intuition discriminate|left; reflexivity]. }
  assert (Q2 : pair_of (text "resource=" ++ o1) (text "resource", o1)).
  { split; [vm_compute; intuition discriminate|left; reflexivity]. }
  assert (DV : decodes (text "2018-02-01") (text "2018-02-01")) by (apply decodes_self; vm_compute; intuition discriminate).
  destruct (env w "AZURE_CLIENT_ID") as [|c0 c1] eqn:EC.
  - intros [= <-]. exists [(text "api-version", text "2018-02-01"); (text "resource", o1)]. split.
    + split; auto. right. exists (text "api-version=2018-02-01" ++ 38 :: text "resource=" ++ o1). split; [reflexivity|].
      exists [text "api-version=2018-02-01"; text "resource=" ++ o1]. split; [discriminate|]. split; [reflexivity|].
      split; [repeat (apply Forall_cons; auto)|repeat (apply Forall2_cons; auto)].
    + unfold decode_args, identity_args. destruct (list_eq_dec _ _ _) as [X|X]; [try discriminate X|try congruence]. cbn [app]. repeat (apply Forall2_cons; [split; [reflexivity|assumption]|]). constructor.
  - set (c := c0 :: c1) in *.
    destruct (url_encode_spec_pf c (((str "/metadata/identity/oauth2/token" ++ str "?api-version=" ++ str "2018-02-01" ++ str "&resource=") ++ o1) ++ str "&client_id=") B)
      as (o2 & -> & T2 & _ & D2).
    assert (A3 : ~ In 38 (text "client_id=" ++ o2)).
    { intros I. apply in_app_or in I as [I|I]; [revert I; vm_compute; intuition discriminate|apply (encoded_clean _ _ T2) in I; tauto]. }
    assert (Q3 : pair_of (text "client_id=" ++ o2) (text "client_id", o2)).
    { split; [vm_compute; intuition discriminate|left; reflexivity]. }
    intros [= <-]. exists [(text "api-version", text "2018-02-01"); (text "resource", o1); (text "client_id", o2)]. split.
    + split; auto. right. exists (text "api-version=2018-02-01" ++ 38 :: (text "resource=" ++ o1) ++ 38 :: text "client_id=" ++ o2). split.
      { rewrite <- !app_assoc. reflexivity. }
      exists [text "api-version=2018-02-01"; text "resource=" ++ o1; text "client_id=" ++ o2]. split; [discriminate|]. split; [reflexivity|].
      split; [repeat (apply Forall_cons; auto)|repeat (apply Forall2_cons; auto)].
    + unfold decode_args, identity_args. destruct (list_eq_dec _ _ _) as [X|X]; [try discriminate X|try congruence]. cbn [app]. repeat (apply Forall2_cons; [split; [reflexivity|assumption]|]). constructor.
Qed.
Lemma imds_some w : imds_target w <> None.
Proof.
  assert (E : forall s d, AppendUrlEncoded s d <> None).
  { intros s d. unfold AppendUrlEncoded. cbv zeta. pose proof (encode_len IsValidUrlChar s) as L.
    destruct (N.leb_spec (len (encode_with IsValidUrlChar s) + 1) (3 * len s + 1)); [discriminate|lia]. }
  unfold imds_target. destruct (AppendUrlEncoded _ _) as [p|] eqn:X; [|now apply E in X].
  destruct (env w "AZURE_CLIENT_ID"); [discriminate|]. apply E.
Qed.
Lemma identity_loads w req st : TryManagedIdentity w req = Loads st -> from_identity w req st /\ z_source st = FromIdentity.
Proof.
  unfold TryManagedIdentity. destruct (ResolveEndpoint w (env_account w req)) as [i|] eqn:ER; [|discriminate].
  destruct (imds_target w) as [t|] eqn:ET; [|discriminate]. unfold imds_loads.
  destruct (w_identity w t) as [| |[| | |[tk|] [[ttl|]|]]] eqn:EW; try discriminate. intros [= <-]. split; auto.
  split; [now apply located_ok|]. exists (env w "AZURE_CLIENT_ID"), t, tk, ttl. split; [now apply env_is|].
  split; [intros B; now apply imds_ok|]. auto.
Qed.

Lemma az_loaded_pf : forall w req st, Init w req = Some (true, st) ->
  match z_source st with
  | NoSource => False
  | FromString => from_string w req st
  | FromEnv => from_env w req st
  | FromIdentity => from_identity w req st
  end.
Proof.
  intros w req st. unfold Init.
  destruct (TryConnectionString w req) as [s1| |] eqn:E1; [intros [= <-]|..|discriminate].
  { apply string_loads in E1 as [A ->]. exact A. }
  destruct (TryEnvSharedKey w req) as [s2| |] eqn:E2; [intros [= <-]|..|discriminate].
  { apply env_loads in E2 as [A ->]. exact A. }
  destruct (TryManagedIdentity w req) as [s3| |] eqn:E3; [intros [= <-]|discriminate|discriminate].
  apply identity_loads in E3 as [A ->]. exact A.
Qed.
Lemma az_requested_pf : forall w req st, Init w req = Some (true, st) -> req <> [] ->
  i_account (z_info st) = req /\
  (z_source st = FromString \/ env_value w "AZURE_STORAGE_BLOB_ENDPOINT" [] /\ env_value w "AZURE_STORAGE_ACCOUNT_URL" [] ->
     z_info st = public req /\ ServiceEndpoint st = public_endpoint req (text "core.windows.net")).
Proof.
  intros w req st H NR. pose proof (az_loaded_pf _ _ _ H) as L.
  assert (SE : z_info st = public req -> ServiceEndpoint st = public_endpoint req (text "core.windows.net")).
  { intros E. unfold ServiceEndpoint. rewrite E. destruct req; [congruence|reflexivity]. }
  assert (LO : located w req (z_info st) -> i_account (z_info st) = req /\
    (env_value w "AZURE_STORAGE_BLOB_ENDPOINT" [] /\ env_value w "AZURE_STORAGE_ACCOUNT_URL" [] -> z_info st = public req)).
  { intros (a & e & u & _ & E & U & A & _ & _ & _ & D). specialize (A NR). split; auto. intros [E' U'].
    apply env_is in E, U, E', U'. rewrite <- A. apply D; congruence. }
  destruct (z_source st).
  - destruct L.
  - destruct L as (raw & a & k & s & b & x & _ & _ & _ & _ & _ & _ & _ & _ & _ & _ & L). destruct (L NR) as [L1 _]. split; [now rewrite L1|]. auto.
  - destruct L as [L _]. apply LO in L as [L1 L2]. split; auto. intros [?|X]; [discriminate|]. auto.
  - destruct L as [L _]. apply LO in L as [L1 L2]. split; auto. intros [?|X]; [discriminate|]. auto.
Qed.
(** The sources in their order. *)
Lemma az_string_first_pf : forall w req raw a k d x, env_value w "AZURE_STORAGE_CONNECTION_STRING" raw ->
  setting raw (text "AccountName") a -> a <> [] -> setting raw (text "AccountKey") k -> k <> [] ->
  setting raw (text "UseDevelopmentStorage") d -> lower_case d <> text "true" ->
  setting raw (text "BlobEndpoint") [] -> setting raw (text "EndpointSuffix") x -> (req = [] \/ lower_case a = lower_case req) ->
  Init w req = Some (true, State FromString (if list_eq_dec N.eq_dec req [] then
       Info (public_endpoint a (if list_eq_dec N.eq_dec x [] then text "core.windows.net" else x)) a [] true else public req) (SharedKey k)).
Proof.
  intros w req raw a k d x ER SA NA SK NK SD ND SB SX MA. apply env_is in ER. unfold Init, TryConnectionString. rewrite ER.
  pose proof (fun n v NE H => az_setting_unique_pf raw n v _ H (az_setting_pf raw n NE)) as GET.
  destruct raw as [|r0 r1].
  { exfalso. apply NA. rewrite (GET (text "AccountName") a ltac:(discriminate) SA). reflexivity. }
  set (raw := r0 :: r1) in *.
  pose proof (GET (text "AccountName") _ ltac:(discriminate) SA) as GA. pose proof (GET (text "AccountKey") _ ltac:(discriminate) SK) as GK.
  pose proof (GET (text "UseDevelopmentStorage") _ ltac:(discriminate) SD) as GD. pose proof (GET (text "BlobEndpoint") _ ltac:(discriminate) SB) as GB.
  pose proof (GET (text "EndpointSuffix") _ ltac:(discriminate) SX) as GX. clear GET.
  set (m := ParseConnectionStringKV raw) in *. destruct m as [|m0 ms] eqn:EM; [exfalso; apply NA; rewrite GA; reflexivity|].
  rewrite <- EM in *. cbv zeta.
  change (str "AccountName") with (text "AccountName"). change (str "AccountKey") with (text "AccountKey").
  change (str "BlobEndpoint") with (text "BlobEndpoint"). change (str "EndpointSuffix") with (text "EndpointSuffix").
  change (str "UseDevelopmentStorage") with (text "UseDevelopmentStorage").
  rewrite <- GA, <- GK, <- GD, <- GB, <- GX.
  destruct (same_name d (str "true")) eqn:SN. { exfalso. apply ND. now apply same_name_spec in SN. }
  destruct a as [|a0 a1]; [congruence|]. cbn [i_account]. set (a := a0 :: a1) in *.
  assert (HM : HasMatchingAccount req a = true).
  { unfold HasMatchingAccount. destruct MA as [->|MA]; auto. apply same_name_spec in MA. rewrite MA. now rewrite orb_true_r. }
  rewrite HM. cbn [negb]. destruct k as [|k0 k1]; [congruence|]. do 4 f_equal.
  destruct req as [|q0 q1]; destruct (list_eq_dec N.eq_dec _ []); try congruence; auto.
  unfold public_endpoint. destruct x; destruct (list_eq_dec N.eq_dec _ []); try congruence; auto.
Qed.
Lemma az_env_next_pf : forall w req a k, env_value w "AZURE_STORAGE_CONNECTION_STRING" [] -> env_value w "AZURE_STORAGE_KEY" k -> k <> [] ->
  env_value w "AZURE_STORAGE_BLOB_ENDPOINT" [] -> env_value w "AZURE_STORAGE_ACCOUNT_URL" [] ->
  (req <> [] /\ a = req \/ req = [] /\ env_value w "AZURE_STORAGE_ACCOUNT" a /\ a <> []) ->
  Init w req = Some (true, State FromEnv (public a) (SharedKey k)).
Proof.
  intros w req a k E1 E2 NK E3 E4 HA. apply env_is in E1, E2, E3, E4. unfold Init, TryConnectionString. rewrite E1.
  unfold TryEnvSharedKey. rewrite E2. destruct k as [|k0 k1]; [congruence|]. unfold ResolveEndpoint. rewrite E3, E4.
  destruct HA as [[NR ->]|[-> [EA NA]]].
  - rewrite account_env by auto. unfold AccountInfoFromUri. cbn [i_account]. destruct req; [congruence|]. reflexivity.
  - apply env_is in EA. unfold env_account. rewrite EA. cbn [i_account]. destruct a; [congruence|]. reflexivity.
Qed.
Lemma az_identity_last_pf : forall w req a, env_value w "AZURE_STORAGE_CONNECTION_STRING" [] -> env_value w "AZURE_STORAGE_KEY" [] ->
  env_value w "AZURE_STORAGE_SAS_TOKEN" [] -> env_value w "AZURE_STORAGE_BLOB_ENDPOINT" [] -> env_value w "AZURE_STORAGE_ACCOUNT_URL" [] ->
  (req <> [] /\ a = req \/ req = [] /\ env_value w "AZURE_STORAGE_ACCOUNT" a /\ a <> []) ->
  exists target, Init w req = match w_identity w target with
    | Body (ZObj (Some t) (Some (Some _))) => Some (true, State FromIdentity (public a) (Bearer t))
    | Body ZEmpty | Body ZOther => None
    | _ => Some (false, State NoSource (Info [] [] [] true) NoAuth)
    end /\ forall c, env_value w "AZURE_CLIENT_ID" c -> bytes c -> asks_identity c target.
Proof.
  intros w req a E1 E2 E5 E3 E4 HA. apply env_is in E1, E2, E3, E4, E5. unfold Init, TryConnectionString. rewrite E1.
  unfold TryEnvSharedKey. rewrite E2, E5. change (NormalizeSasQuery []) with (@nil N). cbv iota. unfold TryManagedIdentity.
  assert (RE : ResolveEndpoint w (env_account w req) = Some (public a)).
  { unfold ResolveEndpoint. rewrite E3, E4. destruct HA as [[NR ->]|[-> [EA NA]]].
    - rewrite account_env by auto. unfold AccountInfoFromUri. cbn [i_account]. destruct req; [congruence|]. reflexivity.
    - apply env_is in EA. unfold env_account. rewrite EA. cbn [i_account]. destruct a; [congruence|]. reflexivity. }
  rewrite RE. destruct (imds_target w) as [t|] eqn:ET; [|now apply imds_some in ET]. exists t. split.
  - unfold imds_loads, cleared, no_info. destruct (w_identity w t) as [| |[| | |[tk|] [[ttl|]|]]]; reflexivity.
  - intros c EC B. apply env_is in EC. subst c. now apply imds_ok.
Qed.
Lemma az_defined_pf : forall w req, sane w -> Init w req <> None.
Proof.
  intros w req H. unfold Init. destruct (TryConnectionString w req) as [| |] eqn:E1; try discriminate.
  2:{ exfalso. revert E1. unfold TryConnectionString. cbv zeta.
      repeat match goal with |- context [match ?x with _ => _ end] => destruct x; try discriminate end. }
  destruct (TryEnvSharedKey w req) as [| |] eqn:E2; try discriminate.
  2:{ exfalso. revert E2. unfold TryEnvSharedKey. cbv zeta.
      repeat match goal with |- context [match ?x with _ => _ end] => destruct x; try discriminate end. }
  unfold TryManagedIdentity. destruct (ResolveEndpoint w (env_account w req)); [|discriminate].
  destruct (imds_target w) as [t|] eqn:ET; [|now apply imds_some in ET]. destruct (H t) as [H1 H2].
  unfold imds_loads. destruct (w_identity w t) as [| |[| | |[tk|] [[ttl|]|]]]; try discriminate; congruence.
Qed.
Lemma az_fail_pf : forall w req st, Init w req = Some (false, st) -> forall hmac b64 unb64 date r,
  exists hs, Sign hmac b64 unb64 st date r = Signed (Build_request (rq_method r) (rq_target r) hs) /\
    authorization hs = authorization (rq_headers r).
Proof.
  intros w req st H hmac b64 unb64 date r.
  assert (st = cleared).
  { revert H. unfold Init. destruct (TryConnectionString w req); try discriminate. destruct (TryEnvSharedKey w req); try discriminate.
    destruct (TryManagedIdentity w req); try discriminate. congruence. }
  subst st. unfold Sign. cbn [z_auth cleared]. eexists. split; [reflexivity|].
  unfold authorization. change (text "authorization") with (lower_case (str "Authorization")). rewrite !field_find.
  rewrite !find_set_other by discriminate. reflexivity.
Qed.
Lemma az_bearer_pf : forall hmac b64 unb64 st date r t, z_auth st = Bearer t ->
  exists hs, Sign hmac b64 unb64 st date r = Signed (Build_request (rq_method r) (rq_target r) hs) /\ authorization hs = text "Bearer " ++ t.
Proof.
  intros hmac b64 unb64 st date r t H. unfold Sign. rewrite H. eexists. split; [reflexivity|].
  unfold authorization. change (text "authorization") with (lower_case (str "Authorization")). rewrite field_find, find_set_same. reflexivity.
Qed.
Lemma az_refresh_pf : forall w0 w req st ok st', Init w0 req = Some (true, st) -> w_env w = w_env w0 -> RefreshToken w req st = Some (ok, st') ->
  z_info st' = z_info st /\ z_source st' = z_source st /\
  (z_source st <> FromIdentity -> ok = true /\ st' = st) /\
  (z_source st = FromIdentity -> if ok then from_identity w req st' else st' = st).
Proof.
  intros w0 w req st ok st' HI HE HR. unfold RefreshToken in HR. destruct (z_source st) eqn:ES.
  1,2,3: injection HR as <- <-; split; [auto|]; split; [auto|]; split; [auto|discriminate].
  destruct (TryManagedIdentity w req) as [s3| |] eqn:E3; [|injection HR as <- <-; split; [auto|]; split; [auto|]; split; congruence|discriminate].
  injection HR as <- <-. pose proof (identity_loads _ _ _ E3) as [L S3].
  split; [|split; [auto|split; [congruence|auto]]].
  assert (RE : ResolveEndpoint w (env_account w req) = ResolveEndpoint w0 (env_account w0 req)).
  { unfold ResolveEndpoint, env_account, env. now rewrite HE. }
  assert (I0 : exists s, TryManagedIdentity w0 req = Loads s /\ st = s).
  { revert HI. unfold Init. destruct (TryConnectionString w0 req) as [s1| |] eqn:X1; try discriminate.
    { intros [= <-]. apply string_loads in X1 as [_ X1]. congruence. }
    destruct (TryEnvSharedKey w0 req) as [s2| |] eqn:X2; try discriminate.
    { intros [= <-]. apply env_loads in X2 as [_ X2]. congruence. }
    destruct (TryManagedIdentity w0 req) as [s4| |]; try discriminate. intros [= <-]. eauto. }
  destruct I0 as (s & I0 & ->). revert E3 I0. unfold TryManagedIdentity. rewrite RE.
  destruct (ResolveEndpoint w0 (env_account w0 req)) as [i|]; [|discriminate].
  assert (IL : forall r s', imds_loads i r = Loads s' -> z_info s' = i).
  { intros r s'. unfold imds_loads. destruct r as [| |[| | |[tk|] [[ttl|]|]]]; try discriminate. intros [= <-]. reflexivity. }
  destruct (imds_target w); [|discriminate]. destruct (imds_target w0); [|discriminate].
  intros X Y. apply IL in X, Y. congruence.
Qed.

(** *** Where it goes wrong *)
Definition vars (l : list (string * string)) (n : list N) : option (list N) :=
  match find (fun p => str_eq (str (fst p)) n) l with Some p => Some (str (snd p)) | None => None end.
Lemma az_key_refuted_pf : forall hmac b64 unb64, unb64 (text "no base64") = None ->
  exists w st, Init w [] = Some (true, st) /\ forall date r, Sign hmac b64 unb64 st date r = Abort.
Proof.
  intros hmac b64 unb64 HU. exists (World (vars [("AZURE_STORAGE_ACCOUNT", "acct"); ("AZURE_STORAGE_KEY", "no base64")]%string) (fun _ => NoReply)).
  eexists. split; [vm_compute; reflexivity|]. intros date r. unfold Sign. cbn [z_auth]. unfold ComputeSignature.
  change (unb64 _) with (unb64 (text "no base64")). now rewrite HU.
Qed.
Lemma az_endpoint_refuted_pf : exists w raw st, env_value w "AZURE_STORAGE_CONNECTION_STRING" raw /\
  setting raw (text "AccountName") (text "acct") /\ setting raw (text "BlobEndpoint") (text "http://127.0.0.1:10000/acct") /\
  Init w (text "acct") = Some (true, st) /\ ServiceEndpoint st = text "acct.blob.core.windows.net" /\ i_tls (z_info st) = true /\
  exists st0, Init w [] = Some (true, st0) /\ ServiceEndpoint st0 = text "127.0.0.1:10000" /\ i_tls (z_info st0) = false /\
    i_account (z_info st0) = text "acct" /\ i_prefix (z_info st0) = text "/acct".
Proof.
  set (raw := text "AccountName=acct;AccountKey=a2V5;BlobEndpoint=http://127.0.0.1:10000/acct").
  exists (World (vars [("AZURE_STORAGE_CONNECTION_STRING", "AccountName=acct;AccountKey=a2V5;BlobEndpoint=http://127.0.0.1:10000/acct")]%string) (fun _ => NoReply)), raw.
  eexists. split; [left; vm_compute; reflexivity|].
  split. { assert (text "acct" = MapGet (ParseConnectionStringKV raw) (text "AccountName")) as -> by (vm_compute; reflexivity). now apply az_setting_pf. }
  split. { assert (text "http://127.0.0.1:10000/acct" = MapGet (ParseConnectionStringKV raw) (text "BlobEndpoint")) as -> by (vm_compute; reflexivity). now apply az_setting_pf. }
  split; [vm_compute; reflexivity|]. split; [vm_compute; reflexivity|]. split; [reflexivity|].
  eexists. split; [vm_compute; reflexivity|]. vm_compute. auto.
Qed.
Lemma az_imds_refuted_pf : exists w, w_identity w = (fun _ => Body ZOther) /\ Init w (text "acct") = None.
Proof. exists (World (fun _ => None) (fun _ => Body ZOther)). split; auto. Qed.

(** ** Objects *)
Lemma encode_parts_ok ps : ps <> [] -> Forall bytes ps -> forall dest,
  exists es, encode_parts ps dest = Some (dest ++ join 47 es) /\ Forall2 decodes es ps /\ Forall (fun e => ~ In 47 e /\ ~ In 63 e) es /\ es <> [].
Proof.
  intros NE F. induction F as [|p ps B F IH]; [congruence|]. intros dest.
  destruct ps as [|p2 ps].
  - destruct (url_encode_spec_pf p dest B) as (o & E & T & _ & D). exists [o]. cbn [encode_parts]. rewrite E. split; auto.
    split; [repeat constructor; auto|]. split; [|discriminate]. repeat constructor; intros I; apply (encoded_clean _ _ T) in I; tauto.
  - destruct (url_encode_spec_pf p dest B) as (o & E & T & _ & D).
    destruct (IH ltac:(discriminate) ((dest ++ o) ++ [47])) as (es & E2 & D2 & N2 & NN).
    exists (o :: es). change (encode_parts (p :: p2 :: ps) dest) with
      (match AppendUrlEncoded p dest with Some d => encode_parts (p2 :: ps) (d ++ [47]) | None => None end).
    rewrite E, E2. split. { destruct es; [congruence|]. cbn [join]. now rewrite <- !app_assoc. }
    split; [constructor; auto|]. split; [|discriminate]. constructor; auto. split; intros I; apply (encoded_clean _ _ T) in I; tauto.
Qed.
Lemma az_object_pf : forall prefix container key, bytes container -> bytes key ->
  exists ec es ks, BuildObjectUrl prefix container key = Some (prefix ++ 47 :: ec ++ 47 :: join 47 es) /\
    decodes ec container /\ ~ In 47 ec /\ ~ In 63 ec /\
    key = join 47 ks /\ Forall (fun k => ~ In 47 k) ks /\ Forall2 decodes es ks /\ Forall (fun e => ~ In 47 e /\ ~ In 63 e) es.
Proof.
  intros prefix container key BC BK. unfold BuildObjectUrl.
  destruct (url_encode_spec_pf container (prefix ++ [47]) BC) as (ec & -> & T & _ & D).
  destruct (split_spec 47 key) as (S1 & S2 & S3).
  assert (FB : Forall bytes (StrSplit 47 key)).
  { unfold bytes in *. rewrite <- S2 in BK. clear -BK S1. induction (StrSplit 47 key) as [|p ps IH]; [constructor|].
    destruct ps as [|q ps]; [repeat constructor; auto|].
    change (join 47 (p :: q :: ps)) with (p ++ 47 :: join 47 (q :: ps)) in BK. apply Forall_app in BK as [B1 B2]. inversion B2; subst.
    constructor; auto. apply IH; auto. discriminate. }
  destruct (encode_parts_ok _ S1 FB (((prefix ++ [47]) ++ ec) ++ [47])) as (es & E & D2 & N2 & _).
  exists ec, es, (StrSplit 47 key). rewrite E. split; [now rewrite <- !app_assoc|].
  split; auto. split; [intros I; apply (encoded_clean _ _ T) in I; tauto|]. split; [intros I; apply (encoded_clean _ _ T) in I; tauto|]. auto.
Qed.
