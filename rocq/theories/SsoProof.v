(** Proofs for SsoProps.v. *)
From Verif Require Import Util SsoModel SsoSpec.
From Coq Require Import Lia.
Open Scope N_scope.

Lemma holds_fetch t : forall m p, holds m p t -> fetch m p (length t) = Some t.
Proof.
  induction t as [|b t IH]; intros m p H; cbn [length fetch]; auto. assert (H0 := H 0%nat). cbn in H0. rewrite N.add_0_r in H0. rewrite H0 by lia.
  rewrite IH; auto. intros i Hi. specialize (H (S i)). cbn [length nth] in H. rewrite <- H by lia. f_equal. lia.
Qed.
Lemma fetch_holds n : forall m p t, fetch m p n = Some t -> length t = n /\ holds m p t.
Proof.
  induction n as [|n IH]; intros m p t H; cbn [fetch] in H.
  - injection H as <-. split; auto. intros i Hi. cbn in Hi. lia.
  - destruct (m p) as [b|] eqn:Hb; [|discriminate]. destruct (fetch m (p + 1) n) as [r|] eqn:Hr; [|discriminate]. injection H as <-. apply IH in Hr as [L Hr].
    split; [cbn; lia|]. intros [|i] Hi; cbn [nth]; [now rewrite N.add_0_r|]. rewrite <- Hr by (cbn in Hi; lia). f_equal. lia.
Qed.
Lemma holds_skip m p t k : holds m p t -> holds m (p + N.of_nat k) (skipn k t).
Proof.
  intros H i Hi. rewrite skipn_length in Hi. rewrite <- N.add_assoc, <- Nat2N.inj_add, H by lia. f_equal.
  rewrite <- (firstn_skipn k t) at 1. rewrite app_nth2; rewrite firstn_length; [|lia]. f_equal. lia.
Qed.
Lemma holds_first m p t k : holds m p t -> holds m p (firstn k t).
Proof.
  intros H i Hi. rewrite firstn_length in Hi. rewrite H by lia. f_equal. rewrite <- (firstn_skipn k t) at 1. rewrite app_nth1; auto. rewrite firstn_length. lia.
Qed.
Lemma fill_look t pos k : (pos + k <= length t)%nat -> (length t <= cap)%nat -> (pos + k <=? length (fill t))%nat = true /\ firstn k (skipn pos (fill t)) = firstn k (skipn pos t).
Proof.
  intros H L. unfold fill. split.
  - apply Nat.leb_le. rewrite app_length. lia.
  - rewrite skipn_app. rewrite firstn_app. rewrite skipn_length. replace (k - (length t - pos))%nat with 0%nat by lia. cbn [firstn]. apply app_nil_r.
Qed.
(** What a view is, exactly. *)
Definition good (m : memory) (v : view) (t : list N) : Prop :=
  size v = length t /\ ((t = [] /\ exists p, buf v = Begin p) \/ ((length t <= cap)%nat /\ buf v = Local (fill t)) \/ ((cap < length t)%nat /\ exists p, buf v = Begin p /\ holds m p t)).
Lemma good_look m v t pos k : good m v t -> (pos + k <= length t)%nat -> look m v pos k = Some (firstn k (skipn pos t)).
Proof.
  intros [S G] H. unfold look. destruct (Nat.eqb_spec k 0) as [->|K]; [reflexivity|]. rewrite S. destruct G as [[-> _]|[[L E]|(L & p & E & Hh)]].
  - cbn in H. lia.
  - rewrite (proj2 (Nat.leb_le _ _)) by auto. rewrite E. destruct (fill_look t pos k H L) as [-> ->]. reflexivity.
  - rewrite (proj2 (Nat.leb_gt _ _)) by auto. rewrite E. apply (holds_skip _ _ _ pos), (holds_first _ _ _ k), holds_fetch in Hh.
    rewrite firstn_length, skipn_length in Hh. replace (Nat.min k (length t - pos)) with k in Hh by lia. exact Hh.
Qed.
Lemma good_is m v t : good m v t -> is m v t.
Proof. intros G. split; [apply G|]. unfold read. rewrite (good_look m v t); auto; [|rewrite (proj1 G); lia]. rewrite (proj1 G). cbn. now rewrite firstn_all. Qed.
Lemma sso_make_pf m p t : holds m p t -> exists v, make m p (length t) = Some v /\ forall m', (length t <= cap)%nat \/ kept p t m' -> is m' v t.
Proof.
  intros H. unfold make. destruct (Nat.leb_spec (length t) cap) as [L|L].
  - rewrite (holds_fetch t m p H). eexists. split; [reflexivity|]. intros m' _. apply good_is. split; auto.
  - eexists. split; [reflexivity|]. intros m' [X|K]; [lia|]. apply good_is. split; auto. right. right. split; auto. exists p. auto.
Qed.
Lemma strlen_ok t : forall fuel m p, holds m p (t ++ [0]) -> Forall (fun b => b <> 0) t -> (length t < fuel)%nat -> strlen fuel m p = Some (length t).
Proof.
  induction t as [|b t IH]; intros fuel m p H F L; destruct fuel as [|f]; cbn [length] in L; try lia; cbn [strlen length].
  - assert (X := H 0%nat). cbn in X. rewrite N.add_0_r in X. now rewrite X by lia.
  - assert (X := H 0%nat). cbn in X. rewrite N.add_0_r in X. rewrite X by lia. inversion F; subst. destruct b as [|q]; [congruence|]. rewrite (IH f m (p + 1)); auto; [|lia].
    intros i Hi. specialize (H (S i)). cbn [length nth app] in H. rewrite <- H by lia. f_equal. lia.
Qed.
Lemma sso_cstr_pf fuel m p t : holds m p (t ++ [0]) -> Forall (fun b => b <> 0) t -> (length t < fuel)%nat ->
  exists v, make_c fuel m p = Some v /\ forall m', (length t <= cap)%nat \/ kept p t m' -> is m' v t.
Proof.
  intros H F L. unfold make_c. rewrite (strlen_ok t) by auto. apply sso_make_pf. apply (holds_first _ _ _ (length t)) in H. rewrite firstn_app, Nat.sub_diag, firstn_all in H. now rewrite app_nil_r in H.
Qed.

(** Being the string [t] comes down to [good], for views that are well made. *)
Definition made (v : view) : Prop := (size v = 0%nat /\ exists p, buf v = Begin p) \/ ((size v <= cap)%nat /\ exists t, length t = size v /\ buf v = Local (fill t)) \/ ((cap < size v)%nat /\ exists p, buf v = Begin p).
Lemma is_good m v t : made v -> is m v t -> good m v t.
Proof.
  intros M [S R]. split; auto. destruct M as [[Z [p E]]|[(L & u & Lu & E)|(L & p & E)]].
  - left. split; [|eauto]. destruct t; auto. cbn in S. lia.
  - right. left. split; [lia|]. assert (Gu : good m v u) by (split; auto; right; left; rewrite Lu; auto). apply good_is in Gu as [_ Ru]. rewrite R in Ru. injection Ru as ->. auto.
  - right. right. split; [lia|]. exists p. split; auto. unfold read, look in R. destruct (Nat.eqb_spec (size v) 0); [unfold cap in L; lia|].
    rewrite (proj2 (Nat.leb_gt _ _)) in R by auto. rewrite E in R. cbn in R. rewrite N.add_0_r in R. now apply fetch_holds in R.
Qed.
Lemma make_made m p n v : make m p n = Some v -> made v.
Proof.
  unfold make. destruct (Nat.leb_spec n cap) as [L|L].
  - destruct (fetch m p n) as [t|] eqn:F; [|discriminate]. intros [= <-]. apply fetch_holds in F as [Lt _]. right. left. cbn. split; auto. eauto.
  - intros [= <-]. right. right. cbn. eauto.
Qed.
Lemma look_len m v pos k t : look m v pos k = Some t -> length t = k.
Proof.
  unfold look. destruct (Nat.eqb_spec k 0) as [->|K]; [now intros [= <-]|]. destruct (size v <=? cap)%nat, (buf v) as [p|l]; try discriminate.
  - destruct (Nat.leb_spec (pos + k) (length l)); [|discriminate]. intros [= <-]. rewrite firstn_length, skipn_length. lia.
  - intros H. now apply fetch_holds in H.
Qed.
Lemma built_made v : built v -> made v.
Proof.
  induction 1 as [|m p n v E|m v pos n w _ IH E].
  - left. split; [reflexivity|]. now exists 0.
  - eapply make_made; eauto.
  - unfold substr in E. destruct (size v <? pos)%nat; [discriminate|]. cbv zeta in E. destruct (Nat.leb_spec (Nat.min n (size v - pos)) cap) as [L|L].
    + destruct (look m v pos _) as [t|] eqn:F; [|discriminate]. injection E as <-. apply look_len in F. right. left. cbn [size buf]. split; auto. eauto.
    + destruct (buf v) as [p|l]; [|discriminate]. destruct (size v <=? cap)%nat; [discriminate|]. injection E as <-. right. right. cbn [size buf]. eauto.
Qed.
Lemma sub_len {A} (t : list A) pos n : (pos <= length t)%nat -> length (firstn n (skipn pos t)) = Nat.min n (length t - pos).
Proof. intros H. rewrite firstn_length, skipn_length. reflexivity. Qed.
Lemma first_min {A} (t : list A) pos n : firstn (Nat.min n (length t - pos)) (skipn pos t) = firstn n (skipn pos t).
Proof. rewrite <- (skipn_length pos t). rewrite <- firstn_firstn. now rewrite firstn_all. Qed.
Lemma substr_good m v t pos n : good m v t -> if (length t <? pos)%nat then substr m v pos n = Throw else exists w, substr m v pos n = Done w /\ made w /\
  size w = Nat.min n (length t - pos) /\ good m w (firstn n (skipn pos t)) /\
  (forall m', (Nat.min n (length t - pos) <= cap)%nat \/ good m' v t -> good m' w (firstn n (skipn pos t))).
Proof.
  intros G. assert (S := proj1 G). unfold substr. rewrite S. destruct (Nat.ltb_spec (length t) pos) as [L|L]; auto. cbv zeta. set (k := Nat.min n (length t - pos)).
  assert (Lk := sub_len t pos n L). fold k in Lk. assert (Ek := first_min t pos n). fold k in Ek. destruct (Nat.leb_spec k cap) as [C|C].
  - rewrite (good_look m v t pos k G) by (unfold k; lia). rewrite Ek. eexists. split; [reflexivity|]. split; [|split; [reflexivity|]].
    + right. left. cbn [size buf]. split; auto. exists (firstn n (skipn pos t)). split; auto.
    + assert (X : forall m', good m' (View (Local (fill (firstn n (skipn pos t)))) k) (firstn n (skipn pos t))) by (intros m'; split; [cbn; auto|]; right; left; split; [lia|reflexivity]).
      split; auto.
  - destruct G as [_ G]. destruct G as [[-> _]|[[L' E]|(L' & p & E & Hh)]]; [cbn in k; unfold cap in *; lia|unfold k in C; lia|]. rewrite E. rewrite (proj2 (Nat.leb_gt _ _)) by auto.
    eexists. split; [reflexivity|]. split; [|split; [reflexivity|]]; [right; right; cbn [size buf]; eauto|].
    assert (X : forall m', holds m' p t -> good m' (View (Begin (p + N.of_nat pos)) k) (firstn n (skipn pos t))).
    { intros m' K. split; [cbn; auto|]. right. right. split; [lia|]. exists (p + N.of_nat pos). split; auto. now apply holds_first, holds_skip. }
    split; auto. intros m' [Y|[_ Y]]; [lia|]. destruct Y as [[-> _]|[[L2 _]|(_ & p' & E' & K)]]; [cbn in L'; unfold cap in *; lia|lia|]. rewrite E in E'. injection E' as <-. auto.
Qed.
Lemma sso_substr_pf m v t pos n : built v -> is m v t -> if (length t <? pos)%nat then substr m v pos n = Throw
  else exists w, substr m v pos n = Done w /\ forall m', (Nat.min n (length t - pos) <= cap)%nat \/ is m' v t -> is m' w (firstn n (skipn pos t)).
Proof.
  intros B I. assert (M := built_made v B). assert (X := substr_good m v t pos n (is_good m v t M I)). destruct (length t <? pos)%nat; auto. destruct X as (w & E & Mw & Sw & Gw & K). exists w.
  split; auto. intros m' [C|I']; apply good_is; apply K; auto. right. now apply is_good.
Qed.
Lemma nth_good m v t i : good m v t -> (i < length t)%nat -> nth_byte m v i = nth_error t i.
Proof.
  intros G H. unfold nth_byte. rewrite (good_look m v t) by (auto; lia). destruct (nth_error t i) as [b|] eqn:E; [|apply nth_error_None in E; lia].
  apply nth_error_split in E as (l1 & l2 & -> & <-). rewrite skipn_app, skipn_all, Nat.sub_diag. reflexivity.
Qed.
Lemma sso_access_pf m v t i : built v -> is m v t -> size v = length t /\ ((i < length t)%nat -> nth_byte m v i = nth_error t i) /\
  at_ m v i = match nth_error t i with Some b => Done b | None => Throw end /\
  (t <> [] -> front m v = hd_error t /\ back m v = nth_error t (length t - 1)).
Proof.
  intros B I. assert (M := built_made v B). assert (G := is_good m v t M I). assert (S := proj1 G). split; auto. split; [intros H; now apply nth_good|]. split.
  - unfold at_. rewrite S. destruct (Nat.leb_spec (length t) i) as [L|L].
    + apply nth_error_None in L. now rewrite L.
    + rewrite (nth_good m v t i G L). destruct (nth_error t i) eqn:E; auto. apply nth_error_None in E. lia.
  - intros N. assert (LN : (0 < length t)%nat) by (destruct t; [congruence|cbn; lia]). unfold front, back. rewrite S, !(nth_good m v t) by (auto; lia). split; [now destruct t|reflexivity].
Qed.
Lemma sso_copy_pf m v t n pos : built v -> is m v t -> copy m v n pos = if (length t <? pos)%nat then Throw else Done (firstn n (skipn pos t)).
Proof.
  intros B I. assert (M := built_made v B). assert (G := is_good m v t M I). unfold copy. rewrite (proj1 G). destruct (Nat.ltb_spec (length t) pos) as [L|L]; auto.
  rewrite (good_look m v t) by (auto; lia). rewrite Nat.min_comm, first_min. reflexivity.
Qed.

Lemma memcmp_order a : forall b, length a = length b -> order a b (memcmp a b).
Proof.
  induction a as [|x a IH]; intros [|y b] L; try discriminate; cbn [memcmp order]; auto. destruct (N.compare_spec x y) as [->|H|H].
  - specialize (IH b ltac:(cbn in L; lia)). destruct (memcmp a b); cbn in *; [congruence|now constructor|now constructor].
  - cbn. now constructor.
  - cbn. now constructor.
Qed.
Lemma sv_compare_cons x a y b : sv_compare (x :: a) (y :: b) = match x ?= y with Eq => sv_compare a b | c => c end.
Proof. unfold sv_compare. cbn [length Nat.min firstn memcmp Nat.compare]. now destruct (x ?= y). Qed.
Lemma sv_compare_order a : forall b, order a b (sv_compare a b).
Proof.
  induction a as [|x a IH]; intros [|y b]; try now constructor. rewrite sv_compare_cons. destruct (N.compare_spec x y) as [->|H|H]; try now constructor.
  specialize (IH b). destruct (sv_compare a b); cbn in *; [congruence|now constructor|now constructor].
Qed.
Lemma lt_irr a : ~ lt a a.
Proof. intros H. remember a as b in H at 2. revert Heqb. induction H; intros E; try discriminate. - injection E as -> ->. lia. - injection E as ->. auto. Qed.
Lemma lt_asym a b : lt a b -> lt b a -> False.
Proof. induction 1; intros H'; inversion H'; subst; auto; lia. Qed.
Lemma order_unique a b c d : order a b c -> order a b d -> c = d.
Proof.
  destruct c, d; cbn; intros H1 H2; auto; subst; exfalso; try (eapply lt_irr; eassumption); eapply lt_asym; eassumption.
Qed.
Lemma sso_compare_pf m v w a b : is m v a -> is m w b -> exists c, compare m v w = Some c /\ order a b c.
Proof. intros [_ R] [_ R']. unfold compare. rewrite R, R'. eexists. split; eauto. apply sv_compare_order. Qed.
Lemma memcmp_refl a : memcmp a a = Eq.
Proof. induction a; cbn; auto. now rewrite N.compare_refl. Qed.
Lemma eqb_spec m v w a b : is m v a -> is m w b -> exists r, eqb m v w = Some r /\ (r = true <-> a = b).
Proof.
  intros [_ R] [_ R']. unfold eqb. rewrite R, R'. eexists. split; eauto. destruct (Nat.eqb_spec (length a) (length b)) as [L|L]; cbn [andb].
  - assert (O := memcmp_order a b L). destruct (memcmp a b) eqn:E; cbn in O; split; auto; try discriminate; intros ->; rewrite memcmp_refl in E; discriminate.
  - split; [discriminate|]. intros ->. congruence.
Qed.
Lemma sso_operators_pf m v w a b : is m v a -> is m w b ->
  (exists r, eqb m v w = Some r /\ (r = true <-> a = b)) /\ (exists r, neqb m v w = Some r /\ (r = true <-> a <> b)) /\
  (exists r, ltb m v w = Some r /\ (r = true <-> lt a b)) /\ (exists r, gtb m v w = Some r /\ (r = true <-> lt b a)) /\
  (exists r, leb m v w = Some r /\ (r = true <-> lt a b \/ a = b)) /\ (exists r, geb m v w = Some r /\ (r = true <-> lt b a \/ a = b)).
Proof.
  intros I J. destruct (eqb_spec m v w a b I J) as (r & E & H). destruct (sso_compare_pf m v w a b I J) as (c & Ec & Oc). destruct (sso_compare_pf m w v b a J I) as (d & Ed & Od).
  assert (A1 := lt_asym a b). assert (A2 := lt_irr a). assert (A3 := lt_irr b). unfold neqb, ltb, gtb, leb, geb, ltb. rewrite E, Ec, Ed. cbn [option_map].
  split; [eauto|]. split; [eexists; split; [reflexivity|]; destruct r; cbn; intuition congruence|].
  split; [eexists; split; [reflexivity|]|split; [eexists; split; [reflexivity|]|split; [eexists; split; [reflexivity|]|eexists; split; [reflexivity|]]]];
    destruct c, d; cbn in *; subst; intuition (try congruence; try discriminate; subst; tauto).
Qed.
Lemma sso_compare_sub_pf m v w a b p1 n1 p2 n2 : built v -> built w -> is m v a -> is m w b -> (p1 <= length a)%nat -> (p2 <= length b)%nat ->
  exists c, compare_sub m v p1 n1 w p2 n2 = Done c /\ order (firstn n1 (skipn p1 a)) (firstn n2 (skipn p2 b)) c.
Proof.
  intros Mv Mw I J L1 L2. assert (X := sso_substr_pf m v a p1 n1 Mv I). assert (Y := sso_substr_pf m w b p2 n2 Mw J).
  rewrite (proj2 (Nat.ltb_ge _ _)) in X by auto. rewrite (proj2 (Nat.ltb_ge _ _)) in Y by auto. destruct X as (v' & E1 & I'). destruct Y as (w' & E2 & J').
  unfold compare_sub. rewrite E1, E2. destruct (sso_compare_pf m v' w' _ _ (I' m (or_intror I)) (J' m (or_intror J))) as (c & -> & O). exists c. auto.
Qed.
