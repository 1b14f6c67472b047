(** Proofs about the configuration of the S3 client. *)
From Coq Require Import String Ascii Lia.
From Verif Require Import Util UrlModel UrlSpec UrlProof SignModel SignProof CfgSpec CfgModel.
Local Open Scope N_scope.
Local Open Scope list_scope.

Lemma str_text s : str s = text s. Proof. reflexivity. Qed.

(** ** White space *)
Lemma space_iff b : is_space b = true <-> white b.
Proof.
  unfold is_space, white. rewrite orb_true_iff, andb_true_iff, !N.leb_le, N.eqb_eq. tauto.
Qed.
Lemma lstrip_split s : exists a, s = a ++ lstrip s /\ Forall white a /\ (forall x t, lstrip s = x :: t -> ~ white x).
Proof.
  induction s as [|b s [a [E [F H]]]]; simpl.
  - exists []. split; auto. split; auto. discriminate.
  - destruct (is_space b) eqn:B.
    + exists (b :: a). simpl. split; [congruence|]. split; auto. constructor; auto. now apply space_iff.
    + exists []. split; auto. split; auto. intros x t [= <- <-] W. apply space_iff in W. congruence.
Qed.
Lemma lstrip_white a s : Forall white a -> lstrip (a ++ s) = lstrip s.
Proof.
  induction 1 as [|x a W F IH]; simpl; auto. apply space_iff in W. now rewrite W.
Qed.
Lemma lstrip_stop s : (forall x t, s = x :: t -> ~ white x) -> lstrip s = s.
Proof.
  destruct s as [|b s]; simpl; auto. intros H. destruct (is_space b) eqn:B; auto.
  exfalso. apply (H b s eq_refl). now apply space_iff.
Qed.
Lemma forall_rev (P : N -> Prop) l : Forall P l -> Forall P (rev l).
Proof. rewrite !Forall_forall. intros H x L. apply H. now apply in_rev. Qed.
Lemma trims_strip s : trims s (strip s).
Proof.
  unfold strip. destruct (lstrip_split s) as [a [E [F H]]].
  destruct (lstrip_split (rev (lstrip s))) as [b [E2 [F2 H2]]].
  exists a, (rev b). set (m := lstrip s) in *. set (r := lstrip (rev m)) in *.
  assert (M : m = rev r ++ rev b) by (rewrite <- rev_app_distr, <- E2; now rewrite rev_involutive).
  split; [congruence|]. split; auto. split; [now apply forall_rev|]. split.
  - intros x t X. apply (H x (t ++ rev b)). rewrite M, X. reflexivity.
  - intros x t X. apply (H2 x (rev t)). rewrite <- (rev_involutive r), X, rev_app_distr. reflexivity.
Qed.
Lemma trims_eq s c : trims s c -> strip s = c.
Proof.
  intros [a [b [-> [Fa [Fb [H1 H2]]]]]]. unfold strip. rewrite lstrip_white by auto.
  assert (R : rev (lstrip (rev (c ++ b))) = c).
  { rewrite rev_app_distr, lstrip_white by now apply forall_rev. rewrite lstrip_stop; [apply rev_involutive|].
    intros x t X. apply (H2 x (rev t)). rewrite <- (rev_involutive c), X. reflexivity. }
  destruct c as [|x c].
  - simpl. destruct (lstrip_split b) as [p [E [F H]]]. destruct (lstrip b) as [|y l] eqn:L; auto.
    exfalso. apply (H y l eq_refl). rewrite Forall_forall in Fb. apply Fb. rewrite E. apply in_or_app. right. now left.
  - rewrite (lstrip_stop ((x :: c) ++ b)); [exact R|]. intros y t [= <- <-]. apply (H1 x c eq_refl).
Qed.

(** ** INI *)
Lemma lines_join ls : lines ls = join 10 ls.
Proof. induction ls as [|l [|m ls] IH]; auto. change (l ++ 10 :: lines (m :: ls) = l ++ 10 :: join 10 (m :: ls)). now rewrite IH. Qed.

Lemma cut_app c a b : ~ In c a -> cut c (a ++ c :: b) = (a, Some b).
Proof. apply cut_at. Qed.
(** A line with an equality sign, stripped. *)
Lemma strip_around a b : ~ In 61 a -> exists a' b', strip (a ++ 61 :: b) = a' ++ 61 :: b' /\ ~ In 61 a'
  /\ strip a' = strip a /\ strip b' = strip b /\ (forall x t, a' = x :: t -> ~ white x) /\ (exists p, a = p ++ a' /\ Forall white p).
Proof.
  intros Na. destruct (lstrip_split a) as [p [E [F H]]]. destruct (lstrip_split (rev b)) as [q [E2 [F2 H2]]].
  assert (B : b = rev (lstrip (rev b)) ++ rev q) by (rewrite <- rev_app_distr, <- E2; now rewrite rev_involutive).
  exists (lstrip a), (rev (lstrip (rev b))).
  assert (W : ~ white 61) by (unfold white; lia).
  assert (Hs : strip (a ++ 61 :: b) = lstrip a ++ 61 :: rev (lstrip (rev b))).
  { apply trims_eq. exists p, (rev q). split; [|split; [auto|split; [now apply forall_rev|split]]].
    - rewrite E at 1. rewrite B at 1. rewrite <- !app_assoc. simpl. now rewrite <- ?app_assoc.
    - intros x t. destruct (lstrip a) as [|y l] eqn:L; simpl; intros [= <- <-]; auto. apply (H y l eq_refl).
    - intros x t X. destruct (lstrip (rev b)) as [|y l] eqn:L; simpl in X.
      + apply app_inj_tail in X. destruct X as [_ <-]. auto.
      + rewrite app_comm_cons, app_assoc in X. apply app_inj_tail in X. destruct X as [_ <-]. apply (H2 y l eq_refl). }
  split; auto. split.
  - intros I. apply Na. rewrite E. apply in_or_app. now right.
  - split; [|split; [|split; [auto|exists p; auto]]].
    + destruct (trims_strip (lstrip a)) as [u [v [X1 [X2 [X3 X4]]]]]. symmetry. apply trims_eq.
      exists (p ++ u), v. split; [rewrite E at 1; rewrite X1 at 1; now rewrite <- app_assoc|]. split; [|auto].
      apply Forall_app. auto.
    + destruct (trims_strip (rev (lstrip (rev b)))) as [u [v [X1 [X2 [X3 X4]]]]]. symmetry. apply trims_eq.
      exists u, (v ++ rev q). split; [rewrite B at 1; rewrite X1 at 1; now rewrite <- !app_assoc|]. split; [auto|]. split; [|auto].
      apply Forall_app. split; auto. now apply forall_rev.
Qed.
Lemma plain_test c t : plain (c :: t) -> (c =? 35) || (c =? 59) = false /\ (c =? 91) = false.
Proof. intros H. destruct (H c t eq_refl) as [A [B C]]. apply N.eqb_neq in A, B, C. now rewrite A, B, C. Qed.

(** What the model does with a line. *)
Definition line_does (sec header : list N) (on : bool) (l : list N) : bool * list (list N * list N) :=
  match strip l with
  | [] => (on, [])
  | c :: _ => if (c =? 35) || (c =? 59) then (on, [])
      else if c =? 91 then (match sec with [] => on | _ => str_eq (strip l) header end, [])
      else if on then let (k, v) := cut 61 (strip l) in (on, [(strip k, strip (or_empty v))]) else (on, [])
  end.
Lemma ini_lines_cons sec header on l ls :
  ini_lines sec header on (l :: ls) = snd (line_does sec header on l) ++ ini_lines sec header (fst (line_does sec header on l)) ls.
Proof.
  unfold line_does. cbn [ini_lines]. destruct (strip l) as [|c t]; auto.
  destruct ((c =? 35) || (c =? 59)); auto. destruct (c =? 91); auto. destruct on; cbn [negb]; auto.
  destruct (cut 61 (c :: t)). reflexivity.
Qed.
Definition item_does (sec : list N) (on : bool) (i : item) : bool * list (list N * list N) :=
  match i with
  | Nothing => (on, [])
  | BadHeader => (match sec with [] => on | _ => false end, [])
  | Header n => (match sec with [] => on | _ => if list_eq_dec N.eq_dec n sec then true else false end, [])
  | Entry k v => (on, if on then [(k, v)] else [])
  end.
Lemma line_item sec on l i : ini_line l i ->
  line_does sec (match sec with [] => [] | _ => 91 :: sec ++ [93] end) on l = item_does sec on i.
Proof.
  intros H. unfold line_does. destruct H as [T|c t T C|n T|t T B|a b k v E Na Ta Tb P|k T K P Na].
  - now rewrite (trims_eq _ _ T).
  - rewrite (trims_eq _ _ T). destruct C as [->| ->]; reflexivity.
  - rewrite (trims_eq _ _ T). cbn [item_does]. change (91 =? 35) with false. change (91 =? 59) with false. change (91 =? 91) with true.
    cbn [orb]. f_equal. destruct sec as [|x sec]; auto.
    destruct (list_eq_dec N.eq_dec n (x :: sec)) as [->|Ne]; [now apply str_eq_spec|].
    destruct (str_eq _ _) eqn:X; auto. apply str_eq_spec in X. injection X as X. exfalso. apply Ne.
    rewrite app_comm_cons in X. now apply app_inj_tail in X.
  - rewrite (trims_eq _ _ T). cbn [item_does]. change (91 =? 35) with false. change (91 =? 59) with false. change (91 =? 91) with true.
    cbn [orb]. f_equal. destruct sec as [|x sec]; auto.
    destruct (str_eq _ _) eqn:X; auto. apply str_eq_spec in X. injection X as X. exfalso. apply (B (x :: sec)). exact X.
  - subst l. destruct (strip_around a b Na) as [a' [b' [S1 [S2 [S3 [S4 [S5 [p [S6 S7]]]]]]]]]. rewrite S1.
    assert (Hc : exists c t, a' ++ 61 :: b' = c :: t /\ (c =? 35) || (c =? 59) = false /\ (c =? 91) = false).
    { destruct a' as [|c t].
      - exists 61, b'. auto.
      - exists c, (t ++ 61 :: b'). split; auto. rewrite (trims_eq _ _ Ta) in S3.
        assert (exists u, k = c :: u) as [u ->].
        { rewrite <- S3. destruct (trims_strip (c :: t)) as [u [v' [X1 [X2 _]]]]. destruct u as [|y u].
          - simpl in X1. destruct (strip (c :: t)) as [|z q] eqn:Q; [|simpl in X1; injection X1 as -> _; eauto].
            exfalso. destruct (trims_strip (c :: t)) as [u [v2 [Y1 [Y2 [Y3 _]]]]]. rewrite Q in Y1. simpl in Y1.
            apply (S5 c t eq_refl). destruct u as [|y u]; simpl in Y1.
            + rewrite <- Y1 in Y3. now inversion Y3.
            + injection Y1 as -> _. now inversion Y2.
          - simpl in X1. injection X1 as -> _. exfalso. apply (S5 y t eq_refl). now inversion X2. }
        now apply plain_test with u. }
    destruct Hc as [c [t [X [C1 C2]]]]. rewrite X, C1, C2, <- X. cbn [item_does]. rewrite cut_app by auto. cbn [or_empty].
    rewrite S3, S4, (trims_eq _ _ Ta), (trims_eq _ _ Tb). destruct on; reflexivity.
  - rewrite (trims_eq _ _ T). destruct k as [|c t]; [contradiction|]. destruct (plain_test _ _ P) as [-> ->]. cbn [item_does].
    assert (Nk : ~ In 61 (c :: t)).
    { destruct T as [u [v' [E _]]]. intros I. apply Na. rewrite E. apply in_or_app. right. apply in_or_app. now left. }
    rewrite cut_none by auto. cbn [or_empty].
    assert (Sk : strip (c :: t) = c :: t).
    { rewrite <- (trims_eq _ _ T). rewrite (trims_eq _ _ T). apply trims_eq. destruct T as [u [v' [_ [_ [_ [H1 H2]]]]]].
      exists [], []. rewrite app_nil_r. auto. }
    rewrite Sk. destruct on; reflexivity.
Qed.
Lemma items_section x sec : forall is on,
  section_from (x :: sec) on is = match is with [] => [] | i :: is' => snd (item_does (x :: sec) on i) ++ section_from (x :: sec) (fst (item_does (x :: sec) on i)) is' end.
Proof. intros [|[| | |] is] on; reflexivity. Qed.
Lemma ini_section x sec : forall ls is on, Forall2 ini_line ls is ->
  ini_lines (x :: sec) (91 :: (x :: sec) ++ [93]) on ls = section_from (x :: sec) on is.
Proof.
  induction ls as [|l ls IH]; intros is on F; inversion F; subst; [reflexivity|].
  rewrite ini_lines_cons, items_section. rewrite (line_item (x :: sec) on l y) by auto. f_equal. now apply IH.
Qed.
Lemma ini_all : forall ls is, Forall2 ini_line ls is -> ini_lines [] [] true ls = entries is.
Proof.
  induction ls as [|l ls IH]; intros is F; inversion F; subst; [reflexivity|].
  rewrite ini_lines_cons. rewrite (line_item [] true l y) by auto. destruct y; simpl; rewrite (IH l'); auto.
Qed.
Lemma ini_spec_pf : forall s is name, ini_file s is -> ParseIniSection s name = section name is.
Proof.
  intros s is name [ls [Ne [-> [N F]]]]. unfold ParseIniSection. rewrite lines_join, split_join by auto.
  destruct name as [|x sec]; [now apply ini_all|]. now apply ini_section.
Qed.

(** Every text is such a file. *)
Lemma in_dec_N (x : N) l : {In x l} + {~ In x l}. Proof. apply in_dec, N.eq_dec. Qed.
Lemma plain_dec s : (exists c t, s = c :: t /\ (c = 35 \/ c = 59 \/ c = 91)) \/ plain s.
Proof.
  destruct s as [|c t]; [right; intros x t; discriminate|].
  destruct (N.eq_dec c 35) as [->|A]; [left; eauto 6|]. destruct (N.eq_dec c 59) as [->|B]; [left; eauto 8|].
  destruct (N.eq_dec c 91) as [->|C]; [left; eauto 8|]. right. intros x u [= <- <-]. auto.
Qed.
Lemma line_total l : exists i, ini_line l i.
Proof.
  pose proof (trims_strip l) as T. destruct (strip l) as [|c t] eqn:S; [eexists; now apply il_blank|].
  destruct (plain_dec (c :: t)) as [[c' [t' [[= <- <-] C]]]|P].
  - destruct C as [C|[C|C]]; [exists Nothing; eapply il_comment; eauto|exists Nothing; eapply il_comment; eauto|]. subst c.
    destruct (list_eq_dec N.eq_dec t []) as [->|Nt]; [exists BadHeader; apply (il_bad _ []); auto; intros [|? ?]; discriminate|].
    destruct (exists_last Nt) as [n [z Z]]. rewrite Z in T.
    destruct (N.eq_dec z 93) as [->|Nz]; [exists (Header n); apply il_header; exact T|].
    exists BadHeader. eapply il_bad; [exact T|]. intros m X. apply app_inj_tail in X. destruct X. auto.
  - destruct (in_dec_N 61 l) as [I|I].
    + pose proof (cut_spec 61 l) as X. destruct (cut 61 l) as [a [b|]] eqn:Q.
      * destruct X as [X1 X2]. exists (Entry (strip a) (strip b)). apply (il_entry _ a b); auto using trims_strip.
        intros x u E. destruct (strip_around a b X1) as [a' [b' [S1 [S2 [S3 [S4 [S5 [p [S6 S7]]]]]]]]].
        rewrite X2 in S. rewrite S1 in S. apply (P x t). f_equal.
        destruct (trims_strip a') as [u1 [v1 [Y1 [Y2 _]]]]. rewrite S3, E in Y1.
        destruct u1 as [|y1 u1]; simpl in Y1; rewrite Y1 in S; simpl in S; injection S as S _; auto.
        exfalso. apply (S5 y1 _ Y1). now inversion Y2.
      * destruct X as [X1 X2]. exfalso. apply X1. congruence.
    + eexists. eapply il_alone; eauto. discriminate.
Qed.
Lemma lines_total ls : exists is, Forall2 ini_line ls is.
Proof. induction ls as [|l ls [is F]]; [exists []; constructor|]. destruct (line_total l) as [i H]. exists (i :: is). now constructor. Qed.
Lemma ini_total_pf : forall s, exists is, ini_file s is.
Proof.
  intros s. destruct (lines_total (StrSplit 10 s)) as [is F]. exists is, (StrSplit 10 s).
  destruct (split_spec 10 s) as [A [B C]]. split; auto. split; [now rewrite lines_join|]. auto.
Qed.

(** ** URLs *)
Lemma rcut_none c s : ~ In c s -> rcut c s = None.
Proof.
  induction s as [|x t IH]; simpl; auto. intros H. rewrite IH by tauto.
  destruct (N.eqb_spec x c); auto. exfalso. auto.
Qed.
Lemma rcut_at c b : ~ In c b -> forall a, rcut c (a ++ c :: b) = Some (a, b).
Proof.
  intros H. induction a as [|x a IH]; simpl.
  - rewrite rcut_none by auto. now rewrite N.eqb_refl.
  - now rewrite IH.
Qed.
Lemma rcut_spec c : forall s, match rcut c s with Some (a, b) => s = a ++ c :: b /\ ~ In c b | None => ~ In c s end.
Proof.
  induction s as [|x t IH]; simpl; auto. destruct (rcut c t) as [[a b]|].
  - destruct IH as [-> H]. auto.
  - destruct (N.eqb_spec x c) as [->|Ne]; [auto|]. intros [?|?]; auto.
Qed.
Lemma consume_app p t : consume p (p ++ t) = Some t.
Proof.
  unfold consume. assert (starts_with (p ++ t) p = true) as -> by (apply starts_with_spec; eauto).
  f_equal. induction p; simpl; auto.
Qed.
Lemma consume_none p s : (forall t, s <> p ++ t) -> consume p s = None.
Proof.
  intros H. unfold consume. destruct (starts_with s p) eqn:E; auto. apply starts_with_spec in E. destruct E as [t E]. exfalso. eapply H; eauto.
Qed.
Lemma consume_spec p s t : consume p s = Some t -> s = p ++ t.
Proof.
  unfold consume. destruct (starts_with s p) eqn:E; [|discriminate]. apply starts_with_spec in E. destruct E as [u ->].
  intros [= <-]. f_equal. induction p; simpl; auto.
Qed.
Definition after_scheme (tls : bool) (s : list N) : url :=
  let (host_port, rest) := cut 47 s in
  let path := match rest with None => [47] | Some t => 47 :: t end in
  match rcut 58 host_port with
  | None => Url host_port (if tls then str "443" else str "80") path tls
  | Some (h, p) => Url h p path tls
  end.
Lemma parse_scheme sc tls s : scheme sc tls -> (sc = [] -> bare_ok s) -> ParseHttpUrl (sc ++ s) = after_scheme tls s.
Proof.
  intros [| |] B; unfold ParseHttpUrl.
  - rewrite str_text, consume_app. reflexivity.
  - rewrite consume_none by (intros t X; discriminate X). rewrite (str_text "http://"), consume_app. reflexivity.
  - simpl app. rewrite consume_none by (intros t; apply (B eq_refl t)). rewrite consume_none by (intros t; apply (B eq_refl t)). reflexivity.
Qed.
Lemma cut_path a w path : ~ In 47 a -> path_part w path ->
  exists r, cut 47 (a ++ w) = (a, r) /\ match r with None => [47] | Some t => 47 :: t end = path.
Proof.
  intros H [|t].
  - rewrite app_nil_r. exists None. split; auto. now apply cut_none.
  - exists (Some t). split; auto. now apply cut_at.
Qed.
Lemma url_parsed_pf : forall s e u, url_text s e u -> e = true \/ ~ In 58 (u_host u) -> ParseHttpUrl s = u.
Proof.
  intros s e u [sc tls a e' h p w path Hs Ha Hp B] X. rewrite (parse_scheme _ tls) by auto. unfold after_scheme.
  destruct Ha as [h p [H1 H2] P1 P2 P3|h [H1 H2]].
  - destruct (cut_path (h ++ 58 :: p) w path) as [r [-> R]]; auto.
    { intros I. apply in_app_or in I. destruct I as [I|[I|I]]; auto. discriminate. }
    rewrite rcut_at by auto. now rewrite R.
  - destruct (cut_path h w path) as [r [-> R]]; auto. destruct X as [X|X]; [discriminate|]. simpl in X.
    rewrite rcut_none by auto. rewrite R. destruct tls; reflexivity.
Qed.
Lemma parse_shape s : exists tls, (~ In 47 (u_host (ParseHttpUrl s)) /\ ~ In 47 (u_port (ParseHttpUrl s)) /\ ~ In 58 (u_port (ParseHttpUrl s)))
  /\ u_tls (ParseHttpUrl s) = tls.
Proof.
  assert (A : forall tls s, ~ In 47 (u_host (after_scheme tls s)) /\ ~ In 47 (u_port (after_scheme tls s)) /\ ~ In 58 (u_port (after_scheme tls s))).
  { intros tls t. unfold after_scheme. pose proof (cut_spec 47 t) as C. destruct (cut 47 t) as [hp r]. destruct C as [C _].
    pose proof (rcut_spec 58 hp) as R. destruct (rcut 58 hp) as [[h p]|]; cbn [u_host u_port].
    - destruct R as [-> R]. split; [|split; auto]; intros I; apply C, in_or_app; simpl; auto.
    - split; auto. destruct tls; split; intros I; repeat (destruct I as [I|I]; [discriminate I|]); exact I. }
  eexists. split; [|reflexivity]. unfold ParseHttpUrl. destruct (consume (str "https://") s); [apply (A true)|].
  destruct (consume (str "http://") s); apply (A false).
Qed.
Lemma default_shape tls : ~ In 58 (default_port tls) /\ ~ In 47 (default_port tls).
Proof. destruct tls; split; intros I; repeat (destruct I as [I|I]; [discriminate I|]); exact I. Qed.
Lemma endpoint_same_pf : forall s, let u := ParseHttpUrl s in ~ In 58 (u_host u) ->
  ParseHttpUrl ((if u_tls u then text "https://" else text "http://") ++ endpoint_of s) = Url (u_host u) (u_port u) [47] (u_tls u).
Proof.
  intros s u H. destruct (parse_shape s) as [tls [[A [B C]] T]]. fold u in A, B, C, T.
  assert (Sc : scheme (if u_tls u then text "https://" else text "http://") (u_tls u)) by (destruct (u_tls u); constructor).
  assert (Sne : (if u_tls u then text "https://" else text "http://") <> []) by (destruct (u_tls u); discriminate).
  rewrite (parse_scheme _ (u_tls u)); auto; [|contradiction]. unfold after_scheme, endpoint_of. fold u.
  destruct (str_eq (u_port u) (if u_tls u then str "443" else str "80")) eqn:E.
  - apply str_eq_spec in E. rewrite cut_none by auto. rewrite rcut_none by auto. now rewrite E.
  - rewrite cut_none; [rewrite rcut_at by auto; reflexivity|]. intros I. apply in_app_or in I. destruct I as [I|[I|I]]; auto. discriminate.
Qed.
Lemma endpoint_text_pf s e u t : url_text s e u -> e = true \/ ~ In 58 (u_host u) -> endpoint_text u t -> endpoint_of s = t.
Proof.
  intros U X T. unfold endpoint_of. rewrite (url_parsed_pf s e u U X). cbv zeta.
  change (if u_tls u then str "443" else str "80") with (default_port (u_tls u)).
  destruct (str_eq (u_port u) (default_port (u_tls u))) eqn:E.
  - apply str_eq_spec in E. destruct T as [[_ ->]|[Ne _]]; [reflexivity|contradiction].
  - destruct T as [[Eq _]|[_ ->]]; [|reflexivity]. apply str_eq_spec in Eq. congruence.
Qed.
Lemma full_has w n v : getenv_full w n = Some v <-> has w n v.
Proof.
  unfold getenv_full, has, var, getenv. change str with text. destruct (w_env w (text n)) as [[|x t]|]; split; try discriminate; intros H.
  - destruct H as [[= <-] H]. contradiction.
  - split; auto. injection H as <-. discriminate.
  - apply H.
  - destruct H. discriminate.
Qed.
Lemma full_unset w n : getenv_full w n = None <-> unset w n.
Proof.
  split.
  - intros H v X. apply full_has in X. congruence.
  - intros H. destruct (getenv_full w n) eqn:E; auto. apply full_has in E. exfalso. eapply H; eauto.
Qed.
Lemma china_iff region : starts_with region (str "cn-") = true <-> china region.
Proof. apply starts_with_spec. Qed.
Lemma endpoint_pf : forall w over region s, endpoint_rule w over region s ->
  (over <> [] -> url_ok over) -> (forall v, has w "AWS_S3_ENDPOINT" v -> url_ok v) -> service_endpoint w over region = s.
Proof.
  intros w over region s H O1 O2. unfold service_endpoint. destruct H as [e u s Ho U T|v e u s -> Hv U T| -> U C| -> U C].
  - destruct over as [|x o] eqn:E; [contradiction|]. apply (endpoint_text_pf _ e u); auto. now apply (proj2 (O1 Ho)).
  - rewrite (proj2 (full_has _ _ _) Hv). apply (endpoint_text_pf _ e u); auto. now apply (proj2 (O2 v Hv)).
  - rewrite (proj2 (full_unset _ _) U). unfold dns_suffix. rewrite (proj2 (china_iff _) C). reflexivity.
  - rewrite (proj2 (full_unset _ _) U). unfold dns_suffix. destruct (starts_with region (str "cn-")) eqn:E; [|reflexivity].
    exfalso. apply C. now apply china_iff.
Qed.

(** ** Region *)
Lemma first_full_keep key es acc : acc <> [] -> first_full key es acc = acc.
Proof.
  revert acc. induction es as [|[k v] es IH]; simpl; auto. intros acc H. destruct (str_eq k key); auto.
  destruct acc; [contradiction|auto].
Qed.
Lemma first_full_skip key r e2 : forall e1, r <> [] -> (forall v, In (key, v) e1 -> v = []) ->
  first_full key (e1 ++ (key, r) :: e2) [] = r.
Proof.
  induction e1 as [|[k v] e1 IH]; intros Hr H; cbn [first_full app].
  - assert (str_eq key key = true) as -> by now apply str_eq_spec. now apply first_full_keep.
  - destruct (str_eq k key) eqn:E.
    + apply str_eq_spec in E. subst k. rewrite (H v) by now left. apply IH; auto. intros u Hu. apply H. now right.
    + apply IH; auto. intros u Hu. apply H. now right.
Qed.
Lemma first_full_find key : forall es, first_full key es [] <> [] ->
  exists e1 e2, es = e1 ++ (key, first_full key es []) :: e2 /\ forall v, In (key, v) e1 -> v = [].
Proof.
  induction es as [|[k v] es IH]; cbn [first_full]; [contradiction|]. destruct (str_eq k key) eqn:E.
  - apply str_eq_spec in E. subst k. destruct v as [|x v].
    + intros H. destruct (IH H) as [e1 [e2 [Q1 Q2]]]. exists ((key, []) :: e1), e2. rewrite Q1 at 1. split; auto.
      intros v [[= <-]|Hv]; auto.
    + intros _. rewrite first_full_keep by discriminate. exists [], es. split; auto. contradiction.
  - intros H. destruct (IH H) as [e1 [e2 [Q1 Q2]]]. exists ((k, v) :: e1), e2. rewrite Q1 at 1. split; auto.
    intros u [[= -> _]|Hv]; auto. assert (str_eq key key = true) by now apply str_eq_spec. congruence.
Qed.
Lemma home_eq w n : home_path w n = home_file w n.
Proof. unfold home_path, home_file, var, getenv. change str with text. destruct (w_env w (text "HOME")); reflexivity. Qed.
Definition file_region (w : world) : list N :=
  let path := match getenv w "AWS_CONFIG_FILE" with Some p => p | None => home_path w "/.aws/config" end in
  let prof := match getenv w "AWS_PROFILE" with Some p => p | None => str "default" end in
  let sec := if str_eq prof (str "default") then str "default" else str "profile " ++ prof in
  match w_file w path with Some f => first_full (str "region") (ParseIniSection f sec) [] | None => [] end.
Lemma file_region_iff w r : config_region w r <-> file_region w = r /\ r <> [].
Proof.
  unfold config_region, file_region. rewrite home_eq.
  change (match getenv w "AWS_CONFIG_FILE" with Some p => p | None => home_file w "/.aws/config" end)
    with (or_else (var w "AWS_CONFIG_FILE") (home_file w "/.aws/config")).
  change (match getenv w "AWS_PROFILE" with Some p => p | None => str "default" end) with (profile w).
  set (sec := if list_eq_dec N.eq_dec (profile w) (text "default") then text "default" else text "profile " ++ profile w).
  assert (Es : (if str_eq (profile w) (str "default") then str "default" else str "profile " ++ profile w) = sec).
  { unfold sec. destruct (list_eq_dec N.eq_dec (profile w) (text "default")) as [E|E].
    - rewrite E. reflexivity.
    - destruct (str_eq (profile w) (str "default")) eqn:X; [|reflexivity]. apply str_eq_spec in X. contradiction. }
  cbv zeta. rewrite Es. destruct (w_file w _) as [f|] eqn:F.
  - split.
    + intros [file [is [e1 [e2 [[= <-] [I [Q [Hr H]]]]]]]]. rewrite (ini_spec_pf f is sec I). rewrite Q. split; auto. now apply first_full_skip.
    + intros [E Hr]. destruct (ini_total_pf f) as [is I]. rewrite (ini_spec_pf f is sec I) in E.
      destruct (first_full_find (str "region") (section sec is)) as [e1 [e2 [Q1 Q2]]]; [congruence|].
      exists f, is, e1, e2. rewrite E in Q1. auto.
  - split; [intros [file [is [e1 [e2 [X _]]]]]; discriminate|]. intros [<- H]. contradiction.
Qed.
Lemma region_pf : forall w given r, region_rule w given r ->
  var w "AWS_REGION" <> Some [] -> var w "AWS_DEFAULT_REGION" <> Some [] ->
  (forall a b, var w "AWS_REGION" = Some a -> var w "AWS_DEFAULT_REGION" = Some b -> a = b) ->
  region_of w given = r.
Proof.
  intros w given r H N1 N2 Sa.
  assert (U : forall n, unset w n -> var w n <> Some [] -> getenv w n = None).
  { intros n Hu Hn. unfold var in Hn. unfold getenv. change str with text. destruct (w_env w (text n)) as [[|x t]|] eqn:E; auto; [contradiction|].
    exfalso. apply (Hu (x :: t)). split; [exact E|discriminate]. }
  assert (R : given = [] -> unset w "AWS_REGION" -> unset w "AWS_DEFAULT_REGION" ->
     region_of w given = match file_region w with [] => text "us-east-1" | q => q end).
  { intros -> U1 U2. unfold region_of. rewrite (U _ U2 N2), (U _ U1 N1).
    change (match file_region w with [] => str "us-east-1" | _ => file_region w end = match file_region w with [] => text "us-east-1" | q => q end).
    destruct (file_region w); reflexivity. }
  destruct H as [H|r Hg [H Hn]|r Hg U1 [H Hn]|r Hg U1 U2 C|Hg U1 U2 C].
  - unfold region_of. destruct given; [contradiction|reflexivity].
  - subst given. unfold region_of. change (getenv w "AWS_DEFAULT_REGION") with (var w "AWS_DEFAULT_REGION").
    change (getenv w "AWS_REGION") with (var w "AWS_REGION").
    destruct (var w "AWS_DEFAULT_REGION") eqn:E; [now rewrite (Sa r l)|]. now rewrite H.
  - subst given. unfold region_of. change (getenv w "AWS_DEFAULT_REGION") with (var w "AWS_DEFAULT_REGION"). now rewrite H.
  - rewrite R by auto. apply file_region_iff in C. destruct C as [-> C]. destruct r; [contradiction|reflexivity].
  - rewrite R by auto. destruct (file_region w) as [|x q] eqn:E; [reflexivity|]. exfalso. apply (C (x :: q)). apply file_region_iff. split; auto. discriminate.
Qed.

(** ** Sources *)
Fixpoint last_val (key : list N) (es : list (list N * list N)) (d : list N) : list N :=
  match es with [] => d | (k, v) :: es' => last_val key es' (if str_eq k key then v else d) end.
Lemma last_none key es d : (forall w, ~ In (key, w) es) -> last_val key es d = d.
Proof.
  revert d. induction es as [|[k v] es IH]; simpl; auto. intros d H. destruct (str_eq k key) eqn:E.
  - apply str_eq_spec in E. subst k. exfalso. apply (H v). now left.
  - apply IH. intros w Hw. apply (H w). now right.
Qed.
Lemma last_app key e1 : forall e2 d, last_val key (e1 ++ e2) d = last_val key e2 (last_val key e1 d).
Proof. induction e1 as [|[k v] e1 IH]; simpl; auto. Qed.
Lemma setting_eq key es v : setting key es v -> last_val key es [] = v.
Proof.
  intros [[e1 [e2 [-> H]]]|[-> H]]; [|now apply last_none].
  rewrite last_app. cbn [last_val]. assert (str_eq key key = true) as -> by now apply str_eq_spec. now apply last_none.
Qed.
Lemma setting_last key : forall es, setting key es (last_val key es []).
Proof.
  intros es. induction es as [|[k v] es IH] using rev_ind; [right; split; [reflexivity|intros w []]|].
  rewrite last_app. cbn [last_val]. destruct (str_eq k key) eqn:E.
  - apply str_eq_spec in E. subst k. left. exists es, []. split; [reflexivity|intros w []].
  - assert (Ne : k <> key) by (intros X; apply str_eq_spec in X; congruence).
    destruct IH as [[e1 [e2 [E2 H]]]|[E2 H]].
    + left. exists e1, (e2 ++ [(k, v)]). rewrite E2 at 1. rewrite <- app_assoc. split; auto.
      intros w I. apply in_app_or in I. destruct I as [I|[I|[]]]; [eapply H; eauto|congruence].
    + right. split; auto. intros w I. apply in_app_or in I. destruct I as [I|[I|[]]]; [eapply H; eauto|congruence].
Qed.
Lemma profile_creds_eq : forall es c, profile_creds es c =
  Creds (last_val (str "aws_access_key_id") es (k_id c)) (last_val (str "aws_secret_access_key") es (k_secret c))
    (last_val (str "aws_session_token") es (k_token c)) (k_expiry c).
Proof.
  induction es as [|[k v] es IH]; intros c; cbn [profile_creds last_val]; [destruct c; reflexivity|].
  rewrite IH. destruct (str_eq k (str "aws_access_key_id")) eqn:E1.
  { apply str_eq_spec in E1. subst k. reflexivity. }
  destruct (str_eq k (str "aws_secret_access_key")) eqn:E2.
  { apply str_eq_spec in E2. subst k. reflexivity. }
  destruct (str_eq k (str "aws_session_token")) eqn:E3; reflexivity.
Qed.
Lemma env_iff w region c : try_environment w = Gets c <-> offers w region EnvSrc c.
Proof.
  unfold try_environment, offers. rewrite <- !full_has.
  destruct (getenv_full w "AWS_ACCESS_KEY_ID") as [id|]; [|split; [discriminate|intros [X _]; discriminate]].
  destruct (getenv_full w "AWS_SECRET_ACCESS_KEY") as [se|]; [|split; [discriminate|intros [_ [X _]]; discriminate]].
  change (match getenv w "AWS_SESSION_TOKEN" with Some t => t | None => [] end) with (or_else (var w "AWS_SESSION_TOKEN") []).
  split.
  - intros [= <-]. cbn [k_id k_secret k_token k_expiry]. auto.
  - intros [[= ->] [[= ->] [<- E]]]. destruct c; cbn in *. now rewrite E.
Qed.
Lemma prof_iff w region c : try_profile w = Gets c <-> offers w region ProfSrc c.
Proof.
  unfold try_profile, offers. rewrite home_eq.
  change (match getenv w "AWS_SHARED_CREDENTIALS_FILE" with Some p => p | None => home_file w "/.aws/credentials" end)
    with (or_else (var w "AWS_SHARED_CREDENTIALS_FILE") (home_file w "/.aws/credentials")).
  change (match getenv w "AWS_PROFILE" with Some p => p | None => str "default" end) with (profile w). cbv zeta.
  destruct (w_file w _) as [f|]; [|split; [discriminate|intros [f [is [X _]]]; discriminate]].
  rewrite profile_creds_eq. cbn [k_id k_secret k_token k_expiry]. split.
  - intros H. destruct (ini_total_pf f) as [is I]. exists f, is. split; auto. split; auto.
    rewrite (ini_spec_pf f is (profile w) I) in H.
    destruct (last_val (str "aws_access_key_id") (section (profile w) is) []) as [|x id] eqn:E1; [discriminate|].
    destruct (last_val (str "aws_secret_access_key") (section (profile w) is) []) as [|y se] eqn:E2; [discriminate|].
    injection H as <-. cbn [k_id k_secret k_token k_expiry]. rewrite <- E1, <- E2.
    split; [split; [apply setting_last|split; apply setting_last]|]. rewrite E1, E2. split; [discriminate|split; [discriminate|reflexivity]].
  - intros [f' [is [[= <-] [I [[S1 [S2 S3]] [N1 [N2 E]]]]]]]. rewrite (ini_spec_pf f is (profile w) I).
    change str with text. rewrite (setting_eq _ _ _ S1), (setting_eq _ _ _ S2), (setting_eq _ _ _ S3).
    destruct c as [[|x id] [|y se] tok ex]; cbn in *; try contradiction. now rewrite E.
Qed.
Lemma expires_iff w s e : expires w s e <-> expiry_of w s = e.
Proof. unfold expires, expiry_of. destruct s as [s|]; [destruct (w_time w s)|]; split; congruence. Qed.
Lemma sts_iff region h : sts_host region h <-> sts_endpoint region = h.
Proof.
  unfold sts_host, sts_endpoint, dns_suffix. destruct (starts_with region (str "cn-")) eqn:E.
  - apply china_iff in E. split; [intros [[_ ->]|[X _]]; [reflexivity|contradiction]|]. intros <-. left. split; auto.
  - assert (N : ~ china region) by (rewrite <- china_iff; congruence).
    split; [intros [[X _]|[_ ->]]; [contradiction|reflexivity]|]. intros <-. now right.
Qed.
Lemma web_iff w region c : try_web w region = Gets c <-> offers w region WebSrc c.
Proof.
  unfold try_web, offers. split.
  - intros H. destruct (getenv_full w "AWS_ROLE_ARN") as [role|] eqn:E1; [|discriminate].
    destruct (getenv_full w "AWS_WEB_IDENTITY_TOKEN_FILE") as [path|] eqn:E2; [|discriminate].
    destruct (w_file w path) as [f|] eqn:E3; [|discriminate]. cbv zeta in H.
    destruct (w_net w _) as [b|] eqn:E4 in H; [|discriminate]. unfold parse_sts in H.
    destruct (w_xml w b) as [child|] eqn:E5; [|discriminate].
    destruct (child (str "AccessKeyId")) as [|x id] eqn:E6; [discriminate|].
    destruct (child (str "SecretAccessKey")) as [|y se] eqn:E7; [discriminate|]. injection H as <-. cbn [k_id k_secret k_token k_expiry].
    exists role, path, f, (strip f), b, child, (sts_endpoint region).
    split; [now apply full_has|]. split; [now apply full_has|]. split; auto. split; [apply trims_strip|]. split; [now apply sts_iff|].
    split; [exact E4|]. split; auto. split; [symmetry; exact E6|]. split; [symmetry; exact E7|]. split; [reflexivity|].
    split; [discriminate|]. split; [discriminate|]. apply expires_iff. change str with text. destruct (child (text "Expiration")); reflexivity.
  - intros [role [path [f [tok [b [child [host [H1 [H2 [H3 [H4 [H5 [H6 [H7 [A [B [C [N1 [N2 E]]]]]]]]]]]]]]]]]]].
    apply full_has in H1, H2. rewrite H1, H2, H3. cbv zeta. apply sts_iff in H5. rewrite (trims_eq _ _ H4), H5.
    change str with text. rewrite H6. unfold parse_sts. rewrite H7. change str with text; rewrite <- A, <- B, <- C.
    apply expires_iff in E. destruct c as [[|x id] [|y se] t ex]; cbn [k_id k_secret k_token k_expiry] in *; try contradiction.
    f_equal. f_equal. rewrite <- E. destruct (child (text "Expiration")); reflexivity.
Qed.
Lemma json_iff w b c : proper w -> (exists q, w_net w q = Some b) -> (parse_json w b = Gets c <-> json_creds w b c) /\ parse_json w b <> Undefined.
Proof.
  intros P [q Q]. destruct (P q b Q) as [P1 P2]. unfold parse_json, json_creds. destruct b as [|x b]; [contradiction|].
  destruct (w_json w (x :: b)) as [| |f] eqn:J; [|contradiction|].
  - split; [|discriminate]. split; [discriminate|]. intros [f [X _]]. discriminate.
  - change str with text. split.
    + split.
      * intros H. exists f. split; auto. destruct (f (text "AccessKeyId")) as [id|]; [|discriminate].
        destruct (f (text "SecretAccessKey")) as [se|]; [|discriminate]. injection H as <-. cbn [k_id k_secret k_token k_expiry].
        split; auto. split; auto. split; auto. now apply expires_iff.
      * intros [f' [[= <-] [-> [-> [T E]]]]]. apply expires_iff in E.
        change (match f (text "Token") with Some t => t | None => [] end) with (or_else (f (text "Token")) []).
        rewrite <- T, E. now destruct c.
    + destruct (f (text "AccessKeyId")); [|discriminate]. destruct (f (text "SecretAccessKey")); discriminate.
Qed.
Lemma token_iff w t : match var w "AWS_CONTAINER_AUTHORIZATION_TOKEN" with
  | Some t' => t = t'
  | None => match var w "AWS_CONTAINER_AUTHORIZATION_TOKEN_FILE" with
            | Some p => match w_file w p with Some f => trims f t | None => t = [] end
            | None => t = []
            end
  end <-> container_token w = t.
Proof.
  unfold container_token. change (getenv w) with (var w).
  destruct (var w "AWS_CONTAINER_AUTHORIZATION_TOKEN"); [split; congruence|].
  destruct (var w "AWS_CONTAINER_AUTHORIZATION_TOKEN_FILE"); [|split; congruence].
  destruct (w_file w l); [|split; congruence]. split; [apply trims_eq|]. intros <-. apply trims_strip.
Qed.
Lemma cont_iff w region c : proper w -> uri_ok w ->
  (try_container w = Gets c <-> offers w region ContSrc c) /\ try_container w <> Undefined.
Proof.
  intros P [U1 U2]. unfold try_container, offers. cbv zeta.
  set (uri := match getenv_full w "AWS_CONTAINER_CREDENTIALS_RELATIVE_URI" with
     | Some r => Some (str "http://169.254.170.2" ++ r) | None => getenv_full w "AWS_CONTAINER_CREDENTIALS_FULL_URI" end).
  assert (R : forall s, uri = Some s <->
     (exists r, has w "AWS_CONTAINER_CREDENTIALS_RELATIVE_URI" r /\ s = text "http://169.254.170.2" ++ r)
     \/ (unset w "AWS_CONTAINER_CREDENTIALS_RELATIVE_URI" /\ has w "AWS_CONTAINER_CREDENTIALS_FULL_URI" s)).
  { intros s. unfold uri. rewrite <- full_unset, <- full_has. destruct (getenv_full w "AWS_CONTAINER_CREDENTIALS_RELATIVE_URI") as [r|] eqn:E.
    - split.
      + intros [= <-]. left. exists r. split; auto. now apply full_has.
      + intros [[r' [H ->]]|[X _]]; [|discriminate]. apply full_has in H. rewrite E in H. injection H as ->. reflexivity.
    - split; [intros H; right; auto|]. intros [[r' [H _]]|[_ H]]; auto. apply full_has in H. congruence. }
  assert (K : forall s, uri = Some s -> url_ok s).
  { intros s H. apply R in H. destruct H as [[r [H ->]]|[_ H]]; auto. }
  destruct uri as [s|].
  - destruct (K s eq_refl) as [[e [u U]] K2]. pose proof (url_parsed_pf s e u U (K2 e u U)) as Pu. rewrite Pu.
    split.
    + split.
      * intros H. destruct (w_net w _) as [b|] eqn:E in H; [|discriminate].
        exists s, (container_token w), e, u, b. split; [now apply R|]. split; [now apply token_iff|]. split; auto. split.
        -- unfold container_headers in E. change str with text in E. destruct (container_token w); exact E.
        -- apply json_iff in H; eauto.
      * intros [s' [t [e' [u' [b [H1 [H2 [H3 [H4 H5]]]]]]]]]. apply R in H1. injection H1 as <-. apply token_iff in H2.
        assert (u' = u) as -> by (rewrite <- Pu; symmetry; eapply url_parsed_pf; eauto).
        assert (Hn : w_net w (Http (u_host u) (u_port u) (u_path u) (str "GET") (container_headers (container_token w)) [] (u_tls u)) = Some b).
        { rewrite H2. unfold container_headers. destruct t; exact H4. }
        rewrite Hn. apply json_iff; eauto.
    + destruct (w_net w _) as [b|] eqn:E; [|discriminate]. apply (json_iff w b c); eauto.
  - split; [|discriminate]. split; [discriminate|]. intros [s [t [e [u [b [H1 _]]]]]]. apply R in H1. discriminate.
Qed.
Definition imds_on (w : world) : bool :=
  match getenv w "AWS_EC2_METADATA_DISABLED" with Some d => negb (str_eq (to_lower d) (str "true")) | None => true end.
Lemma imds_iff w region c : proper w ->
  (imds_on w = true /\ try_imds w = Gets c <-> offers w region ImdsSrc c) /\ try_imds w <> Undefined.
Proof.
  intros P. unfold try_imds, offers. cbv zeta.
  assert (On : imds_on w = true <-> (forall d, var w "AWS_EC2_METADATA_DISABLED" = Some d ->
      map (fun x => if (65 <=? x) && (x <=? 90) then x + 32 else x) d <> text "true")).
  { unfold imds_on. change (getenv w "AWS_EC2_METADATA_DISABLED") with (var w "AWS_EC2_METADATA_DISABLED").
    destruct (var w "AWS_EC2_METADATA_DISABLED") as [d|]; [|split; [intros _ d; discriminate|auto]].
    change (map (fun x => if (65 <=? x) && (x <=? 90) then x + 32 else x)) with to_lower. rewrite negb_true_iff. split.
    - intros H d' [= <-] X. apply str_eq_spec in X. change str with text in H. congruence.
    - intros H. destruct (str_eq _ _) eqn:E; auto. apply str_eq_spec in E. exfalso. now apply (H d eq_refl). }
  rewrite On.
  destruct (w_net w (Http _ _ (str "/latest/api/token") _ _ _ _)) as [tok|] eqn:E1.
  2:{ split; [|discriminate]. split; [intros [_ X]; discriminate|]. intros [_ [t [t' [r [n [b [X _]]]]]]]. exfalso.
      unfold metadata in X. rewrite app_nil_r in X. change str with text in E1. congruence. }
  destruct (w_net w (Http _ _ (str "/latest/meta-data/iam/security-credentials/") _ _ _ _)) as [role|] eqn:E2.
  2:{ split; [|discriminate]. split; [intros [_ X]; discriminate|]. intros [_ [t [t' [r [n [b [X [T [Y _]]]]]]]]]. exfalso.
      unfold metadata in X, Y. rewrite app_nil_r in X, Y. change str with text in E1. change str with text in E2. rewrite E1 in X. injection X as <-.
      rewrite (trims_eq _ _ T) in E2. congruence. }
  assert (X1 : forall t t' r n b, w_net w (metadata "/latest/api/token" "PUT" [] [(text "X-aws-ec2-metadata-token-ttl-seconds", text "21600")]) = Some t ->
     trims t t' -> w_net w (metadata "/latest/meta-data/iam/security-credentials/" "GET" [] [(text "X-aws-ec2-metadata-token", t')]) = Some r ->
     trims r n -> w_net w (metadata "/latest/meta-data/iam/security-credentials/" "GET" n [(text "X-aws-ec2-metadata-token", t')]) = Some b ->
     strip tok = t' /\ strip role = n).
  { intros t t' r n b A B C D F. unfold metadata in A, C. rewrite app_nil_r in A, C. change str with text in E1. change str with text in E2. rewrite E1 in A. injection A as <-.
    apply trims_eq in B. split; auto. rewrite B in E2. rewrite E2 in C. injection C as <-. now apply trims_eq. }
  assert (X2 : strip role <> [] -> forall b, w_net w (Http (str "169.254.169.254") (str "80") (str "/latest/meta-data/iam/security-credentials/" ++ strip role)
     (str "GET") [(str "X-aws-ec2-metadata-token", strip tok)] [] false) = Some b -> forall c,
     (parse_json w b = Gets c <-> exists tok token role name body,
         w_net w (metadata "/latest/api/token" "PUT" [] [(text "X-aws-ec2-metadata-token-ttl-seconds", text "21600")]) = Some tok
         /\ trims tok token
         /\ w_net w (metadata "/latest/meta-data/iam/security-credentials/" "GET" [] [(text "X-aws-ec2-metadata-token", token)]) = Some role
         /\ trims role name /\ name <> []
         /\ w_net w (metadata "/latest/meta-data/iam/security-credentials/" "GET" name [(text "X-aws-ec2-metadata-token", token)]) = Some body
         /\ json_creds w body c)).
  { intros Hr b Hb d. split.
    - intros H. exists tok, (strip tok), role, (strip role), b. unfold metadata. rewrite !app_nil_r.
      split; [exact E1|]. split; [apply trims_strip|]. split; [exact E2|]. split; [apply trims_strip|]. split; auto. split; [exact Hb|].
      apply json_iff in H; eauto.
    - intros [t [t' [r [n [b' [A [B [C [D [F [G J]]]]]]]]]]]. destruct (X1 t t' r n b' A B C D G) as [Y1 Y2].
      rewrite <- Y1, <- Y2 in G. unfold metadata in G. change str with text in Hb. rewrite Hb in G. injection G as <-. apply json_iff; eauto. }
  destruct (strip role) as [|x name] eqn:E3.
  { split; [|discriminate]. split; [intros [_ X]; discriminate|]. intros [_ [t [t' [r [n [b [A [B [C [D [F [G J]]]]]]]]]]]]. exfalso.
    destruct (X1 t t' r n b A B C D G) as [_ Y]. apply F. now rewrite <- Y. }
  destruct (w_net w (Http _ _ (_ ++ x :: name) _ _ _ _)) as [b|] eqn:E4.
  - split; [|apply (json_iff w b c); eauto]. rewrite (X2 ltac:(discriminate) b eq_refl c). reflexivity.
  - split; [|discriminate]. split; [intros [_ X]; discriminate|]. intros [_ [t [t' [r [n [b [A [B [C [D [F [G J]]]]]]]]]]]]. exfalso.
    destruct (X1 t t' r n b A B C D G) as [Y1 Y2]. rewrite <- Y1, <- Y2 in G. unfold metadata in G. change str with text in E4. congruence.
Qed.

(** ** The chain *)
Lemma init_pf : forall w region, proper w -> uri_ok w ->
  (forall s c, Init w region = Ready s c <-> first_offer w region s c)
  /\ (Init w region = NoCreds <-> forall s c, ~ offers w region s c).
Proof.
  intros w region P U.
  assert (T : exists t1 t2 t3 t4 t5 : tried,
    Init w region = orelse t1 EnvSrc (orelse t2 ProfSrc (orelse t3 WebSrc (orelse t4 ContSrc (orelse t5 ImdsSrc NoCreds))))
    /\ (forall c, t1 = Gets c <-> offers w region EnvSrc c) /\ (forall c, t2 = Gets c <-> offers w region ProfSrc c)
    /\ (forall c, t3 = Gets c <-> offers w region WebSrc c) /\ (forall c, t4 = Gets c <-> offers w region ContSrc c)
    /\ (forall c, t5 = Gets c <-> offers w region ImdsSrc c)
    /\ t1 <> Undefined /\ t2 <> Undefined /\ t3 <> Undefined /\ t4 <> Undefined /\ t5 <> Undefined).
  { exists (try_environment w), (try_profile w), (try_web w region), (try_container w), (if imds_on w then try_imds w else Fails).
    split.
    { unfold Init, imds_on. destruct (getenv w "AWS_EC2_METADATA_DISABLED"); auto. destruct (str_eq (to_lower l) (str "true")); reflexivity. }
    split; [intros; apply env_iff|]. split; [intros; apply prof_iff|]. split; [intros; apply web_iff|].
    split; [intros; now apply cont_iff|]. split.
    { intros c. rewrite <- (proj1 (imds_iff w region c P)). destruct (imds_on w); [tauto|]. split; [discriminate|intros [X _]; discriminate]. }
    split; [unfold try_environment; destruct (getenv_full _ _); [|discriminate]; destruct (getenv_full _ _); discriminate|].
    split; [unfold try_profile; destruct (w_file _ _); [|discriminate]; cbv zeta; destruct (k_id _); [discriminate|]; destruct (k_secret _); discriminate|].
    split; [unfold try_web; repeat (match goal with |- context [match ?x with _ => _ end] => destruct x end; try discriminate);
      unfold parse_sts; repeat (match goal with |- context [match ?x with _ => _ end] => destruct x end; try discriminate)|].
    split; [apply (cont_iff w region (Creds [] [] [] 0)); auto|].
    destruct (imds_on w); [|discriminate]. apply (imds_iff w region (Creds [] [] [] 0)); auto. }
  destruct T as [t1 [t2 [t3 [t4 [t5 [-> [O1 [O2 [O3 [O4 [O5 [N1 [N2 [N3 [N4 N5]]]]]]]]]]]]]]].
  set (t := fun s => match s with EnvSrc => t1 | ProfSrc => t2 | WebSrc => t3 | ContSrc => t4 | ImdsSrc => t5 end).
  assert (O : forall s c, t s = Gets c <-> offers w region s c) by (intros []; simpl; auto).
  assert (N : forall s, t s <> Undefined) by (intros []; simpl; auto).
  assert (G : forall l before, order = before ++ l -> (forall s c, In s before -> ~ offers w region s c) ->
    (forall s c, fold_right (fun s r => orelse (t s) s r) NoCreds l = Ready s c -> first_offer w region s c)
    /\ (fold_right (fun s r => orelse (t s) s r) NoCreds l <> InitUb)
    /\ (fold_right (fun s r => orelse (t s) s r) NoCreds l = NoCreds -> forall s c, ~ offers w region s c)).
  { induction l as [|a l IH]; intros before E B; cbn [fold_right].
    - split; [discriminate|]. split; [discriminate|]. intros _ s c. apply B. rewrite app_nil_r in E. rewrite <- E. destruct s; simpl; tauto.
    - destruct (t a) as [| |d] eqn:Ta; cbn [orelse]; [|now apply N in Ta|].
      + apply (IH (before ++ [a])); [rewrite <- app_assoc; exact E|]. intros s c I. apply in_app_or in I. destruct I as [I|[<-|[]]]; auto.
        intros X. apply O in X. congruence.
      + split; [|split; discriminate]. intros s c [= <- <-]. exists before, l. split; auto. split; [now apply O|auto]. }
  specialize (G order [] eq_refl ltac:(simpl; tauto)). cbn [order fold_right t] in G.
  set (r := orelse t1 EnvSrc _) in *. destruct G as [G1 [G2 G3]].
  assert (Uq : forall s c s' c', first_offer w region s c -> first_offer w region s' c' -> s = s' /\ c = c').
  { intros s c s' c' [b [a [E [F H]]]] [b' [a' [E' [F' H']]]].
    assert (s = s').
    { assert (Nd : NoDup order) by (unfold order; repeat constructor; simpl; intuition discriminate).
      rewrite E in E'. clear E. revert b' E' H'. revert H. induction b as [|x b IH]; intros H [|x' b'] E' H'; simpl in E'; injection E' as -> E'; auto.
      - exfalso. apply (H' x' c); [now left|auto].
      - exfalso. apply (H s' c'); [now left|auto].
      - apply (IH (fun s0 c0 I => H s0 c0 (or_intror I)) b' E' (fun s0 c0 I => H' s0 c0 (or_intror I))). }
    subst s'. split; auto. apply O in F. apply O in F'. congruence. }
  split.
  - intros s c. split; [apply G1|]. intros H. destruct r as [| |s' c'] eqn:Er.
    + exfalso. destruct H as [b [a [_ [H _]]]]. eapply G3; eauto.
    + contradiction.
    + destruct (Uq _ _ _ _ H (G1 s' c' eq_refl)) as [-> ->]. reflexivity.
  - split; [apply G3|]. intros H. destruct r as [| |s' c'] eqn:Er; auto; [contradiction|].
    exfalso. destruct (G1 s' c' eq_refl) as [b [a [_ [X _]]]]. eapply H; eauto.
Qed.
