From Verif Require Import Util UrlModel UrlSpec UrlProof CloudListModel CloudListSpec.
From Coq Require Import String Ascii.
Local Open Scope N_scope.

(** ** Requests *)
Definition plain (l : list N) : Prop := ~ In 38 l /\ ~ In 61 l /\ ~ In 63 l.
Lemma text_plain p s : ~ In 38 p -> ~ In 61 p -> ~ In 63 p -> url_text p s -> plain s.
Proof.
  intros A B C H. induction H as [|c s L H (I1 & I2 & I3)|a b s Ha Hb H (I1 & I2 & I3)]; [repeat split; intros []| |].
  - assert (c <> 38 /\ c <> 61 /\ c <> 63). { destruct L as [L|[L|[L|L]]]; [lia|lia|lia|]. repeat split; intros ->; auto. }
    repeat split; intros [X|X]; try tauto; lia.
  - unfold upper_hex in *. repeat split; intros [X|[X|[X|X]]]; try tauto; lia.
Qed.
Lemma enc_some src dest : bytes src -> exists e, AppendUrlEncoded src dest = Some (dest ++ e) /\ decodes e src /\ plain e.
Proof.
  intros H. destruct (url_encode_spec_pf src dest H) as (e & E & T & _ & D). exists e. split; [exact E|]. split; [exact D|]. apply text_plain in T; auto; intros X; cbn in X; lia.
Qed.
Lemma join_snoc ps p : ps <> [] -> join 38 (ps ++ [p]) = join 38 ps ++ 38 :: p.
Proof. induction ps as [|a [|b ps] IH]; intros H; [congruence|reflexivity|]. cbn [app join] in *. rewrite IH by discriminate. now rewrite <- app_assoc. Qed.

(** One more parameter. *)
Lemma sees_add url path ps k raw v : sees url path ps -> decodes raw v -> ~ In 38 raw -> ~ In 38 k -> ~ In 61 k -> sees (url ++ 38 :: k ++ 61 :: raw) path (ps ++ [(k, v)]).
Proof.
  intros (N & rs & Ne & F & ->) D A B C. split; [exact N|]. exists (rs ++ [(k, raw)]). split; [destruct rs; discriminate|]. split.
  - apply Forall2_app; [exact F|]. constructor; [|constructor]. repeat split; auto.
  - rewrite map_app. cbn [map fst snd]. rewrite join_snoc by (destruct rs; [congruence|discriminate]). now rewrite <- app_assoc.
Qed.
Lemma decodes_plain l : ~ In 37 l -> decodes l l.
Proof. induction l as [|c l IH]; intros H; constructor; [intros ->; apply H; now left|]. apply IH. intros X. apply H. now right. Qed.
Ltac lit := cbv; intros X; repeat (destruct X as [X|X]; [discriminate|]); exact X.
Lemma digits_no c l : digits l -> c < 48 \/ 57 < c -> ~ In c l.
Proof. intros F H X. unfold digits in F. rewrite Forall_forall in F. apply F in X. lia. Qed.
Lemma sees_one path k v raw : ~ In 63 path -> decodes raw v -> ~ In 38 raw -> ~ In 38 k -> ~ In 61 k -> sees (path ++ 63 :: k ++ 61 :: raw) path [(k, v)].
Proof. intros A B C D E. split; [exact A|]. exists [(k, raw)]. split; [discriminate|]. split; [|reflexivity]. constructor; [|constructor]. repeat split; auto. Qed.
Lemma add_enc url path ps (s : string) k x : sees url path ps -> bytes x -> str s = 38 :: k ++ [61] -> ~ In 38 k -> ~ In 61 k ->
  exists u, AppendUrlEncoded x (url ++ str s) = Some u /\ sees u path (ps ++ [(k, x)]).
Proof.
  intros H B E N1 N2. destruct (enc_some x (url ++ str s) B) as (e & E1 & D & P1 & _). eexists. split; [exact E1|]. rewrite E. replace ((url ++ 38 :: k ++ [61]) ++ e) with (url ++ 38 :: k ++ 61 :: e) by (rewrite <- !app_assoc; cbn; now rewrite <- app_assoc).
  now apply sees_add.
Qed.
Lemma add_opt url path ps (s : string) (k : string) x : sees url path ps -> bytes x -> str s = 38 :: str k ++ [61] -> ~ In 38 (str k) -> ~ In 61 (str k) ->
  exists u, opt_enc s x url = Some u /\ sees u path (ps ++ opt k x).
Proof. intros H B E N1 N2. destruct x as [|c x]; [exists url; rewrite app_nil_r; auto|]. unfold opt_enc, opt. now apply add_enc. Qed.
Lemma add_delim url path ps (recursive : bool) (s : string) : sees url path ps -> (s = "&delimiter=%2f" \/ s = "&delimiter=%2F")%string -> sees (opt_lit (negb recursive) s url) path (ps ++ delim recursive).
Proof.
  intros H E. destruct recursive; cbn [negb opt_lit delim]; [now rewrite app_nil_r|].
  assert (D : forall raw, decodes raw [47] -> ~ In 38 raw -> sees (url ++ 38 :: str "delimiter" ++ 61 :: raw) path (ps ++ [(str "delimiter", [47])])).
  { intros raw D N. apply sees_add; auto; lit. }
  destruct E as [-> | ->].
  - apply (D [37; 50; 102]); [|lit]. change [47] with [16 * 2 + 15]. constructor; [reflexivity|reflexivity|constructor].
  - apply (D [37; 50; 70]); [|lit]. change [47] with [16 * 2 + 15]. constructor; [reflexivity|reflexivity|constructor].
Qed.

Theorem list_gcs_url_pf bucket prefix recursive max token : ~ In 63 bucket -> digits max -> bytes prefix -> bytes token ->
  exists url, gcs_url bucket prefix recursive max token = Some url /\
    sees url (str "/storage/v1/b/" ++ bucket ++ str "/o") ([(str "maxResults", max); (str "prefix", prefix)] ++ delim recursive ++ opt "pageToken" token).
Proof.
  intros Nb Dm Bp Bt. unfold gcs_url.
  assert (S1 : sees (str "/storage/v1/b/" ++ bucket ++ str "/o?maxResults=" ++ max) (str "/storage/v1/b/" ++ bucket ++ str "/o") [(str "maxResults", max)]).
  { replace (str "/storage/v1/b/" ++ bucket ++ str "/o?maxResults=" ++ max) with ((str "/storage/v1/b/" ++ bucket ++ str "/o") ++ 63 :: str "maxResults" ++ 61 :: max) by (rewrite <- !app_assoc; reflexivity).
    apply sees_one; [|apply decodes_plain, digits_no; [exact Dm|lia]|apply digits_no; [exact Dm|lia]|lit|lit].
    intros X. apply in_app_iff in X as [X|X]; [revert X; lit|]. apply in_app_iff in X as [X|X]; [exact (Nb X)|revert X; lit]. }
  destruct (add_enc _ _ _ "&prefix=" (str "prefix") prefix S1 Bp) as (u & E & S2); [reflexivity|lit|lit|].
  rewrite <- !app_assoc in E. rewrite E. cbn [bind]. pose proof (add_delim _ _ _ recursive "&delimiter=%2f" S2 (or_introl eq_refl)) as S3.
  destruct (add_opt _ _ _ "&pageToken=" "pageToken" token S3 Bt) as (w & E2 & S4); [reflexivity|lit|lit|]. exists w. split; [exact E2|].
  rewrite <- !app_assoc in S4. exact S4.
Qed.
Theorem list_s3_url_pf (virt : bool) bucket prefix recursive max token : ~ In 63 bucket -> digits max -> bytes prefix -> bytes token ->
  exists url, s3_url virt bucket prefix recursive max token = Some url /\
    sees url (if virt then str "/" else str "/" ++ bucket) ([(str "list-type", str "2"); (str "max-keys", max)] ++ opt "prefix" prefix ++ delim recursive ++ opt "continuation-token" token).
Proof.
  intros Nb Dm Bp Bt. unfold s3_url. set (path := if virt then str "/" else str "/" ++ bucket).
  assert (Np : ~ In 63 path) by (unfold path; destruct virt; [lit|]; intros X; apply in_app_iff in X as [X|X]; [revert X; lit|exact (Nb X)]).
  assert (S0 : sees (path ++ 63 :: str "list-type" ++ 61 :: str "2") path [(str "list-type", str "2")]) by (apply sees_one; auto; [apply decodes_plain; lit|lit|lit|lit]).
  assert (S1 : sees (path ++ 63 :: (str "list-type=2&max-keys=" ++ max)) path [(str "list-type", str "2"); (str "max-keys", max)]).
  { replace (path ++ 63 :: (str "list-type=2&max-keys=" ++ max)) with ((path ++ 63 :: str "list-type" ++ 61 :: str "2") ++ 38 :: str "max-keys" ++ 61 :: max) by (rewrite <- !app_assoc; reflexivity).
    apply (sees_add _ _ _ (str "max-keys") max max S0); [apply decodes_plain, digits_no; [exact Dm|lia]|apply digits_no; [exact Dm|lia]|lit|lit]. }
  assert (C : forall p x q, opt_enc p x (path ++ 63 :: q) = option_map (fun r => path ++ 63 :: r) (opt_enc p x q)).
  { intros p x q. unfold opt_enc. destruct x; [reflexivity|]. unfold AppendUrlEncoded. destruct (_ <=? _); [|reflexivity]. cbn [option_map]. f_equal. rewrite <- !app_assoc. reflexivity. }
  destruct (add_opt _ _ _ "&prefix=" "prefix" prefix S1 Bp) as (u & E & S2); [reflexivity|lit|lit|]. rewrite C in E.
  destruct (opt_enc "&prefix=" prefix (str "list-type=2&max-keys=" ++ max)) as [q|]; [|discriminate]. cbn [option_map] in E. injection E as <-. cbn [bind].
  pose proof (add_delim _ _ _ recursive "&delimiter=%2F" S2 (or_intror eq_refl)) as S3.
  replace (opt_lit (negb recursive) "&delimiter=%2F" (path ++ 63 :: q)) with (path ++ 63 :: opt_lit (negb recursive) "&delimiter=%2F" q) in S3 by (destruct recursive; cbn [negb opt_lit]; [reflexivity|]; now rewrite <- app_assoc).
  destruct (add_opt _ _ _ "&continuation-token=" "continuation-token" token S3 Bt) as (w & E2 & S4); [reflexivity|lit|lit|]. exists w. split.
  - rewrite <- E2. f_equal. unfold path. destruct virt; [reflexivity|]. rewrite <- !app_assoc. reflexivity.
  - rewrite <- !app_assoc in S4. exact S4.
Qed.
Theorem list_az_url_pf pp container prefix recursive max token : ~ In 63 pp -> ~ In 63 container -> digits max -> bytes prefix -> bytes token ->
  exists url, az_url pp container prefix recursive max token = Some url /\
    sees url (pp ++ str "/" ++ container) ([(str "restype", str "container"); (str "comp", str "list"); (str "maxresults", max)] ++ opt "prefix" prefix ++ delim recursive ++ opt "marker" token).
Proof.
  intros Npp Nc Dm Bp Bt. unfold az_url. set (path := pp ++ str "/" ++ container).
  assert (Np : ~ In 63 path) by (unfold path; intros X; apply in_app_iff in X as [X|X]; [exact (Npp X)|]; apply in_app_iff in X as [X|X]; [revert X; lit|exact (Nc X)]).
  assert (S0 : sees (path ++ 63 :: str "restype" ++ 61 :: str "container") path [(str "restype", str "container")]) by (apply sees_one; auto; [apply decodes_plain; lit|lit|lit|lit]).
  pose proof (sees_add _ _ _ (str "comp") (str "list") (str "list") S0 ltac:(apply decodes_plain; lit) ltac:(lit) ltac:(lit) ltac:(lit)) as S0'.
  pose proof (sees_add _ _ _ (str "maxresults") max max S0' ltac:(apply decodes_plain, digits_no; [exact Dm|lia]) ltac:(apply digits_no; [exact Dm|lia]) ltac:(lit) ltac:(lit)) as S1.
  destruct (add_opt _ _ _ "&prefix=" "prefix" prefix S1 Bp) as (u & E & S2); [reflexivity|lit|lit|].
  replace (((path ++ 63 :: str "restype" ++ 61 :: str "container") ++ 38 :: str "comp" ++ 61 :: str "list") ++ 38 :: str "maxresults" ++ 61 :: max)
    with (pp ++ str "/" ++ container ++ str "?restype=container&comp=list" ++ str "&maxresults=" ++ max) in E by (unfold path; rewrite <- !app_assoc; reflexivity).
  rewrite E. cbn [bind]. pose proof (add_delim _ _ _ recursive "&delimiter=%2f" S2 (or_introl eq_refl)) as S3.
  destruct (add_opt _ _ _ "&marker=" "marker" token S3 Bt) as (w & E2 & S4); [reflexivity|lit|lit|]. exists w. split; [exact E2|].
  rewrite <- !app_assoc in S4. exact S4.
Qed.

Theorem list_buckets_url_pf project token : ~ In 37 project -> ~ In 38 project -> bytes token ->
  exists url, buckets_url project (Some token) = Some url /\
    sees url (str "/storage/v1/b") [(str "project", project); (str "maxResults", str "50"); (str "fields", str "items/id,nextPageToken"); (str "pageToken", token)].
Proof.
  intros N1 N2 Bt.
  assert (S0 : sees (str "/storage/v1/b" ++ 63 :: str "project" ++ 61 :: project) (str "/storage/v1/b") [(str "project", project)]) by (apply sees_one; [lit|now apply decodes_plain|assumption|lit|lit]).
  pose proof (sees_add _ _ _ (str "maxResults") (str "50") (str "50") S0 ltac:(apply decodes_plain; lit) ltac:(lit) ltac:(lit) ltac:(lit)) as S1.
  pose proof (sees_add _ _ _ (str "fields") (str "items/id,nextPageToken") (str "items/id,nextPageToken") S1 ltac:(apply decodes_plain; lit) ltac:(lit) ltac:(lit) ltac:(lit)) as S2.
  destruct (add_enc _ _ _ "&pageToken=" (str "pageToken") token S2 Bt) as (u & E & S3); [reflexivity|lit|lit|]. exists u. split; [|exact S3].
  rewrite <- E. unfold buckets_url. f_equal. rewrite <- !app_assoc. reflexivity.
Qed.

(** A request target is read in one way only. *)
Lemma split_one c p : ~ In c p -> StrSplit c p = [p].
Proof. induction p as [|x p IH]; intros H; [reflexivity|]. cbn. destruct (N.eqb_spec x c) as [->|]; [exfalso; apply H; now left|]. rewrite IH; [reflexivity|]. intros X. apply H. now right. Qed.
Lemma split_cons c p q : ~ In c p -> StrSplit c (p ++ c :: q) = p :: StrSplit c q.
Proof. induction p as [|x p IH]; intros H; cbn; [now rewrite N.eqb_refl|]. destruct (N.eqb_spec x c) as [->|]; [exfalso; apply H; now left|]. rewrite IH; [reflexivity|]. intros X. apply H. now right. Qed.
Lemma split_join ps : ps <> [] -> Forall (fun p => ~ In 38 p) ps -> StrSplit 38 (join 38 ps) = ps.
Proof. induction ps as [|a [|b ps] IH]; intros Ne F; [congruence|inversion_clear F; now apply split_one|]. inversion_clear F. cbn [join]. rewrite split_cons by assumption. f_equal. apply IH; [discriminate|assumption]. Qed.
Lemma first_cut (c : N) a b a' b' : ~ In c a -> ~ In c a' -> a ++ c :: b = a' ++ c :: b' -> a = a' /\ b = b'.
Proof.
  revert a'. induction a as [|x a IH]; intros [|y a'] H H' E; cbn [app] in E.
  - injection E as ->. auto.
  - assert (c = y) by congruence. exfalso. apply H'. now left.
  - assert (x = c) by congruence. exfalso. apply H. now left.
  - assert (x = y) by congruence. assert (E2 : a ++ c :: b = a' ++ c :: b') by congruence. subst y.
    destruct (IH a') as [-> ->]; auto; intros X; [apply H|apply H']; now right.
Qed.
Theorem list_sees_unique_pf url path ps path' ps' : sees url path ps -> sees url path' ps' -> path = path' /\ ps = ps'.
Proof.
  intros (N1 & raw & Ne & F & E) (N2 & raw' & Ne' & F' & E'). rewrite E in E'. apply first_cut in E' as [<- J]; auto. split; [reflexivity|].
  set (g := fun kv : list N * list N => fst kv ++ 61 :: snd kv) in *.
  assert (A : forall r p, Forall2 param r p -> Forall (fun x => ~ In 38 x) (map g r)).
  { intros r p H. induction H as [|a b r p (_ & _ & H1 & _ & H2) H IH]; constructor; [|exact IH]. unfold g. intros X. apply in_app_iff in X as [X|[X|X]]; auto; discriminate. }
  assert (M : map g raw = map g raw').
  { rewrite <- (split_join (map g raw)), <- (split_join (map g raw')), J; eauto; [destruct raw'; [congruence|discriminate]|destruct raw; [congruence|discriminate]]. }
  clear E J A Ne Ne' N1 N2. revert raw' ps' F' M. induction F as [|a b raw ps (P1 & P2 & _ & P4 & _) F IH]; intros raw' ps' F' M; destruct F' as [|a' b' raw' ps' (Q1 & Q2 & _ & Q4 & _) F']; try discriminate; [reflexivity|].
  cbn [map] in M. injection M as M1 M2. f_equal; [|exact (IH _ _ F' M2)]. unfold g in M1. apply first_cut in M1 as [M1 M3]; auto. destruct b as [k v], b' as [k' v']. cbn in *. rewrite M3 in P2. f_equal; [congruence|exact (decodes_det _ _ _ P2 Q2)].
Qed.

(** ** Pages *)
Section A.
Variable item : Type.
Variable page : list N -> list item * option (list N).
(** What a request with token [t] gives. *)
Definition serves (t : list N) : option (list item * list N) := match page t with (l, Some t') => Some (l, t') | _ => None end.
Hypothesis silent : forall t, snd (page t) = None -> fst (page t) = [].
Lemma all_ok t l acc : listing item serves t l -> exists fuel, list_all item page fuel acc t = Ok item (acc ++ l).
Proof.
  intros H. revert acc. induction H as [t l E|t l t' l' E N H IH]; intros acc; unfold serves in E; destruct (page t) as [l1 [t1|]] eqn:P; try discriminate; injection E as -> ->.
  - exists 1%nat. cbn. now rewrite P.
  - destruct (IH (acc ++ l)) as (f & Hf). exists (S f). cbn. rewrite P. destruct t'; [congruence|]. rewrite Hf. now rewrite app_assoc.
Qed.
Lemma all_err t l acc : broken item serves t l -> exists fuel, list_all item page fuel acc t = Err item (acc ++ l).
Proof.
  intros H. revert acc. induction H as [t E|t l t' l' E N H IH]; intros acc; unfold serves in E; destruct (page t) as [l1 [t1|]] eqn:P; try discriminate.
  - exists 1%nat. cbn. rewrite P. pose proof (silent t) as X. rewrite P in X. cbn in X. now rewrite X.
  - injection E as -> ->. destruct (IH (acc ++ l)) as (f & Hf). exists (S f). cbn. rewrite P. destruct t'; [congruence|]. rewrite Hf. now rewrite app_assoc.
Qed.
Lemma all_sound fuel : forall acc t r, list_all item page fuel acc t = r ->
  match r with Ok _ x => exists l, x = acc ++ l /\ listing item serves t l | Err _ x => exists l, x = acc ++ l /\ broken item serves t l | Going _ _ => True end.
Proof.
  induction fuel as [|fuel IH]; intros acc t r <-; [exact I|]. cbn [list_all]. destruct (page t) as [l [[|c t']|]] eqn:P.
  - exists l. split; [reflexivity|]. constructor. unfold serves. now rewrite P.
  - specialize (IH (acc ++ l) (c :: t') _ eq_refl). destruct (list_all item page fuel (acc ++ l) (c :: t')); auto; destruct IH as (l' & -> & H); exists (l ++ l'); (split; [now rewrite app_assoc|]); (econstructor; [unfold serves; now rewrite P|discriminate|exact H]).
  - exists []. pose proof (silent t) as X. rewrite P in X. cbn in X. rewrite X by reflexivity. split; [reflexivity|]. constructor. unfold serves. now rewrite P.
Qed.
End A.

Section B.
Variable item : Type.
Variable serve : list N -> option (gpage item).
Definition next_tok (p : gpage item) : list N := match g_next _ p with Some t => t | None => [] end.
Definition gserver (t : list N) : option (list item * list N) := match serve t with Some p => Some (or_nil _ (g_items _ p), next_tok p) | None => None end.
(** No page without items has a successor; tokens are not empty. *)
Hypothesis full : forall t p, serve t = Some p -> g_next _ p <> Some [] /\ (g_items _ p = None -> g_next _ p = None).
Lemma buckets_ok t l acc : listing item gserver t l -> exists fuel, list_buckets item serve fuel acc t = Ok item (acc ++ l).
Proof.
  intros H. revert acc. induction H as [t l E|t l t' l' E Nt H IH]; intros acc; unfold gserver in E; destruct (serve t) as [p|] eqn:P; try discriminate; injection E as E1 E2; destruct (full _ _ P) as [F1 F2]; unfold next_tok in E2.
  - exists 1%nat. cbn. rewrite P. destruct (g_items _ p) as [x|]; cbn in E1; subst l; [|now rewrite app_nil_r]. destruct (g_next _ p); [congruence|reflexivity].
  - destruct (IH (acc ++ l)) as (f & Hf). exists (S f). cbn. rewrite P. destruct (g_items _ p) as [x|]; cbn in E1; subst l.
    + destruct (g_next _ p); [subst; rewrite Hf; now rewrite app_assoc|congruence].
    + rewrite (F2 eq_refl) in E2. congruence.
Qed.
Lemma buckets_err t l acc : broken item gserver t l -> exists fuel, list_buckets item serve fuel acc t = Err item (acc ++ l).
Proof.
  intros H. revert acc. induction H as [t E|t l t' l' E Nt H IH]; intros acc; unfold gserver in E; destruct (serve t) as [p|] eqn:P; try discriminate.
  - exists 1%nat. cbn. rewrite P. now rewrite app_nil_r.
  - injection E as E1 E2; destruct (full _ _ P) as [F1 F2]; unfold next_tok in E2. destruct (IH (acc ++ l)) as (f & Hf). exists (S f). cbn. rewrite P. destruct (g_items _ p) as [x|]; cbn in E1; subst l.
    + destruct (g_next _ p); [subst; rewrite Hf; now rewrite app_assoc|congruence].
    + rewrite (F2 eq_refl) in E2. congruence.
Qed.
Lemma buckets_sound fuel : forall acc t, match list_buckets item serve fuel acc t with
  Ok _ x => exists l, x = acc ++ l /\ listing item gserver t l | Err _ x => exists l, x = acc ++ l /\ broken item gserver t l | Going _ _ => True end.
Proof.
  induction fuel as [|fuel IH]; intros acc t; [exact I|]. cbn [list_buckets]. destruct (serve t) as [p|] eqn:P; [|exists []; rewrite app_nil_r; split; [reflexivity|]; constructor; unfold gserver; now rewrite P].
  destruct (full _ _ P) as [F1 F2]. destruct (g_items _ p) as [x|] eqn:E1; [destruct (g_next _ p) as [t'|] eqn:E2|].
  - specialize (IH (acc ++ x) t'). assert (Nt : t' <> []) by congruence. destruct (list_buckets item serve fuel (acc ++ x) t'); auto; destruct IH as (l' & -> & H); exists (x ++ l'); (split; [now rewrite app_assoc|]); (econstructor; [unfold gserver, next_tok; rewrite P, E1, E2; reflexivity|exact Nt|exact H]).
  - exists x. split; [reflexivity|]. constructor. unfold gserver, next_tok. now rewrite P, E1, E2.
  - exists []. rewrite app_nil_r. split; [reflexivity|]. constructor. unfold gserver, next_tok. rewrite P, E1, (F2 eq_refl). reflexivity.
Qed.
End B.
