(** Proofs about the HTTP listener. *)
From Coq Require Import String.
From Verif Require Import Util UrlSpec UrlModel UrlProof SignModel SignProof HttpdSpec HttpdModel.
Import ListNotations.
Local Open Scope N_scope.

(** * Texts *)
Lemma str_neq a b : str_eq a b = false <-> a <> b.
Proof.
  split; intros H.
  - intros E. apply str_eq_spec in E. congruence.
  - destruct (str_eq a b) eqn:E; auto. apply str_eq_spec in E. contradiction.
Qed.
Lemma str_refl a : str_eq a a = true.
Proof. now apply str_eq_spec. Qed.
Lemma path_unique t p q : path_of t p q -> ParseQuery t = (p, q).
Proof.
  intros [H1 H2]. unfold ParseQuery. destruct q as [q|]; subst t.
  - now rewrite cut_at by auto.
  - now rewrite cut_none by auto.
Qed.
Lemma split_join ps : ps <> [] -> Forall (fun p => ~ In 38 p) ps -> StrSplit 38 (join 38 ps) = ps.
Proof.
  assert (A : forall p, ~ In 38 p -> StrSplit 38 p = [p]).
  { induction p as [|x p IH]; intros H; simpl; auto. destruct (N.eqb_spec x 38); [subst; simpl in H; tauto|].
    rewrite IH by (simpl in H; tauto). reflexivity. }
  assert (B : forall p r, ~ In 38 p -> StrSplit 38 (p ++ 38 :: r) = p :: StrSplit 38 r).
  { induction p as [|x p IH]; intros r H; simpl; auto. destruct (N.eqb_spec x 38); [subst; simpl in H; tauto|].
    rewrite IH by (simpl in H; tauto). reflexivity. }
  induction ps as [|p ps IH]; [congruence|]. intros _ H. inversion H; subst. destruct ps as [|p2 ps].
  - simpl. now apply A.
  - change (join 38 (p :: p2 :: ps)) with (p ++ 38 :: join 38 (p2 :: ps)). rewrite B by auto. now rewrite IH by (auto; discriminate).
Qed.
Lemma args_unique q args : args_of q args -> SplitQuery q = args.
Proof.
  destruct q as [q|]; [|now intros ->]. intros (ps & H1 & <- & H3 & H4). unfold SplitQuery. rewrite split_join by auto. clear H1 H3.
  induction H4 as [|p [k v] ps args [K1 K2] _ IH]; simpl; auto. rewrite IH. f_equal. simpl in *.
  destruct K2 as [->|[-> ->]]; [rewrite cut_at by auto|rewrite cut_none by auto]; reflexivity.
Qed.

(** * Authorization *)
Lemma says_unique e h u p u' p' : says e h u p -> says e h u' p' -> u = u' /\ p = p'.
Proof.
  intros (b & H1 & H2 & H3) (b' & H1' & H2' & H3'). rewrite H1 in H1'. apply app_inv_head in H1'. subst b'.
  rewrite H2 in H2'. injection H2' as E. pose proof (cut_at 58 u p H3) as C. rewrite E, cut_at in C by auto.
  injection C as <- <-. auto.
Qed.
Lemma check_login e c r p f : c_auth c = Some f -> exists u w, login e (r_auth r) u w /\
  (forall u' w', login e (r_auth r) u' w' -> u' = u /\ w' = w) /\ CheckAuth e c r p = (Some (p, u, w), f p u w).
Proof.
  intros E. unfold CheckAuth. rewrite E.
  assert (Z : (forall u w, ~ says e (r_auth r) u w) -> login e (r_auth r) [] [] /\
    (forall u' w', login e (r_auth r) u' w' -> u' = [] /\ w' = [])).
  { intros H. split; [right; auto|]. intros u' w' [K|(_ & -> & ->)]; auto. destruct (H _ _ K). }
  destruct (nonempty (r_auth r) && starts_with (r_auth r) (txt "Basic ")) eqn:B.
  - apply andb_prop in B as [_ B]. apply starts_with_spec in B as [b B].
    rewrite B. change (skipn 6 (txt "Basic " ++ b)) with b.
    destruct (unb64 e b) as [d|] eqn:D.
    + pose proof (cut_spec 58 d) as C. destruct (cut 58 d) as [u [w|]]; destruct C as [C1 C2].
      * exists u, w. assert (S1 : says e (r_auth r) u w) by (exists b; subst d; auto). rewrite B in S1.
        split; [left; auto|]. split; auto. intros u' w' [K|(K & _)]; [eapply says_unique; eauto|destruct (K _ _ S1)].
      * exists [], []. rewrite B in Z. destruct Z as [Z1 Z2]; auto. intros u' w' (b' & K1 & K2 & _).
        apply app_inv_head in K1. subst b' d. rewrite D in K2. injection K2 as ->. apply C1. apply in_or_app. simpl. auto.
    + exists [], []. rewrite B in Z. destruct Z as [Z1 Z2]; auto. intros u' w' (b' & K1 & K2 & _).
      apply app_inv_head in K1. subst b'. congruence.
  - exists [], []. destruct Z as [Z1 Z2]; auto. intros u' w' (b' & K1 & _). rewrite K1 in B.
    assert (starts_with (txt "Basic " ++ b') (txt "Basic ") = true) by (apply starts_with_spec; eauto). rewrite H in B. discriminate.
Qed.

Lemma root_not_challenge e c fl r a f : HandleRoot e c fl r = Some (a, f) -> a <> AChallenge.
Proof.
  unfold HandleRoot, ParseFlagz, FilezHandler, ProfilezHandler. intros H E. subst a.
  repeat match type of H with
  | context [match ?x with _ => _ end] => destruct x
  | context [if ?x then _ else _] => destruct x
  end; discriminate.
Qed.
Lemma root_not_call e c fl r i args f : HandleRoot e c fl r <> Some (ACall i args, f).
Proof.
  unfold HandleRoot, ParseFlagz, FilezHandler, ProfilezHandler. intros H.
  repeat match type of H with
  | context [match ?x with _ => _ end] => destruct x
  | context [if ?x then _ else _] => destruct x
  end; discriminate.
Qed.
Lemma http_auth_pf : forall e c fl r asked a fl' p q, HandleSingle e c fl r = (asked, a, fl') ->
  path_of (r_target r) p q ->
  match c_auth c with
  | None => asked = None /\ a <> AChallenge
  | Some f => exists u w, login e (r_auth r) u w /\ (forall u' w', login e (r_auth r) u' w' -> u' = u /\ w' = w) /\
      asked = Some (p, u, w) /\ (f p u w = false -> a = AChallenge /\ fl' = fl) /\ (f p u w = true -> a <> AChallenge)
  end.
Proof.
  intros e c fl r asked a fl' p q H P. unfold HandleSingle in H. rewrite (path_unique _ _ _ P) in H.
  destruct (c_auth c) as [f|] eqn:E.
  - destruct (check_login e c r p f E) as (u & w & K1 & K2 & K3). rewrite K3 in H. exists u, w. split; auto. split; auto.
    destruct (f p u w); cbn [negb] in H.
    + destruct (HandleRoot e c fl r) as [[a' f']|] eqn:R.
      * injection H as <- <- <-. repeat split; auto; try discriminate. intros _. eapply root_not_challenge; eauto.
      * destruct (find_cb (c_cbs c) p); injection H as <- <- <-; repeat split; auto; discriminate.
    + injection H as <- <- <-. repeat split; auto. discriminate.
  - unfold CheckAuth in H. rewrite E in H. cbn [negb] in H. destruct (HandleRoot e c fl r) as [[a' f']|] eqn:R.
    * injection H as <- <- <-. split; auto. eapply root_not_challenge; eauto.
    * destruct (find_cb (c_cbs c) p); injection H as <- <- <-; split; auto; discriminate.
Qed.

(** A request that is let through. *)
Lemma through e c fl r asked a fl' p q : HandleSingle e c fl r = (asked, a, fl') -> path_of (r_target r) p q ->
  (a = AChallenge /\ fl' = fl) \/
  match HandleRoot e c fl r with
  | Some x => x = (a, fl')
  | None => fl' = fl /\ a = match find_cb (c_cbs c) p with None => AUnknown | Some id => ACall id (SplitQuery q) end
  end.
Proof.
  intros H P. unfold HandleSingle in H. rewrite (path_unique _ _ _ P) in H. destruct (CheckAuth e c r p) as [k go].
  destruct go; cbn [negb] in H.
  - right. destruct (HandleRoot e c fl r) as [[a' f']|].
    + injection H as <- <- <-. auto.
    + destruct (find_cb (c_cbs c) p); injection H as <- <- <-; auto.
  - left. injection H as <- <- <-. auto.
Qed.

(** * Arguments *)
Lemma last_of_app l k x v : last_of (l ++ [(x, v)]) k = if str_eq x k then v else last_of l k.
Proof. unfold last_of. rewrite fold_left_app. reflexivity. Qed.
Lemma last_of_spec args k : (last_arg args k (last_of args k)) \/ (no_arg args k /\ last_of args k = []).
Proof.
  induction args as [|[x v] l IH] using rev_ind; [right; split; [intros w []|reflexivity]|].
  rewrite last_of_app. destruct (str_eq x k) eqn:E.
  - apply str_eq_spec in E. subst x. left. exists l, []. split; auto.
  - apply str_neq in E. destruct IH as [(a & b & H1 & H2)|[H1 H2]].
    + left. exists a, (b ++ [(x, v)]). split; [rewrite H1 at 1; now rewrite <- app_assoc|].
      intros w K. apply in_app_or in K as [K|[K|[]]]; [eapply H2; eauto|congruence].
    + right. split; auto. intros w K. apply in_app_or in K as [K|[K|[]]]; [eapply H1; eauto|congruence].
Qed.
Lemma last_arg_unique args k v : last_arg args k v -> last_of args k = v.
Proof.
  intros (a & b & -> & H). induction b as [|[x w] b IH] using rev_ind.
  - rewrite last_of_app, str_refl. reflexivity.
  - rewrite app_comm_cons, app_assoc, last_of_app. destruct (str_eq x k) eqn:E.
    + apply str_eq_spec in E. subst. destruct (H w). apply in_or_app. simpl. auto.
    + apply IH. intros w' K. apply (H w'). apply in_or_app. auto.
Qed.
Lemma no_arg_last args k : no_arg args k -> last_of args k = [].
Proof.
  intros H. destruct (last_of_spec args k) as [(a & b & E & _)|[_ E]]; auto.
  destruct (H (last_of args k)). rewrite E at 2. apply in_or_app. simpl. auto.
Qed.

(** * Callbacks *)
Lemma find_cb_cons x i cbs p : find_cb ((x, i) :: cbs) p = if str_eq x p then Some i else find_cb cbs p.
Proof. unfold find_cb. cbn [find fst]. destruct (str_eq x p); reflexivity. Qed.
Lemma find_cb_spec cbs p : match find_cb cbs p with
  | Some id => first_cb cbs p id
  | None => forall i, ~ In (p, i) cbs
  end.
Proof.
  induction cbs as [|[x i] cbs IH]; [simpl; auto|]. rewrite find_cb_cons. destruct (str_eq x p) eqn:E.
  - apply str_eq_spec in E. subst. exists [], cbs. split; auto.
  - apply str_neq in E. destruct (find_cb cbs p) as [j|].
    + destruct IH as (a & b & -> & H). exists ((x, i) :: a), b. split; auto. intros z k [K|K]; [congruence|eauto].
    + intros j [K|K]; [congruence|eapply IH; eauto].
Qed.
Lemma first_unique cbs p i j : first_cb cbs p i -> first_cb cbs p j -> i = j.
Proof.
  revert i j. induction cbs as [|[x k] cbs IH]; intros i j (a & b & E & H) (a' & b' & E' & H').
  - destruct a; discriminate.
  - destruct a as [|y a], a' as [|y' a']; simpl in E, E'.
    + congruence.
    + injection E as -> -> ->. injection E' as <- E'. destruct (H' p i (or_introl eq_refl) eq_refl).
    + injection E' as -> -> ->. injection E as <- E. destruct (H p j (or_introl eq_refl) eq_refl).
    + injection E as <- E. injection E' as <- E'. eapply IH; [exists a, b|exists a', b']; (split; [auto|]); intros; [eapply H|eapply H']; simpl; eauto.
Qed.
Lemma find_first cbs p i : first_cb cbs p i -> find_cb cbs p = Some i.
Proof.
  intros H. pose proof (find_cb_spec cbs p) as F. destruct (find_cb cbs p) as [j|].
  - f_equal. eapply first_unique; eauto.
  - destruct H as (a & b & -> & _). destruct (F i). apply in_or_app. simpl. auto.
Qed.
Lemma find_none cbs p : (forall i, ~ In (p, i) cbs) -> find_cb cbs p = None.
Proof.
  intros H. pose proof (find_cb_spec cbs p) as F. destruct (find_cb cbs p) as [j|]; auto.
  destruct F as (a & b & -> & _). destruct (H j). apply in_or_app. simpl. auto.
Qed.
Lemma http_register_pf : forall cbs p id m ok, RegisterCb cbs p id = (m, ok) ->
  (ok = true <-> forall i, ~ In (p, i) cbs) /\
  (forall x i, first_cb m x i <-> first_cb cbs x i \/ (ok = true /\ x = p /\ i = id)).
Proof.
  intros cbs p id m ok H. unfold RegisterCb in H. pose proof (find_cb_spec cbs p) as F. destruct (find_cb cbs p) as [j|].
  - injection H as <- <-. split.
    + split; [discriminate|]. intros K. destruct F as (a & b & -> & _). destruct (K j). apply in_or_app. simpl. auto.
    + intros x i. split; [auto|]. intros [K|[K _]]; [auto|discriminate].
  - injection H as <- <-. split; [split; auto|]. intros x i. split.
    + intros (a & b & E & K). destruct (list_eq_dec (fun a b : bytes * nat => ltac:(repeat decide equality)) b []) as [->|Hb].
      * apply app_inj_tail in E as [-> E]. injection E as -> ->. auto.
      * destruct (exists_last Hb) as (b' & z & ->). left. exists a, b'. split; [|auto].
        rewrite app_comm_cons, app_assoc in E. apply app_inj_tail in E as [E _]. auto.
    + intros [(a & b & -> & K)|(_ & -> & ->)].
      * exists a, (b ++ [(p, id)]). split; [now rewrite <- app_assoc|auto].
      * exists cbs, []. split; auto. intros x i K E. subst. eapply F; eauto.
Qed.

(** * Dispatch *)
Lemma favicon_path : ParseQuery (txt "/favicon.ico") = (txt "/favicon.ico", None).
Proof. reflexivity. Qed.
Lemma not_own e c fl r p q : path_of (r_target r) p q -> ~ own c p -> r_target r <> txt "/favicon.ico" -> HandleRoot e c fl r = None.
Proof.
  intros P H1 H2. unfold HandleRoot. rewrite (proj2 (str_neq _ _) H2), (path_unique _ _ _ P). unfold own in H1.
  rewrite !(proj2 (str_neq p _)) by tauto.
  destruct (c_metrics c) eqn:M; [|reflexivity]. rewrite (proj2 (str_neq p _)) by tauto. reflexivity.
Qed.
Definition prof_key (k : bytes) : Prop := k = txt "profile" \/ k = txt "heap".
Lemma profilez args : exists cpu en, ProfilezHandler args = AProfile cpu en /\
  (cpu = true <-> no_arg args (txt "heap")) /\
  (en = true <-> exists l k r, args = l ++ (k, txt "on") :: r /\ (k = txt "profile" \/ k = txt "heap") /\
     no_arg r (txt "profile") /\ no_arg r (txt "heap")).
Proof.
  unfold ProfilezHandler. eexists _, _. split; [reflexivity|].
  set (st := fun (s : bool * bool) kv => _).
  induction args as [|[x v] l [IH1 IH2]] using rev_ind.
  - simpl. split; [split; auto; intros _ w []|]. split; [discriminate|]. intros (l & k & r & E & _). destruct l; discriminate.
  - set (s0 := fold_left st l (false, false)) in *.
    assert (ST : fold_left st (l ++ [(x, v)]) (false, false) =
      if str_eq x (txt "profile") then (fst s0, str_eq v (txt "on"))
      else if str_eq x (txt "heap") then (true, str_eq v (txt "on")) else s0)
      by (unfold s0; rewrite fold_left_app; reflexivity).
    rewrite ST. clearbody s0. clear ST.
    assert (NA : forall k, x <> k -> (no_arg (l ++ [(x, v)]) k <-> no_arg l k)).
    { intros k K. split; intros A w B; [apply (A w); apply in_or_app; auto|].
      apply in_app_or in B as [B|[B|[]]]; [eapply A; eauto|congruence]. }
    assert (HIT : x = txt "profile" \/ x = txt "heap" ->
       ((str_eq v (txt "on") = true) <-> exists l0 k r, l ++ [(x, v)] = l0 ++ (k, txt "on") :: r /\ (k = txt "profile" \/ k = txt "heap") /\
       no_arg r (txt "profile") /\ no_arg r (txt "heap"))).
    { intros K. rewrite str_eq_spec. split.
      - intros ->. exists l, x, []. repeat split; auto; intros w [].
      - intros (l0 & k & r & E & _ & R1 & R2). destruct r as [|y r] using rev_ind.
        + apply app_inj_tail in E as [_ E]. congruence.
        + rewrite app_comm_cons, app_assoc in E. apply app_inj_tail in E as [_ <-].
          destruct K as [-> | ->]; [destruct (R1 v)|destruct (R2 v)]; apply in_or_app; simpl; auto. }
    destruct (str_eq x (txt "profile")) eqn:E1; [apply str_eq_spec in E1|apply str_neq in E1].
    + cbn [fst snd]. rewrite NA by (subst; discriminate). split; [exact IH1|]. apply HIT. auto.
    + destruct (str_eq x (txt "heap")) eqn:E2; [apply str_eq_spec in E2|apply str_neq in E2]; cbn [fst snd negb].
      * split; [|apply HIT; auto]. split; [discriminate|]. intros A. destruct (A v). subst. apply in_or_app. simpl. auto.
      * rewrite NA by auto. split; [exact IH1|]. rewrite IH2. split.
        -- intros (l0 & k & r & -> & K & R1 & R2). exists l0, k, (r ++ [(x, v)]). rewrite <- app_assoc. repeat split; auto;
             intros w B; apply in_app_or in B as [B|[B|[]]]; try congruence; [eapply R1|eapply R2]; eauto.
        -- intros (l0 & k & r & E & K & R1 & R2). destruct r as [|y r _] using rev_ind.
           ++ apply app_inj_tail in E as [_ E]. injection E as -> _. tauto.
           ++ rewrite app_comm_cons, app_assoc in E. apply app_inj_tail in E as [E _]. exists l0, k, r. repeat split; auto;
                intros w B; [apply (R1 w)|apply (R2 w)]; apply in_or_app; auto.
Qed.
Lemma http_dispatch_pf : forall e c fl r asked a fl' p q args, HandleSingle e c fl r = (asked, a, fl') ->
  path_of (r_target r) p q -> args_of q args -> a <> AChallenge ->
  (r_target r = txt "/favicon.ico" -> a = AFavicon) /\
  (p = txt "/" -> a = match c_root c with [] => AStatus | _ => ARoot end) /\
  (p = txt "/metrics" -> c_metrics c = true -> a = AMetrics) /\
  (p = txt "/profilez" -> exists cpu en, a = AProfile cpu en /\ (cpu = true <-> no_arg args (txt "heap")) /\
     (en = true <-> exists l k z, args = l ++ (k, txt "on") :: z /\ (k = txt "profile" \/ k = txt "heap") /\
        no_arg z (txt "profile") /\ no_arg z (txt "heap"))) /\
  (~ own c p -> r_target r <> txt "/favicon.ico" ->
     (forall id, first_cb (c_cbs c) p id -> a = ACall id args) /\
     ((forall id, ~ In (p, id) (c_cbs c)) -> a = AUnknown)).
Proof.
  intros e c fl r asked a fl' p q args H P A N. pose proof (path_unique _ _ _ P) as PU. pose proof (args_unique _ _ A) as AU.
  destruct (through _ _ _ _ _ _ _ _ _ H P) as [[K _]|K]; [contradiction|]. clear H.
  assert (F : p <> txt "/favicon.ico" -> r_target r <> txt "/favicon.ico").
  { intros X Y. rewrite Y, favicon_path in PU. congruence. }
  split; [|split; [|split; [|split]]].
  - intros T. unfold HandleRoot in K. rewrite T, str_refl in K. congruence.
  - intros ->. unfold HandleRoot in K. rewrite (proj2 (str_neq _ _) (F ltac:(discriminate))), PU, str_refl in K.
    injection K as <- _. destruct (c_root c); reflexivity.
  - intros -> M. unfold HandleRoot in K. rewrite (proj2 (str_neq _ _) (F ltac:(discriminate))), PU, M in K. simpl in K. congruence.
  - intros ->. unfold HandleRoot in K. rewrite (proj2 (str_neq _ _) (F ltac:(discriminate))), PU in K. simpl in K.
    rewrite AU in K. destruct (profilez args) as (cpu & en & E & X). rewrite E in K. injection K as <- _. eauto.
  - intros O T. rewrite (not_own _ _ _ _ _ _ P O T) in K. destruct K as [_ ->]. split.
    + intros id I. rewrite (find_first _ _ _ I). congruence.
    + intros I. now rewrite find_none.
Qed.
Lemma http_shadow_refuted_pf : exists p id m, RegisterCb [] p id = (m, true) /\
  forall e c fl r, c_cbs c = m -> forall i args, snd (fst (HandleSingle e c fl r)) <> ACall i args.
Proof.
  exists (txt "/flagz"), 7%nat, [(txt "/flagz", 7%nat)]. split; [reflexivity|]. intros e c fl r C i args E.
  destruct (HandleSingle e c fl r) as [[asked a] fl'] eqn:H. simpl in E. subst a.
  pose proof (parse_query_pf (r_target r)) as P. destruct (ParseQuery (r_target r)) as [p q] eqn:PU.
  destruct (through _ _ _ _ _ _ _ p q H P) as [[K _]|K]; [discriminate|].
  destruct (HandleRoot e c fl r) as [[a' f']|] eqn:R.
  - injection K as -> ->. eapply root_not_call; eauto.
  - destruct K as [_ K]. rewrite C, find_cb_cons in K. destruct (str_eq (txt "/flagz") p) eqn:E1; [|discriminate].
    apply str_eq_spec in E1. subst p. unfold HandleRoot in R. rewrite PU in R.
    destruct (str_eq (r_target r) (txt "/favicon.ico")); discriminate.
Qed.

(** * Flags *)
Lemma find_value fl n : find_flag fl n = value_of fl n.
Proof.
  induction fl as [|[m v] fl IH]; simpl; auto. rewrite IH. destruct (list_eq_dec N.eq_dec m n) as [->|K].
  - now rewrite str_refl.
  - now rewrite (proj2 (str_neq _ _) K).
Qed.
Lemma set_names fl n v : map fst (set_flag fl n v) = map fst fl.
Proof. induction fl as [|[m w] fl IH]; simpl; auto. destruct (str_eq m n); simpl; congruence. Qed.
Lemma set_value fl n v : value_of fl n <> None -> value_of (set_flag fl n v) n = Some v.
Proof.
  induction fl as [|[m w] fl IH]; simpl; [congruence|]. destruct (list_eq_dec N.eq_dec m n) as [->|K].
  - intros _. rewrite str_refl. simpl. destruct (list_eq_dec N.eq_dec n n); congruence.
  - intros H. rewrite (proj2 (str_neq _ _) K). simpl. destruct (list_eq_dec N.eq_dec m n); [contradiction|auto].
Qed.
Lemma set_other fl n v m : m <> n -> value_of (set_flag fl n v) m = value_of fl m.
Proof.
  intros H. induction fl as [|[k w] fl IH]; simpl; auto. destruct (str_eq k n) eqn:E; simpl.
  - apply str_eq_spec in E. subst. destruct (list_eq_dec N.eq_dec n m); congruence.
  - now rewrite IH.
Qed.
Lemma filez_not_flag e args n : FilezHandler e args <> AFlag n.
Proof.
  unfold FilezHandler. intros K. repeat match type of K with
    | context [match ?x with _ => _ end] => destruct x
    end; discriminate.
Qed.
Lemma flagz_root e c fl r p q a fl' : path_of (r_target r) p q -> HandleRoot e c fl r = Some (a, fl') ->
  (p = txt "/flagz" /\ ParseFlagz e fl (SplitQuery q) = (a, fl')) \/ (p <> txt "/flagz" /\ fl' = fl /\ forall n, a <> AFlag n).
Proof.
  intros P K. unfold HandleRoot in K. rewrite (path_unique _ _ _ P) in K.
  destruct (str_eq (r_target r) (txt "/favicon.ico")) eqn:E0.
  { apply str_eq_spec in E0. right. injection K as <- <-. repeat split; auto; try discriminate. intros ->.
    pose proof (path_unique _ _ _ P) as X. rewrite E0, favicon_path in X. discriminate. }
  destruct (str_eq p (txt "/")) eqn:E1.
  { apply str_eq_spec in E1. subst p. right. injection K as <- <-. repeat split; auto; try discriminate. intros n. destruct (nonempty (c_root c)); discriminate. }
  destruct (str_eq p (txt "/flagz")) eqn:E2.
  { apply str_eq_spec in E2. left. split; auto. congruence. }
  apply str_neq in E2. right. split; auto.
  destruct (str_eq p (txt "/filez")); [injection K as <- <-; split; auto; intros n; apply filez_not_flag|].
  destruct (str_eq p (txt "/profilez")); [injection K as <- <-; split; auto; discriminate|].
  destruct (c_metrics c && str_eq p (txt "/metrics")); [injection K as <- <-; split; auto; discriminate|discriminate].
Qed.
Lemma http_flagz_pf : forall e c fl r asked a fl' p q args, HandleSingle e c fl r = (asked, a, fl') ->
  path_of (r_target r) p q -> args_of q args ->
  map fst fl' = map fst fl /\
  (fl' = fl \/ exists n v, p = txt "/flagz" /\ a = AFlag n /\ last_arg args (txt "flag") n /\
     (last_arg args (txt "value") v \/ (no_arg args (txt "value") /\ v = [])) /\ flag_ok e n v = true /\
     value_of fl' n = Some v /\ forall m, m <> n -> value_of fl' m = value_of fl m) /\
  (forall n v, a = AFlag n -> last_arg args (txt "value") v -> value_of fl n <> None -> flag_ok e n v = true ->
     value_of fl' n = Some v) /\
  (forall n, p = txt "/flagz" -> a <> AChallenge -> last_arg args (txt "flag") n -> n <> [] -> a = AFlag n) /\
  (p = txt "/flagz" -> a <> AChallenge -> no_arg args (txt "flag") -> a = match args with [_] => AAllFlags | _ => ANoFlags end).
Proof.
  intros e c fl r asked a fl' p q args H P A. pose proof (args_unique _ _ A) as AU.
  destruct (through _ _ _ _ _ _ _ _ _ H P) as [[-> ->]|K].
  { split; auto. split; auto. split; [discriminate|]. split; congruence. }
  destruct (HandleRoot e c fl r) as [[a' f']|] eqn:R.
  - injection K as -> ->. destruct (flagz_root _ _ _ _ _ _ _ _ P R) as [[-> F]|(X & -> & Y)].
    + rewrite AU in F. unfold ParseFlagz in F.
      assert (LU : forall n0, last_arg args (txt "flag") n0 -> last_of args (txt "flag") = n0) by (intros; now apply last_arg_unique).
      pose proof (no_arg_last args (txt "flag")) as NL.
      destruct (nonempty (last_of args (txt "flag"))) eqn:NE.
      * set (n := last_of args (txt "flag")) in *. set (v := last_of args (txt "value")) in *.
        assert (L : last_arg args (txt "flag") n).
        { destruct (last_of_spec args (txt "flag")) as [L|[_ L]]; auto. fold n in L. rewrite L in NE. discriminate. }
        assert (FA : a = AFlag n) by (destruct (find_flag fl n); injection F as <- _; reflexivity).
        assert (Z : no_arg args (txt "flag") -> False) by (intros Z; rewrite (NL Z) in NE; discriminate).
        rewrite find_value in F. destruct (value_of fl n) as [v0|] eqn:V.
        -- destruct (flag_ok e n v) eqn:OK; injection F as _ <-.
           ++ split; [apply set_names|]. split; [|split; [|split; [|tauto]]].
              ** right. exists n, v. repeat split; auto.
                 --- apply last_of_spec.
                 --- apply set_value. congruence.
                 --- intros m M. now apply set_other.
              ** intros n0 v1 E LV V0 OK0. assert (n0 = n) as -> by congruence. rewrite <- (last_arg_unique _ _ _ LV). now apply set_value.
              ** intros n0 _ _ L0 _. now rewrite <- (LU _ L0).
           ++ split; auto. split; auto. split; [|split; [|tauto]].
              ** intros n0 v1 E LV V0 OK0. assert (n0 = n) as -> by congruence. rewrite <- (last_arg_unique _ _ _ LV) in OK0. fold v in OK0. congruence.
              ** intros n0 _ _ L0 _. now rewrite <- (LU _ L0).
        -- injection F as _ <-. split; auto. split; auto. split; [intros n0 v1 E; congruence|]. split; [|tauto].
           intros n0 _ _ L0 _. now rewrite <- (LU _ L0).
      * assert (N0 : last_of args (txt "flag") = []) by (destruct (last_of args (txt "flag")); [auto|discriminate]).
        assert (FA : a = match args with [_] => AAllFlags | _ => ANoFlags end /\ fl' = fl).
        { destruct args as [|x [|y args']]; cbn [List.length Nat.eqb] in F; injection F as <- <-; auto. }
        destruct FA as [FA ->]. split; auto. split; auto. split; [|split; [|auto]].
        -- intros n v E. exfalso. rewrite FA in E. destruct args as [|x [|y args']]; discriminate.
        -- intros n0 _ _ L0 NN. rewrite (LU _ L0) in N0. contradiction.
    + split; auto. split; auto. split; [intros n v Z; destruct (Y n Z)|]. split; [|contradiction]. intros n Z. contradiction.
  - destruct K as [-> ->]. split; auto. split; auto. split; [intros n v; destruct (find_cb (c_cbs c) p); discriminate|].
    assert (G : p = txt "/flagz" -> False).
    { intros ->. unfold HandleRoot in R. rewrite (path_unique _ _ _ P) in R.
      destruct (str_eq (r_target r) (txt "/favicon.ico")); discriminate. }
    split; [intros n G'|intros G']; destruct (G G').
Qed.

(** * Files *)
Lemma comps_eq_spec a : forall b, comps_eq a b = true <-> a = b.
Proof.
  induction a as [|x a IH]; intros [|y b]; simpl; split; try discriminate; auto.
  - intros H. apply andb_prop in H as [H1 H2]. apply str_eq_spec in H1. apply IH in H2. congruence.
  - intros [= -> ->]. rewrite str_refl. now apply IH.
Qed.
Lemma path_eq_spec a b : path_eq a b = true <-> a = b.
Proof.
  destruct a, b. unfold path_eq. simpl. rewrite andb_true_iff, eqb_true_iff, comps_eq_spec. split; [intros [-> ->]|intros [= -> ->]]; auto.
Qed.
Lemma folder_slash r : slash folder r = Path true (txt "tmp" :: txt "profile" :: r).
Proof. reflexivity. Qed.
Lemma filez_served e args n : resolves e -> FilezHandler e args = AFile n ->
  n = last_of args (txt "file") /\ n <> [] /\ opens e n = OFine /\ exists cf, canon e (to_path n) = Some cf /\ below cf.
Proof.
  intros R F. unfold FilezHandler in F. set (m := last_of args (txt "file")) in *.
  destruct (canon e (to_path m)) as [cf|] eqn:C; [|discriminate].
  destruct (relative e cf folder) as [[rl|]|] eqn:L; try discriminate.
  destruct (path_eq (slash folder rl) cf) eqn:Q; [|discriminate]. destruct (nonempty m) eqn:NE; [|discriminate].
  destruct (opens e m) eqn:O; try discriminate. injection F as <-. split; auto. split; [intros ->; discriminate|]. split; auto.
  exists cf. split; auto. apply path_eq_spec in Q. rewrite folder_slash in Q. subst cf.
  destruct (R _ _ C) as [R1 R2]. simpl in R1, R2. split; auto. cbn [p_comps].
  unfold relative in L. destruct (canon e _) as [p'|]; [|discriminate]. destruct (canon e folder) as [b'|]; [|discriminate].
  injection L as L. unfold lex_relative in L. destruct (negb _); [discriminate|].
  destruct (mismatch (p_comps p') (p_comps b')) as [x y].
  assert (D : rl = [txt "."] -> False) by (intros ->; apply R1; simpl; auto).
  destruct x as [|cx x'].
  - destruct y as [|cy y']; [injection L as <-; destruct D; reflexivity|].
    destruct (up (cy :: y') <? 0)%Z eqn:U0; [discriminate|]. apply Z.ltb_ge in U0.
    destruct (up (cy :: y') =? 0)%Z eqn:U; cbn [andb] in L.
    + injection L as <-; destruct D; reflexivity.
    + exfalso. injection L as <-. apply Z.eqb_neq in U. destruct (Z.to_nat (up (cy :: y'))) eqn:ZN; [lia|].
      apply R2. simpl. auto.
  - exists cx, x'. destruct (up y <? 0)%Z eqn:U0; [discriminate|].
    destruct ((up y =? 0)%Z && negb (nonempty cx)) eqn:U; [injection L as <-; destruct D; reflexivity|].
    injection L as <-. destruct (Z.to_nat (up y)) eqn:ZN; [|exfalso; apply R2; simpl; auto].
    assert (up y = 0)%Z as U1 by (apply Z.ltb_ge in U0; lia). rewrite U1 in U. simpl in U.
    split; auto. intros ->. discriminate.
Qed.

Lemma filez_root e c fl r p q a fl' : path_of (r_target r) p q -> HandleRoot e c fl r = Some (a, fl') ->
  (p = txt "/filez" /\ FilezHandler e (SplitQuery q) = a) \/ (p <> txt "/filez" /\ a <> AThrow /\ forall n, a <> AFile n).
Proof.
  intros P K. unfold HandleRoot in K. rewrite (path_unique _ _ _ P) in K.
  destruct (str_eq (r_target r) (txt "/favicon.ico")) eqn:E0.
  { apply str_eq_spec in E0. right. injection K as <- <-. split; [|split; discriminate]. intros ->.
    pose proof (path_unique _ _ _ P) as X. rewrite E0, favicon_path in X. discriminate. }
  destruct (str_eq p (txt "/")) eqn:E1.
  { apply str_eq_spec in E1. subst p. right. injection K as <- <-. split; [discriminate|].
    destruct (nonempty (c_root c)); split; discriminate. }
  destruct (str_eq p (txt "/flagz")) eqn:E2.
  { apply str_eq_spec in E2. subst p. right. split; [discriminate|]. unfold ParseFlagz in K.
    repeat match type of K with context [match ?x with _ => _ end] => destruct x end;
    injection K as <- <-; split; discriminate. }
  destruct (str_eq p (txt "/filez")) eqn:E3.
  { apply str_eq_spec in E3. left. split; auto. congruence. }
  apply str_neq in E3. right. split; auto.
  destruct (str_eq p (txt "/profilez")); [injection K as <- <-; split; discriminate|].
  destruct (c_metrics c && str_eq p (txt "/metrics")); [injection K as <- <-; split; discriminate|discriminate].
Qed.
Lemma filez_path e c fl r q : path_of (r_target r) (txt "/filez") q ->
  HandleRoot e c fl r = Some (FilezHandler e (SplitQuery q), fl).
Proof.
  intros P. pose proof (path_unique _ _ _ P) as PU. unfold HandleRoot. rewrite PU.
  rewrite (proj2 (str_neq (r_target r) (txt "/favicon.ico"))).
  - reflexivity.
  - intros X. rewrite X, favicon_path in PU. discriminate.
Qed.
Lemma http_filez_pf : forall e c fl r asked n fl' p q args, HandleSingle e c fl r = (asked, AFile n, fl') ->
  path_of (r_target r) p q -> args_of q args -> resolves e ->
  p = txt "/filez" /\ last_arg args (txt "file") n /\ opens e n = OFine /\
  exists cf, canon e (to_path n) = Some cf /\ below cf.
Proof.
  intros e c fl r asked n fl' p q args H P A R. pose proof (args_unique _ _ A) as AU.
  destruct (through _ _ _ _ _ _ _ _ _ H P) as [[K _]|K]; [discriminate|].
  destruct (HandleRoot e c fl r) as [[a' f']|] eqn:HR.
  - injection K as -> ->. destruct (filez_root _ _ _ _ _ _ _ _ P HR) as [[-> F]|(_ & _ & F)]; [|destruct (F n); auto].
    rewrite AU in F. destruct (filez_served _ _ _ R F) as (E1 & E2 & E3 & E4). split; auto. split; auto.
    destruct (last_of_spec args (txt "file")) as [L|[_ L]]; [now rewrite E1|congruence].
  - destruct K as [_ K]. destruct (find_cb (c_cbs c) p); discriminate.
Qed.
Lemma mismatch_app a x y : match x, y with c :: _, d :: _ => c <> d | _, _ => True end -> mismatch (a ++ x) (a ++ y) = (x, y).
Proof.
  intros H. induction a as [|c a IH]; simpl; [|now rewrite str_refl].
  destruct x as [|c x], y as [|d y]; simpl; auto. now rewrite (proj2 (str_neq _ _) H).
Qed.
Lemma http_filez_all_pf : forall e c fl r asked a fl' q args n cf z, HandleSingle e c fl r = (asked, a, fl') ->
  path_of (r_target r) (txt "/filez") q -> args_of q args -> a <> AChallenge -> settled e ->
  canon e (to_path (txt "/tmp/profile/")) = Some (Path true (txt "tmp" :: txt "profile" :: z)) -> z = [] \/ z = [[]] ->
  last_arg args (txt "file") n -> n <> [] -> canon e (to_path n) = Some cf -> below cf ->
  a = match opens e n with OFine => AFile n | _ => AFileMissing end.
Proof.
  intros e c fl r asked a fl' q args n cf z H P A NC ST CF Z L NE CN (B1 & c1 & r1 & B2 & B3).
  pose proof (args_unique _ _ A) as AU.
  destruct (through _ _ _ _ _ _ _ _ _ H P) as [[K _]|K]; [contradiction|]. rewrite (filez_path _ _ _ _ _ P), AU in K.
  injection K as K _. subst a. unfold FilezHandler. rewrite (last_arg_unique _ _ _ L), CN. unfold relative.
  rewrite (ST _ _ CN). unfold folder. rewrite CF. destruct cf as [ab cs]. cbn [p_abs p_comps] in *. subst ab cs.
  unfold lex_relative. cbn [p_abs p_comps Bool.eqb negb].
  change (txt "tmp" :: txt "profile" :: c1 :: r1) with ([txt "tmp"; txt "profile"] ++ c1 :: r1).
  change (txt "tmp" :: txt "profile" :: z) with ([txt "tmp"; txt "profile"] ++ z).
  rewrite mismatch_app by (destruct Z as [-> | ->]; auto).
  assert (up z = 0%Z) as -> by (destruct Z as [-> | ->]; reflexivity).
  cbn [Z.ltb Z.compare Z.eqb andb]. assert (nonempty c1 = true) as NC1 by (destruct c1; [congruence|reflexivity]).
  rewrite NC1. cbn [negb Z.to_nat dots repeat app].
  rewrite (proj2 (path_eq_spec (slash (to_path (txt "/tmp/profile/")) (c1 :: r1)) (Path true (txt "tmp" :: txt "profile" :: c1 :: r1))) eq_refl).
  cbn [negb]. destruct n as [|x n]; [congruence|]. reflexivity.
Qed.
Lemma http_throw_pf : forall e c fl r asked fl' p q, HandleSingle e c fl r = (asked, AThrow, fl') ->
  path_of (r_target r) p q -> p = txt "/filez" /\ exists x, canon e x = None.
Proof.
  intros e c fl r asked fl' p q H P. destruct (through _ _ _ _ _ _ _ _ _ H P) as [[K _]|K]; [discriminate|].
  destruct (HandleRoot e c fl r) as [[a' f']|] eqn:HR.
  - injection K as -> ->. destruct (filez_root _ _ _ _ _ _ _ _ P HR) as [[-> F]|(_ & F & _)]; [|destruct (F eq_refl)].
    split; auto. unfold FilezHandler, relative in F. set (m := to_path _) in F.
    destruct (canon e m) as [cf|] eqn:C1; [|eauto].
    destruct (canon e cf) as [p'|] eqn:C2; [|eauto]. destruct (canon e folder) as [b'|] eqn:C3; [|eauto].
    repeat match type of F with context [match ?x with _ => _ end] => destruct x end; discriminate.
  - destruct K as [_ K]. destruct (find_cb (c_cbs c) p); discriminate.
Qed.

(** * Streams *)
Lemma stream_fun parse b rs z rs' z' : stream parse b rs z -> stream parse b rs' z' -> rs = rs' /\ z = z'.
Proof.
  intros H. revert rs' z'. induction H as [b H|b r n rs z H _ IH]; intros rs' z' K; inversion K; subst; auto.
  - destruct (H _ _ H0).
  - destruct (H0 _ _ H).
  - rewrite H in H0. injection H0 as <- <-. destruct (IH _ _ H1). subst. auto.
Qed.
Lemma http_split_pf : forall parse, parser parse -> forall b, exists rs z, stream parse b rs z.
Proof.
  intros parse L b. remember (List.length b) as m. assert (List.length b <= m)%nat as M by lia. clear Heqm. revert b M.
  induction m as [|m IH]; intros b M.
  - exists [], b. constructor. intros r n E. destruct (L _ _ _ E). lia.
  - destruct (parse b) as [r n| |x] eqn:E; [|exists [], b; constructor; congruence..].
    destruct (L _ _ _ E) as [L1 _]. destruct (IH (skipn n b)) as (rs & z & K); [rewrite skipn_length; lia|].
    exists (r :: rs), z. econstructor; eauto.
Qed.
Lemma requests_spec e c parse (L : parser parse) b rs z : stream parse b rs z ->
  forall fuel k, (List.length b < fuel)%nat -> k_open k = true ->
  let k2 := requests fuel e c parse b k in
  let '(l, f, o) := answers (act e c) (k_flags k) rs in
  k_done k2 = k_done k ++ l /\ k_flags k2 = f /\ k_open k2 = o /\ (o = true -> k_buf k2 = z).
Proof.
  induction 1 as [b H|b r n rs z H _ IH]; intros fuel k F O k2; destruct fuel as [|fuel]; try lia; subst k2; cbn [requests answers].
  - destruct (parse b) as [r n| |x] eqn:E; [destruct (H _ _ eq_refl)|..]; cbn; rewrite app_nil_r; auto.
  - rewrite H. destruct (L _ _ _ H) as [L1 _].
    specialize (IH fuel (serve e c k r)). rewrite skipn_length in IH.
    unfold serve, act in *. destruct (HandleSingle e c (k_flags k) r) as [[asked a] fl'].
    assert (X : a = AThrow \/ a <> AThrow) by (destruct a; auto; right; discriminate).
    destruct X as [->|X].
    + cbn. repeat split; auto. discriminate.
    + assert (Y : match a with AThrow => false | _ => k_open k end = true) by (destruct a; auto; contradiction).
      rewrite Y in *. cbn [k_open k_done k_flags] in *. specialize (IH ltac:(lia) eq_refl).
      assert (W : forall T (x y : T), match a with AThrow => x | _ => y end = y) by (intros; destruct a; auto; contradiction).
      rewrite W. destruct (answers _ fl' rs) as [[l f] o]. destruct IH as (I1 & I2 & I3 & I4).
      repeat split; auto. rewrite I1, <- app_assoc. reflexivity.
Qed.
Lemma pfb_spec e c parse (L : parser parse) b rs z : stream parse b rs z ->
  forall fuel k, (List.length b < fuel)%nat -> k_open k = true ->
  let (o, k2) := pfb fuel e c parse b k in
  let '(l, f, op) := answers (act e c) (k_flags k) rs in
  k_done k2 = k_done k ++ l /\ k_flags k2 = f /\ k_open k2 = op /\
  match o with
  | None => op = true /\ k_buf k2 = k_buf k ++ z /\ (z = [] \/ parse z = PMore) /\ (List.length z <= 4096)%nat
  | Some x => k_buf k2 = k_buf k /\ match x with
     | TooLarge => op = true /\ parse z = PMore /\ (4096 < List.length z)%nat
     | Bad n => op = true /\ parse z = PErr n
     | Throws => op = false \/ (parse z = PMore /\ (4096 < List.length (k_buf k) + List.length z)%nat)
     end
  end.
Proof.
  induction 1 as [b H|b r n rs z H _ IH]; intros fuel k F O; destruct fuel as [|fuel]; try lia; cbn [pfb answers].
  - destruct b as [|y b].
    + rewrite !app_nil_r. repeat split; auto. simpl. lia.
    + destruct (parse (y :: b)) as [r n| |x] eqn:E; [destruct (H _ _ eq_refl)| |].
      * destruct (Nat.ltb_spec max_size (List.length (y :: b))) as [M|M].
        { rewrite app_nil_r. repeat split; auto. }
        destruct (Nat.ltb_spec max_size (List.length (k_buf k) + List.length (y :: b))) as [M2|M2].
        { rewrite app_nil_r. repeat split; auto. }
        cbn [k_done k_flags k_open k_buf]. rewrite app_nil_r. repeat split; auto.
      * rewrite app_nil_r. repeat split; auto.
  - destruct (L _ _ _ H) as [L1 _]. destruct b as [|y b]; [simpl in L1; lia|]. rewrite H.
    specialize (IH fuel (serve e c k r)). rewrite skipn_length in IH.
    unfold serve, act in *. destruct (HandleSingle e c (k_flags k) r) as [[asked a] fl'].
    assert (X : a = AThrow \/ a <> AThrow) by (destruct a; auto; right; discriminate).
    destruct X as [->|X].
    + cbn. repeat split; auto.
    + assert (Y : match a with AThrow => false | _ => k_open k end = true) by (destruct a; auto; contradiction).
      rewrite Y in *. cbn [k_open k_done k_flags k_buf] in *. specialize (IH ltac:(lia) eq_refl).
      assert (W : forall T (x y : T), match a with AThrow => x | _ => y end = y) by (intros; destruct a; auto; contradiction).
      rewrite W. destruct (pfb fuel e c parse _ _) as [o k2]. destruct (answers _ fl' rs) as [[l f] op].
      destruct IH as (I1 & I2 & I3 & I4). split; [rewrite I1, <- app_assoc; reflexivity|]. auto.
Qed.
Lemma http_parse_pf : forall e c parse b k o k2 rs z, parser parse -> k_open k = true ->
  ParseFromBuffer e c parse b k = (o, k2) -> stream parse b rs z ->
  let '(l, f, op) := answers (act e c) (k_flags k) rs in
  k_done k2 = k_done k ++ l /\ k_flags k2 = f /\ k_open k2 = op /\
  match o with
  | None => op = true /\ k_buf k2 = k_buf k ++ z /\ (z = [] \/ parse z = PMore) /\ (List.length z <= 4096)%nat
  | Some x => k_buf k2 = k_buf k /\ match x with
     | TooLarge => op = true /\ parse z = PMore /\ (4096 < List.length z)%nat
     | Bad n => op = true /\ parse z = PErr n
     | Throws => op = false \/ (parse z = PMore /\ (4096 < List.length (k_buf k) + List.length z)%nat)
     end
  end.
Proof.
  intros e c parse b k o k2 rs z L O H ST. unfold ParseFromBuffer in H.
  pose proof (pfb_spec e c parse L b rs z ST (S (List.length b)) k ltac:(lia) O) as X. rewrite H in X. exact X.
Qed.
Lemma stream_app parse (L : parser parse) b rs z x : stream parse b rs z -> forall rs' z', stream parse (b ++ x) rs' z' ->
  exists t, rs' = rs ++ t /\ stream parse (z ++ x) t z'.
Proof.
  induction 1 as [b H|b r n rs z H _ IH]; intros rs' z' K.
  - exists rs'. auto.
  - destruct (L _ _ _ H) as [L1 L2]. inversion K; subst; [destruct (H0 _ _ (L2 x))|].
    rewrite (L2 x) in H0. injection H0 as <- <-. rewrite skipn_app in H1. replace (n - List.length b)%nat with 0%nat in H1 by lia.
    cbn [skipn] in H1. destruct (IH _ _ H1) as (t & -> & T). exists t. auto.
Qed.
Lemma answers_app h rs1 rs2 : forall fl, answers h fl (rs1 ++ rs2) =
  let '(l, f, o) := answers h fl rs1 in
  if o then let '(l2, f2, o2) := answers h f rs2 in (l ++ l2, f2, o2) else (l, f, o).
Proof.
  induction rs1 as [|r rs1 IH]; intros fl; cbn [answers app].
  - destruct (answers h fl rs2) as [[l f] o]. reflexivity.
  - destruct (h fl r) as [a fl']. rewrite IH. destruct (answers h fl' rs1) as [[l f] o].
    destruct a; try reflexivity; destruct o; try reflexivity; destruct (answers h f rs2) as [[l2 f2] o2]; reflexivity.
Qed.
Lemma http_stream_pf : forall e c parse b sock k k1 rs z, parser parse -> k_open k = true -> k_buf k = [] ->
  ParseFromBuffer e c parse b k = (None, k1) -> stream parse (b ++ sock) rs z ->
  let k2 := HandleRequests e c parse sock k1 in
  let '(l, f, o) := answers (act e c) (k_flags k) rs in
  k_done k2 = k_done k ++ l /\ k_flags k2 = f /\ k_open k2 = o /\ (o = true -> k_buf k2 = z).
Proof.
  intros e c parse b sock k k1 rs z L O B H ST k2. subst k2.
  destruct (http_split_pf parse L b) as (rs1 & z1 & S1).
  pose proof (http_parse_pf _ _ _ _ _ _ _ _ _ L O H S1) as X.
  destruct (stream_app parse L _ _ _ sock S1 _ _ ST) as (t & -> & S2). rewrite answers_app.
  destruct (answers (act e c) (k_flags k) rs1) as [[l f] o]. destruct X as (X1 & X2 & X3 & -> & X4 & _). rewrite B in X4. cbn [app] in X4.
  unfold HandleRequests. rewrite X4.
  pose proof (requests_spec e c parse L _ _ _ S2 (S (List.length (z1 ++ sock))) (Conn [] (k_done k1) (k_flags k1) (k_open k1)) ltac:(lia) X3) as Y.
  cbn [k_flags k_done] in Y. rewrite X2 in Y. destruct (answers (act e c) f t) as [[l2 f2] o2].
  rewrite X1, X2, <- app_assoc in *. exact Y.
Qed.

(** * What fails *)
Definition no_dots (p : path) : bool := forallb (fun c => negb (str_eq c (txt ".")) && negb (str_eq c (txt ".."))) (p_comps p).
(** An environment: base64 is the identity, paths with dots cannot be resolved, every file and value is fine. *)
Definition plain : env := Env Some (fun p => if no_dots p then Some p else None) (fun _ => OFine) (fun _ _ => true).
Lemma plain_resolves : resolves plain.
Proof.
  intros p q H. simpl in H. destruct (no_dots p) eqn:E; [|discriminate]. injection H as <-. unfold no_dots in E.
  rewrite forallb_forall in E. split; intros K; apply E in K; vm_compute in K; discriminate.
Qed.
Lemma plain_settled : settled plain.
Proof. intros p q H. simpl in *. destruct (no_dots p) eqn:E; [|discriminate]. injection H as <-. now rewrite E. Qed.
Definition bare : config := Config None [] false [].
(** Requests are one byte ("1": /; "3": /filez with a path that cannot be resolved), or two bytes, the first of them "2". *)
Definition toy (b : bytes) : parsed :=
  match b with
  | 1 :: _ => PDone (Req (txt "/") []) 1
  | 3 :: _ => PDone (Req (txt "/filez?file=/root/../x") []) 1
  | 2 :: _ :: _ => PDone (Req (txt "/two") []) 2
  | 2 :: [] => PMore
  | [] => PMore
  | _ => PErr 1
  end.
Lemma toy_parser : parser toy.
Proof.
  intros b r n H. destruct b as [|x b]; [discriminate|]. unfold toy in *.
  destruct x as [|p]; [discriminate|].
  destruct p as [[p|p|]|[p|p|]|]; try discriminate.
  - injection H as <- <-. simpl. split; [lia|auto].
  - destruct b as [|y b]; [discriminate|]. injection H as <- <-. simpl. split; [lia|auto].
  - injection H as <- <-. simpl. split; [lia|auto].
Qed.
Definition fresh : conn := Conn [] [] [] true.
Lemma http_again_refuted_pf : exists e c parse b1 b2 k1 k2 r, parser parse /\
  ParseFromBuffer e c parse b1 fresh = (None, k1) /\ ParseFromBuffer e c parse b2 k1 = (None, k2) /\
  stream parse (b1 ++ b2) [r] [] /\ k_done (HandleRequests e c parse [] k2) <> [fst (act e c [] r)].
Proof.
  exists plain, bare, toy, [2], [1], (Conn [2] [] [] true), (Conn [2] [AStatus] [] true), (Req (txt "/two") []).
  split; [apply toy_parser|]. split; [vm_compute; reflexivity|]. split; [vm_compute; reflexivity|]. split.
  - apply (stream_more toy [2; 1] _ 2%nat [] []); [reflexivity|]. apply stream_end. discriminate.
  - vm_compute. discriminate.
Qed.
Lemma http_throw_refuted_pf : exists e c parse sock r1 r2, parser parse /\ stream parse sock [r1; r2] [] /\
  fst (act e c [] r2) = AStatus /\ k_done (HandleRequests e c parse sock fresh) = [AThrow].
Proof.
  exists plain, bare, toy, [3; 1], (Req (txt "/filez?file=/root/../x") []), (Req (txt "/") []).
  split; [apply toy_parser|]. split; [|split; vm_compute; reflexivity].
  apply (stream_more toy [3; 1] _ 1%nat _ []); [reflexivity|]. apply (stream_more toy [1] _ 1%nat _ []); [reflexivity|].
  apply stream_end. discriminate.
Qed.
Lemma http_flagz_refuted_pf : exists e c fl r asked n fl', HandleSingle e c fl r = (asked, AFlag n, fl') /\
  path_of (r_target r) (txt "/flagz") (Some (txt "flag=x")) /\ args_of (Some (txt "flag=x")) [(txt "flag", n)] /\
  value_of fl n = Some (txt "7") /\ value_of fl' n = Some [].
Proof.
  exists plain, bare, [(txt "x", txt "7")], (Req (txt "/flagz?flag=x") []), None, (txt "x"), [(txt "x", [])].
  split; [vm_compute; reflexivity|]. split; [|split; [|split; reflexivity]].
  - split; [|reflexivity]. vm_compute. intuition discriminate.
  - destruct (proj2 split_query_pf (txt "flag=x")) as (ps & H). exists ps. exact H.
Qed.
