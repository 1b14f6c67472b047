From Verif Require Import Util Conc ErrCbModel ErrCbSpec.

Definition isadd (i : nat) (x : sqe) : bool := match x with Add j => Nat.eqb j i | _ => false end.
Definition cadd (i : nat) (q : list sqe) : nat := length (filter (isadd i) q).
Definition ccq (i : nat) (q : list (nat * bool)) : nat := length (filter (fun x => Nat.eqb (fst x) i) q).
Definition ckr (o : option slot) : nat := match o with Some _ => 1 | None => 0 end.
Definition busy (x : slot) : nat := match x with Free => 0 | _ => 1 end.
Lemma cadd_app i a b : cadd i (a ++ b) = cadd i a + cadd i b. Proof. unfold cadd. now rewrite filter_app, app_length. Qed.
Lemma ccq_app i a b : ccq i (a ++ b) = ccq i a + ccq i b. Proof. unfold ccq. now rewrite filter_app, app_length. Qed.
Lemma cadd_cons i x q : cadd i (x :: q) = (if isadd i x then 1 else 0) + cadd i q. Proof. unfold cadd. cbn. now destruct (isadd i x). Qed.
Lemma ccq_cons i x q : ccq i (x :: q) = (if Nat.eqb (fst x) i then 1 else 0) + ccq i q. Proof. unfold ccq. cbn. now destruct (Nat.eqb (fst x) i). Qed.
Lemma cadd_in i q : In (Add i) q -> 0 < cadd i q.
Proof. induction q as [|x q IH]; [contradiction|]. rewrite cadd_cons. intros [->|H]; [cbn; rewrite Nat.eqb_refl; lia|]. specialize (IH H). lia. Qed.
Lemma ccq_in i b q : In (i, b) q -> 0 < ccq i q.
Proof. induction q as [|x q IH]; [contradiction|]. rewrite ccq_cons. intros [->|H]; [cbn; rewrite Nat.eqb_refl; lia|]. specialize (IH H). lia. Qed.
Definition isS (o : option nat) (w : nat) : nat := match o with Some v => if Nat.eqb v w then 1 else 0 | None => 0 end.
Definition has {A} (o : option A) : nat := match o with Some _ => 1 | None => 0 end.
Definition touched (w : nat) (h : list ev) : Prop := In (Called w) h \/ In (Cancelled w) h.

Record inv (s : st) : Prop := {
  i_tok : forall i, cadd i (sq s) + ckr (kreq s i) + ccq i (cq s) = busy (slots s i);
  i_own : forall i o, kreq s i = Some o -> o = slots s i;
  i_err : forall i w, slots s i = ForErr w -> exists r, ws s w = Some r /\ w_id r = Some i;
  i_ref : forall w r, ws s w = Some r -> w < nextw s /\ w_refs r = isS (sock s) w + has (w_id r) /\ 0 < w_refs r;
  i_id : forall w r i, ws s w = Some r -> w_id r = Some i -> slots s i = ForErr w;
  i_cb : forall w r, ws s w = Some r -> w_cb r = true -> sock s = Some w /\ w_id r <> None /\ ~ touched w (hist s);
  i_sock : forall w, sock s = Some w -> exists r, ws s w = Some r /\ (w_cb r = true \/ In (Called w) (hist s));
  i_rem : forall pre post i w, sq s = pre ++ Rem i w :: post -> w < nextw s /\ sock s <> Some w /\
    ((slots s i = ForErr w /\ cadd i post = 0) \/ (slots s i <> ForErr w /\ kreq s i = None /\ ccq i (cq s) = 0 /\ cadd i pre = 0));
  i_fal : forall i w, In (i, false) (cq s) -> slots s i = ForErr w -> sock s <> Some w;
  i_new : forall w, nextw s <= w -> ~ touched w (hist s);
  i_once : forall w, once w true (hist s);
  i_hit : forall w o, In (Hit w o) (hist s) -> o = ForErr w }.
Lemma init_inv : inv init.
Proof.
  constructor; cbn; try discriminate; auto; try contradiction.
  - intros pre post i w H. destruct pre; discriminate.
  - intros w _ [[]|[]].
Qed.

Lemma once_called w h : forall b, once w b h -> (b = true /\ ~ touched w h) -> once w b (h ++ [Called w]).
Proof.
  induction h as [|e h IH]; intros b O [B T]; cbn in *.
  - rewrite Nat.eqb_refl. auto.
  - assert (T' : ~ touched w h) by (intros [X|X]; apply T; [left|right]; now right).
    destruct e as [v|v|v o|]; auto.
    + destruct (Nat.eqb_spec v w) as [->|]; auto. exfalso. apply T. left. now left.
    + destruct (Nat.eqb_spec v w) as [->|]; auto. exfalso. apply T. right. now left.
Qed.
Lemma once_other w h e : forall b, once w b h -> match e with Called v => v <> w | _ => True end -> once w b (h ++ [e]).
Proof.
  induction h as [|x h IH]; intros b O T; cbn in *.
  - destruct e as [v|v|v o|]; cbn; auto. destruct (Nat.eqb_spec v w); [contradiction|auto].
  - destruct x as [v|v|v o|]; auto. destruct (Nat.eqb v w); auto. destruct O. auto.
Qed.
Lemma touched_app w h e : touched w (h ++ [e]) <-> touched w h \/ e = Called w \/ e = Cancelled w.
Proof. unfold touched. rewrite !in_app_iff. cbn. tauto. Qed.

(** A reference is dropped by the socket. *)
Lemma drop_inv s w r e q : inv s -> sock s = Some w -> ws s w = Some r ->
  (e = [Cancelled w] \/ e = [Dfatal; Cancelled w]) -> (q = [] \/ exists i, w_id r = Some i /\ q = [Rem i w]) ->
  match drop_ref w e q s with Next s' => inv s' /\ sock s' = None | _ => False end.
Proof.
  intros [Tok Own Err Ref Id Cb Sk Rm Fl Nw On Ht] So W He Hq. unfold drop_ref, destroy. rewrite W. cbn [ws nextw sock slots sq kreq cq hist]. split; [|reflexivity].
  destruct (Ref w r W) as (R1 & R2 & R3). rewrite So in R2. unfold isS in R2. rewrite Nat.eqb_refl in R2.
  set (r' := match w_refs r with S (S n) => Some (mkW (w_id r) (S n) false) | _ => None end).
  assert (Hr' : match w_id r with Some i => r' = Some (mkW (Some i) 1 false) | None => r' = None end).
  { unfold r'. rewrite R2. destruct (w_id r); reflexivity. }
  assert (Tch : forall v, touched v (hist s ++ e) <-> touched v (hist s) \/ v = w).
  { intros v. unfold touched. rewrite !in_app_iff. destruct He as [->| ->]; cbn; split; intros X; repeat (destruct X as [X|X]; auto); try discriminate X; try contradiction; try (injection X; auto); subst; auto. }
  constructor; cbn [ws nextw sock slots sq kreq cq hist].
  - intros i. rewrite cadd_app. assert (Z : cadd i q = 0) by (destruct Hq as [->|(j & _ & ->)]; reflexivity). rewrite Z, Nat.add_0_r. apply Tok.
  - exact Own.
  - intros i v H. destruct (Err i v H) as (rv & V1 & V2). unfold upd. destruct (Nat.eqb_spec v w) as [->|]; eauto.
    rewrite W in V1. injection V1 as <-. rewrite V2 in Hr'. eauto.
  - intros v rv. unfold upd. destruct (Nat.eqb_spec v w) as [->|Nv].
    + intros E. destruct (w_id r) eqn:Ei; rewrite Hr' in E; [|discriminate]. injection E as <-. cbn. auto.
    + intros E. destruct (Ref v rv E) as (A & B & C). rewrite So in B. unfold isS in B. replace (Nat.eqb w v) with false in B by (symmetry; apply Nat.eqb_neq; auto). auto.
  - intros v rv i. unfold upd. destruct (Nat.eqb_spec v w) as [->|Nv]; [|apply Id].
    intros E. destruct (w_id r) eqn:Ei; rewrite Hr' in E; [|discriminate]. injection E as <-. cbn. intros [= <-]. eapply Id; eauto.
  - intros v rv. unfold upd. destruct (Nat.eqb_spec v w) as [->|Nv].
    + intros E. destruct (w_id r) eqn:Ei; rewrite Hr' in E; [|discriminate]. injection E as <-. discriminate.
    + intros E C. destruct (Cb v rv E C) as (A & _). congruence.
  - discriminate.
  - intros pre post i v E.
    assert (X : (exists post', sq s = pre ++ Rem i v :: post' /\ post = post' ++ q) \/ (q = [Rem i v] /\ pre = sq s /\ post = [])).
    { destruct Hq as [->|(j & _ & ->)]; [left; rewrite app_nil_r in E; exists post; rewrite app_nil_r; auto|].
      destruct post as [|p0 post] using rev_ind.
      - apply app_inj_tail in E as [-> E]. injection E as -> ->. right. auto.
      - left. clear IHpost. rewrite app_comm_cons, app_assoc in E. apply app_inj_tail in E as [E ->]. exists post. auto. }
    destruct X as [(post' & E' & ->)|(Eq & -> & ->)].
    + destruct (Rm _ _ _ _ E') as (A & B & C). split; [exact A|]. split; [discriminate|]. rewrite cadd_app.
      assert (Z : cadd i q = 0) by (destruct Hq as [->|(j & _ & ->)]; reflexivity). rewrite Z, Nat.add_0_r. exact C.
    + destruct Hq as [->|(j & Hj & ->)]; [discriminate|]. injection Eq as <- <-. split; [exact R1|]. split; [discriminate|]. left. split; [eapply Id; eauto|reflexivity].
  - discriminate.
  - intros v Hv. rewrite Tch. intros [T| ->]; [now apply (Nw v)|lia].
  - intros v. destruct He as [->| ->]; [apply once_other; auto|]. change [Dfatal; Cancelled w] with ([Dfatal] ++ [Cancelled w]). rewrite app_assoc. apply once_other; [apply once_other; auto|exact Logic.I].
  - intros v o H. apply in_app_iff in H as [H|H]; [eauto|]. destruct He as [->| ->]; cbn in H; intuition discriminate.
Qed.

Lemma step_inv s l : inv s -> (match l with LReg _ => sock s = None | _ => True end) ->
  match step s l with
  | Next s' => inv s' /\ match l with LReg _ => sock s' <> None | LCancel | LClose => sock s' = None | _ => sock s' = sock s end
  | Ub => False | Stuck => True end.
Proof.
  intros I P. pose proof I as [Tok Own Err Ref Id Cb Sk Rm Fl Nw On Ht]. destruct l as [i| | |i| | |i]; cbn [step].
  - (* RegisterOnErrorCb *)
    rewrite P. destruct (slots s i) eqn:Si; auto. split; [|discriminate].
    assert (T0 : cadd i (sq s) = 0 /\ ckr (kreq s i) = 0 /\ ccq i (cq s) = 0) by (specialize (Tok i); rewrite Si in Tok; cbn in Tok; lia). destruct T0 as (T1 & T2 & T3).
    assert (Wn : forall w r, ws s w = Some r -> w <> nextw s) by (intros w r E ->; apply Ref in E; lia).
    constructor; cbn [ws nextw sock slots sq kreq cq hist].
    + intros j. rewrite cadd_app, cadd_cons. cbn [isadd]. unfold upd. destruct (Nat.eqb_spec i j) as [->|Nj].
      * rewrite Nat.eqb_refl. cbn. lia.
      * replace (Nat.eqb j i) with false by (symmetry; apply Nat.eqb_neq; auto). cbn. specialize (Tok j). lia.
    + intros j o E. unfold upd. destruct (Nat.eqb_spec j i) as [->|]; [rewrite E in T2; discriminate|]. now apply Own.
    + intros j w. unfold upd at 1. destruct (Nat.eqb_spec j i) as [->|].
      * intros [= <-]. eexists. rewrite upd_eq. auto.
      * intros E. destruct (Err j w E) as (r & A & B). exists r. rewrite upd_neq; auto. eapply Wn; eauto.
    + intros w r. unfold upd. destruct (Nat.eqb_spec w (nextw s)) as [->|Nv].
      * intros [= <-]. cbn. rewrite Nat.eqb_refl. lia.
      * intros E. destruct (Ref w r E) as (A & B & C). rewrite P in B. cbn in *. replace (Nat.eqb (nextw s) w) with false by (symmetry; apply Nat.eqb_neq; auto). lia.
    + intros w r j. unfold upd at 1. destruct (Nat.eqb_spec w (nextw s)) as [->|Nv].
      * intros [= <-] [= <-]. apply upd_eq.
      * intros E F. rewrite upd_neq; [eapply Id; eauto|]. intros ->. specialize (Id w r i E F). congruence.
    + intros w r. unfold upd. destruct (Nat.eqb_spec w (nextw s)) as [->|Nv].
      * intros [= <-] _. split; [reflexivity|]. split; [discriminate|now apply Nw].
      * intros E F. destruct (Cb w r E F) as (A & _). congruence.
    + intros w [= <-]. eexists. rewrite upd_eq. split; [reflexivity|]. left. reflexivity.
    + intros pre post j w E. destruct post as [|p0 post] using rev_ind.
      { apply app_inj_tail in E as [_ E]. discriminate. }
      clear IHpost. rewrite app_comm_cons, app_assoc in E. apply app_inj_tail in E as [E <-].
      destruct (Rm _ _ _ _ E) as (A & B & C). split; [lia|]. split; [intros [= X]; lia|]. rewrite cadd_app, cadd_cons. cbn [isadd]. unfold upd. destruct (Nat.eqb_spec i j) as [->|Nj].
      * rewrite Nat.eqb_refl. right. split; [intros [= X]; lia|]. split; [destruct (kreq s j); [discriminate|reflexivity]|]. split; [exact T3|]. rewrite E, cadd_app in T1. lia.
      * replace (Nat.eqb j i) with false by (symmetry; apply Nat.eqb_neq; auto). cbn. rewrite Nat.add_0_r. exact C.
    + intros j w Hj. unfold upd. destruct (Nat.eqb_spec j i) as [->|]; [apply ccq_in in Hj; lia|]. intros E [= <-]. destruct (Err j _ E) as (r & A & _). apply Wn in A. congruence.
    + intros w Hw. apply Nw. lia.
    + exact On.
    + exact Ht.
  - (* CancelOnErrorCb *)
    destruct (sock s) as [w|] eqn:So; [|rewrite ?So; auto]. destruct (Sk w eq_refl) as (r & W & _). rewrite W.
    set (q := match w_id r with Some i => [Rem i w] | None => [] end).
    assert (Hq : q = [] \/ exists i, w_id r = Some i /\ q = [Rem i w]) by (unfold q; destruct (w_id r); eauto).
    pose proof (drop_inv s w r [Cancelled w] q I So W (or_introl eq_refl) Hq) as X.
    destruct (drop_ref _ _ _ _); tauto.
  - destruct (sock s) as [w|] eqn:So; [|rewrite ?So; auto]. destruct (Sk w eq_refl) as (r & W & _).
    pose proof (drop_inv s w r [Dfatal; Cancelled w] [] I So W (or_intror eq_refl) (or_introl eq_refl)) as X.
    destruct (drop_ref _ _ _ _); tauto.
  - (* another request *)
    destruct (slots s i) eqn:Si; auto. split; [|reflexivity].
    assert (T0 : cadd i (sq s) = 0 /\ ckr (kreq s i) = 0 /\ ccq i (cq s) = 0) by (specialize (Tok i); rewrite Si in Tok; cbn in Tok; lia). destruct T0 as (T1 & T2 & T3).
    constructor; cbn [ws nextw sock slots sq kreq cq hist]; auto.
    + intros j. rewrite cadd_app, cadd_cons. cbn [isadd]. unfold upd. destruct (Nat.eqb_spec i j) as [->|Nj].
      * rewrite Nat.eqb_refl. cbn. lia.
      * replace (Nat.eqb j i) with false by (symmetry; apply Nat.eqb_neq; auto). cbn. specialize (Tok j). lia.
    + intros j o E. unfold upd. destruct (Nat.eqb_spec j i) as [->|]; [rewrite E in T2; discriminate|]. now apply Own.
    + intros j w. unfold upd. destruct (Nat.eqb_spec j i) as [->|]; [discriminate|]. apply Err.
    + intros w r j E F. rewrite upd_neq; [eapply Id; eauto|]. intros ->. specialize (Id w r i E F). congruence.
    + intros pre post j w E. destruct post as [|p0 post] using rev_ind.
      { apply app_inj_tail in E as [_ E]. discriminate. }
      clear IHpost. rewrite app_comm_cons, app_assoc in E. apply app_inj_tail in E as [E <-].
      destruct (Rm _ _ _ _ E) as (A & B & C). split; [exact A|]. split; [exact B|]. rewrite cadd_app, cadd_cons. cbn [isadd]. unfold upd. destruct (Nat.eqb_spec i j) as [->|Nj].
      * rewrite Nat.eqb_refl. right. split; [discriminate|]. split; [destruct (kreq s j); [discriminate|reflexivity]|]. split; [exact T3|]. rewrite E, cadd_app in T1. lia.
      * replace (Nat.eqb j i) with false by (symmetry; apply Nat.eqb_neq; auto). cbn. rewrite Nat.add_0_r. exact C.
    + intros j w Hj. unfold upd. destruct (Nat.eqb_spec j i) as [->|]; [discriminate|]. apply Fl. exact Hj.
  - (* a completion is handled *)
    destruct (cq s) as [|[i fired] q] eqn:Eq; auto.
    assert (T0 : slots s i <> Free /\ cadd i (sq s) = 0 /\ kreq s i = None /\ ccq i q = 0).
    { specialize (Tok i). rewrite ?Eq, ccq_cons in Tok. cbn [fst] in Tok. rewrite Nat.eqb_refl in Tok. destruct (slots s i); cbn in Tok; [lia| |]; (split; [discriminate|]); destruct (kreq s i); cbn in Tok; try lia; repeat split; auto; lia. }
    destruct T0 as (T1 & T2 & T3 & T4).
    assert (Tok' : forall j, cadd j (sq s) + ckr (kreq s j) + ccq j q = busy (upd (slots s) i Free j)).
    { intros j. unfold upd. destruct (Nat.eqb_spec j i) as [->|Nj]; [rewrite T3; cbn; lia|]. specialize (Tok j). rewrite ?Eq, ccq_cons in Tok. cbn [fst] in Tok. replace (Nat.eqb i j) with false in Tok by (symmetry; apply Nat.eqb_neq; auto). exact Tok. }
    assert (Own' : forall j o, kreq s j = Some o -> o = upd (slots s) i Free j).
    { intros j o E. unfold upd. destruct (Nat.eqb_spec j i) as [->|]; [congruence|auto]. }
    assert (Rm' : forall pre post j w, sq s = pre ++ Rem j w :: post -> w < nextw s /\ sock s <> Some w /\
      ((upd (slots s) i Free j = ForErr w /\ cadd j post = 0) \/ (upd (slots s) i Free j <> ForErr w /\ kreq s j = None /\ ccq j q = 0 /\ cadd j pre = 0))).
    { intros pre post j w E. destruct (Rm _ _ _ _ E) as (A & B & C). split; [exact A|]. split; [exact B|]. unfold upd. destruct (Nat.eqb_spec j i) as [->|Nj].
      - right. split; [discriminate|]. rewrite E, cadd_app in T2. repeat split; auto; lia.
      - destruct C as [C|(C1 & C2 & C3 & C4)]; [left; exact C|right]. repeat split; auto. rewrite ?Eq, ccq_cons in C3. lia. }
    assert (Fl' : forall j w, In (j, false) q -> upd (slots s) i Free j = ForErr w -> sock s <> Some w).
    { intros j w H. unfold upd. destruct (Nat.eqb_spec j i) as [->|]; [discriminate|]. intros F. apply (Fl j w); auto. rewrite ?Eq. now right. }
    destruct (slots s i) as [|w|] eqn:Si; [congruence| |].
    + destruct (Err i w Si) as (r & W & Wi). rewrite W. destruct (Ref w r W) as (R1 & R2 & R3). rewrite Wi in R2. cbn [has] in R2.
      unfold destroy. cbn [ws nextw sock slots sq kreq cq hist]. rewrite upd_eq. cbn [ws nextw sock slots sq kreq cq hist w_refs w_id]. split; [|reflexivity].
      set (r' := match w_refs r with S (S n) => Some (mkW None (S n) false) | _ => None end).
      assert (Hr' : (sock s = Some w /\ r' = Some (mkW None 1 false)) \/ (sock s <> Some w /\ r' = None)).
      { unfold r'. rewrite R2. destruct (sock s) as [v|]; cbn [isS]; [|right; split; [discriminate|reflexivity]].
        destruct (Nat.eqb_spec v w) as [->|]; [left; auto|right; split; [congruence|reflexivity]]. }
      assert (Uw : forall v, upd (upd (ws s) w (Some (mkW None (w_refs r) false))) w r' v = upd (ws s) w r' v) by (intros v; unfold upd; destruct (Nat.eqb v w); auto).
      set (e := if fired && w_cb r then [Called w] else []).
      assert (Te : forall v, v <> w -> touched v (hist s ++ e) -> touched v (hist s)).
      { intros v Nv. unfold e. destruct (fired && w_cb r); [|now rewrite app_nil_r]. rewrite touched_app. intros [X|[X|X]]; auto; [injection X; congruence|discriminate]. }
      constructor; cbn [ws nextw sock slots sq kreq cq hist]; auto.
      * intros j v. rewrite Uw. unfold upd at 1. destruct (Nat.eqb_spec j i) as [->|Nj]; [discriminate|]. intros E. destruct (Err j v E) as (rv & A & B). exists rv. rewrite upd_neq; auto. intros ->. rewrite W in A. congruence.
      * intros v rv. rewrite Uw. unfold upd. destruct (Nat.eqb_spec v w) as [->|Nv]; [|apply Ref].
        intros E. destruct Hr' as [(H1 & H2)|(H1 & H2)]; rewrite H2 in E; [|discriminate]. injection E as <-. cbn. rewrite H1. cbn. rewrite Nat.eqb_refl. lia.
      * intros v rv j. rewrite Uw. unfold upd at 1. destruct (Nat.eqb_spec v w) as [->|Nv].
        -- intros E. destruct Hr' as [(H1 & H2)|(H1 & H2)]; rewrite H2 in E; [|discriminate]. injection E as <-. discriminate.
        -- intros E F. rewrite upd_neq; [eapply Id; eauto|]. intros ->. specialize (Id v rv i E F). congruence.
      * intros v rv. rewrite Uw. unfold upd at 1. destruct (Nat.eqb_spec v w) as [->|Nv].
        -- intros E. destruct Hr' as [(H1 & H2)|(H1 & H2)]; rewrite H2 in E; [|discriminate]. injection E as <-. discriminate.
        -- intros E F. destruct (Cb v rv E F) as (A & B & C). repeat split; auto.
      * intros v E. rewrite Uw. destruct (Sk v E) as (rv & A & B). unfold upd. destruct (Nat.eqb_spec v w) as [->|Nv].
        -- destruct Hr' as [(H1 & H2)|(H1 & H2)]; [|congruence]. rewrite H2. eexists. split; [reflexivity|]. right. rewrite in_app_iff.
           rewrite W in A. injection A as <-. destruct B as [B|B]; [|auto]. right. unfold e. rewrite B. destruct fired; [now left|].
           exfalso. apply (Fl i w); auto. rewrite ?Eq. now left.
        -- exists rv. split; [exact A|]. rewrite in_app_iff. tauto.
      * intros v Hv X. apply (Nw v Hv). apply Te; [lia|exact X].
      * intros v. unfold e. destruct (fired && w_cb r) eqn:F; [|rewrite app_nil_r; apply On]. apply andb_true_iff in F as [_ F].
        destruct (Nat.eq_dec w v) as [<-|Nv]; [|now apply once_other]. apply once_called; [apply On|]. split; [reflexivity|]. now apply (Cb w r W F).
      * intros v o H. apply in_app_iff in H as [H|H]; [eauto|]. unfold e in H. destruct (fired && w_cb r); [|contradiction]. destruct H as [H|[]]. discriminate.
    + split; [|reflexivity]. constructor; cbn [ws nextw sock slots sq kreq cq hist]; auto.
      * intros j w. unfold upd. destruct (Nat.eqb_spec j i) as [->|]; [discriminate|]. apply Err.
      * intros w r j E F. rewrite upd_neq; [eapply Id; eauto|]. intros ->. specialize (Id w r i E F). congruence.
  - (* a submission *)
    destruct (sq s) as [|[i|i w] q] eqn:Eq; auto.
    + split; [|reflexivity]. assert (T0 := Tok i). rewrite ?Eq, cadd_cons in T0. cbn [isadd] in T0. rewrite Nat.eqb_refl in T0.
      assert (T1 : cadd i q = 0 /\ kreq s i = None /\ ccq i (cq s) = 0 /\ busy (slots s i) = 1) by (destruct (slots s i), (kreq s i); cbn in *; repeat split; try lia; auto). destruct T1 as (T1 & T2 & T3 & T4).
      constructor; cbn [ws nextw sock slots sq kreq cq hist]; auto.
      * intros j. unfold upd. specialize (Tok j). rewrite ?Eq, cadd_cons in Tok. cbn [isadd] in Tok. destruct (Nat.eqb_spec j i) as [->|Nj].
        -- cbn. lia.
        -- replace (Nat.eqb i j) with false in Tok by (symmetry; apply Nat.eqb_neq; auto). exact Tok.
      * intros j o. unfold upd. destruct (Nat.eqb_spec j i) as [->|Nj]; [now intros [= <-]|apply Own].
      * intros pre post j w E. destruct (Rm (Add i :: pre) post j w) as (A & B & C); [rewrite ?Eq, E; reflexivity|].
        split; [exact A|]. split; [exact B|]. destruct C as [C|(C1 & C2 & C3 & C4)]; [now left|right].
        rewrite cadd_cons in C4. cbn [isadd] in C4. unfold upd. destruct (Nat.eqb_spec i j) as [->|Nj]; [lia|].
        replace (Nat.eqb j i) with false by (symmetry; apply Nat.eqb_neq; auto). repeat split; auto.
    + destruct (Rm [] q i w eq_refl) as (A & B & C).
      assert (Rm' : forall pre post j v, q = pre ++ Rem j v :: post -> v < nextw s /\ sock s <> Some v /\
        ((slots s j = ForErr v /\ cadd j post = 0) \/ (slots s j <> ForErr v /\ kreq s j = None /\ ccq j (cq s) = 0 /\ cadd j pre = 0))).
      { intros pre post j v E. destruct (Rm (Rem i w :: pre) post j v) as (A' & B' & C'); [rewrite ?Eq, E; reflexivity|]. split; [exact A'|]. split; [exact B'|]. exact C'. }
      assert (Tok' : forall j, cadd j q + ckr (kreq s j) + ccq j (cq s) = busy (slots s j)) by (intros j; specialize (Tok j); rewrite ?Eq, cadd_cons in Tok; exact Tok).
      destruct (kreq s i) as [o|] eqn:Ek.
      * split; [|reflexivity]. destruct C as [(C1 & C2)|(_ & C & _)]; [|congruence]. pose proof (Own i o Ek) as Eo. rewrite C1 in Eo. subst o.
        constructor; cbn [ws nextw sock slots sq kreq cq hist]; auto.
        -- intros j. rewrite ccq_app, ccq_cons. cbn [fst]. unfold upd. specialize (Tok' j). destruct (Nat.eqb_spec j i) as [->|Nj].
           ++ rewrite Nat.eqb_refl. rewrite Ek in Tok'. cbn in *. lia.
           ++ replace (Nat.eqb i j) with false by (symmetry; apply Nat.eqb_neq; auto). cbn. lia.
        -- intros j o. unfold upd. destruct (Nat.eqb_spec j i) as [->|Nj]; [discriminate|apply Own].
        -- intros v r E F. destruct (Cb v r E F) as (X & Y & Z). split; [exact X|]. split; [exact Y|]. rewrite touched_app. intros [T|[T|T]]; [auto|discriminate|discriminate].
        -- intros v E. destruct (Sk v E) as (r & X & Y). exists r. split; [exact X|]. rewrite in_app_iff. tauto.
        -- intros pre post j v E. destruct (Rm' pre post j v E) as (A' & B' & C'). split; [exact A'|]. split; [exact B'|].
           destruct C' as [C'|(D1 & D2 & D3 & D4)]; [now left|right]. rewrite ccq_app, ccq_cons. cbn [fst]. unfold upd. destruct (Nat.eqb_spec i j) as [->|Nj]; [congruence|].
           replace (Nat.eqb j i) with false by (symmetry; apply Nat.eqb_neq; auto). cbn. repeat split; auto. lia.
        -- intros j v H. apply in_app_iff in H as [H|[H|[]]]; [eauto|]. injection H as <-. intros E. rewrite C1 in E. injection E as <-. exact B.
        -- intros v Hv. rewrite touched_app. intros [T|[T|T]]; [now apply (Nw v)|discriminate|discriminate].
        -- intros v. apply once_other; auto.
        -- intros v o H. apply in_app_iff in H as [H|[H|[]]]; [eauto|]. now injection H as <- <-.
      * split; [|reflexivity]. constructor; cbn [ws nextw sock slots sq kreq cq hist]; auto.
  - (* an event *)
    destruct (kreq s i) as [o|] eqn:Ek; auto. split; [|reflexivity].
    constructor; cbn [ws nextw sock slots sq kreq cq hist]; auto.
    + intros j. rewrite ccq_app, ccq_cons. cbn [fst]. unfold upd. specialize (Tok j). destruct (Nat.eqb_spec j i) as [->|Nj].
      * rewrite Nat.eqb_refl. rewrite Ek in Tok. cbn in *. lia.
      * replace (Nat.eqb i j) with false by (symmetry; apply Nat.eqb_neq; auto). cbn. lia.
    + intros j o'. unfold upd. destruct (Nat.eqb_spec j i) as [->|Nj]; [discriminate|apply Own].
    + intros pre post j v E. destruct (Rm pre post j v E) as (A' & B' & C'). split; [exact A'|]. split; [exact B'|].
      destruct C' as [C'|(D1 & D2 & D3 & D4)]; [now left|right]. rewrite ccq_app, ccq_cons. cbn [fst]. unfold upd. destruct (Nat.eqb_spec i j) as [->|Nj]; [congruence|].
      replace (Nat.eqb j i) with false by (symmetry; apply Nat.eqb_neq; auto). cbn. repeat split; auto. lia.
    + intros j v H. apply in_app_iff in H as [H|[H|[]]]; [eauto|]. discriminate.
Qed.

Lemma polite_inv ls : forall s b, inv s -> (b = false <-> sock s = None) -> polite b ls ->
  match exec step s ls with Next s' => inv s' | Ub => False | Stuck => True end.
Proof.
  induction ls as [|l ls IH]; intros s b I B P; cbn [exec]; [exact I|].
  pose proof (step_inv s l I) as H. destruct (step s l) as [| |s'] eqn:E; auto.
  - apply H. destruct l; auto. cbn in P. destruct P as [-> _]. now apply B.
  - assert (Pl : match l with LReg _ => sock s = None | _ => True end) by (destruct l; auto; cbn in P; destruct P as [-> _]; now apply B).
    destruct (H Pl) as [I' S']. destruct l; cbn [polite] in P.
    + destruct P as [_ P]. apply (IH s' true I'); auto. split; intros X; [discriminate|contradiction].
    + apply (IH s' false I'); auto. tauto.
    + apply (IH s' false I'); auto. tauto.
    + apply (IH s' b I'); auto. rewrite S'. exact B.
    + apply (IH s' b I'); auto. rewrite S'. exact B.
    + apply (IH s' b I'); auto. rewrite S'. exact B.
    + apply (IH s' b I'); auto. rewrite S'. exact B.
Qed.
Lemma run_inv ls s : polite false ls -> exec step init ls = Next s -> inv s.
Proof. intros P E. pose proof (polite_inv ls init false init_inv ltac:(cbn; tauto) P) as H. now rewrite E in H. Qed.

Lemma errcb_safe_pf ls : polite false ls -> exec step init ls <> Ub.
Proof. intros P E. pose proof (polite_inv ls init false init_inv ltac:(cbn; tauto) P) as H. now rewrite E in H. Qed.
Lemma errcb_once_pf ls s w : polite false ls -> exec step init ls = Next s -> once w true (hist s).
Proof. intros P E. apply (i_once s (run_inv ls s P E)). Qed.
Lemma errcb_remove_own_pf ls s w o : polite false ls -> exec step init ls = Next s -> In (Hit w o) (hist s) -> o = ForErr w.
Proof. intros P E. apply (i_hit s (run_inv ls s P E)). Qed.
Lemma errcb_no_leak_pf ls s w : polite false ls -> exec step init ls = Next s -> sock s = None -> idle s -> ws s w = None /\ forall i, slots s i = Free.
Proof.
  intros P E N (D1 & D2 & D3). destruct (run_inv ls s P E) as [Tok Own Err Ref Id Cb Sk Rm Fl Nw On Ht].
  assert (F : forall i, slots s i = Free).
  { intros i. specialize (Tok i). rewrite D1, D2, D3 in Tok. cbn in Tok. destruct (slots s i); [reflexivity|discriminate|discriminate]. }
  split; [|exact F]. destruct (ws s w) as [r|] eqn:W; [|reflexivity]. exfalso. destruct (Ref w r W) as (A & B & C). rewrite N in B. cbn in B.
  destruct (w_id r) as [i|] eqn:Wi; [|cbn in B; lia]. specialize (Id w r i W Wi). rewrite F in Id. discriminate.
Qed.
Lemma cadd_pos i q : 0 < cadd i q -> In (Add i) q.
Proof. induction q as [|x q IH]; [cbn; lia|]. rewrite cadd_cons. destruct x as [j|j v]; cbn; [destruct (Nat.eqb_spec j i) as [->|]; auto|]; auto. Qed.
Lemma ccq_pos i q : 0 < ccq i q -> exists b, In (i, b) q.
Proof. induction q as [|[j b] q IH]; [cbn; lia|]. rewrite ccq_cons. cbn [fst]. destruct (Nat.eqb_spec j i) as [->|]; [exists b; now left|]. intros H. destruct (IH H) as (b' & X). exists b'. now right. Qed.
Lemma errcb_watched_pf ls s w : polite false ls -> exec step init ls = Next s -> sock s = Some w -> ~ In (Called w) (hist s) ->
  exists i, slots s i = ForErr w /\ (In (Add i) (sq s) \/ kreq s i = Some (ForErr w) \/ In (i, true) (cq s)).
Proof.
  intros P E N C. destruct (run_inv ls s P E) as [Tok Own Err Ref Id Cb Sk Rm Fl Nw On Ht].
  destruct (Sk w N) as (r & W & [B|B]); [|contradiction]. destruct (Cb w r W B) as (_ & X & _). destruct (w_id r) as [i|] eqn:Wi; [|congruence].
  pose proof (Id w r i W Wi) as S1. exists i. split; [exact S1|]. specialize (Tok i). rewrite S1 in Tok. cbn [busy] in Tok.
  destruct (kreq s i) as [o|] eqn:K; [right; left; f_equal; rewrite <- S1; now apply Own|]. cbn [ckr] in Tok.
  destruct (Nat.eq_dec (cadd i (sq s)) 0) as [Z|Z]; [|left; apply cadd_pos; lia]. right. right. destruct (ccq_pos i (cq s)) as (b & H); [lia|].
  destruct b; [exact H|]. exfalso. now apply (Fl i w H S1).
Qed.
(** A fired completion that is handled calls the callback. *)
Lemma errcb_reported_pf ls s s' w i q : polite false ls -> exec step init ls = Next s -> sock s = Some w -> ~ In (Called w) (hist s) ->
  slots s i = ForErr w -> cq s = (i, true) :: q -> step s LDispatch = Next s' -> In (Called w) (hist s').
Proof.
  intros P E N C Si Cq St. destruct (run_inv ls s P E) as [Tok Own Err Ref Id Cb Sk Rm Fl Nw On Ht].
  destruct (Sk w N) as (r & W & [B|B]); [|contradiction]. cbn [step] in St. rewrite Cq, Si, W in St. unfold destroy in St. cbn [ws] in St. rewrite upd_eq, B in St.
  injection St as <-. cbn. apply in_app_iff. right. now left.
Qed.

(** ** A cancelled registration leaves no poll behind *)
Definition gone (s : st) : Prop := In Dfatal (hist s) \/
  forall i w, slots s i = ForErr w -> sock s <> Some w -> In (Rem i w) (sq s) \/ exists b, In (i, b) (cq s).
Lemma step_gone s l s' : inv s -> gone s -> step s l = Next s' -> gone s'.
Proof.
  intros [Tok Own Err Ref Id Cb Sk Rm Fl Nw On Ht] [D|G] H.
  - left. destruct l as [i| | |i| | |i]; cbn [step] in H.
    + destruct (slots s i), (sock s); try discriminate. injection H as <-. exact D.
    + destruct (sock s) as [w|]; [|injection H as <-; exact D]. destruct (ws s w) as [r|] eqn:W; [|discriminate]. unfold drop_ref, destroy in H. rewrite W in H. injection H as <-. cbn. apply in_app_iff. now left.
    + destruct (sock s) as [w|]; [|injection H as <-; exact D]. unfold drop_ref, destroy in H. destruct (ws s w); [|discriminate]. injection H as <-. cbn. apply in_app_iff. now left.
    + destruct (slots s i); try discriminate. injection H as <-. exact D.
    + destruct (cq s) as [|[i f] q]; [discriminate|]. destruct (slots s i) as [|w|]; [discriminate| |injection H as <-; exact D].
      destruct (ws s w); [|discriminate]. unfold destroy in H. cbn [ws] in H. rewrite upd_eq in H. injection H as <-. cbn. apply in_app_iff. now left.
    + destruct (sq s) as [|[i|i w] q]; [discriminate|injection H as <-; exact D|]. destruct (kreq s i); injection H as <-; [|exact D]. cbn. apply in_app_iff. now left.
    + destruct (kreq s i); [|discriminate]. injection H as <-. exact D.
  - destruct l as [i| | |i| | |i]; cbn [step] in H.
    + destruct (slots s i) eqn:Si, (sock s) eqn:So; try discriminate. injection H as <-. right. cbn. intros j w. unfold upd. destruct (Nat.eqb_spec j i) as [->|]; [congruence|].
      intros E _. destruct (G j w E) as [X|X]; [congruence|left; apply in_app_iff; now left|now right].
    + destruct (sock s) as [w|] eqn:So; [|injection H as <-; right; rewrite So; exact G]. destruct (ws s w) as [r|] eqn:W; [|discriminate]. unfold drop_ref, destroy in H. rewrite W in H. injection H as <-.
      right. cbn. intros j v E _. destruct (Nat.eq_dec v w) as [->|Nv].
      * destruct (Err j w E) as (r' & W' & Wi). rewrite W in W'. injection W' as <-. rewrite Wi. left. apply in_app_iff. right. now left.
      * destruct (G j v E) as [X|X]; [congruence|left; apply in_app_iff; now left|now right].
    + destruct (sock s) as [w|] eqn:So; [|injection H as <-; right; rewrite So; exact G]. unfold drop_ref, destroy in H. destruct (ws s w) as [r|] eqn:W; [|discriminate]. injection H as <-.
      left. cbn. apply in_app_iff. right. now left.
    + destruct (slots s i) eqn:Si; try discriminate. injection H as <-. right. cbn. intros j w. unfold upd. destruct (Nat.eqb_spec j i) as [->|]; [congruence|].
      intros E F. destruct (G j w E F) as [X|X]; [left; apply in_app_iff; now left|now right].
    + assert (K : forall i f q, cq s = (i, f) :: q -> forall j w, upd (slots s) i Free j = ForErr w -> sock s <> Some w -> In (Rem j w) (sq s) \/ exists b, In (j, b) q).
      { intros i f q Eq j w. unfold upd. destruct (Nat.eqb_spec j i) as [->|Nj]; [discriminate|]. intros E F. destruct (G j w E F) as [X|[b X]]; [now left|]. rewrite Eq in X. destruct X as [X|X]; [congruence|eauto]. }
      destruct (cq s) as [|[i f] q] eqn:Eq; [discriminate|]. specialize (K i f q eq_refl). destruct (slots s i) as [|w|] eqn:Si; [discriminate| |injection H as <-; right; exact K].
      destruct (ws s w); [|discriminate]. unfold destroy in H. cbn [ws] in H. rewrite upd_eq in H. injection H as <-. right. exact K.
    + destruct (sq s) as [|[i|i w] q] eqn:Eq; [discriminate| |].
      * injection H as <-. right. cbn. intros j w E F. destruct (G j w E F) as [[X|X]|X]; [discriminate|now left|now right].
      * destruct (Rm [] q i w eq_refl) as (A & B & C). destruct (kreq s i) as [o|] eqn:Ek; injection H as <-; right; cbn; intros j v E F; destruct (G j v E F) as [[X|X]|[b X]].
        -- injection X as <- <-. right. exists false. apply in_app_iff. right. now left.
        -- now left.
        -- right. exists b. apply in_app_iff. now left.
        -- injection X as <- <-. right. apply ccq_pos. destruct C as [(C1 & C2)|(C1 & _)]; [|contradiction]. specialize (Tok i). rewrite cadd_cons, C2, Ek, E in Tok. cbn in Tok. lia.
        -- now left.
        -- right. eauto.
    + destruct (kreq s i); [|discriminate]. injection H as <-. right. cbn. intros j w E F. destruct (G j w E F) as [X|[b X]]; [now left|right]. exists b. apply in_app_iff. now left.
Qed.
Lemma polite_gone ls : forall s b s', inv s -> gone s -> (b = false <-> sock s = None) -> polite b ls -> exec step s ls = Next s' -> gone s'.
Proof.
  induction ls as [|l ls IH]; intros s b s' I G B P H; cbn [exec] in H; [injection H as <-; exact G|].
  pose proof (step_inv s l I) as X. destruct (step s l) as [| |s1] eqn:E; try discriminate. pose proof (step_gone s l s1 I G E) as G1.
  assert (Pl : match l with LReg _ => sock s = None | _ => True end) by (destruct l; auto; cbn in P; destruct P as [-> _]; now apply B).
  destruct (X Pl) as [I' S']. destruct l; cbn [polite] in P.
  + destruct P as [_ P]. apply (IH s1 true s' I' G1); auto. split; intros Y; [discriminate|contradiction].
  + apply (IH s1 false s' I' G1); auto. tauto.
  + apply (IH s1 false s' I' G1); auto. tauto.
  + apply (IH s1 b s' I' G1); auto. rewrite S'. exact B.
  + apply (IH s1 b s' I' G1); auto. rewrite S'. exact B.
  + apply (IH s1 b s' I' G1); auto. rewrite S'. exact B.
  + apply (IH s1 b s' I' G1); auto. rewrite S'. exact B.
Qed.
Lemma errcb_cancel_removes_pf ls s i w : polite false ls -> exec step init ls = Next s -> ~ In Dfatal (hist s) -> sq s = [] -> cq s = [] ->
  kreq s i = Some (ForErr w) -> sock s = Some w.
Proof.
  intros P E D Q C K. pose proof (run_inv ls s P E) as I. pose proof (i_own s I i _ K) as Si.
  assert (G : gone s). { refine (polite_gone ls init false s init_inv _ _ P E); [right; discriminate|cbn; tauto]. }
  destruct G as [G|G]; [contradiction|]. destruct (sock s) as [v|] eqn:So.
  - destruct (Nat.eq_dec v w) as [->|Nv]; [reflexivity|]. destruct (G i w) as [X|[b X]]; [auto|congruence|rewrite Q in X; destruct X|rewrite C in X; destruct X].
  - destruct (G i w) as [X|[b X]]; [auto|congruence|rewrite Q in X; destruct X|rewrite C in X; destruct X].
Qed.
