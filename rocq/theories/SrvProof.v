(** Proofs for C87. *)
From Verif Require Import Util Conc SrvModel SrvSpec.
From Coq Require Import Lia.

(** ** Adding listeners *)
Lemma fam_eqb_spec a b : reflect (a = b) (fam_eqb a b).
Proof. destruct a, b; constructor; congruence. Qed.

Lemma first_of_cons f a l b : a_fam a <> f \/ e_create a <> 0%N -> (first_of f (a :: l) b <-> first_of f l b).
Proof.
  intros H. split.
  - intros (l1 & l2 & E & Hf & Hc & Hb). destruct l1 as [|x l1]; cbn [app] in E; injection E as <- E.
    + tauto.
    + exists l1, l2. repeat split; auto. intros; apply Hb; auto. now right.
  - intros (l1 & l2 & E & Hf & Hc & Hb). exists (a :: l1), l2. rewrite E. repeat split; auto.
    intros y [<-|Hy] Hyf; [tauto|]. now apply Hb.
Qed.
Lemma first_of_head a l b : first_of (a_fam a) (a :: l) b -> e_create a = 0%N -> b = a.
Proof.
  intros (l1 & l2 & E & Hf & Hc & Hb) H. destruct l1 as [|x l1]; cbn [app] in E; injection E as <- E; auto.
  exfalso. apply (Hb a); auto. now left.
Qed.
Lemma first_of_here a l : e_create a = 0%N -> first_of (a_fam a) (a :: l) a.
Proof. intros H. exists [], l. repeat split; auto. Qed.

Lemma try_family_spec f ec l :
  match try_family f ec l with
  | Found a => first_of f l a /\ works a
  | Tried e => (forall b, first_of f l b -> ~ works b) /\
               ((e = ec /\ forall b, ~ first_of f l b) \/ ((exists b, first_of f l b) /\ an_error l e))
  end.
Proof.
  induction l as [|a l IH]; cbn [try_family].
  - split; [|left; split; auto]; intros b (l1 & l2 & E & _); destruct l1; discriminate.
  - assert (Hskip : a_fam a <> f \/ e_create a <> 0%N ->
      match try_family f ec l with
      | Found a0 => first_of f (a :: l) a0 /\ works a0
      | Tried e => (forall b, first_of f (a :: l) b -> ~ works b) /\
               ((e = ec /\ forall b, ~ first_of f (a :: l) b) \/ ((exists b, first_of f (a :: l) b) /\ an_error (a :: l) e))
      end).
    { intros H. destruct (try_family f ec l) as [x|e].
      - destruct IH. split; auto. now apply first_of_cons.
      - destruct IH as [H1 H2]. split.
        + intros b Hb. apply H1. now apply (first_of_cons f a l b).
        + destruct H2 as [[-> H2]|[[b H2] (Hn & y & Hy & He)]].
          * left. split; auto. intros b Hb. apply (H2 b). now apply (first_of_cons f a l b).
          * right. split. exists b. now apply first_of_cons. split; auto. exists y. split; auto. now right. }
    destruct (fam_eqb_spec (a_fam a) f) as [Ef|Ef]; cbn [negb]; [|apply Hskip; now left].
    destruct (N.eqb_spec (e_create a) 0) as [Ec|Ec]; [|apply Hskip; now right].
    assert (Hbad : forall e, e <> 0%N -> e = e_conf a \/ e = e_bind a \/ e = e_listen a ->
      (forall b, first_of f (a :: l) b -> ~ works b) /\
      ((e = ec /\ forall b, ~ first_of f (a :: l) b) \/ ((exists b, first_of f (a :: l) b) /\ an_error (a :: l) e))).
    { intros e Hn He. split.
      - intros b Hb (_ & W1 & W2 & W3). subst f. apply first_of_head in Hb; auto. subst b.
        destruct He as [->|[->| ->]]; congruence.
      - right. split. exists a. subst f. now apply first_of_here. split; auto. exists a. split; auto. now left. }
    destruct (N.eqb_spec (e_conf a) 0) as [E1|E1]; [|apply Hbad; auto].
    destruct (N.eqb_spec (e_bind a) 0) as [E2|E2]; [|apply Hbad; auto].
    destruct (N.eqb_spec (e_listen a) 0) as [E3|E3]; [|apply Hbad; auto].
    subst f. split. now apply first_of_here. repeat split; auto.
Qed.

Lemma first_of_exists f l : (exists a, In a l /\ a_fam a = f /\ e_create a = 0%N) -> exists b, first_of f l b.
Proof.
  intros (a & Hin & Hf & Hc). induction l as [|x l IH]; [destruct Hin|].
  destruct (fam_eqb_spec (a_fam x) f) as [E|E].
  - destruct (N.eq_dec (e_create x) 0) as [E2|E2].
    + exists x. subst f. rewrite <- E. now apply first_of_here.
    + destruct Hin as [<-|Hin]; [congruence|]. destruct (IH Hin) as [b Hb]. exists b. apply first_of_cons; auto.
  - destruct Hin as [<-|Hin]; [congruence|]. destruct (IH Hin) as [b Hb]. exists b. apply first_of_cons; auto.
Qed.
Lemma first_of_unique f l a b : first_of f l a -> first_of f l b -> a = b.
Proof.
  induction l as [|x l IH]; intros Ha Hb.
  - destruct Ha as (l1 & l2 & E & _). destruct l1; discriminate.
  - destruct (fam_eqb_spec (a_fam x) f) as [E|E]; [destruct (N.eq_dec (e_create x) 0) as [E2|E2]|].
    + subst f. rewrite (first_of_head x l a), (first_of_head x l b); auto.
    + apply IH; eapply first_of_cons; eauto.
    + apply IH; eapply first_of_cons; eauto.
Qed.

Lemma srv_add_pf l : l <> [] ->
  (forall a, binds l a -> AddListener (Some l) = Returns 0 (Some (a_id a))) /\
  ((forall a, ~ binds l a) -> creatable l -> exists e, AddListener (Some l) = Returns e None /\ an_error l e).
Proof.
  intros Hl. assert (E : AddListener (Some l) = match CreateServerSocket l with
      | Tried ec => Returns ec None | Found a => Returns 0%N (Some (a_id a)) end) by (destruct l; [congruence|reflexivity]).
  rewrite E. unfold CreateServerSocket.
  pose proof (try_family_spec F4 0 l) as H4.
  destruct (try_family F4 0 l) as [x|e4].
  - destruct H4 as [F W]. split.
    + intros a [[Fa Wa]|[Hn _]]; [|exfalso; eapply Hn; eauto]. now rewrite (first_of_unique F4 l a x).
    + intros Hn _. exfalso. apply (Hn x). now left.
  - destruct H4 as [N4 D4]. pose proof (try_family_spec F6 e4 l) as H6.
    destruct (try_family F6 e4 l) as [x|e6].
    + destruct H6 as [F W]. split.
      * intros a [[Fa Wa]|(_ & Fa & Wa)]; [exfalso; eapply N4; eauto|]. now rewrite (first_of_unique F6 l a x).
      * intros Hn _. exfalso. apply (Hn x). right. auto.
    + destruct H6 as [N6 D6]. split.
      * intros a [[Fa Wa]|(_ & Fa & Wa)]; exfalso; [eapply N4|eapply N6]; eauto.
      * intros Hn (a & Ha & Hf & Hc). exists e6. split; auto.
        destruct D6 as [[-> D6]|[_ D6]]; auto.
        destruct D4 as [[-> D4]|[_ D4]]; auto.
        exfalso. destruct Hf as [Hf|Hf].
        -- destruct (first_of_exists F4 l) as [b Hb]; eauto. now apply (D4 b).
        -- destruct (first_of_exists F6 l) as [b Hb]; eauto. now apply (D6 b).
Qed.
Lemma srv_port_pf l : l <> [] -> creatable l ->
  (forall a, binds l a -> AddListenerPort (Some l) = Returns 0 (Some (a_id a))) /\
  ((forall a, ~ binds l a) -> AddListenerPort (Some l) = Aborts).
Proof.
  intros Hl Hc. destruct (srv_add_pf l Hl) as [H1 H2]. unfold AddListenerPort. split.
  - intros a Ha. now rewrite (H1 a Ha).
  - intros Hn. destruct (H2 Hn Hc) as (e & -> & He & _). destruct (N.eqb_spec e 0); congruence.
Qed.
Lemma srv_silent_refuted_pf : exists l, l <> [] /\ (forall a, ~ binds l a) /\
  AddListener (Some l) = Returns 0 None /\ AddListenerPort (Some l) = AddUb.
Proof.
  exists [Addr 0 F4 97 0 0 0; Addr 1 F6 97 0 0 0]. repeat split; try discriminate.
  intros a Ha. assert (In a [Addr 0 F4 97 0 0 0; Addr 1 F6 97 0 0 0] /\ e_create a = 0%N) as [Hi He].
  { destruct Ha as [[(l1 & l2 & -> & _) (W & _)]|(_ & (l1 & l2 & -> & _) & (W & _))]; split; auto; apply in_or_app; right; now left. }
  destruct Hi as [<-|[<-|[]]]; discriminate.
Qed.
Lemma srv_uds_pf a :
  ((e_create a = 0 /\ e_conf a = 0 /\ e_listen a = 0)%N -> AddUDSListener a = Returns 0 (Some (a_id a))) /\
  (~ (e_create a = 0 /\ e_conf a = 0 /\ e_listen a = 0)%N ->
   exists e, e <> 0%N /\ (e = e_create a \/ e = e_conf a \/ e = e_listen a) /\ AddUDSListener a = Returns e None).
Proof.
  unfold AddUDSListener. split.
  - intros (-> & -> & ->). reflexivity.
  - intros H. destruct (N.eqb_spec (e_create a) 0) as [E1|E1].
    + destruct (N.eqb_spec (e_conf a) 0) as [E2|E2].
      * destruct (N.eqb_spec (e_listen a) 0) as [E3|E3]; [tauto|]. exists (e_listen a). auto.
      * exists (e_conf a). destruct (N.eqb_spec (e_conf a) 0); [tauto|]. auto.
    + exists (e_create a). destruct (N.eqb_spec (e_create a) 0); [tauto|]. auto.
Qed.

(** ** Shutting down *)
Definition arrival (k : task) : Prop := match k with TConn _ | TMig _ => True | _ => False end.
Definition all_shut (sh : nat -> bool) (l : list nat) : Prop := forall c, In c l -> sh c = true.
Definition good (p : phase) (q : list task) (l : list nat) (w : sweep) (sh : nat -> bool) : Prop :=
  match p with
  | Accepting => w = NotYet /\ Forall arrival q
  | Sweeping =>
      (w = NotYet /\ exists q', q = q' ++ [TSweep] /\ Forall arrival q') \/
      (q = [] /\ ((exists c, w = Inside c /\ (In c l -> exists l1 l2, l = l1 ++ c :: l2 /\ all_shut sh (l1 ++ [c])))
                  \/ (w = Swept /\ all_shut sh l)))
  | Emptying => all_shut sh l /\ ((w = Swept /\ q = [TAwait]) \/ (w = Waiting /\ q = []) \/ (w = Erased /\ q = [] /\ l = []))
  | Returned | Destroyed => w = Erased /\ q = [] /\ l = []
  end.
Record Inv (n : nat) (s : st) : Prop := {
  iG : forall t, t < n -> good (ph s) (queue s t) (lst s t) (sw s t) (shut s);
  iQ : forall t, t < n -> NoDup (queue s t);
  iL : forall t, NoDup (lst s t);
  iA : forall c t, t < n -> (conn s c = Queued t <-> In (TConn c) (queue s t));
  iM : forall c t, t < n -> (conn s c = Away t <-> In (TMig c) (queue s t));
  iO : forall c t, conn s c = On t <-> In c (lst s t);
  iB : forall c t, conn s c = Queued t \/ conn s c = Away t \/ conn s c = On t -> t < n;
  iX : forall c t, conn s c <> Loose t;
  iE : forall t, n <= t -> sw s t = NotYet;
  iI : forall t c, sw s t = Inside c -> conn s c = On t \/ conn s c = Gone }.

Lemma inv_init n : Inv n init.
Proof.
  constructor; cbn; intros; try congruence; try (split; [discriminate|tauto]); auto.
  - constructor. - constructor. - intuition discriminate.
Qed.

Lemma unlink_in c l x : In x (unlink c l) <-> In x l /\ x <> c.
Proof. unfold unlink. rewrite filter_In. destruct (Nat.eqb_spec x c); cbn; intuition congruence. Qed.
Lemma unlink_nodup c l : NoDup l -> NoDup (unlink c l).
Proof. apply NoDup_filter. Qed.
Lemma unlink_app c a b : unlink c (a ++ b) = unlink c a ++ unlink c b.
Proof. apply filter_app. Qed.
Lemma unlink_cons_neq c x l : x <> c -> unlink c (x :: l) = x :: unlink c l.
Proof. intros. unfold unlink. cbn. destruct (Nat.eqb_spec x c); cbn; congruence. Qed.
Lemma after_mid c l1 l2 : ~ In c l1 -> after c (l1 ++ c :: l2) = l2.
Proof.
  induction l1 as [|x l1 IH]; cbn; intros H.
  - now rewrite Nat.eqb_refl.
  - destruct (Nat.eqb_spec x c). subst; tauto. apply IH. tauto.
Qed.
Lemma all_shut_upd sh c l : all_shut sh l -> all_shut (upd sh c true) l.
Proof. intros H x Hx. unfold upd. destruct (x =? c); auto. Qed.
Lemma good_shut p q l w sh c : good p q l w sh -> good p q l w (upd sh c true).
Proof.
  destruct p; cbn; auto.
  - intros [H|[E [(x & Ew & H)|[Ew H]]]]; auto; right; split; auto.
    + left. exists x. split; auto. intros Hi. destruct (H Hi) as (l1 & l2 & El & Hs). exists l1, l2. split; auto. now apply all_shut_upd.
    + right. split; auto. now apply all_shut_upd.
  - intros [H1 H2]. split; auto. now apply all_shut_upd.
Qed.
Lemma every_true n f : every n f = true -> forall t, t < n -> f t = true.
Proof. unfold every. rewrite forallb_forall. intros H t Ht. apply H. apply in_seq. lia. Qed.
Lemma every_false n f : every n f = false -> exists t, t < n /\ f t = false.
Proof.
  unfold every. intros H. destruct (existsb (fun t => negb (f t)) (seq 0 n)) eqn:E.
  - apply existsb_exists in E. destruct E as (t & Ht & Hf). apply in_seq in Ht. exists t. split. lia. now apply Bool.negb_true_iff.
  - exfalso. assert (forallb f (seq 0 n) = true); [|congruence]. apply forallb_forall. intros t Ht.
    destruct (f t) eqn:F; auto. assert (existsb (fun t => negb (f t)) (seq 0 n) = true); [|congruence].
    apply existsb_exists. exists t. rewrite F. auto.
Qed.
Lemma nodup_snoc {A} (l : list A) x : NoDup l -> ~ In x l -> NoDup (l ++ [x]).
Proof.
  intros H1 H2. apply (NoDup_Add (a := x) (l := l)). rewrite <- (app_nil_r l) at 1. apply Add_app. auto.
Qed.

(** The step [sweep_at] with what remains of the list behind the part that is done. *)
Lemma sweep_inv n s t q l1 l2 : Inv n s -> t < n -> ph s = Sweeping ->
  (queue s t = TSweep :: q \/ queue s t = q) -> q = [] ->
  lst s t = l1 ++ l2 -> all_shut (shut s) l1 -> Inv n (sweep_at s t q l2).
Proof.
  intros I Ht Hp Hq -> El Hs.
  assert (Hin : forall k, arrival k -> (In k (queue s t) <-> False)).
  { intros k Hk. destruct Hq as [-> | ->]; cbn; [|tauto]. split; [|tauto]. intros [<-|[]]. exact Hk. }
  unfold sweep_at. destruct l2 as [|c l2].
  - rewrite app_nil_r in El. constructor; cbn [ph queue lst sw conn shut]; try apply I.
    + intros u Hu. unfold upd. destruct (Nat.eqb_spec u t) as [->|]; [|now apply I]. rewrite Hp. cbn. right. split; auto. right. split; auto. now rewrite El.
    + intros u Hu. unfold upd. destruct (Nat.eqb_spec u t) as [->|]; [constructor|now apply I].
    + intros x u Hu. rewrite (iA _ _ I x u Hu). unfold upd. destruct (Nat.eqb_spec u t) as [->|]; [|tauto]. now rewrite Hin.
    + intros x u Hu. rewrite (iM _ _ I x u Hu). unfold upd. destruct (Nat.eqb_spec u t) as [->|]; [|tauto]. now rewrite Hin.
    + intros u Hu. unfold upd. destruct (Nat.eqb_spec u t) as [->|]; [lia|now apply (iE _ _ I)].
    + intros u x. unfold upd. destruct (Nat.eqb_spec u t) as [->|]; [discriminate|now apply (iI _ _ I)].
  - constructor; cbn [ph queue lst sw conn shut]; try apply I.
    + intros u Hu. pose proof (good_shut _ _ _ _ _ c (iG _ _ I u Hu)) as G. unfold upd at 1 2.
      destruct (Nat.eqb_spec u t) as [->|]; [|exact G]. rewrite Hp. cbn. right. split; auto. left. exists c. split; auto.
      intros _. exists l1, l2. split; auto. intros x Hx. unfold upd. destruct (Nat.eqb_spec x c); auto.
      apply in_app_or in Hx as [Hx|[->|[]]]; [now apply Hs|congruence].
    + intros u Hu. unfold upd. destruct (Nat.eqb_spec u t) as [->|]; [constructor|now apply I].
    + intros x u Hu. rewrite (iA _ _ I x u Hu). unfold upd. destruct (Nat.eqb_spec u t) as [->|]; [|tauto]. now rewrite Hin.
    + intros x u Hu. rewrite (iM _ _ I x u Hu). unfold upd. destruct (Nat.eqb_spec u t) as [->|]; [|tauto]. now rewrite Hin.
    + intros u Hu. unfold upd. destruct (Nat.eqb_spec u t) as [->|]; [lia|now apply (iE _ _ I)].
    + intros u x. unfold upd. destruct (Nat.eqb_spec u t) as [->|]; [|now apply (iI _ _ I)].
      intros [= <-]. left. apply (iO _ _ I). rewrite El. apply in_or_app. right. now left.
Qed.

(** Linking what arrives: a new connection or one that migrated. *)
Lemma link_inv n s t q k c : Inv n s -> t < n -> queue s t = k :: q -> (k = TConn c \/ k = TMig c) -> Inv n (link s t q c).
Proof.
  intros I Ht Eq Hk. pose proof (iG _ _ I t Ht) as G. pose proof (iQ _ _ I t Ht) as Hnd. rewrite Eq in G, Hnd.
  inversion Hnd as [|? ? Hni Hnd']; subst.
  assert (Hcon : conn s c = Queued t \/ conn s c = Away t).
  { destruct Hk as [-> | ->]; [left; apply (iA _ _ I c t Ht)|right; apply (iM _ _ I c t Ht)]; rewrite Eq; now left. }
  assert (Hother : forall u, u < n -> ~ In (TConn c) (upd (queue s) t q u) /\ ~ In (TMig c) (upd (queue s) t q u)).
  { intros u Hu. unfold upd. destruct (Nat.eqb_spec u t) as [->|Hne].
    - destruct Hk as [-> | ->].
      + split; auto. intros Hm. assert (conn s c = Away t) by (apply (iM _ _ I c t Ht); rewrite Eq; now right).
        assert (conn s c = Queued t) by (apply (iA _ _ I c t Ht); rewrite Eq; now left). congruence.
      + split; auto. intros Hm. assert (conn s c = Queued t) by (apply (iA _ _ I c t Ht); rewrite Eq; now right).
        assert (conn s c = Away t) by (apply (iM _ _ I c t Ht); rewrite Eq; now left). congruence.
    - split; intros Hm; [apply (iA _ _ I c u Hu) in Hm|apply (iM _ _ I c u Hu) in Hm]; destruct Hcon; congruence. }
  assert (Hnl : forall u, ~ In c (lst s u)). { intros u Hm. apply (iO _ _ I) in Hm. destruct Hcon; congruence. }
  assert (Hkeep : forall k', k' <> k -> forall u, In k' (upd (queue s) t q u) <-> In k' (queue s u)).
  { intros k' Hne u. unfold upd. destruct (Nat.eqb_spec u t) as [->|]; [|tauto]. rewrite Eq. cbn. intuition congruence. }
  constructor; cbn [link ph queue lst sw conn shut]; try apply I.
  - intros u Hu. unfold upd. destruct (Nat.eqb_spec u t) as [->|Hne]; [|now apply I].
    destruct (ph s); cbn [good] in G |- *.
    + destruct G as [G1 G2]. inversion G2; subst. auto.
    + destruct G as [[G1 (q' & G2 & G3)]|[G _]]; [|discriminate]. left. split; auto.
      destruct q' as [|k' q']; cbn [app] in G2; [exfalso; injection G2 as -> ->; destruct Hk; discriminate|injection G2 as -> ->].
      exists q'. inversion G3; subst. auto.
    + exfalso. destruct G as [_ [[_ G]|[[_ G]|[_ [G _]]]]]; try discriminate. injection G as -> ->. destruct Hk; discriminate.
    + destruct G as (_ & G & _). discriminate.
    + destruct G as (_ & G & _). discriminate.
  - intros u Hu. unfold upd. destruct (Nat.eqb_spec u t) as [->|Hne]; [auto|now apply I].
  - intros u. unfold upd. destruct (Nat.eqb_spec u t) as [->|Hne]; [|now apply I]. apply nodup_snoc; auto. apply I.
  - intros x u Hu. unfold upd at 1. destruct (Nat.eqb_spec x c) as [->|Hne].
    + split; [discriminate|]. intros Hm. now apply Hother in Hm.
    + rewrite Hkeep. now apply I. destruct Hk; congruence.
  - intros x u Hu. unfold upd at 1. destruct (Nat.eqb_spec x c) as [->|Hne].
    + split; [discriminate|]. intros Hm. now apply Hother in Hm.
    + rewrite Hkeep. now apply I. destruct Hk; congruence.
  - intros x u. unfold upd. destruct (Nat.eqb_spec x c) as [->|Hne]; destruct (Nat.eqb_spec u t) as [->|Hne2].
    + split; auto. intros _. apply in_or_app. right. now left.
    + split; [congruence|]. intros Hm. now apply Hnl in Hm.
    + rewrite (iO _ _ I x t). rewrite in_app_iff. cbn. intuition congruence.
    + apply I.
  - intros x u. unfold upd. destruct (Nat.eqb_spec x c) as [->|Hne]; [|now apply I]. intros [H|[H|H]]; congruence.
  - intros x u. unfold upd. destruct (Nat.eqb_spec x c) as [->|Hne]; [discriminate|now apply I].
  - intros u x Hx. unfold upd. destruct (Nat.eqb_spec x c) as [->|Hne]; [|now apply I]. destruct (iI _ _ I u c Hx), Hcon; congruence.
Qed.

(** Taking a connection out of its list. *)
Lemma good_unlink p q l w sh c : NoDup l -> good p q l w sh -> good p q (unlink c l) w sh.
Proof.
  intros Hnd. assert (Hs : forall m, all_shut sh m -> all_shut sh (unlink c m)). { intros m H x Hx. apply unlink_in in Hx. apply H. tauto. }
  destruct p; cbn; auto.
  - intros [H|[E [(x & Ew & H)|[Ew H]]]]; auto; right; split; auto.
    left. exists x. split; auto. intros Hi. apply unlink_in in Hi as [Hi Hne]. destruct (H Hi) as (l1 & l2 & -> & Ha).
    exists (unlink c l1), (unlink c l2). rewrite unlink_app, unlink_cons_neq by auto. split; auto.
    intros y Hy. apply Ha. apply in_app_or in Hy as [Hy|Hy]; apply in_or_app; [left|now right]. apply unlink_in in Hy. tauto.
  - intros [H1 [H2|[H2|(H2 & H3 & ->)]]]; split; auto; right; right; auto.
  - intros (H1 & H2 & ->). auto.
  - intros (H1 & H2 & ->). auto.
Qed.

Lemma step_inv n s l : Inv n s -> (ph s <> Accepting -> forall c d, l <> Migrate c d) ->
  match step n s l with Next s' => Inv n s' | Ub => False | Stuck => True end.
Proof.
  intros I Hm. destruct l as [c t| |t|t| |t| | |c|c d]; cbn [step].
  - (* Accept *) destruct (ph s) eqn:Ep; auto. destruct (conn s c) eqn:Ec; auto. destruct (Nat.ltb_spec t n) as [Ht|]; auto.
    constructor; cbn [ph queue lst sw conn shut]; try apply I.
    + intros u Hu. pose proof (iG _ _ I u Hu) as G. rewrite Ep in G. cbn in G |- *. unfold upd. destruct (Nat.eqb_spec u t) as [->|]; auto.
      destruct G as [G1 G2]. split; auto. apply Forall_app. split; auto. constructor; cbn; auto.
    + intros u Hu. unfold upd. destruct (Nat.eqb_spec u t) as [->|]; [|now apply I]. apply nodup_snoc. now apply I.
      intros Hi. apply (iA _ _ I c t Ht) in Hi. congruence.
    + intros x u Hu. pose proof (iA _ _ I x u Hu) as HA. unfold upd. destruct (Nat.eqb_spec x c) as [->|]; destruct (Nat.eqb_spec u t) as [->|].
      * split; auto. intros _. apply in_or_app. right. now left.
      * split; [congruence|]. intros Hi. apply HA in Hi. congruence.
      * rewrite HA, in_app_iff. cbn. intuition congruence.
      * auto.
    + intros x u Hu. pose proof (iM _ _ I x u Hu) as HA. unfold upd. destruct (Nat.eqb_spec x c) as [->|]; destruct (Nat.eqb_spec u t) as [->|].
      * split; [discriminate|]. intros Hi. apply in_app_or in Hi as [Hi|[Hi|[]]]; [apply HA in Hi|]; congruence.
      * split; [congruence|]. intros Hi. apply HA in Hi. congruence.
      * rewrite HA, in_app_iff. cbn. intuition congruence.
      * auto.
    + intros x u. pose proof (iO _ _ I x u). unfold upd. destruct (Nat.eqb_spec x c) as [->|]; auto. split; [discriminate|]. intros Hi.
      apply (iO _ _ I) in Hi. congruence.
    + intros x u. unfold upd. destruct (Nat.eqb_spec x c) as [->|]; [|now apply I]. intros [H|[H|H]]; congruence.
    + intros x u. unfold upd. destruct (Nat.eqb_spec x c) as [->|]; [discriminate|now apply I].
    + intros u x Hx. unfold upd. destruct (Nat.eqb_spec x c) as [->|]; [|now apply I]. destruct (iI _ _ I u c Hx); congruence.
  - (* Break *) destruct (ph s) eqn:Ep; auto.
    constructor; cbn [ph queue lst sw conn shut]; try apply I.
    + intros u Hu. pose proof (iG _ _ I u Hu) as G. rewrite Ep in G. cbn in G |- *. destruct G as [G1 G2]. left. split; auto. eauto.
    + intros u Hu. pose proof (iG _ _ I u Hu) as G. rewrite Ep in G. cbn in G. apply nodup_snoc. now apply I.
      intros Hi. destruct G as [_ G]. rewrite Forall_forall in G. exact (G _ Hi).
    + intros x u Hu. rewrite (iA _ _ I x u Hu), in_app_iff. cbn. intuition congruence.
    + intros x u Hu. rewrite (iM _ _ I x u Hu), in_app_iff. cbn. intuition congruence.
  - (* Run *) destruct (Nat.ltb_spec t n) as [Ht|]; auto. destruct (queue s t) as [|k q] eqn:Eq; auto.
    pose proof (iG _ _ I t Ht) as G. rewrite Eq in G.
    assert (Her : sw s t = Erased -> False).
    { intros E. rewrite E in G. destruct (ph s); cbn in G.
      - destruct G; discriminate.
      - destruct G as [[G _]|[G _]]; discriminate.
      - destruct G as [_ [[G _]|[[G _]|(_ & G & _)]]]; discriminate.
      - destruct G as (_ & G & _); discriminate.
      - destruct G as (_ & G & _); discriminate. }
    assert (Hnd : is_destroyed (ph s) = false).
    { destruct (ph s); auto. destruct G as (_ & G & _). discriminate. }
    assert (Hne : is_erased (sw s t) = false) by (destruct (sw s t); auto; now elim Her).
    destruct k as [c| | |c].
    + rewrite Hne. eapply link_inv; eauto.
    + destruct (ph s) eqn:Ep; cbn in G.
      * destruct G as [_ G]. inversion G; subst. contradiction.
      * destruct G as [[G1 (q' & G2 & G3)]|[G _]]; [|discriminate].
        destruct q' as [|k' q']; cbn [app] in G2; [injection G2 as -> |injection G2 as <- ->; inversion G3; contradiction].
        apply (sweep_inv n s t [] [] (lst s t)); auto. intros x [].
      * destruct G as [_ [[_ G]|[[_ G]|(_ & G & _)]]]; discriminate.
      * destruct G as (_ & G & _); discriminate.
      * destruct G as (_ & G & _); discriminate.
    + destruct (ph s) eqn:Ep; cbn in G.
      * destruct G as [_ G]. inversion G; subst. contradiction.
      * destruct G as [[G1 (q' & G2 & G3)]|[G _]]; [|discriminate].
        destruct q' as [|k' q']; cbn [app] in G2; [discriminate|]. injection G2 as <- ->. inversion G3; contradiction.
      * destruct G as [Gs [[Gw G]|[[_ G]|(_ & G & _)]]]; try discriminate. injection G as ->.
        constructor; cbn [ph queue lst sw conn shut]; try apply I.
        -- intros u Hu. pose proof (iG _ _ I u Hu) as G. rewrite Ep in G. unfold upd. destruct (Nat.eqb_spec u t) as [->|]; auto. cbn. auto.
        -- intros u Hu. unfold upd. destruct (Nat.eqb_spec u t) as [->|]; [constructor|now apply I].
        -- intros x u Hu. rewrite (iA _ _ I x u Hu). unfold upd. destruct (Nat.eqb_spec u t) as [->|]; [|tauto]. rewrite Eq. cbn. intuition discriminate.
        -- intros x u Hu. rewrite (iM _ _ I x u Hu). unfold upd. destruct (Nat.eqb_spec u t) as [->|]; [|tauto]. rewrite Eq. cbn. intuition discriminate.
        -- intros u Hu. unfold upd. destruct (Nat.eqb_spec u t) as [->|]; [lia|now apply (iE _ _ I)].
        -- intros u x. unfold upd. destruct (Nat.eqb_spec u t) as [->|]; [discriminate|now apply (iI _ _ I)].
      * destruct G as (_ & G & _); discriminate.
      * destruct G as (_ & G & _); discriminate.
    + rewrite Hnd, Hne. eapply link_inv; eauto.
  - (* Back *) destruct (sw s t) as [|c| | |] eqn:Ew; auto.
    destruct (Nat.lt_ge_cases t n) as [Ht|Ht]; [|rewrite (iE _ _ I t Ht) in Ew; discriminate].
    pose proof (iG _ _ I t Ht) as G. rewrite Ew in G.
    destruct (ph s) eqn:Ep; cbn in G.
    + destruct G; discriminate.
    + destruct G as [[G _]|[Eq [(x & Ex & G)|[G _]]]]; try discriminate. injection Ex as <-.
      assert (Hout : conn s c <> On t -> Inv n (sweep_at s t (queue s t) (lst s t))).
      { intros _. apply (sweep_inv n s t (queue s t) [] (lst s t)); auto. intros x []. }
      destruct (conn s c) as [|u|u|u|u|] eqn:Ec; try (apply Hout; discriminate).
      destruct (Nat.eqb_spec u t) as [->|Hne].
      * apply (iO _ _ I) in Ec. destruct (G Ec) as (l1 & l2 & El & Ha). rewrite El, after_mid.
        -- apply (sweep_inv n s t (queue s t) (l1 ++ [c]) l2); auto. now rewrite El, <- app_assoc.
        -- pose proof (iL _ _ I t) as Hnd. rewrite El in Hnd. apply NoDup_remove_2 in Hnd. intros Hi. apply Hnd. apply in_or_app. auto.
      * destruct (iI _ _ I t c Ew); congruence.
    + destruct G as [_ [[G _]|[[G _]|(G & _)]]]; discriminate.
    + destruct G as (G & _); discriminate.
    + destruct G as (G & _); discriminate.
  - (* Await *) destruct (ph s) eqn:Ep; auto. destruct (every n _) eqn:Ev; auto.
    assert (Hg : forall u, u < n -> sw s u = Swept /\ queue s u = [] /\ all_shut (shut s) (lst s u)).
    { intros u Hu. pose proof (every_true _ _ Ev u Hu) as Hw. cbn in Hw. destruct (sw s u) eqn:Ew; try discriminate.
      pose proof (iG _ _ I u Hu) as G. rewrite Ep, Ew in G. cbn in G.
      destruct G as [[G _]|[Eq [(x & Ex & G)|[_ G]]]]; try discriminate. auto. }
    constructor; cbn [ph queue lst sw conn shut]; try apply I.
    + intros u Hu. destruct (Hg u Hu) as (-> & -> & H). cbn. auto.
    + intros u Hu. destruct (Hg u Hu) as (_ & -> & _). apply nodup_snoc; auto. constructor.
    + intros x u Hu. rewrite (iA _ _ I x u Hu), in_app_iff. cbn. intuition congruence.
    + intros x u Hu. rewrite (iM _ _ I x u Hu), in_app_iff. cbn. intuition congruence.
  - (* Drop *) destruct (sw s t) eqn:Ew; auto. destruct (lst s t) eqn:El; auto.
    destruct (Nat.lt_ge_cases t n) as [Ht|Ht]; [|rewrite (iE _ _ I t Ht) in Ew; discriminate].
    constructor; cbn [ph queue lst sw conn shut]; try apply I.
    + intros u Hu. pose proof (iG _ _ I u Hu) as G. unfold upd. destruct (Nat.eqb_spec u t) as [->|]; auto. rewrite Ew, El in *.
      destruct (ph s); cbn in G |- *.
      * destruct G; discriminate.
      * destruct G as [[G _]|[_ [(x & Ex & _)|[G _]]]]; discriminate.
      * destruct G as [Gs [[G _]|[[_ G]|(G & _)]]]; try discriminate. split; auto.
      * destruct G; discriminate.
      * destruct G; discriminate.
    + intros u Hu. unfold upd. destruct (Nat.eqb_spec u t) as [->|]; [lia|now apply (iE _ _ I)].
    + intros u x. unfold upd. destruct (Nat.eqb_spec u t) as [->|]; [discriminate|now apply (iI _ _ I)].
  - (* End *) destruct (ph s) eqn:Ep; auto. destruct (every n _) eqn:Ev; auto.
    constructor; cbn [ph queue lst sw conn shut]; try apply I.
    intros u Hu. pose proof (every_true _ _ Ev u Hu) as Hw. cbn in Hw. destruct (sw s u) eqn:Ew; try discriminate.
    pose proof (iG _ _ I u Hu) as G. rewrite Ep, Ew in G. cbn in G. destruct G as [_ [[G _]|[[G _]|G]]]; try discriminate. cbn. tauto.
  - (* Destroy *) destruct (ph s) eqn:Ep; auto.
    constructor; cbn [ph queue lst sw conn shut]; try apply I.
    intros u Hu. pose proof (iG _ _ I u Hu) as G. rewrite Ep in G. exact G.
  - (* Close *) destruct (conn s c) as [|t|t|t|t|] eqn:Ec; auto; [|exfalso; eapply iX; eauto].
    assert (Ht : t < n) by (apply (iB _ _ I c t); auto).
    pose proof (proj1 (iO _ _ I c t) Ec) as Hi.
    assert (Hz : is_destroyed (ph s) || is_erased (sw s t) = false).
    { pose proof (iG _ _ I t Ht) as G. destruct (ph s); destruct (sw s t); cbn in G |- *; auto.
      - destruct G; discriminate.
      - destruct G as [[G _]|[_ [(x & G & _)|[G _]]]]; discriminate.
      - destruct G as [_ [[G _]|[[G _]|(_ & _ & G)]]]; try discriminate. rewrite G in Hi. destruct Hi.
      - destruct G as (_ & _ & G). rewrite G in Hi. destruct Hi.
      - destruct G; discriminate. - destruct G; discriminate. - destruct G; discriminate. - destruct G; discriminate.
      - destruct G as (_ & _ & G). rewrite G in Hi. destruct Hi. }
    rewrite Hz. constructor; cbn [ph queue lst sw conn shut]; try apply I.
    + intros u Hu. unfold upd. destruct (Nat.eqb_spec u t) as [->|]; [|now apply I]. apply good_unlink; now apply I.
    + intros u. unfold upd. destruct (Nat.eqb_spec u t) as [->|]; [|now apply I]. apply unlink_nodup. apply I.
    + intros x u Hu. pose proof (iA _ _ I x u Hu) as H. unfold upd. destruct (Nat.eqb_spec x c) as [->|]; auto. rewrite <- H. intuition congruence.
    + intros x u Hu. pose proof (iM _ _ I x u Hu) as H. unfold upd. destruct (Nat.eqb_spec x c) as [->|]; auto. rewrite <- H. intuition congruence.
    + intros x u. pose proof (iO _ _ I x u) as H. unfold upd. destruct (Nat.eqb_spec x c) as [->|]; destruct (Nat.eqb_spec u t) as [->|]; auto.
      * rewrite unlink_in. intuition congruence.
      * rewrite <- H. intuition congruence.
      * rewrite unlink_in. rewrite (iO _ _ I x t). tauto.
    + intros x u. unfold upd. destruct (Nat.eqb_spec x c) as [->|]; [|now apply I]. intros [H|[H|H]]; congruence.
    + intros x u. unfold upd. destruct (Nat.eqb_spec x c) as [->|]; [discriminate|now apply I].
    + intros u x Hx. unfold upd. destruct (Nat.eqb_spec x c) as [->|]; [auto|now apply I].
  - (* Migrate *) destruct (ph s) eqn:Ep; try (exfalso; eapply Hm; [|reflexivity]; discriminate).
    destruct (conn s c) as [|t|t|t|t|] eqn:Ec; auto; [|exfalso; eapply iX; eauto].
    destruct (Nat.eqb_spec t d) as [|Hne]; cbn [orb]; auto. destruct (Nat.ltb_spec d n) as [Hd|]; cbn [negb]; auto.
    assert (Ht : t < n) by (apply (iB _ _ I c t); auto).
    assert (Hw : forall u, u < n -> sw s u = NotYet /\ Forall arrival (queue s u)). { intros u Hu. pose proof (iG _ _ I u Hu) as G. now rewrite Ep in G. }
    destruct (Hw t Ht) as [-> _]. cbn [is_destroyed is_erased orb].
    constructor; cbn [ph queue lst sw conn shut]; try apply I.
    + intros u Hu. destruct (Hw u Hu) as [Hw1 Hw2]. cbn. unfold upd. destruct (Nat.eqb_spec u d) as [->|]; auto. split; auto.
      apply Forall_app. split; auto. constructor; cbn; auto.
    + intros u Hu. unfold upd. destruct (Nat.eqb_spec u d) as [->|]; [|now apply I]. apply nodup_snoc. now apply I.
      intros Hi. apply (iM _ _ I c d Hd) in Hi. congruence.
    + intros u. unfold upd. destruct (Nat.eqb_spec u t) as [->|]; [|now apply I]. apply unlink_nodup. apply I.
    + intros x u Hu. pose proof (iA _ _ I x u Hu) as HA. unfold upd. destruct (Nat.eqb_spec x c) as [->|]; destruct (Nat.eqb_spec u d) as [->|].
      * split; [discriminate|]. intros Hi. apply in_app_or in Hi as [Hi|[Hi|[]]]; [apply HA in Hi|]; congruence.
      * split; [congruence|]. intros Hi. apply HA in Hi. congruence.
      * rewrite HA, in_app_iff. cbn. intuition congruence.
      * auto.
    + intros x u Hu. pose proof (iM _ _ I x u Hu) as HA. unfold upd. destruct (Nat.eqb_spec x c) as [->|]; destruct (Nat.eqb_spec u d) as [->|].
      * split; auto. intros _. apply in_or_app. right. now left.
      * split; [congruence|]. intros Hi. apply HA in Hi. congruence.
      * rewrite HA, in_app_iff. cbn. intuition congruence.
      * auto.
    + intros x u. pose proof (iO _ _ I x u) as H. unfold upd. destruct (Nat.eqb_spec x c) as [->|]; destruct (Nat.eqb_spec u t) as [->|]; auto.
      * rewrite unlink_in. intuition congruence.
      * rewrite <- H. intuition congruence.
      * rewrite unlink_in. rewrite (iO _ _ I x t). tauto.
    + intros x u. unfold upd. destruct (Nat.eqb_spec x c) as [->|]; [|now apply I]. intros [H|[H|H]]; congruence.
    + intros x u. unfold upd. destruct (Nat.eqb_spec x c) as [->|]; [discriminate|now apply I].
    + intros u x Hx. exfalso. destruct (Nat.lt_ge_cases u n) as [Hu|Hu]; [rewrite (proj1 (Hw u Hu)) in Hx|rewrite (iE _ _ I u Hu) in Hx]; discriminate.
Qed.

Lemma step_accepting n s l s' : ph s = Accepting -> l <> Break -> step n s l = Next s' -> ph s' = Accepting.
Proof.
  intros Hp Hb H. destruct l; cbn [step] in H; rewrite ?Hp in H; try congruence;
    repeat match type of H with context[match ?x with _ => _ end] => destruct x eqn:?; try discriminate end;
    try (injection H as <-); cbn; auto; unfold sweep_at;
    repeat match goal with |- context[match ?x with _ => _ end] => destruct x end; auto.
Qed.
Lemma settled_inv n ls : forall b s, Inv n s -> (b = false -> ph s = Accepting) -> settled b ls ->
  match exec (step n) s ls with Next s' => Inv n s' | Ub => False | Stuck => True end.
Proof.
  induction ls as [|l ls IH]; intros b s I Hb Hs; cbn [exec]; auto.
  assert (Hm : ph s <> Accepting -> forall c d, l <> Migrate c d).
  { intros Hp c d ->. cbn in Hs. destruct Hs as [-> _]. auto. }
  pose proof (step_inv n s l I Hm) as H. destruct (step n s l) as [| |s'] eqn:E; auto.
  destruct l; cbn [settled] in Hs; try (apply (IH b); auto; intros Hf; eapply step_accepting; eauto; discriminate).
  - apply (IH true); auto. discriminate.
  - destruct Hs as [-> Hs]. apply (IH false); auto. intros Hf; eapply step_accepting; eauto; discriminate.
Qed.
Lemma run_inv n ls s : settled false ls -> exec (step n) init ls = Next s -> Inv n s.
Proof. intros Hs E. pose proof (settled_inv n ls false init (inv_init n) (fun _ => eq_refl) Hs) as H. now rewrite E in H. Qed.

Lemma srv_safe_pf n ls : settled false ls -> exec (step n) init ls <> Ub.
Proof. intros Hs E. pose proof (settled_inv n ls false init (inv_init n) (fun _ => eq_refl) Hs) as H. now rewrite E in H. Qed.

(** Where an open connection is. *)
Lemma open_where n s c : Inv n s -> open s c ->
  exists t, t < n /\ ((conn s c = On t /\ In c (lst s t)) \/ exists k, arrival k /\ In k (queue s t)).
Proof.
  intros I [H1 H2]. destruct (conn s c) as [|t|t|t|t|] eqn:E; try congruence.
  - assert (Ht : t < n) by (apply (iB _ _ I c t); auto). exists t. split; auto. right. exists (TConn c). split; cbn; auto. now apply (iA _ _ I c t Ht).
  - assert (Ht : t < n) by (apply (iB _ _ I c t); auto). exists t. split; auto. left. split; auto. now apply (iO _ _ I).
  - assert (Ht : t < n) by (apply (iB _ _ I c t); auto). exists t. split; auto. right. exists (TMig c). split; cbn; auto. now apply (iM _ _ I c t Ht).
  - exfalso. eapply iX; eauto.
Qed.
Lemma srv_wait_pf n ls s c : settled false ls -> exec (step n) init ls = Next s -> waited s -> ~ open s c.
Proof.
  intros Hs E Hw Ho. pose proof (run_inv n ls s Hs E) as I. destruct (open_where n s c I Ho) as (t & Ht & H).
  pose proof (iG _ _ I t Ht) as G. assert (queue s t = [] /\ lst s t = []) as [Eq El].
  { destruct Hw as [Hw|Hw]; rewrite Hw in G; cbn in G; tauto. }
  rewrite Eq, El in H. destruct H as [[_ []]|(k & _ & [])].
Qed.
Lemma srv_told_pf n ls s c : settled false ls -> exec (step n) init ls = Next s -> swept s -> open s c -> told s c.
Proof.
  intros Hs E Hw Ho. pose proof (run_inv n ls s Hs E) as I.
  destruct Hw as [Hw|Hw]; [|exfalso; eapply (srv_wait_pf n ls s c); eauto].
  destruct (open_where n s c I Ho) as (t & Ht & H). pose proof (iG _ _ I t Ht) as G. rewrite Hw in G. cbn in G. destruct G as [Ga G].
  destruct H as [[H1 H2]|(k & Hk & Hi)].
  - split; eauto.
  - exfalso. destruct G as [[_ Eq]|[[_ Eq]|(_ & Eq & _)]]; rewrite Eq in Hi; cbn in Hi; intuition; subst; auto.
Qed.
(** Nobody is told to stop while the listener accepts. *)
Lemma early_inv n ls : forall s s', ph s = Accepting -> (forall t, sw s t = NotYet) -> (forall t, Forall arrival (queue s t)) ->
  (forall c, shut s c = false) -> exec (step n) s ls = Next s' -> ph s' = Accepting -> forall c, shut s' c = false.
Proof.
  induction ls as [|l ls IH]; intros s s' Hp Hw Hq Hs E Hp'; cbn [exec] in E; [now injection E as <-|].
  destruct (step n s l) as [| |s1] eqn:E1; try discriminate.
  assert (Hmono : forall m a b, ph a <> Accepting -> exec (step n) a m = Next b -> ph b <> Accepting).
  { induction m as [|k m IHm]; intros a b Ha Eb; cbn [exec] in Eb; [now injection Eb as <-|].
    destruct (step n a k) as [| |a1] eqn:Ek; try discriminate. apply (IHm a1 b); auto. clear - Ha Ek.
    destruct k; cbn [step] in Ek;
      repeat match type of Ek with context[match ?x with _ => _ end] => destruct x eqn:?; try discriminate end;
      try (injection Ek as <-); cbn; try congruence; auto; unfold sweep_at;
      repeat match goal with |- context[match ?x with _ => _ end] => destruct x end; cbn; congruence. }
  destruct (ph s1) eqn:Ep1; try (exfalso; apply (Hmono ls s1 s'); congruence).
  apply (IH s1 s'); auto; clear IH E Hmono.
  all: destruct l as [c t| |t|t| |t| | |c|c d]; cbn [step] in E1; rewrite ?Hp, ?Hw in E1; try discriminate.
  all: repeat match type of E1 with context[match ?x with _ => _ end] => destruct x eqn:?; try discriminate end.
  all: try (injection E1 as <-); cbn in *; auto; try discriminate.
  all: try (match goal with H : queue _ ?t = ?k :: _ |- _ => pose proof (Hq t) as Hqt; rewrite H in Hqt; inversion Hqt; subst end); try contradiction.
  all: intros u; unfold upd; match goal with |- context[if ?b then _ else _] => destruct b end; auto;
    apply Forall_app; split; auto; constructor; cbn; auto.
Qed.
Lemma srv_early_pf n ls s c : exec (step n) init ls = Next s -> ph s = Accepting -> shut s c = false.
Proof. intros E H. apply (early_inv n ls init s); auto. cbn. constructor. Qed.

(** Shutting down waits for nothing but connections. *)
Lemma srv_progress_pf n ls s : settled false ls -> exec (step n) init ls = Next s -> ph s = Sweeping \/ ph s = Emptying ->
  (exists l s', own l /\ step n s l = Next s') \/ (ph s = Emptying /\ exists c, told s c).
Proof.
  intros Hs E Hp. pose proof (run_inv n ls s Hs E) as I.
  assert (Hrun : forall t, t < n -> queue s t <> [] -> exists l s', own l /\ step n s l = Next s').
  { intros t Ht Hq. exists (Run t). pose proof (step_inv n s (Run t) I) as H.
    assert (Hn : step n s (Run t) <> Stuck).
    { cbn [step]. destruct (Nat.ltb_spec t n); [|lia]. destruct (queue s t) as [|k q]; [congruence|].
      destruct k; repeat match goal with |- context[if ?x then _ else _] => destruct x end; discriminate. }
    destruct (step n s (Run t)) as [| |s1]; [congruence| |exists s1; cbn; auto].
    exfalso. apply H. intros _ c d. discriminate. }
  destruct Hp as [Hp|Hp].
  - left. destruct (every n (fun t => is_swept (sw s t))) eqn:Ev.
    + exists Await. cbn [step]. rewrite Hp, Ev. cbn. eauto.
    + apply every_false in Ev as (t & Ht & Hf). pose proof (iG _ _ I t Ht) as G. rewrite Hp in G. cbn in G.
      destruct G as [[_ (q' & Eq & _)]|[Eq [(c & Ew & _)|[Ew _]]]].
      * apply (Hrun t Ht). rewrite Eq. destruct q'; discriminate.
      * exists (Back t). pose proof (step_inv n s (Back t) I) as H.
        assert (Hn : step n s (Back t) <> Stuck).
        { cbn [step]. rewrite Ew. destruct (conn s c) as [|u|u|u|u|]; try discriminate. destruct (u =? t); discriminate. }
        destruct (step n s (Back t)) as [| |s1]; [congruence| |exists s1; cbn; auto]. exfalso. apply H. intros _ ? ?. discriminate.
      * rewrite Ew in Hf. discriminate.
  - destruct (every n (fun t => is_erased (sw s t))) eqn:Ev.
    + left. exists End. cbn [step]. rewrite Hp, Ev. cbn. eauto.
    + apply every_false in Ev as (t & Ht & Hf). pose proof (iG _ _ I t Ht) as G. rewrite Hp in G. cbn in G.
      destruct G as [Ga [[_ Eq]|[[Ew Eq]|(Ew & _)]]].
      * left. apply (Hrun t Ht). rewrite Eq. discriminate.
      * destruct (lst s t) as [|c r] eqn:El.
        -- left. exists (Drop t). cbn [step]. rewrite Ew, El. cbn. eauto.
        -- right. split; auto. exists c. split.
           ++ exists t. apply (iO _ _ I). rewrite El. now left.
           ++ apply Ga. now left.
      * rewrite Ew in Hf. discriminate.
Qed.

(** With migrations. *)
Lemma obs_exec n ls p k b : obs (fun s => (ph s, conn s 0, shut s 0)) (exec (step n) init ls) = Some (p, k, b) ->
  exists s, exec (step n) init ls = Next s /\ ph s = p /\ conn s 0 = k /\ shut s 0 = b.
Proof. destruct (exec (step n) init ls) as [| |s]; cbn; try discriminate. intros [= <- <- <-]. eauto. Qed.
Definition miss : list lab := [Accept 0 0; Run 0; Break; Migrate 0 1; Run 0; Run 1; Await; Run 1].
Lemma srv_missed_refuted_pf : exists s, exec (step 2) init miss = Next s /\ swept s /\ open s 0 /\ shut s 0 = false.
Proof.
  destruct (obs_exec 2 miss Emptying (On 1) false) as (s & E & H1 & H2 & H3); [vm_compute; reflexivity|].
  exists s. unfold swept, open. rewrite H1, H2. repeat split; auto; discriminate.
Qed.
(** Told to stop, it migrates to a thread that has deleted its list. *)
Definition flee : list lab :=
  [Accept 0 1; Run 1; Break; Run 0; Run 1; Back 1; Await; Run 0; Drop 0; Migrate 0 0; Run 1; Drop 1; End].
Lemma srv_wait_refuted_pf : exists s, exec (step 2) init flee = Next s /\ waited s /\ open s 0 /\
  exec (step 2) init (flee ++ [Destroy; Run 0]) = Ub /\
  exec (step 2) init (flee ++ [Run 0; Destroy; Close 0]) = Ub /\ exec (step 2) init (flee ++ [Run 0; Migrate 0 1]) = Ub.
Proof.
  destruct (obs_exec 2 flee Returned (Away 0) true) as (s & E & H1 & H2 & H3); [vm_compute; reflexivity|].
  exists s. unfold waited, open. rewrite H1, H2. repeat split; auto; try discriminate; vm_compute; reflexivity.
Qed.
(** It migrates while the listener is in Shutdown for it. *)
Definition swap : list lab := [Accept 0 0; Run 0; Break; Run 0; Migrate 0 1; Run 1; Run 1; Back 0].
Lemma srv_iter_refuted_pf : exec (step 2) init swap = Ub.
Proof. vm_compute. reflexivity. Qed.

Lemma srv_other_refuted_pf : exists l a e, In a l /\ a_fam a = F4 /\ works a /\ e <> 0%N /\ AddListener (Some l) = Returns e None.
Proof.
  exists [Addr 0 F4 0 0 98 0; Addr 1 F4 0 0 0 0], (Addr 1 F4 0 0 0 0), 98%N.
  repeat split; try discriminate. right. now left.
Qed.
