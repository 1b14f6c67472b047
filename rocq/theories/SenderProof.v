From Verif Require Import Util Conc SenderModel SenderSpec.
From Coq Require Import Lia ZArith.
Open Scope N_scope.

Definition hof (s : st) (u : nat) : option nat :=
  match user_call (p_users s u) with Some k => k_h k | None => None end.
Lemma holds_hof s u i : holds s u i <-> hof s u = Some i.
Proof. unfold holds, hof. destruct (user_call (p_users s u)); split; try discriminate; tauto. Qed.

Notation dead0 := (del fresh).

(** ** Ownership *)

Definition count (C : list conn) : Z := Z.of_nat (length (filter (fun c => negb (c_del c)) C)).

Lemma set_set {A} i (x y : A) l : set i x (set i y l) = set i x l.
Proof. revert i; induction l; destruct i; simpl; auto. now rewrite IHl. Qed.
Lemma set_len {A} i (x : A) l : length (set i x l) = length l.
Proof. revert i; induction l; destruct i; simpl; auto. Qed.

Lemma count_same i c C d : c_del c = c_del (nth i C d) -> count (set i c C) = count C.
Proof.
  unfold count. intros E. f_equal. revert i E. induction C; destruct i; simpl; intros E; auto.
  - rewrite E. now destruct (c_del a).
  - destruct (negb (c_del a)); simpl; auto.
Qed.
Lemma count_del i c C d : (i < length C)%nat -> c_del c = true -> c_del (nth i C d) = false ->
  count (set i c C) = (count C - 1)%Z.
Proof.
  unfold count. revert i. induction C; destruct i; simpl; intros L E F; try lia.
  - rewrite E, F. simpl length. lia.
  - specialize (IHC i ltac:(lia) E F). destruct (negb (c_del a)); simpl length; lia.
Qed.
Lemma count_pos i C d : (i < length C)%nat -> c_del (nth i C d) = false -> (0 < count C)%Z.
Proof.
  unfold count. revert i. induction C; destruct i; simpl; intros L F; try lia.
  - rewrite F. simpl length. lia.
  - specialize (IHC i ltac:(lia) F). destruct (negb (c_del a)); simpl length; lia.
Qed.

Record Own (C : list conn) (A : list nat) (E : Z) (H : nat -> option nat) (T : list nat) : Prop := {
  o_nodup : NoDup (T ++ A);
  o_open : forall i, In i A -> c_open (nth i C dead0) = true;
  o_free : forall i, In i (T ++ A) ->
    (i < length C)%nat /\ c_del (nth i C dead0) = false /\ forall u, H u <> Some i;
  o_held : forall u i, H u = Some i -> (i < length C)%nat /\ c_del (nth i C dead0) = false;
  o_inj : forall u v i, H u = Some i -> H v = Some i -> u = v;
  o_all : forall i, (i < length C)%nat -> c_del (nth i C dead0) = false ->
    In i (T ++ A) \/ exists u, H u = Some i;
  o_count : E = count C }.

Lemma own0 : Own [] [] 0 (fun _ => None) [].
Proof. constructor; simpl; try easy; try (intros; lia). constructor. Qed.

Lemma nth_set i j (c : conn) C : (i < length C)%nat ->
  nth j (set i c C) dead0 = if Nat.eqb j i then c else nth j C dead0.
Proof.
  intros L. destruct (Nat.eqb_spec j i) as [->|N]. now apply set_nth_eq. apply set_nth_neq; auto.
Qed.

Lemma own_set C A E H T i c : Own C A E H T -> (i < length C)%nat ->
  c_del c = c_del (nth i C dead0) -> (In i A -> c_open c = true) -> Own (set i c C) A E H T.
Proof.
  intros O L D P. destruct O. constructor; auto.
  - intros j Hj. rewrite nth_set; auto. destruct (Nat.eqb_spec j i); subst; auto.
  - intros j Hj. rewrite set_len, nth_set; auto. destruct (o_free0 j Hj) as (X & Y & Z).
    split; auto. split; auto. destruct (Nat.eqb_spec j i); subst; congruence.
  - intros u j Hj. rewrite set_len, nth_set; auto. destruct (o_held0 u j Hj) as (X & Y).
    split; auto. destruct (Nat.eqb_spec j i); subst; congruence.
  - intros j. rewrite set_len, nth_set; auto. intros Lj Dj. apply o_all0; auto.
    destruct (Nat.eqb_spec j i); subst; congruence.
  - rewrite (count_same i c C dead0); auto.
Qed.

Lemma own_del C A E H T i c : Own C A E H (i :: T) -> c_del c = true ->
  Own (set i c C) A (E - 1) H T.
Proof.
  intros O D. destruct O. destruct (o_free0 i) as (L & Di & Hi); [now left|].
  simpl in o_nodup0. apply NoDup_cons_iff in o_nodup0 as [NI ND].
  constructor; auto.
  - intros j Hj. rewrite nth_set; auto. destruct (Nat.eqb_spec j i); subst; auto.
    exfalso; apply NI, in_or_app; auto.
  - intros j Hj. rewrite set_len, nth_set; auto. destruct (o_free0 j) as (X & Y & Z); [now right|].
    split; auto. split; auto. destruct (Nat.eqb_spec j i); subst; tauto.
  - intros u j Hj. rewrite set_len, nth_set; auto. destruct (o_held0 u j Hj) as (X & Y).
    split; auto. destruct (Nat.eqb_spec j i); subst; auto. now destruct (Hi u).
  - intros j. rewrite set_len, nth_set; auto. intros Lj Dj.
    destruct (Nat.eqb_spec j i) as [->|N]; [congruence|].
    destruct (o_all0 j Lj Dj) as [[|]|]; auto. congruence.
  - rewrite (count_del i c C dead0); auto. lia.
Qed.

Lemma own_put C A E H T i : Own C A E H (i :: T) -> c_open (nth i C dead0) = true ->
  Own C (A ++ [i]) E H T.
Proof.
  intros O P. destruct O.
  assert (I : forall j, In j (T ++ A ++ [i]) <-> In j ((i :: T) ++ A)).
  { intros j. simpl. rewrite !in_app_iff. simpl. tauto. }
  constructor; auto.
  - rewrite app_assoc. apply NoDup_cons_iff in o_nodup0 as [NI ND].
    apply (NoDup_Add (a := i) (l := T ++ A)).
    + rewrite <- (app_nil_r (T ++ A)) at 1. apply Add_app.
    + split; auto.
  - intros j Hj. apply in_app_iff in Hj as [Hj|[<-|[]]]; auto.
  - intros j Hj. apply o_free0, I, Hj.
  - intros j L D. destruct (o_all0 j L D) as [X|X]; auto. left. now apply I.
Qed.

Lemma own_take C A E H T i : Own C (i :: A) E H T -> Own C A E H (i :: T).
Proof.
  intros O. destruct O.
  assert (I : forall j, In j (T ++ i :: A) <-> In j ((i :: T) ++ A)).
  { intros j. simpl. rewrite !in_app_iff. simpl. tauto. }
  constructor; auto.
  - simpl. apply NoDup_cons_iff. apply NoDup_remove in o_nodup0. tauto.
  - intros j Hj. apply o_open0. now right.
  - intros j Hj. apply o_free0, I, Hj.
  - intros j L D. destruct (o_all0 j L D) as [X|X]; auto. left. now apply I.
Qed.

Lemma nth_snoc (C : list conn) j : nth j (C ++ [fresh]) dead0 =
  if Nat.eqb j (length C) then fresh else nth j C dead0.
Proof.
  destruct (Nat.eqb_spec j (length C)) as [->|N]. now rewrite nth_middle.
  destruct (Nat.lt_ge_cases j (length C)). now apply app_nth1.
  rewrite !nth_overflow; auto. rewrite app_length. simpl. lia.
Qed.

Lemma own_new C A E H T : Own C A E H T -> Own (C ++ [fresh]) A (E + 1) H (length C :: T).
Proof.
  intros O. destruct O.
  assert (LC : length (C ++ [fresh]) = S (length C)) by (rewrite app_length; simpl; lia).
  constructor; auto.
  - simpl. apply NoDup_cons_iff. split; auto. intros X. apply o_free0 in X. lia.
  - intros j Hj. rewrite nth_snoc. destruct (Nat.eqb_spec j (length C)); auto.
  - intros j. simpl. intros [<-|Hj]; rewrite nth_snoc, LC.
    + rewrite Nat.eqb_refl. split; [lia|]. split; auto. intros u Hu. apply o_held0 in Hu. lia.
    + destruct (o_free0 j Hj) as (X & Y & Z). destruct (Nat.eqb_spec j (length C)); [lia|]. auto.
  - intros u j Hj. rewrite nth_snoc, LC. destruct (o_held0 u j Hj) as (X & Y).
    destruct (Nat.eqb_spec j (length C)); [lia|]. auto.
  - intros j. rewrite nth_snoc, LC. destruct (Nat.eqb_spec j (length C)) as [->|N]; intros L D.
    left. now left. destruct (o_all0 j) as [X|X]; auto; [lia|]. left. now right.
  - unfold count. rewrite filter_app, app_length, o_count0. unfold count. simpl length. lia.
Qed.

Lemma own_free C A E H T u i : Own C A E H T -> H u = Some i ->
  Own C A E (upd H u None) (i :: T).
Proof.
  intros O P. destruct O. destruct (o_held0 u i P) as (L & D).
  assert (N : ~ In i (T ++ A)). { intros X. apply o_free0 in X as (_ & _ & X). now apply (X u). }
  constructor; auto.
  - simpl. now apply NoDup_cons_iff.
  - intros j [<-|Hj].
    + split; auto. split; auto. intros v. unfold upd. destruct (Nat.eqb_spec v u); [easy|].
      intros X. apply n. eapply o_inj0; eauto.
    + destruct (o_free0 j Hj) as (X & Y & Z). split; auto. split; auto. intros v. unfold upd.
      destruct (Nat.eqb v u); [easy|auto].
  - intros v j. unfold upd. destruct (Nat.eqb v u); [easy|apply o_held0].
  - intros v w j. unfold upd. destruct (Nat.eqb v u); [easy|]. destruct (Nat.eqb w u); [easy|].
    apply o_inj0.
  - intros j Lj Dj. destruct (o_all0 j Lj Dj) as [X|[v X]]; [left; now right|].
    destruct (Nat.eqb_spec v u) as [->|Nv]. rewrite P in X. injection X as <-. left; now left.
    right. exists v. now rewrite upd_neq.
Qed.

Lemma own_give C A E H T u i : Own C A E H (i :: T) -> H u = None ->
  Own C A E (upd H u (Some i)) T.
Proof.
  intros O P. destruct O. destruct (o_free0 i) as (L & D & F); [now left|].
  simpl in o_nodup0. apply NoDup_cons_iff in o_nodup0 as [NI ND].
  constructor; auto.
  - intros j Hj. destruct (o_free0 j) as (X & Y & Z); [now right|]. split; auto. split; auto.
    intros v. unfold upd. destruct (Nat.eqb_spec v u); auto. intros [= <-]. tauto.
  - intros v j. unfold upd. destruct (Nat.eqb_spec v u); [intros [= <-]; auto|apply o_held0].
  - intros v w j. unfold upd. destruct (Nat.eqb_spec v u), (Nat.eqb_spec w u); intros X Y; subst; auto.
    + injection X as <-. now destruct (F w).
    + injection Y as <-. now destruct (F v).
    + eapply o_inj0; eauto.
  - intros j Lj Dj. destruct (o_all0 j Lj Dj) as [[<-|X]|[v X]]; [|now left|].
    + right. exists u. now rewrite upd_eq.
    + right. exists v. rewrite upd_neq; auto. congruence.
Qed.

Lemma own_ext C A E H H' T : Own C A E H T -> (forall u, H u = H' u) -> Own C A E H' T.
Proof.
  intros O X. destruct O. constructor; auto.
  - intros i Hi. destruct (o_free0 i Hi) as (P & Q & R). split; auto. split; auto.
    intros u. rewrite <- X. auto.
  - intros u i. rewrite <- X. apply o_held0.
  - intros u v i. rewrite <- !X. apply o_inj0.
  - intros i L D. destruct (o_all0 i L D) as [P|[u P]]; auto. right. exists u. now rewrite <- X.
Qed.

Definition OwnS (s : st) : Prop := Own (p_conns s) (p_avail s) (p_existing s) (hof s) [].

(** ** The parts of an iteration *)

Lemma get_ok s ok : OwnS s ->
  match get_handle ok s with
  | (None, s1) => p_avail s = [] /\ s1 = s
  | (Some i, s1) =>
    (exists A, p_avail s = i :: A /\ s1 = set_pool s A (p_existing s)) \/
    (p_avail s = [] /\ i = length (p_conns s) /\
     s1 = mkSt (p_conns s ++ [fresh]) [] (p_existing s + 1) (p_users s) (p_tok s))
  end.
Proof.
  intros O. unfold get_handle. destruct (p_avail s) as [|i A] eqn:EA.
  - assert (X : set_pool s [] (p_existing s) = s) by (destruct s; unfold set_pool; cbn in *; congruence).
    cbn [pick]. rewrite X. destruct ok; auto. right. now rewrite EA.
  - cbn [pick]. assert (X : c_open (conn_at s i) = true).
    { apply (o_open _ _ _ _ _ O). rewrite EA. now left. }
    rewrite X. left. eauto.
Qed.

Lemma get_own s ok i s1 : OwnS s -> get_handle ok s = (Some i, s1) ->
  Own (p_conns s1) (p_avail s1) (p_existing s1) (hof s) [i] /\ p_users s1 = p_users s /\
  p_tok s1 = p_tok s.
Proof.
  intros O G. pose proof (get_ok s ok O) as X. rewrite G in X. destruct X as [(A & EA & ->)|(EA & -> & ->)].
  - split; auto. cbn. unfold OwnS in O. rewrite EA in O. now apply own_take.
  - split; auto. cbn. unfold OwnS in O. rewrite EA in O. now apply own_new.
Qed.

Lemma release_ok C A E H T i s : Own C A E H (i :: T) ->
  p_conns s = C -> p_avail s = A -> p_existing s = E ->
  exists s', release i s = Some s' /\ Own (p_conns s') (p_avail s') (p_existing s') H T /\
    p_users s' = p_users s /\ p_tok s' = p_tok s /\
    (forall j, j <> i -> conn_at s' j = conn_at s j) /\
    ((c_open (conn_at s i) = true /\ p_avail s' = A ++ [i] /\ p_conns s' = C) \/
     (c_open (conn_at s i) = false /\ p_avail s' = A /\ p_conns s' = set i (del (conn_at s i)) C)).
Proof.
  intros O <- <- <-. pose proof O as O'. destruct O'. destruct (o_free0 i) as (L & D & F); [now left|].
  pose proof (count_pos i _ dead0 L D). unfold release.
  destruct (Z.leb_spec (p_existing s) 0); [lia|].
  destruct (c_open (conn_at s i)) eqn:Op.
  - eexists. split; eauto. cbn. split; [|split; auto; split; auto; split; auto].
    apply own_put; auto.
  - eexists. split; eauto. cbn. split; [|split; auto; split; auto; split; auto].
    + apply own_del; auto.
    + intros j N. unfold conn_at. cbn. apply set_nth_neq; auto.
Qed.

Lemma send_del rc i0 w q r c g e c' g' : client_send rc i0 w q r c g = (e, c', g') ->
  c_del c' = c_del c /\ (g' <= g + rc)%nat.
Proof.
  revert i0 c g. induction rc; simpl; intros i0 c g.
  - intros [= <- <- <-]. split; auto. lia.
  - destruct (w i0).
    + intros X. apply IHrc in X as (A & B). split.
      * rewrite A. unfold deliver. destruct (c_alive c); auto.
      * destruct (c_alive c); lia.
    + intros [= <- <- <-]. split; auto. lia.
Qed.

Lemma header_del h j c e q r c' : read_header h j c = Some (e, q, r, c') -> c_del c' = c_del c.
Proof.
  unfold read_header. destruct h.
  - destruct (0 <? c_left c). intros [= <- <- <- <-]; auto.
    destruct (c_wire c) as [|[q' r'] w].
    + destruct (c_alive c); [easy|]. intros [= <- <- <- <-]; auto.
    + intros [= <- <- <- <-]; auto.
  - intros [= <- <- <- <-]; auto.
Qed.

Lemma drain_del b c d c' : drain b c = (d, c') -> c_del c' = c_del c.
Proof. unfold drain. destruct (kBodyLimit <? c_left c), b; intros [= <- <-]; auto. Qed.

Definition frame (i : nat) (s s' : st) : Prop :=
  exists c, p_conns s' = set i c (p_conns s) /\ c_del c = c_del (conn_at s i) /\
    p_avail s' = p_avail s /\ p_existing s' = p_existing s /\ p_users s' = p_users s /\
    (p_tok s <= p_tok s').

Lemma frame_set i s c : c_del c = c_del (conn_at s i) -> frame i s (set_conn s i c).
Proof. intros D. exists c. cbn. repeat (split; auto). reflexivity. Qed.

Lemma judge_frame a k r s x s' : judge a k r s = (x, s') ->
  p_conns s' = p_conns s /\ p_avail s' = p_avail s /\ p_existing s' = p_existing s /\
  p_users s' = p_users s /\ (p_tok s <= p_tok s') /\
  exists k', user_call x = Some k' /\ k_h k' = k_h k.
Proof.
  unfold judge. destruct (DoesServerPushback _); [intros [= <- <-]; repeat (split; auto); try lia; cbn; eauto|].
  destruct (IsUnauthorized r).
  { destruct (a_refresh a); intros [= <- <-]; cbn; repeat (split; auto); try lia; eauto. }
  destruct (_ =? 403); [intros [= <- <-]; cbn; repeat (split; auto); try lia; eauto|].
  destruct (_ =? 404); [intros [= <- <-]; cbn; repeat (split; auto); try lia; eauto|].
  destruct (_ =? 3); intros [= <- <-]; cbn; repeat (split; auto); try lia; eauto.
Qed.

Lemma frame_trans i s c s' : (i < length (p_conns s))%nat -> c_del c = c_del (conn_at s i) ->
  frame i (set_conn s i c) s' -> frame i s s'.
Proof.
  intros L D (c' & A & B & F). exists c'. cbn in *. rewrite A, set_set. split; auto. split; auto.
  rewrite B. unfold conn_at at 1. cbn. rewrite set_nth_eq; auto.
Qed.

Lemma answer_frame a i k q r s x s' : (i < length (p_conns s))%nat ->
  answer a i k q r s = (x, s') -> frame i s s' /\ exists k', user_call x = Some k' /\ k_h k' = k_h k.
Proof.
  intros L. unfold answer. destruct (IsResponseOK (r_code r)).
  - intros [= <- <-]. split; [|cbn; eauto]. exists (conn_at s i). unfold conn_at at 2.
    assert (X : set i (conn_at s i) (p_conns s) = p_conns s).
    { apply nth_ext with (d := dead0) (d' := dead0). apply set_len. intros n Hn. rewrite nth_set; auto.
      destruct (Nat.eqb_spec n i); subst; auto. }
    rewrite X. repeat (split; auto). reflexivity.
  - destruct (drain (a_drain a) (conn_at s i)) as [d c] eqn:Ed. pose proof (drain_del _ _ _ _ Ed) as D.
    destruct d.
    + intros J. apply judge_frame in J as (A & B & C & F & G & k' & K1 & K2). split; [|eauto].
      exists c. cbn in *. auto 10.
    + intros [= <- <-]. split; [now apply frame_set|]. cbn; eauto.
    + intros [= <- <-]. split; [now apply frame_set|]. cbn; eauto.
Qed.

Lemma talk_frame rc a i k s x s' : (i < length (p_conns s))%nat ->
  talk rc a i k s = Some (x, s') -> frame i s s' /\ exists k', user_call x = Some k' /\ k_h k' = k_h k.
Proof.
  intros L. unfold talk. destruct (client_send _ _ _ _ _ _ _) as [[e c] g] eqn:Es.
  apply send_del in Es as (D & _). destruct e.
  - destruct (read_header _ _ c) as [[[[e q] r] c1]|] eqn:Eh; [|easy]. apply header_del in Eh.
    destruct e.
    + intros [= X]. apply answer_frame in X as (F & k' & K1 & K2).
      * split; [|cbn in K2; eauto]. apply frame_trans in F; auto. congruence.
      * cbn. now rewrite set_len.
    + intros [= <- <-]. split; [apply frame_set; congruence|]. cbn; eauto.
    + intros [= <- <-]. split; [apply frame_set; congruence|]. cbn; eauto.
  - intros [= <- <-]. split; [apply frame_set; congruence|]. cbn; eauto.
  - intros [= <- <-]. split; [apply frame_set; congruence|]. cbn; eauto.
Qed.

(** What an iteration that gets a handle does. *)
Lemma attempt_parts (rc u : nat) (a : att) k s n i s1 : OwnS s -> p_users s u = Run k -> k_left k = S n ->
  get_handle (a_connect a) s = (Some i, s1) ->
  exists s2, release_opt (k_h k) s1 = Some s2 /\
    Own (p_conns s2) (p_avail s2) (p_existing s2) (upd (hof s) u None) [i] /\
    p_users s2 = p_users s /\ p_tok s2 = p_tok s.
Proof.
  intros O U L G. destruct (get_own _ _ _ _ O G) as (O1 & P1 & T1).
  unfold release_opt. destruct (k_h k) as [h|] eqn:Eh.
  - assert (Hh : hof s u = Some h) by (unfold hof; now rewrite U).
    pose proof (own_free _ _ _ _ _ u h O1 Hh) as O2.
    destruct (release_ok _ _ _ _ _ _ s1 O2 eq_refl eq_refl eq_refl) as (s2 & R & O3 & P2 & T2 & _).
    exists s2. split; auto. split; auto. split; congruence.
  - exists s1. split; auto. split; auto. eapply own_ext; eauto. intros v. unfold upd.
    destruct (Nat.eqb_spec v u); subst; auto. unfold hof. now rewrite U.
Qed.

Lemma hof_set_user s u x v : hof (set_user s u x) v =
  upd (hof s) u (match user_call x with Some k => k_h k | None => None end) v.
Proof. unfold hof, set_user, upd. cbn. unfold upd. destruct (Nat.eqb v u); auto. Qed.

Lemma own_user s u x :
  Own (p_conns s) (p_avail s) (p_existing s)
      (upd (hof s) u (match user_call x with Some k => k_h k | None => None end)) [] ->
  OwnS (set_user s u x).
Proof. intros O. eapply own_ext; [exact O|]. intros v. now rewrite hof_set_user. Qed.

Lemma own_same s u x : OwnS s ->
  match user_call x with Some k => k_h k | None => None end = hof s u -> OwnS (set_user s u x).
Proof.
  intros O E. apply own_user. eapply own_ext; [exact O|]. intros v. rewrite E. unfold upd.
  destruct (Nat.eqb_spec v u); subst; auto.
Qed.

Lemma own_put_user rc u a i k s s2 x s3 :
  Own (p_conns s2) (p_avail s2) (p_existing s2) (upd (hof s) u None) [i] ->
  p_users s2 = p_users s -> k_h k = Some i ->
  talk rc a i k s2 = Some (x, s3) -> OwnS (set_user s3 u x).
Proof.
  intros O P K T. pose proof O as O'. destruct O'. destruct (o_free0 i) as (L & D & F); [now left|].
  apply talk_frame in T as ((c & A & B & C & E & U & _) & k' & K1 & K2); auto.
  apply own_user. rewrite K1, K2, K, A, C, E.
  eapply own_ext.
  - apply own_give with (u := u) (H := upd (hof s) u None); [|now rewrite upd_eq].
    apply own_set; eauto. intros X. exfalso.
    apply NoDup_cons_iff in o_nodup0. apply o_nodup0. simpl. auto.
  - intros v. unfold upd. destruct (Nat.eqb_spec v u); auto. unfold hof. now rewrite U, P.
Qed.

Lemma own_drop s u i k x s1 :
  OwnS s -> p_users s u = x -> user_call x = Some k -> k_h k = Some i ->
  p_users s1 = p_users s -> p_avail s1 = p_avail s -> p_existing s1 = p_existing s ->
  (exists c, p_conns s1 = set i c (p_conns s) /\ c_del c = c_del (conn_at s i)) ->
  exists s2, release i s1 = Some s2 /\ OwnS (set_user s2 u Idle).
Proof.
  intros O U X K P A E (c & C & D).
  assert (Hh : hof s u = Some i) by (unfold hof; now rewrite U, X).
  pose proof (own_free _ _ _ _ _ u i O Hh) as O1.
  destruct (o_held _ _ _ _ _ O u i Hh) as (L & Dl).
  assert (O2 : Own (p_conns s1) (p_avail s1) (p_existing s1) (upd (hof s) u None) [i]).
  { rewrite C, A, E. apply own_set; auto. intros Y. exfalso.
    destruct (o_free _ _ _ _ _ O i) as (_ & _ & Z); [exact Y|]. now apply (Z u). }
  destruct (release_ok _ _ _ _ _ _ s1 O2 eq_refl eq_refl eq_refl) as (s2 & R & O3 & P2 & T2 & _).
  exists s2. split; auto. apply own_user. cbn. eapply own_ext; eauto.
  intros v. unfold upd. destruct (Nat.eqb v u); auto. unfold hof. now rewrite P2, P.
Qed.

Lemma set_self s i : (i < length (p_conns s))%nat -> set i (conn_at s i) (p_conns s) = p_conns s.
Proof.
  intros L. apply nth_ext with (d := dead0) (d' := dead0). apply set_len. intros n Hn.
  rewrite nth_set; auto. destruct (Nat.eqb_spec n i); subst; auto.
Qed.

Lemma own_conn s i c : OwnS s -> (i < length (p_conns s))%nat -> c_del c = c_del (conn_at s i) ->
  (c_open c = c_open (conn_at s i) \/ exists u, hof s u = Some i) -> OwnS (set_conn s i c).
Proof.
  intros O L D P. apply own_set; auto. intros X. destruct P as [->|[u P]].
  - now apply (o_open _ _ _ _ _ O).
  - exfalso. destruct (o_free _ _ _ _ _ O i) as (_ & _ & Z); [exact X|]. now apply (Z u).
Qed.

Lemma own_step rc s o : OwnS s ->
  match step rc s o with Next s' => OwnS s' | Ub => False | Stuck => True end.
Proof.
  intros O. destruct o as [u req n t x|u a|u n|u|u|u|i]; cbn [step].
  - destruct (p_users s u) eqn:U; auto. destruct (p_tok s <? t); auto.
    assert (Hh : hof s u = None) by (unfold hof; now rewrite U).
    destruct x; apply own_same; auto; cbn; auto.
  - destruct (p_users s u) as [|k| |] eqn:U; auto. unfold attempt. destruct (k_left k) eqn:L.
    + apply own_same; auto. cbn. unfold hof. now rewrite U.
    + destruct (get_handle (a_connect a) s) as [[i|] s1] eqn:G.
      * destruct (attempt_parts rc u a k s n i s1 O U L G) as (s2 & R & O2 & P2 & T2). rewrite R.
        destruct (talk _ _ _ _ _) as [[x s3]|] eqn:T; cbn; auto.
        eapply own_put_user in T; eauto.
      * pose proof (get_ok s (a_connect a) O) as X. rewrite G in X. destruct X as [_ ->].
        apply own_same; auto. cbn. unfold hof. now rewrite U.
  - destruct (p_users s u) as [| |k q r|] eqn:U; auto. destruct (k_h k) as [i|] eqn:K; auto.
    destruct (_ && _); auto. assert (Hh : hof s u = Some i) by (unfold hof; now rewrite U).
    apply own_conn; auto. apply (o_held _ _ _ _ _ O u i Hh).
  - destruct (p_users s u) as [| |k q r|] eqn:U; auto. destruct (k_h k) as [i|] eqn:K; auto.
    assert (Hh : hof s u = Some i) by (unfold hof; now rewrite U).
    apply own_conn; eauto. apply (o_held _ _ _ _ _ O u i Hh).
  - assert (G : forall k x, p_users s u = x -> user_call x = Some k ->
              match (match k_h k with
                     | None => Next (set_user s u Idle)
                     | Some i => finish u (release i (if k_reuse k then s
                                                      else set_conn s i (close (conn_at s i))))
                     end) with Next s' => OwnS s' | Ub => False | Stuck => True end).
    { intros k x U X. destruct (k_h k) as [i|] eqn:K.
      - assert (Hh : hof s u = Some i) by (unfold hof; now rewrite U, X).
        destruct (o_held _ _ _ _ _ O u i Hh) as (L & Dl).
        destruct (own_drop s u i k x (if k_reuse k then s else set_conn s i (close (conn_at s i))) O U X K)
          as (s2 & R & O2); try (destruct (k_reuse k); reflexivity).
        + destruct (k_reuse k).
          * exists (conn_at s i). split; auto. symmetry. now apply set_self.
          * exists (close (conn_at s i)). auto.
        + rewrite R. exact O2.
      - apply own_same; auto. unfold hof. now rewrite U, X. }
    destruct (p_users s u) as [| |k q r|k e] eqn:U; auto; eapply G; cbn; eauto.
  - destruct (p_users s u) as [| |k q r|] eqn:U; auto. destruct (k_h k) as [i|] eqn:K; auto.
    assert (Hh : hof s u = Some i) by (unfold hof; now rewrite U).
    destruct (o_held _ _ _ _ _ O u i Hh) as (L & Dl).
    destruct (own_drop s u i k (Got k q r) s O U eq_refl K) as (s2 & R & O2); auto.
    { exists (conn_at s i). split; auto. symmetry. now apply set_self. }
    rewrite R. exact O2.
  - destruct (Nat.ltb_spec i (length (p_conns s))); auto. apply own_conn; auto.
Qed.

Lemma own_reach rc s : reachable (step rc) st0 s -> OwnS s.
Proof. intros R. apply (reach_inv (step rc) OwnS st0); auto. apply own_step. exact own0. Qed.

Lemma pool_safe_pf rc : safe (step rc) st0.
Proof. apply (reach_inv (step rc) OwnS st0). apply own_step. exact own0. Qed.

Lemma pool_exclusive_pf rc s : reachable (step rc) st0 s ->
  NoDup (p_avail s) /\
  (forall i, In i (p_avail s) -> c_open (conn_at s i) = true /\ forall u, ~ holds s u i) /\
  (forall u v i, holds s u i -> holds s v i -> u = v).
Proof.
  intros R. apply own_reach in R. destruct R. split; auto. split.
  - intros i Hi. split; [now apply o_open0|]. destruct (o_free0 i Hi) as (_ & _ & X). intros u Hu.
    apply holds_hof in Hu. now apply (X u).
  - intros u v i. rewrite !holds_hof. apply o_inj0.
Qed.

Lemma pool_count_pf rc s : reachable (step rc) st0 s ->
  p_existing s = Z.of_nat (length (live s)) /\
  forall i c, nth_error (p_conns s) i = Some c ->
    c_del c = false <-> In i (p_avail s) \/ exists u, holds s u i.
Proof.
  intros R. apply own_reach in R. destruct R. split; auto.
  intros i c Hi. assert (L : (i < length (p_conns s))%nat) by (apply nth_error_Some; congruence).
  apply nth_error_nth with (d := dead0) in Hi. split.
  - intros D. destruct (o_all0 i L) as [X|[u X]]; auto; [congruence|]. right. exists u.
    now apply holds_hof.
  - rewrite <- Hi. intros [X|[u X]]. now apply o_free0. apply holds_hof in X. now apply (o_held0 u).
Qed.

(** ** The right answer *)

Definition clean (c : conn) : Prop := c_wire c = [] /\ c_left c = 0.

Definition uclean (s : st) (x : user) : Prop :=
  match x with
  | Idle => True
  | Run k | Ended k _ => forall i, k_h k = Some i -> c_open (conn_at s i) = true -> clean (conn_at s i)
  | Got k q r => q = Some (k_req k) /\
    forall i, k_h k = Some i -> c_open (conn_at s i) = true -> c_wire (conn_at s i) = []
  end.

Definition CleanS (s : st) : Prop :=
  (forall i, In i (p_avail s) -> clean (conn_at s i)) /\ forall u, uclean s (p_users s u).

Lemma ok_code_iff c : IsResponseOK c = true <-> ok_code c.
Proof.
  unfold IsResponseOK, ok_code. rewrite !Bool.orb_true_iff, !N.eqb_eq. simpl. intuition.
Qed.

Lemma conn_at_set s i c j : (i < length (p_conns s))%nat ->
  conn_at (set_conn s i c) j = if Nat.eqb j i then c else conn_at s j.
Proof. intros. unfold conn_at. cbn. now apply nth_set. Qed.

Lemma frame_other i s s' j : frame i s s' -> j <> i -> conn_at s' j = conn_at s j.
Proof. intros (c & A & _) N. unfold conn_at. rewrite A. apply set_nth_neq; auto. Qed.

Lemma judge_user a k r s x s' : judge a k r s = (x, s') ->
  (exists k', (x = Run k' \/ exists e, x = Ended k' e) /\ k_h k' = k_h k) /\
  p_conns s' = p_conns s.
Proof.
  unfold judge. destruct (DoesServerPushback _); [intros [= <- <-]; cbn; split; eauto|].
  destruct (IsUnauthorized r).
  { destruct (a_refresh a); intros [= <- <-]; cbn; split; eauto. }
  destruct (_ =? 403); [intros [= <- <-]; cbn; split; eauto|].
  destruct (_ =? 404); [intros [= <- <-]; cbn; split; eauto|].
  destruct (_ =? 3); intros [= <- <-]; cbn; split; eauto.
Qed.

Lemma talk_clean a i k s x s' : (i < length (p_conns s))%nat -> clean (conn_at s i) ->
  k_h k = Some i -> (~ ok_code (r_code (a_resp a)) -> r_len (a_resp a) <= 8388608) ->
  talk 1 a i k s = Some (x, s') -> uclean s' x.
Proof.
  intros L [W Z] K Sh. unfold talk. cbn [client_send].
  assert (CL : forall s c, c_open c = false -> (i < length (p_conns s))%nat ->
            forall j, k_h k = Some j -> c_open (conn_at (set_conn s i c) j) = true ->
            clean (conn_at (set_conn s i c) j)).
  { intros s0 c Oc L0 j Hj. rewrite K in Hj. injection Hj as <-.
    rewrite conn_at_set, Nat.eqb_refl; auto. congruence. }
  destruct (a_write a 0).
  2:{ destruct closed; intros [= <- <-]; cbn [uclean]; apply CL; auto. }
  destruct (read_header _ _ _) as [[[[e q] r] c1]|] eqn:Eh; [|easy].
  assert (Hc : e = Fine \/ c_open c1 = false).
  { revert Eh. generalize (deliver (k_req k) (a_resp a) (conn_at s i)). intros d.
    unfold read_header. destruct (a_hdr a).
    - destruct (0 <? c_left d); [intros [= <- <- <- <-]; auto|].
      destruct (c_wire d) as [|[q' r'] w]; [|intros [= <- <- <- <-]; auto].
      destruct (c_alive d); [easy|]. intros [= <- <- <- <-]; auto.
    - intros [= <- <- <- <-]; auto. }
  destruct e.
  2,3: destruct Hc as [?|Hc]; [easy|]; intros [= <- <-]; cbn [uclean]; apply CL; auto.
  clear Hc.
  assert (F : q = Some (k_req k) /\ r = a_resp a /\ c_wire c1 = [] /\ c_left c1 = r_len (a_resp a)).
  { revert Eh. unfold read_header. destruct (a_hdr a) as [|cl]; [|destruct cl; easy].
    unfold deliver. destruct (c_alive (conn_at s i)) eqn:Al.
    - cbn. rewrite Z, W. cbn. intros [= <- <- <-]. auto.
    - rewrite Z, W. cbn. now rewrite Al. }
  destruct F as (-> & -> & W1 & Z1). intros [= X]. revert X. unfold answer.
  destruct (IsResponseOK (r_code (a_resp a))) eqn:Ok.
  - intros [= <- <-]. cbn [uclean heard k_req k_h]. split; auto. intros j Hj.
    rewrite K in Hj. injection Hj as <-. rewrite conn_at_set, Nat.eqb_refl; auto.
  - assert (NO : ~ ok_code (r_code (a_resp a))).
    { intros X. apply ok_code_iff in X. congruence. }
    specialize (Sh NO).
    rewrite conn_at_set, Nat.eqb_refl by auto. unfold drain, kBodyLimit. rewrite Z1.
    destruct (N.ltb_spec 8388608 (r_len (a_resp a))); [lia|].
    assert (L1 : (i < length (p_conns (set_conn s i c1)))%nat) by (cbn; now rewrite set_len).
    destruct (a_drain a).
    + intros J. apply judge_user in J as ((k' & J & Kk) & C).
      assert (G : forall j, k_h k' = Some j -> c_open (conn_at s' j) = true -> clean (conn_at s' j)).
      { intros j Hj. rewrite Kk in Hj. cbn in Hj. rewrite K in Hj. injection Hj as <-.
        intros _. unfold conn_at. rewrite C. cbn. rewrite set_nth_eq by now rewrite set_len.
        split; auto. }
      destruct J as [->|[e ->]]; exact G.
    + intros [= <- <-]. cbn [uclean heard k_h]. apply CL; auto.
Qed.

Lemma uclean_conns s s' x :
  (forall k i, user_call x = Some k -> k_h k = Some i -> conn_at s' i = conn_at s i) ->
  uclean s x -> uclean s' x.
Proof.
  destruct x; cbn; intros E; auto.
  - intros H i K. rewrite (E k i) by auto. now apply H.
  - intros [Q H]. split; auto. intros i K. rewrite (E k i) by auto. now apply H.
  - intros H i K. rewrite (E k i) by auto. now apply H.
Qed.

Lemma hof_call s u k i : user_call (p_users s u) = Some k -> k_h k = Some i -> hof s u = Some i.
Proof. unfold hof. intros ->. auto. Qed.

(** All connections but [i] are as before; [i] is in the hands of [u]. *)
Lemma clean_one s s' u i x :
  OwnS s -> CleanS s -> hof s u = Some i ->
  p_avail s' = p_avail s -> p_users s' = upd (p_users s) u x ->
  (forall j, j <> i -> conn_at s' j = conn_at s j) -> uclean s' x -> CleanS s'.
Proof.
  intros O (A & U) H EA EU EC X. split.
  - intros j. rewrite EA. intros Hj. rewrite EC; auto. intros ->.
    destruct (o_free _ _ _ _ _ O i Hj) as (_ & _ & F). now apply (F u).
  - intros v. rewrite EU. unfold upd. destruct (Nat.eqb_spec v u) as [->|N]; auto.
    eapply uclean_conns; [|apply U]. intros k j Ck Kj. apply EC. intros ->.
    apply N. eapply (o_inj _ _ _ _ _ O); eauto. eapply hof_call; eauto.
Qed.

Lemma clean_release s1 s2 h H T : Own (p_conns s1) (p_avail s1) (p_existing s1) H (h :: T) ->
  (c_open (conn_at s1 h) = true -> clean (conn_at s1 h)) ->
  release h s1 = Some s2 -> (forall i, In i (p_avail s1) -> clean (conn_at s1 i)) ->
  forall i, In i (p_avail s2) -> clean (conn_at s2 i).
Proof.
  intros O Ch R A i Hi.
  destruct (release_ok _ _ _ _ _ _ s1 O eq_refl eq_refl eq_refl) as (s2' & R' & O' & _ & _ & Ec & Ho).
  rewrite R in R'. injection R' as <-.
  destruct Ho as [(Op & Av & Cn)|(Op & Av & Cn)].
  - rewrite Av in Hi. assert (X : conn_at s2 i = conn_at s1 i) by (unfold conn_at; now rewrite Cn).
    rewrite X. apply in_app_iff in Hi as [Hi|[<-|[]]]; auto.
  - rewrite Av in Hi. rewrite Ec; auto. intros ->.
    pose proof (o_nodup _ _ _ _ _ O) as ND. simpl in ND. apply NoDup_cons_iff in ND as [ND _].
    apply ND, in_or_app; auto.
Qed.

Lemma clean_drop s u i s1 s2 x k :
  OwnS s -> CleanS s -> p_users s u = x -> user_call x = Some k -> k_h k = Some i ->
  p_users s1 = p_users s -> p_avail s1 = p_avail s -> p_existing s1 = p_existing s ->
  (exists c, p_conns s1 = set i c (p_conns s) /\ c_del c = c_del (conn_at s i) /\
             (c_open c = true -> clean c)) ->
  release i s1 = Some s2 -> CleanS (set_user s2 u Idle).
Proof.
  intros O (CA & CU) U X K P A E (c & C & D & Cc) R.
  assert (Hh : hof s u = Some i) by (unfold hof; now rewrite U, X).
  pose proof (own_free _ _ _ _ _ u i O Hh) as O1.
  destruct (o_held _ _ _ _ _ O u i Hh) as (L & Dl).
  assert (NA : ~ In i (p_avail s)).
  { intros Y. destruct (o_free _ _ _ _ _ O i Y) as (_ & _ & Z). now apply (Z u). }
  assert (O2 : Own (p_conns s1) (p_avail s1) (p_existing s1) (upd (hof s) u None) [i]).
  { rewrite C, A, E. apply own_set; tauto. }
  assert (E1 : forall j, conn_at s1 j = if Nat.eqb j i then c else conn_at s j).
  { intros j. unfold conn_at. rewrite C. now apply nth_set. }
  assert (Av : forall j, In j (p_avail s2) -> clean (conn_at s2 j)).
  { eapply clean_release; eauto.
    - rewrite E1, Nat.eqb_refl. auto.
    - intros j. rewrite A, E1. intros Hj. destruct (Nat.eqb_spec j i); subst; [tauto|auto]. }
  destruct (release_ok _ _ _ _ _ _ s1 O2 eq_refl eq_refl eq_refl) as (s2' & R' & _ & P2 & T2 & Ec & _).
  rewrite R in R'. injection R' as <-. split; auto.
  intros v. cbn. unfold upd. destruct (Nat.eqb_spec v u) as [->|N]; [exact I|].
  eapply uclean_conns; [|rewrite P2, P; apply CU].
  intros k' j Ck Kj. change (conn_at (set_user s2 u Idle) j) with (conn_at s2 j).
  assert (N2 : j <> i).
  { intros ->. apply N. eapply (o_inj _ _ _ _ _ O); [|exact Hh]. eapply hof_call; eauto. now rewrite <- P, <- P2. }
  rewrite Ec by auto. rewrite E1. destruct (Nat.eqb_spec j i); [easy|]. reflexivity.
Qed.

Lemma set_user_same s u : p_users s u = Idle -> forall v, upd (p_users s) u Idle v = p_users s v.
Proof. intros U v. unfold upd. destruct (Nat.eqb_spec v u); subst; auto. Qed.

(** Only the state of [u] changes. *)
Lemma clean_user s s' u x : CleanS s -> p_conns s' = p_conns s -> p_avail s' = p_avail s ->
  p_users s' = upd (p_users s) u x -> uclean s x -> CleanS s'.
Proof.
  intros (A & U) C Av P X. assert (E : forall j, conn_at s' j = conn_at s j)
    by (intros; unfold conn_at; now rewrite C).
  split.
  - intros i. rewrite Av, E. apply A.
  - intros v. rewrite P. eapply uclean_conns; [intros; apply E|]. unfold upd.
    destruct (Nat.eqb v u); auto.
Qed.

Lemma clean_attempt s u k a s' : OwnS s -> CleanS s -> p_users s u = Run k ->
  short_errors (Attempt u a) -> attempt 1 u a k s = Next s' -> CleanS s'.
Proof.
  intros O C U Sh. unfold attempt. destruct (k_left k) eqn:Lk.
  - intros [= <-]. eapply clean_user with (s := s) (u := u); try reflexivity; auto. destruct C as [_ C].
    specialize (C u). rewrite U in C. exact C.
  - destruct (get_handle (a_connect a) s) as [[i|] s1] eqn:G.
    2:{ pose proof (get_ok s (a_connect a) O) as X. rewrite G in X. destruct X as [_ ->].
        intros [= <-]. eapply clean_user with (s := s) (u := u); try reflexivity; auto. destruct C as [_ C].
        specialize (C u). rewrite U in C. exact C. }
    destruct (attempt_parts 1 u a k s n i s1 O U Lk G) as (s2 & R & O2 & P2 & T2). rewrite R.
    destruct (get_own _ _ _ _ O G) as (O1 & P1 & T1).
    destruct C as [CA CU].
    (* after GetHandle *)
    assert (X1 : clean (conn_at s1 i) /\ c_open (conn_at s1 i) = true /\
                 (forall j, In j (p_avail s1) -> clean (conn_at s1 j)) /\
                 forall j, j <> i -> conn_at s1 j = conn_at s j).
    { pose proof (get_ok s (a_connect a) O) as X. rewrite G in X.
      destruct X as [(A & EA & ->)|(EA & -> & ->)].
      - assert (Hi : In i (p_avail s)) by (rewrite EA; now left).
        split; [now apply CA|]. split; [now apply (o_open _ _ _ _ _ O)|]. split; auto.
        intros j Hj. apply CA. rewrite EA. now right.
      - split; [|split; [|split; [easy|]]].
        + unfold conn_at. cbn. rewrite nth_snoc, Nat.eqb_refl. now split.
        + unfold conn_at. cbn. rewrite nth_snoc, Nat.eqb_refl. auto.
        + intros j N. unfold conn_at. cbn. rewrite nth_snoc. destruct (Nat.eqb_spec j (length (p_conns s))); [easy|auto]. }
    destruct X1 as (Ci & Oi & A1 & E1).
    assert (Hni : forall v, hof s v <> Some i).
    { destruct (o_free _ _ _ _ _ O1 i) as (_ & _ & F); [now left|]. exact F. }
    (* after giving the old handle back *)
    assert (X2 : conn_at s2 i = conn_at s1 i /\ (forall j, In j (p_avail s2) -> clean (conn_at s2 j)) /\
                 forall v j, v <> u -> hof s v = Some j -> conn_at s2 j = conn_at s j).
    { revert R. unfold release_opt. destruct (k_h k) as [h|] eqn:Eh.
      - intros R. assert (Hh : hof s u = Some h) by (unfold hof; now rewrite U).
        assert (Nh : h <> i) by (intros ->; now apply (Hni u)).
        pose proof (own_free _ _ _ _ _ u h O1 Hh) as O1'.
        destruct (release_ok _ _ _ _ _ _ s1 O1' eq_refl eq_refl eq_refl)
          as (s2' & R' & _ & _ & _ & Ec & _).
        rewrite R in R'. injection R' as <-.
        split; [apply Ec; auto|]. split.
        + eapply clean_release; eauto. rewrite E1 by auto. specialize (CU u). rewrite U in CU.
          now apply CU.
        + intros v j Nv Hv. assert (Nj : j <> h).
          { intros ->. apply Nv. eapply (o_inj _ _ _ _ _ O); eauto. }
          rewrite Ec by auto. apply E1. intros ->. now apply (Hni v).
      - intros [= <-]. split; auto. split; auto. intros v j Nv Hv. apply E1. intros ->. now apply (Hni v). }
    destruct X2 as (E2i & A2 & E2).
    destruct (talk _ _ _ _ _) as [[x s3]|] eqn:T; cbn; [|easy]. intros [= <-].
    destruct (o_free _ _ _ _ _ O2 i) as (Li & Di & _); [now left|].
    pose proof T as T'. apply talk_frame in T' as (F & _); auto.
    apply talk_clean in T; auto.
    2:{ now rewrite E2i. }
    pose proof F as F'. destruct F' as (c & FC & _ & FA & _ & FU & _).
    assert (NI : ~ In i (p_avail s2)).
    { pose proof (o_nodup _ _ _ _ _ O2) as ND. simpl in ND. now apply NoDup_cons_iff in ND as [ND _]. }
    split.
    + cbn. intros j. rewrite FA. intros Hj. change (clean (conn_at s3 j)).
      rewrite (frame_other i s2); auto. intros ->. tauto.
    + intros v. cbn. unfold upd. destruct (Nat.eqb_spec v u) as [->|Nv].
      * eapply uclean_conns; [|exact T]. reflexivity.
      * rewrite FU, P2. eapply uclean_conns; [|apply CU]. intros k' j Ck Kj.
        change (conn_at s3 j = conn_at s j).
        assert (Hv : hof s v = Some j) by (eapply hof_call; eauto).
        rewrite (frame_other i s2); [|auto|intros ->; now apply (Hni v)]. now apply (E2 v).
Qed.

Lemma upd_self (f : nat -> user) u x : f u = x -> forall v, upd f u x v = f v.
Proof. intros <- v. unfold upd. destruct (Nat.eqb_spec v u); subst; auto. Qed.

Lemma clean_step s o s' : OwnS s -> CleanS s -> polite s o -> step 1 s o = Next s' -> CleanS s'.
Proof.
  intros O C [Rb Sh]. destruct o as [u req n t x|u a|u n|u|u|u|i]; cbn [step].
  - destruct (p_users s u) eqn:U; try easy. destruct (p_tok s <? t); try easy.
    destruct x; intros [= <-]; eapply clean_user with (s := s) (u := u); try reflexivity; auto; cbn; easy.
  - destruct (p_users s u) as [|k| |] eqn:U; try easy. now apply clean_attempt.
  - destruct (p_users s u) as [| |k q r|] eqn:U; try easy. destruct (k_h k) as [i|] eqn:K; try easy.
    destruct (_ && _); try easy. intros [= <-].
    assert (Hh : hof s u = Some i) by (unfold hof; now rewrite U).
    destruct (o_held _ _ _ _ _ O u i Hh) as (L & _).
    pose proof C as [CA CU]. pose proof (CU u) as Cu. rewrite U in Cu. destruct Cu as [Q Cu].
    split.
    + intros j. cbn [p_avail set_conn]. intros Hj. rewrite conn_at_set by auto.
      destruct (Nat.eqb_spec j i) as [->|]; [|now apply CA].
      destruct (o_free _ _ _ _ _ O i Hj) as (_ & _ & F). now destruct (F u).
    + intros v. cbn [p_users set_conn]. destruct (Nat.eqb_spec v u) as [->|Nv].
      * rewrite U. cbn [uclean]. split; auto. intros j Hj. rewrite K in Hj. injection Hj as <-.
        rewrite conn_at_set, Nat.eqb_refl by auto. cbn. auto.
      * eapply uclean_conns; [|apply CU]. intros k' j Ck Kj. rewrite conn_at_set by auto.
        destruct (Nat.eqb_spec j i) as [->|]; auto. destruct Nv.
        eapply (o_inj _ _ _ _ _ O); [|exact Hh]. eapply hof_call; eauto.
  - destruct (p_users s u) as [| |k q r|] eqn:U; try easy. destruct (k_h k) as [i|] eqn:K; try easy.
    intros [= <-].
    assert (Hh : hof s u = Some i) by (unfold hof; now rewrite U).
    destruct (o_held _ _ _ _ _ O u i Hh) as (L & _).
    pose proof C as [CA CU]. pose proof (CU u) as Cu. rewrite U in Cu. destruct Cu as [Q Cu].
    split.
    + intros j. cbn [p_avail set_conn]. intros Hj. rewrite conn_at_set by auto.
      destruct (Nat.eqb_spec j i) as [->|]; [|now apply CA].
      destruct (o_free _ _ _ _ _ O i Hj) as (_ & _ & F). now destruct (F u).
    + intros v. cbn [p_users set_conn]. destruct (Nat.eqb_spec v u) as [->|Nv].
      * rewrite U. cbn [uclean]. split; auto. intros j Hj. rewrite K in Hj. injection Hj as <-.
        rewrite conn_at_set, Nat.eqb_refl by auto. cbn. easy.
      * eapply uclean_conns; [|apply CU]. intros k' j Ck Kj. rewrite conn_at_set by auto.
        destruct (Nat.eqb_spec j i) as [->|]; auto. destruct Nv.
        eapply (o_inj _ _ _ _ _ O); [|exact Hh]. eapply hof_call; eauto.
  - assert (G : forall k x, p_users s u = x -> user_call x = Some k ->
              (forall i, k_h k = Some i -> c_open (conn_at s i) = true -> k_reuse k = true -> clean (conn_at s i)) ->
              (match k_h k with
                     | None => Next (set_user s u Idle)
                     | Some i => finish u (release i (if k_reuse k then s
                                                      else set_conn s i (close (conn_at s i))))
                     end) = Next s' -> CleanS s').
    { intros k x U X Cl. destruct (k_h k) as [i|] eqn:K.
      - assert (Hh : hof s u = Some i) by (unfold hof; now rewrite U, X).
        destruct (o_held _ _ _ _ _ O u i Hh) as (L & Dl).
        destruct (release i _) as [s2|] eqn:R; cbn; [|easy]. intros [= <-].
        eapply clean_drop with (s := s) (x := x)
          (s1 := if k_reuse k then s else set_conn s i (close (conn_at s i))); eauto; try (destruct (k_reuse k); reflexivity).
        destruct (k_reuse k) eqn:Kr.
        * exists (conn_at s i). split; [symmetry; now apply set_self|]. split; auto.
        * exists (close (conn_at s i)). split; auto. split; auto. cbn. easy.
      - intros [= <-]. eapply clean_user with (s := s) (u := u); try reflexivity; auto. }
    pose proof C as [CA CU]. pose proof (CU u) as Cu. cbn in Rb.
    destruct (p_users s u) as [| |k q r|k e] eqn:U; try easy.
    + eapply G; cbn; eauto. intros i K Op Kr. rewrite K in Rb. destruct Cu as [_ Cu]. split; auto.
    + eapply G; cbn; eauto.
  - cbn in Rb. destruct (p_users s u) as [| |k q r|] eqn:U; try easy.
    destruct (k_h k) as [i|] eqn:K; try easy.
    assert (Hh : hof s u = Some i) by (unfold hof; now rewrite U).
    destruct (o_held _ _ _ _ _ O u i Hh) as (L & Dl).
    destruct (release i s) as [s2|] eqn:R; cbn; [|easy]. intros [= <-].
    eapply clean_drop with (s := s) (s1 := s) (x := Got k q r); eauto; try reflexivity.
    exists (conn_at s i). split; [symmetry; now apply set_self|]. split; auto.
    intros Op. split; auto. pose proof C as [CA CU]. pose proof (CU u) as Cu. rewrite U in Cu.
    now apply Cu.
  - destruct (Nat.ltb_spec i (length (p_conns s))); [|easy]. intros [= <-].
    destruct C as [CA CU].
    assert (E : forall j, c_open (conn_at (set_conn s i (mkConn (c_open (conn_at s i)) false
                   (c_wire (conn_at s i)) (c_left (conn_at s i)) (c_del (conn_at s i)))) j) = c_open (conn_at s j)
              /\ c_wire (conn_at (set_conn s i (mkConn (c_open (conn_at s i)) false
                   (c_wire (conn_at s i)) (c_left (conn_at s i)) (c_del (conn_at s i)))) j) = c_wire (conn_at s j)
              /\ c_left (conn_at (set_conn s i (mkConn (c_open (conn_at s i)) false
                   (c_wire (conn_at s i)) (c_left (conn_at s i)) (c_del (conn_at s i)))) j) = c_left (conn_at s j)).
    { intros j. rewrite conn_at_set by auto. destruct (Nat.eqb_spec j i); subst; auto. }
    set (s' := set_conn s i _) in *. change (p_avail s) with (p_avail s') in CA.
    change (p_users s) with (p_users s') in CU.
    assert (Ecl : forall j, clean (conn_at s j) -> clean (conn_at s' j)).
    { intros j. unfold clean. destruct (E j) as (_ & -> & ->). auto. }
    split; [intros j Hj; apply Ecl, CA, Hj|]. intros v. specialize (CU v).
    destruct (p_users s' v); cbn in *; auto.
    + intros j K. destruct (E j) as (-> & _). auto.
    + destruct CU as [Q CU]. split; auto. intros j K. destruct (E j) as (-> & -> & _). auto.
    + intros j K. destruct (E j) as (-> & _). auto.
Qed.

Lemma runs_reach P rc s0 s : runs P rc s0 s -> reachable (step rc) s0 s.
Proof. induction 1. apply reachable_refl. eapply reachable_step; eauto. Qed.

Lemma clean_runs s : runs polite 1 st0 s -> CleanS s.
Proof.
  remember st0 as s0. induction 1; subst.
  - split; cbn; easy.
  - eapply clean_step; eauto. apply own_reach with (rc := 1%nat). eapply runs_reach; eauto.
Qed.

Lemma send_paired_pf s u k q r : runs polite 1 st0 s -> p_users s u = Got k q r ->
  q = Some (k_req k).
Proof. intros R U. apply clean_runs in R as [_ C]. specialize (C u). rewrite U in C. apply C. Qed.

(** ** Attempts, errors and tokens *)

Lemma div100 c d : c / 100 = d <-> 100 * d <= c < 100 * d + 100.
Proof.
  pose proof (N.div_mod c 100 ltac:(easy)) as E. pose proof (N.mod_lt c 100 ltac:(easy)) as M.
  split. intros <-. lia. intros H. symmetry. apply N.div_unique with (r := c - 100 * d); lia.
Qed.
Lemma pushback_iff r : DoesServerPushback (r_code r) = true <-> pushback r.
Proof.
  unfold DoesServerPushback, pushback. rewrite Bool.orb_true_iff, !N.eqb_eq, div100. lia.
Qed.
Lemma challenge_iff r : IsUnauthorized r = true <-> challenge r.
Proof.
  unfold IsUnauthorized, challenge.
  destruct (N.eqb_spec (r_code r) 401), (N.eqb_spec (r_code r) 403), (r_auth r), (r_bearer r); cbn;
    try lia; intuition (try congruence; lia).
Qed.
Lemma redirect_iff r : r_code r / 100 = 3 <-> redirection r.
Proof. rewrite div100. unfold redirection. lia. Qed.

Fixpoint hist_ok (t : N) (l : list (N * resp)) : Prop :=
  match l with
  | [] => True
  | (t1, r1) :: l' => t1 <= t /\ (challenge r1 -> t1 < t) /\ ~ final r1 /\ hist_ok t1 l'
  end.

Definition etells (e : err) (h : list (N * resp)) : Prop :=
  from_answer e -> exists t r l, h = (t, r) :: l /\ tells e r.

Definition kbase (rc : nat) (t : N) (k : call) : Prop :=
  k_tok k <= t /\ (length (k_hist k) + k_left k <= k_n k)%nat /\
  (k_got k + rc * k_left k <= rc * k_n k)%nat.

Definition kinv (rc : nat) (t : N) (x : user) : Prop :=
  match x with
  | Idle => True
  | Run k => kbase rc t k /\ hist_ok (k_tok k) (k_hist k) /\
      (k_n k = 0%nat -> k_ec k = None) /\
      ((k_left k < k_n k)%nat -> exists e, k_ec k = Some e /\ etells e (k_hist k))
  | Got k q r => kbase rc t k /\ ok_code (r_code r) /\
      exists l, k_hist k = (k_tok k, r) :: l /\ hist_ok (k_tok k) l
  | Ended k e => kbase rc t k /\
      (hist_ok (k_tok k) (k_hist k) \/
       exists r l, k_hist k = (k_tok k, r) :: l /\ ~ ok_code (r_code r) /\ hist_ok (k_tok k) l) /\
      match e with None => k_n k = 0%nat | Some e => etells e (k_hist k) end
  end.

Lemma kinv_mono rc t t' x : t <= t' -> kinv rc t x -> kinv rc t' x.
Proof.
  intros L. unfold kinv, kbase. destruct x; auto; intros ((A & B) & C); (split; [split; [lia|auto]|auto]).
Qed.

Ltac kb := unfold kbase, heard in *; cbn in *; intuition lia.

Lemma judge_kinv rc a k r s x s' :
  kbase rc (p_tok s) k -> (k_left k < k_n k)%nat -> ~ ok_code (r_code r) ->
  (exists l, k_hist k = (k_tok k, r) :: l /\ hist_ok (k_tok k) l) ->
  judge a k r s = (x, s') -> kinv rc (p_tok s') x.
Proof.
  intros B L NO (l & Eh & Hl). unfold judge.
  assert (R : forall e, tells e r -> etells e (k_hist k)) by (intros e T _; rewrite Eh; eauto 6).
  assert (D : forall e, tells e r -> kinv rc (p_tok s) (Ended k (Some e))).
  { intros e T. cbn. split; auto. split; auto. right. eauto. }
  destruct (DoesServerPushback (r_code r)) eqn:P.
  { apply pushback_iff in P. intros [= <- <-]. cbn [kinv again k_tok k_hist k_left k_n k_ec].
    split; [kb|]. split.
    - rewrite Eh. cbn. split; [lia|]. unfold pushback in P. split; [|split; auto].
      + unfold challenge. lia.
      + unfold final, redirection, ok_code. simpl. intros F. lia.
    - split; [intros; lia|]. intros _. eauto. }
  assert (NP : ~ pushback r) by (rewrite <- pushback_iff; congruence). clear P.
  destruct (IsUnauthorized r) eqn:U.
  { apply challenge_iff in U. destruct (a_refresh a); intros [= <- <-].
    - cbn [kinv again with_tok set_tok k_tok k_hist k_left k_n k_ec p_tok].
      unfold kbase in *. cbn [again with_tok k_tok k_hist k_left k_n k_ec k_got p_tok]. destruct B as (B1 & B2).
      split; [split; [lia|auto]|]. split.
      + rewrite Eh. cbn. split; [lia|]. split; [lia|]. split; auto.
        intros [F|[F|[F|[_ F]]]]; [..|tauto]; unfold redirection, ok_code in *; destruct U as [_ U];
          simpl in *; lia.
      + split; [intros; lia|]. intros _. eexists. split; eauto.
    - apply D. exact I. }
  assert (NU : ~ challenge r) by (rewrite <- challenge_iff; congruence). clear U.
  destruct (N.eqb_spec (r_code r) 403); [intros [= <- <-]; apply D; now split|].
  destruct (N.eqb_spec (r_code r) 404); [intros [= <- <-]; now apply D|].
  destruct (N.eqb_spec (r_code r / 100) 3) as [E3|E3]; [intros [= <- <-]; apply D; now apply redirect_iff|].
  rewrite redirect_iff in E3.
  assert (NF : ~ final r) by (unfold final; intuition).
  intros [= <- <-]. cbn [kinv again k_tok k_hist k_left k_n k_ec]. split; [kb|]. split.
  - rewrite Eh. cbn. split; [lia|]. split; [tauto|auto].
  - split; [intros; lia|]. intros _. eexists. split; eauto. apply R. cbn. auto.
Qed.

Lemma talk_kinv rc a i k s x s' :
  k_tok k <= p_tok s -> (length (k_hist k) + S (k_left k) <= k_n k)%nat ->
  (k_got k + rc * S (k_left k) <= rc * k_n k)%nat ->
  hist_ok (k_tok k) (k_hist k) ->
  talk rc a i k s = Some (x, s') -> kinv rc (p_tok s') x.
Proof.
  intros T L G H. unfold talk. destruct (client_send _ _ _ _ _ _ _) as [[e c] g] eqn:Es.
  apply send_del in Es as (_ & Gl). rewrite Nat.add_0_l in Gl.
  assert (G' : (k_got k + g + rc * k_left k <= rc * k_n k)%nat) by nia.
  assert (C : forall s0, kinv rc (p_tok (set_conn s i s0)) (Run (again (mkCall (k_req k) (k_tok k) (k_left k) (k_h k)
     (k_reuse k) (k_ec k) (k_n k) (k_got k + g) (k_hist k)) EClosed))).
  { intros s0. cbn. unfold kbase. cbn. split; [lia|]. split; auto. split; [intros; lia|].
    intros _. eexists. split; eauto. easy. }
  assert (B : forall s0, kinv rc (p_tok (set_conn s i s0)) (Ended (mkCall (k_req k) (k_tok k) (k_left k) (k_h k)
     (k_reuse k) (k_ec k) (k_n k) (k_got k + g) (k_hist k)) (Some EIo))).
  { intros s0. cbn. unfold kbase. cbn. split; [lia|]. split; auto. easy. }
  destruct e.
  2:{ intros [= <- <-]. apply C. }
  2:{ intros [= <- <-]. apply B. }
  destruct (read_header _ _ c) as [[[[e q] r] c1]|] eqn:Eh; [|easy].
  destruct e.
  2:{ intros [= <- <-]. apply C. }
  2:{ intros [= <- <-]. apply B. }
  intros [= X]. revert X. unfold answer.
  set (k1 := heard _ r).
  assert (B1 : kbase rc (p_tok s) k1) by (unfold kbase, k1; cbn; lia).
  assert (H1 : k_hist k1 = (k_tok k1, r) :: k_hist k) by reflexivity.
  assert (T1 : hist_ok (k_tok k1) (k_hist k)) by exact H.
  destruct (IsResponseOK (r_code r)) eqn:Ok.
  - intros [= <- <-]. apply ok_code_iff in Ok. cbn [kinv]. split; [exact B1|]. split; eauto.
  - assert (NO : ~ ok_code (r_code r)) by (rewrite <- ok_code_iff; congruence).
    assert (D : forall e s0, ~ from_answer e -> kinv rc (p_tok (set_conn (set_conn s i c1) i s0)) (Ended k1 (Some e))).
    { intros e s0 F. cbn [kinv]. split; auto. split; [right; eauto|]. intros Fe. tauto. }
    destruct (drain _ _) as [d c2]. destruct d.
    + intros J. apply (judge_kinv rc) in J; auto; eauto. unfold k1. cbn. lia.
    + intros [= <- <-]. apply D. easy.
    + intros [= <- <-]. apply D. easy.
Qed.

Definition KS (rc : nat) (s : st) : Prop := forall u, kinv rc (p_tok s) (p_users s u).

Lemma ks_user rc s s' u x : KS rc s -> p_tok s <= p_tok s' -> p_users s' = upd (p_users s) u x ->
  kinv rc (p_tok s') x -> KS rc s'.
Proof.
  intros K T U X v. rewrite U. unfold upd. destruct (Nat.eqb v u); auto.
  eapply kinv_mono; eauto.
Qed.

Lemma release_users i s s' : release i s = Some s' -> p_users s' = p_users s /\ p_tok s' = p_tok s.
Proof.
  unfold release. destruct (_ <=? _)%Z; [easy|]. destruct (c_open _); intros [= <-]; auto.
Qed.

Lemma ks_step rc s o s' : OwnS s -> KS rc s -> step rc s o = Next s' -> KS rc s'.
Proof.
  intros O K. destruct o as [u req n t x|u a|u n|u|u|u|i]; cbn [step].
  - destruct (p_users s u) eqn:U; try easy. destruct (N.ltb_spec (p_tok s) t); try easy.
    destruct x; intros [= <-]; eapply ks_user with (s := s) (u := u); try reflexivity; auto; cbn;
      unfold kbase; cbn; try lia; repeat split; try lia; auto; easy.
  - destruct (p_users s u) as [|k| |] eqn:U; try easy. pose proof (K u) as Ku. rewrite U in Ku.
    destruct Ku as (B & H & E0 & E). unfold attempt. destruct (k_left k) eqn:Lk.
    + intros [= <-]. eapply ks_user with (s := s) (u := u); try reflexivity; auto. cbn [kinv].
      split; auto. split; auto. destruct (k_n k) eqn:N.
      * now rewrite E0.
      * destruct E as (e & -> & Et); [lia|]. exact Et.
    + destruct (get_handle (a_connect a) s) as [[i|] s1] eqn:G.
      2:{ pose proof (get_ok s (a_connect a) O) as X. rewrite G in X. destruct X as [_ ->].
          intros [= <-]. eapply ks_user with (s := s) (u := u); try reflexivity; auto. cbn [kinv].
          split; auto. split; auto. easy. }
      destruct (attempt_parts rc u a k s n i s1 O U Lk G) as (s2 & R & O2 & P2 & T2). rewrite R.
      destruct (talk _ _ _ _ _) as [[x s3]|] eqn:T; cbn; [|easy]. intros [= <-].
      destruct (o_free _ _ _ _ _ O2 i) as (Li & Di & _); [now left|].
      pose proof T as T'. apply talk_frame in T' as ((c & _ & _ & _ & _ & FU & FT) & _); auto.
      eapply ks_user with (s := s) (u := u); auto.
      * cbn. now rewrite <- T2.
      * cbn. now rewrite FU, P2.
      * cbn. unfold kbase in B. eapply talk_kinv; [..|exact T]; cbn; rewrite ?T2; auto; lia.
  - destruct (p_users s u) as [| |k q r|] eqn:U; try easy. destruct (k_h k) as [i|] eqn:Kh; try easy.
    destruct (_ && _); try easy. intros [= <-]. exact K.
  - destruct (p_users s u) as [| |k q r|] eqn:U; try easy. destruct (k_h k) as [i|] eqn:Kh; try easy.
    intros [= <-]. exact K.
  - assert (G : forall k, (match k_h k with
                     | None => Next (set_user s u Idle)
                     | Some i => finish u (release i (if k_reuse k then s
                                                      else set_conn s i (close (conn_at s i))))
                     end) = Next s' -> KS rc s').
    { intros k. destruct (k_h k) as [i|].
      - destruct (release i _) as [s2|] eqn:R; cbn; [|easy]. intros [= <-].
        apply release_users in R as (A & B).
        eapply ks_user with (s := s) (u := u) (x := Idle); auto; try exact I.
        + cbn. rewrite B. destruct (k_reuse k); cbn; lia.
        + cbn. rewrite A. now destruct (k_reuse k).
      - intros [= <-]. eapply ks_user with (s := s) (u := u) (x := Idle); auto; try exact I. cbn. lia. }
    destruct (p_users s u); try easy; apply G.
  - destruct (p_users s u) as [| |k q r|]; try easy. destruct (k_h k) as [i|]; try easy.
    destruct (release i s) as [s2|] eqn:R; cbn; [|easy]. intros [= <-].
    apply release_users in R as (A & B).
    eapply ks_user with (s := s) (u := u) (x := Idle); auto; try exact I; cbn. lia. now rewrite A.
  - destruct (Nat.ltb_spec i (length (p_conns s))); [|easy]. intros [= <-]. exact K.
Qed.

Lemma ks_reach rc s : reachable (step rc) st0 s -> KS rc s.
Proof.
  intros R. assert (X : OwnS s /\ KS rc s).
  { revert s R. apply reach_step.
    - intros s l s' [O K] E. split; [|eapply ks_step; eauto].
      pose proof (own_step rc s l O) as X. now rewrite E in X.
    - split. exact own0. intros u. exact I. }
  apply X.
Qed.

Lemma send_success_pf rc s u k q r : reachable (step rc) st0 s -> p_users s u = Got k q r ->
  ok_code (r_code r) /\ exists l, k_hist k = (k_tok k, r) :: l.
Proof.
  intros R U. apply ks_reach in R. specialize (R u). rewrite U in R.
  destruct R as (_ & A & l & B & _). eauto.
Qed.

Lemma hist_ok_no_ok t h : hist_ok t h -> forall t1 r1, In (t1, r1) h -> ~ ok_code (r_code r1).
Proof.
  revert t. induction h as [|[t0 r0] h IH]; cbn; [easy|].
  intros t (_ & _ & F & H) t1 r1 [[= <- <-]|X]; [|eapply IH; eauto]. intros O. apply F. now left.
Qed.

Lemma send_failure_pf rc s u k e : reachable (step rc) st0 s -> p_users s u = Ended k e ->
  (forall t r, In (t, r) (k_hist k) -> ~ ok_code (r_code r)) /\
  (k_n k <> 0%nat -> exists e', e = Some e' /\
     (from_answer e' -> exists t r l, k_hist k = (t, r) :: l /\ tells e' r)).
Proof.
  intros R U. apply ks_reach in R. specialize (R u). rewrite U in R.
  destruct R as (_ & A & B). split.
  - destruct A as [A|(r & l & -> & N & A)].
    + eapply hist_ok_no_ok; eauto.
    + intros t r1 [[= <- <-]|X]; auto. eapply hist_ok_no_ok; eauto.
  - intros N. destruct e as [e|]; [|tauto]. eexists. split; eauto.
Qed.

Lemma send_bounded_pf rc s u k : reachable (step rc) st0 s -> user_call (p_users s u) = Some k ->
  (length (k_hist k) <= k_n k)%nat /\ (k_got k <= rc * k_n k)%nat.
Proof.
  intros R U. apply ks_reach in R. specialize (R u). unfold kinv, kbase in R.
  destruct (p_users s u); cbn in U; try easy; injection U as ->; nia.
Qed.

Lemma hist_ok_in t a t1 r1 c : hist_ok t (a ++ (t1, r1) :: c) ->
  t1 <= t /\ (challenge r1 -> t1 < t) /\ ~ final r1.
Proof.
  revert t. induction a as [|[t0 r0] a IH]; cbn; intros t.
  - tauto.
  - intros (L & _ & _ & H). apply IH in H as (A & B & C). split; [lia|]. split; auto.
    intros X. specialize (B X). lia.
Qed.
Lemma hist_ok_drop t a t2 r2 b : hist_ok t (a ++ (t2, r2) :: b) -> hist_ok t2 b.
Proof. revert t. induction a as [|[t0 r0] a IH]; cbn; intros t; [tauto|]. intros (_ & _ & _ & H). eauto. Qed.

Lemma send_resigned_pf rc s u k a t2 r2 b t1 r1 c :
  reachable (step rc) st0 s -> user_call (p_users s u) = Some k ->
  k_hist k = a ++ (t2, r2) :: b ++ (t1, r1) :: c ->
  ~ final r1 /\ t1 <= t2 /\ (challenge r1 -> t1 < t2).
Proof.
  intros R U E. apply ks_reach in R. specialize (R u). unfold kinv in R.
  assert (H : hist_ok (k_tok k) (k_hist k) \/ exists r l, k_hist k = (k_tok k, r) :: l /\ hist_ok (k_tok k) l).
  { destruct (p_users s u); cbn in U; try easy; injection U as ->.
    - left. apply R.
    - destruct R as (_ & _ & l & R). right. eauto.
    - destruct R as (_ & [R|(r & l & R & _ & R')] & _); eauto 6. }
  assert (G : hist_ok t2 (b ++ (t1, r1) :: c)).
  { destruct H as [H|(r & l & El & H)].
    - rewrite E in H. eapply hist_ok_drop; eauto.
    - rewrite El in E. destruct a as [|x a]; cbn in E.
      + injection E as E1 E2 E3. subst. exact H.
      + injection E as E1 E2. subst l. eapply hist_ok_drop; eauto. }
  apply hist_ok_in in G. tauto.
Qed.

(** ** A healthy server *)

Lemma pick_i s i A : OwnS s -> p_avail s = i :: A ->
  get_handle true s = (Some i, set_pool s A (p_existing s)).
Proof.
  intros O E. unfold get_handle. rewrite E. cbn [pick].
  assert (X : c_open (conn_at s i) = true) by (apply (o_open _ _ _ _ _ O); rewrite E; now left).
  now rewrite X.
Qed.

Lemma polite_healthy s u b : polite s (Attempt u (healthy (ok_resp b))).
Proof. split; [exact I|]. cbn. intros H. exfalso. apply H. now left. Qed.

Lemma talk_live i k s b : (i < length (p_conns s))%nat -> clean (conn_at s i) ->
  c_alive (conn_at s i) = true ->
  exists k' s', talk 1 (healthy (ok_resp b)) i k s = Some (Got k' (Some (k_req k)) (ok_resp b), s') /\
    k_req k' = k_req k.
Proof.
  intros L [W Z] A. unfold talk. cbn [client_send healthy a_write a_resp a_hdr a_junk].
  unfold deliver. rewrite A, W. unfold read_header. cbn [c_left c_wire c_alive]. rewrite Z.
  cbn [N.ltb N.compare app]. unfold answer.
  change (IsResponseOK (r_code (ok_resp b))) with true. cbn iota. eexists. eexists. split; reflexivity.
Qed.

Lemma talk_dead i k s b : clean (conn_at s i) -> c_alive (conn_at s i) = false ->
  exists k', talk 1 (healthy (ok_resp b)) i k s = Some (Run k', set_conn s i (close (conn_at s i))) /\
    k_req k' = k_req k /\ k_left k' = k_left k /\ k_h k' = k_h k.
Proof.
  intros [W Z] A. unfold talk. cbn [client_send healthy a_write a_resp a_hdr a_junk].
  unfold deliver. rewrite A. unfold read_header. rewrite Z, W, A. cbn [N.ltb N.compare].
  eexists. split; [reflexivity|]. auto.
Qed.

Lemma filter_eq {A} (f g : A -> bool) l : (forall x, In x l -> f x = g x) -> filter f l = filter g l.
Proof.
  induction l; cbn; auto. intros H. rewrite (H a) by auto. rewrite IHl; auto.
Qed.

Lemma healthy_loop b u n : forall s k,
  runs polite 1 st0 s -> p_users s u = Run k -> k_left k = n ->
  (forall h, k_h k = Some h -> c_open (conn_at s h) = false) ->
  (stale s < n)%nat ->
  exists m s' k', (m <= n)%nat /\
    exec (step 1) s (repeat (Attempt u (healthy (ok_resp b))) m) = Next s' /\
    p_users s' u = Got k' (Some (k_req k)) (ok_resp b) /\ k_req k' = k_req k.
Proof.
  induction n as [|n IH]; intros s k R U Lk Hh St; [lia|].
  pose proof (own_reach 1 s (runs_reach _ _ _ _ R)) as O.
  pose proof (clean_runs s R) as [CA CU].
  set (at0 := healthy (ok_resp b)).
  destruct (get_handle true s) as [[i|] s1] eqn:G.
  2:{ exfalso. revert G. unfold get_handle. destruct (pick _ _) as [[j|] sj]; easy. }
  destruct (attempt_parts 1 u at0 k s n i s1 O U Lk G) as (s2 & Rl & O2 & P2 & T2).
  destruct (get_own _ _ _ _ O G) as (O1 & P1 & T1).
  destruct (o_free _ _ _ _ _ O2 i) as (Li & Di & _); [now left|].
  assert (Hni : forall v, hof s v <> Some i).
  { destruct (o_free _ _ _ _ _ O1 i) as (_ & _ & F); [now left|]. exact F. }
  (* the old handle is closed: it is deleted *)
  assert (X2 : p_avail s2 = p_avail s1 /\ conn_at s2 i = conn_at s1 i /\
               forall j, In j (p_avail s1) -> conn_at s2 j = conn_at s1 j).
  { revert Rl. unfold release_opt. destruct (k_h k) as [h|] eqn:Eh.
    - intros Rl. assert (Hu : hof s u = Some h) by (unfold hof; now rewrite U).
      assert (Nh : h <> i) by (intros ->; now apply (Hni u)).
      pose proof (own_free _ _ _ _ _ u h O1 Hu) as O1'.
      destruct (release_ok _ _ _ _ _ _ s1 O1' eq_refl eq_refl eq_refl)
        as (s2' & R' & _ & _ & _ & Ec & Ho).
      rewrite Rl in R'. injection R' as <-.
      assert (Cl : c_open (conn_at s1 h) = false).
      { specialize (Hh h eq_refl). pose proof (get_ok s true O) as X. rewrite G in X.
        destruct X as [(A & EA & ->)|(EA & -> & ->)]; auto.
        unfold conn_at in *. cbn. rewrite nth_snoc. destruct (Nat.eqb_spec h (length (p_conns s))); [tauto|auto]. }
      destruct Ho as [(Op & _)|(_ & Av & _)]; [congruence|].
      split; auto. split; [apply Ec; auto|]. intros j Hj. apply Ec. intros ->.
      destruct (o_free _ _ _ _ _ O1 h) as (_ & _ & F); [now right|]. now apply (F u).
    - intros [= <-]. auto. }
  destruct X2 as (A2 & E2i & E2).
  set (k1 := mkCall (k_req k) (k_tok k) n (Some i) (k_reuse k) (k_ec k) (k_n k) (k_got k) (k_hist k)).
  assert (Hs : step 1 s (Attempt u at0) = put_user u (talk 1 at0 i k1 s2)).
  { cbn [step]. rewrite U. unfold attempt. rewrite Lk. change (a_connect at0) with true.
    rewrite G, Rl. reflexivity. }
  pose proof (get_ok s true O) as X. rewrite G in X.
  assert (Ci : clean (conn_at s2 i)).
  { rewrite E2i. destruct X as [(A & EA & ->)|(EA & -> & ->)].
    - apply CA. rewrite EA. now left.
    - unfold conn_at. cbn. rewrite nth_snoc, Nat.eqb_refl. now split. }
  destruct (c_alive (conn_at s2 i)) eqn:Al.
  - destruct (talk_live i k1 s2 b Li Ci Al) as (k' & s' & T & K').
    exists 1%nat, (set_user s' u (Got k' (Some (k_req k)) (ok_resp b))), k'.
    split; [lia|]. cbn [repeat exec]. fold at0. rewrite Hs. unfold at0. rewrite T. cbn [put_user].
    split; auto. split; auto. cbn. now rewrite upd_eq.
  - destruct (talk_dead i k1 s2 b Ci Al) as (k' & T & K1 & K2 & K3).
    destruct X as [(A & EA & E1)|(EA & -> & E1)].
    2:{ exfalso. revert Al. rewrite E2i, E1. unfold conn_at. cbn. rewrite nth_snoc, Nat.eqb_refl. easy. }
    set (s3 := set_user (set_conn s2 i (close (conn_at s2 i))) u (Run k')).
    assert (S3 : step 1 s (Attempt u at0) = Next s3) by (rewrite Hs; unfold at0; now rewrite T).
    assert (U3 : p_users s3 u = Run k') by (cbn; now rewrite upd_eq).
    assert (NI : ~ In i A).
    { pose proof (o_nodup _ _ _ _ _ O) as ND. cbn in ND. rewrite EA in ND. now apply NoDup_cons_iff in ND. }
    assert (Av3 : p_avail s3 = A) by (cbn; rewrite A2, E1; reflexivity).
    assert (C3 : forall j, conn_at s3 j = if Nat.eqb j i then close (conn_at s2 i) else conn_at s2 j).
    { intros j. change (conn_at s3 j) with (conn_at (set_conn s2 i (close (conn_at s2 i))) j). now apply conn_at_set. }
    destruct (IH s3 k') as (m & s' & k'' & Lm & Ex & Us & Kr).
    + eapply runs_snoc; eauto. apply polite_healthy.
    + exact U3.
    + exact K2.
    + intros h Kh. rewrite K3 in Kh. cbn in Kh. injection Kh as <-. rewrite C3, Nat.eqb_refl. reflexivity.
    + unfold stale in *. rewrite Av3. rewrite EA in St. cbn [filter] in St.
      assert (Ali : c_alive (conn_at s i) = false).
      { rewrite <- Al, E2i, E1. reflexivity. }
      rewrite Ali in St. cbn [negb length] in St.
      rewrite (filter_eq (fun j => negb (c_alive (conn_at s3 j))) (fun j => negb (c_alive (conn_at s j)))); [lia|].
      intros j Hj. rewrite C3. destruct (Nat.eqb_spec j i); [subst; tauto|].
      rewrite E2 by (rewrite E1; exact Hj). now rewrite E1.
    + exists (S m), s', k''. split; [lia|]. cbn [repeat exec]. fold at0. rewrite S3.
      split; [exact Ex|]. rewrite K1 in *. auto.
Qed.

Lemma send_healthy_pf s u k b : runs polite 1 st0 s -> p_users s u = Run k -> k_h k = None ->
  (stale s < k_left k)%nat ->
  exists m s' k', (m <= k_left k)%nat /\
    exec (step 1) s (repeat (Attempt u (healthy (ok_resp b))) m) = Next s' /\
    p_users s' u = Got k' (Some (k_req k)) (ok_resp b).
Proof.
  intros R U H St. destruct (healthy_loop b u (k_left k) s k R U eq_refl) as (m & s' & k' & A & B & C & _); auto.
  - rewrite H. easy.
  - eauto 6.
Qed.

(** ** Concrete runs *)

Fixpoint checks (P : st -> op -> Prop) (rc : nat) (s : st) (l : list op) : Prop :=
  match l with
  | [] => True
  | o :: r => P s o /\ match step rc s o with Next s' => checks P rc s' r | _ => False end
  end.

Lemma runs_checks P rc s0 l : forall s s', runs P rc s0 s -> checks P rc s l ->
  exec (step rc) s l = Next s' -> runs P rc s0 s'.
Proof.
  induction l as [|o l IH]; cbn; intros s s' R C E.
  - now injection E as <-.
  - destruct C as [C1 C2]. destruct (step rc s o) as [| |s1] eqn:S; try easy.
    apply (IH s1); auto. eapply runs_snoc; eauto.
Qed.
