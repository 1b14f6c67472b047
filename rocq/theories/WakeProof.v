(** Proofs for WakeProps.v. *)
From Verif Require Import Util Conc WakeModel WakeSpec.
From Coq Require Import Lia.
Open Scope N_scope.

Definition pid (p : subp) : option nat :=
  match p with SIdle => None | SPub _ i | SAdd _ i | SWrite _ i => Some i end.

Lemma upd_eq {A} (f : nat -> A) n a : upd f n a n = a.
Proof. unfold upd. now rewrite Nat.eqb_refl. Qed.
Lemma upd_ne {A} (f : nat -> A) n a m : m <> n -> upd f n a m = f m.
Proof. unfold upd. intros H. apply Nat.eqb_neq in H. now rewrite H. Qed.
Lemma updb_eq {A} (f : bool -> A) n a : updb f n a n = a.
Proof. unfold updb. now rewrite Bool.eqb_reflx. Qed.
Lemma updb_ne {A} (f : bool -> A) n a m : m <> n -> updb f n a m = f m.
Proof. unfold updb. intros H. destruct m, n; try congruence; reflexivity. Qed.

Lemma nodup_snoc {A} (l : list A) a : NoDup l -> ~ In a l -> NoDup (l ++ [a]).
Proof.
  induction l as [|x l IH]; cbn; intros N H; [constructor; auto; constructor|].
  inversion N; subst. constructor; [|auto]. rewrite in_app_iff. intros [X|[X|[]]]; auto.
Qed.

Section P.
  Variable ur : bool.
  Variable cap : nat.

  (** ** Queues and submitting threads *)
  Record B (s : st) : Prop := mk_B {
    b_q : forall b, subs (g s) b = rans (g s) b ++ map fst (q s b);
    b_lt : forall b i, In i (subs (g s) b) -> (i < nid s)%nat;
    b_nd : forall b, NoDup (subs (g s) b);
    b_dj : forall i, In i (subs (g s) false) -> In i (subs (g s) true) -> False;
    b_pub : forall u b i, sp s u = SPub b i -> In (i, false) (q s b);
    b_own : forall b i, In (i, false) (q s b) -> exists u, sp s u = SPub b i;
    b_in : forall u i, pid (sp s u) = Some i -> exists b, In i (subs (g s) b);
    b_one : forall u v i, pid (sp s u) = Some i -> pid (sp s v) = Some i -> u = v;
    b_ret : forall i, In i (rets (g s)) -> exists b, In i (subs (g s) b);
    b_nret : forall u i, pid (sp s u) = Some i -> ~ In i (rets (g s));
    b_all : forall b i, In i (subs (g s) b) -> In i (rets (g s)) \/ exists u, pid (sp s u) = Some i
  }.

  Lemma B_init : B (init ur).
  Proof.
    split; cbn; try easy; intros; try (now destruct H); try constructor. 
  Qed.

  (** Steps of the loop that take nothing out. *)
  Lemma B_same s s' : q s' = q s -> sp s' = sp s -> nid s' = nid s -> subs (g s') = subs (g s) ->
    rans (g s') = rans (g s) -> rets (g s') = rets (g s) -> B s -> B s'.
  Proof. intros E1 E2 E3 E4 E5 E6 [? ? ? ? ? ? ? ? ? ? ?]. split; rewrite ?E1, ?E2, ?E3, ?E4, ?E5, ?E6; auto. Qed.

  Lemma nodup_q s b i c c' : B s -> In (i, c) (q s b) -> In (i, c') (q s b) -> c = c'.
  Proof.
    intros HB H1 H2. pose proof (b_nd s HB b) as N. rewrite (b_q s HB b) in N.
    assert (N' : NoDup (map fst (q s b))).
    { clear -N. induction (rans (g s) b) as [|a l IH]; auto. inversion N. auto. }
    clear -N' H1 H2. induction (q s b) as [|[j d] l IH]; [easy|]. cbn in *. inversion N' as [|? ? Nj Nl]; subst.
    destruct H1 as [H1|H1], H2 as [H2|H2].
    - congruence.
    - injection H1 as -> ->. exfalso. apply Nj. change i with (fst (i, c')). now apply in_map.
    - injection H2 as -> ->. exfalso. apply Nj. change i with (fst (i, c)). now apply in_map.
    - auto.
  Qed.

  Lemma B_claim s u b : sp s u = SIdle -> B s -> B (claim s u b).
  Proof.
    intros Hu HB. pose proof HB as [? ? ? ? ? ? ? ? ? ? ?]. unfold claim.
    assert (Hne : forall b, ~ In (nid s) (subs (g s) b)). { intros b' X. apply b_lt0 in X. lia. }
    split; cbn [q sp nid g subs rans rets].
    - intros b'. destruct (Bool.bool_dec b' b) as [->|Nb].
      + rewrite !updb_eq, map_app, b_q0, app_assoc. reflexivity.
      + rewrite !updb_ne; auto.
    - intros b' i. destruct (Bool.bool_dec b' b) as [->|Nb].
      + rewrite updb_eq, in_app_iff. intros [X|[<-|[]]]; [apply b_lt0 in X|]; lia.
      + rewrite updb_ne by auto. intros X. apply b_lt0 in X. lia.
    - intros b'. destruct (Bool.bool_dec b' b) as [->|Nb].
      + rewrite updb_eq. now apply nodup_snoc.
      + rewrite updb_ne; auto.
    - intros i X Y. destruct b.
      + rewrite updb_eq in Y. rewrite updb_ne in X by easy. apply in_app_iff in Y as [Y|[<-|[]]]; eauto. 
        now apply (Hne false).
      + rewrite updb_eq in X. rewrite updb_ne in Y by easy. apply in_app_iff in X as [X|[<-|[]]]; eauto. 
        now apply (Hne true).
    - intros v b' i. destruct (Nat.eq_dec v u) as [->|Nv].
      + rewrite upd_eq. intros [= <- <-]. rewrite updb_eq, in_app_iff. right. now left.
      + rewrite upd_ne by auto. intros X. apply b_pub0 in X. destruct (Bool.bool_dec b' b) as [->|Nb].
        * rewrite updb_eq, in_app_iff. now left.
        * now rewrite updb_ne.
    - intros b' i. destruct (Bool.bool_dec b' b) as [->|Nb].
      + rewrite updb_eq, in_app_iff. intros [X|[[= <-]|[]]].
        * apply b_own0 in X as [v X]. exists v. rewrite upd_ne; auto. intros ->. congruence.
        * exists u. now rewrite upd_eq.
      + rewrite updb_ne by auto. intros X. apply b_own0 in X as [v X]. exists v. rewrite upd_ne; auto. intros ->. congruence.
    - intros v i. destruct (Nat.eq_dec v u) as [->|Nv].
      + rewrite upd_eq. intros [= <-]. exists b. rewrite updb_eq, in_app_iff. right. now left.
      + rewrite upd_ne by auto. intros X. apply b_in0 in X as [b' X]. exists b'. destruct (Bool.bool_dec b' b) as [->|Nb].
        * rewrite updb_eq, in_app_iff. now left.
        * now rewrite updb_ne.
    - intros v w i. destruct (Nat.eq_dec v u) as [->|Nv], (Nat.eq_dec w u) as [->|Nw]; auto.
      + rewrite upd_eq, upd_ne by auto. intros [= <-] X. apply b_in0 in X as [b' X]. now apply Hne in X.
      + rewrite upd_eq, upd_ne by auto. intros X [= <-]. apply b_in0 in X as [b' X]. now apply Hne in X.
      + rewrite !upd_ne by auto. eauto.
    - intros i X. apply b_ret0 in X as [b' X]. exists b'. destruct (Bool.bool_dec b' b) as [->|Nb].
      + rewrite updb_eq, in_app_iff. now left.
      + now rewrite updb_ne.
    - intros v i. destruct (Nat.eq_dec v u) as [->|Nv].
      + rewrite upd_eq. intros [= <-] X. apply b_ret0 in X as [b' X]. now apply Hne in X.
      + rewrite upd_ne by auto. eauto.
    - intros b' i X. assert (X' : In i (subs (g s) b') \/ i = nid s).
      { destruct (Bool.bool_dec b' b) as [->|Nb]; [rewrite updb_eq in X|rewrite updb_ne in X; auto].
        apply in_app_iff in X as [X|[X|[]]]; auto. }
      destruct X' as [X'| ->].
      + apply b_all0 in X' as [X'|[v X']]; auto. right. exists v. rewrite upd_ne; auto. intros ->. rewrite Hu in X'. discriminate.
      + right. exists u. now rewrite upd_eq.
  Qed.

  Lemma B_publish s u b i : sp s u = SPub b i -> B s -> B (publish s u b i).
  Proof.
    intros Hu HB. pose proof HB as [? ? ? ? ? ? ? ? ? ? ?]. unfold publish.
    set (f := fun c : nat * bool => if Nat.eqb (fst c) i then (i, true) else c).
    assert (Hf : forall l, map fst (map f l) = map fst l).
    { intros l. rewrite map_map. apply map_ext. intros [j d]. unfold f. cbn.
      destruct (Nat.eqb_spec j i); cbn; auto. }
    assert (Hpid : forall v, pid (upd (sp s) u (SAdd b i) v) = pid (sp s v)).
    { intros v. destruct (Nat.eq_dec v u) as [->|Nv]; [rewrite upd_eq, Hu|rewrite upd_ne by auto]; reflexivity. }
    split; cbn [q sp nid g subs rans rets]; auto; try (intros *; rewrite ?Hpid; now eauto).
    - intros b'. destruct (Bool.bool_dec b' b) as [->|Nb]; [rewrite updb_eq, Hf|rewrite updb_ne by auto]; auto.
    - intros v b' j. destruct (Nat.eq_dec v u) as [->|Nv]; [rewrite upd_eq; discriminate|rewrite upd_ne by auto].
      intros X. assert (Nj : j <> i). { intros ->. apply Nv. apply (b_one0 v u i); [rewrite X|rewrite Hu]; reflexivity. }
      apply b_pub0 in X. destruct (Bool.bool_dec b' b) as [->|Nb]; [rewrite updb_eq|now rewrite updb_ne by auto].
      apply in_map_iff. exists (j, false). split; auto. unfold f. cbn. apply Nat.eqb_neq in Nj. now rewrite Nj.
    - intros b' j. assert (Y : In (j, false) (q s b') -> j <> i -> exists u0, upd (sp s) u (SAdd b i) u0 = SPub b' j).
      { intros X Nj. apply b_own0 in X as [v X]. exists v. rewrite upd_ne; auto. intros ->. congruence. }
      destruct (Bool.bool_dec b' b) as [->|Nb].
      + rewrite updb_eq. intros X. apply in_map_iff in X as ([j' d] & E & X). unfold f in E. cbn in E.
        destruct (Nat.eqb_spec j' i); [discriminate|]. injection E as -> ->. auto.
      + rewrite updb_ne by auto. intros X. apply Y; auto. intros ->.
        assert (P1 : In i (subs (g s) b)). { rewrite b_q0. apply in_app_iff. right. change i with (fst (i, false)). apply in_map. eauto. }
        assert (P2 : In i (subs (g s) b')). { rewrite b_q0. apply in_app_iff. right. change i with (fst (i, false)). now apply in_map. }
        destruct b, b'; try congruence; eauto.
    - intros b' j X. apply b_all0 in X as [X|[v X]]; auto. right. exists v. now rewrite Hpid.
  Qed.

  (** A submitting thread that stays in its call. *)
  Lemma B_move s s' u p : q s' = q s -> sp s' = upd (sp s) u p -> pid p = pid (sp s u) ->
    (forall b i, sp s u <> SPub b i) -> (forall b i, p <> SPub b i) ->
    nid s' = nid s -> subs (g s') = subs (g s) ->
    rans (g s') = rans (g s) -> rets (g s') = rets (g s) -> B s -> B s'.
  Proof.
    intros E1 E2 Ep Hn Hn' E3 E4 E5 E6 HB. pose proof HB as [? ? ? ? ? ? ? ? ? ? ?].
    assert (Hpid : forall v, pid (sp s' v) = pid (sp s v)).
    { intros v. rewrite E2. destruct (Nat.eq_dec v u) as [->|Nv]; [rewrite upd_eq, Ep|rewrite upd_ne by auto]; reflexivity. }
    split; rewrite ?E1, ?E3, ?E4, ?E5, ?E6; auto; try (intros *; rewrite ?Hpid; now eauto).
    - intros v b i. rewrite E2. destruct (Nat.eq_dec v u) as [->|Nv]; [rewrite upd_eq|rewrite upd_ne by auto; eauto].
      intros X. now apply Hn' in X.
    - intros b i X. apply b_own0 in X as [v X]. exists v. rewrite E2, upd_ne; auto. intros ->. now apply Hn in X.
    - intros b i X. apply b_all0 in X as [X|[v X]]; auto. right. exists v. now rewrite Hpid.
  Qed.

  Lemma B_returns s kn sq a pk u i : pid (sp s u) = Some i -> (forall b i, sp s u <> SPub b i) -> B s -> B (returns s kn sq a pk u i).
  Proof.
    intros Hu Hn HB. pose proof HB as [? ? ? ? ? ? ? ? ? ? ?]. unfold returns.
    split; cbn [q sp nid g subs rans rets]; auto.
    - intros v b j. destruct (Nat.eq_dec v u) as [->|Nv]; [rewrite upd_eq; discriminate|rewrite upd_ne by auto; eauto].
    - intros b j X. apply b_own0 in X as [v X]. exists v. rewrite upd_ne; auto. intros ->. now apply Hn in X.
    - intros v j. destruct (Nat.eq_dec v u) as [->|Nv]; [rewrite upd_eq; discriminate|rewrite upd_ne by auto; eauto].
    - intros v w j. destruct (Nat.eq_dec v u) as [->|Nv]; [rewrite upd_eq; discriminate|rewrite upd_ne by auto].
      destruct (Nat.eq_dec w u) as [->|Nw]; [rewrite upd_eq; discriminate|rewrite upd_ne by auto; eauto].
    - intros j [<-|X]; eauto.
    - intros v j. destruct (Nat.eq_dec v u) as [->|Nv]; [rewrite upd_eq; discriminate|rewrite upd_ne by auto].
      intros X [<-|Y]; [|exact (b_nret0 _ _ X Y)]. apply Nv. eauto.
    - intros b j X. apply b_all0 in X as [X|[v X]]; [left; now right|].
      destruct (Nat.eq_dec v u) as [->|Nv].
      + left. left. congruence.
      + right. exists v. rewrite upd_ne; auto.
  Qed.

  Lemma B_take s b i r m p : q s b = (i, true) :: r -> B s -> B (take_out s b i r m p).
  Proof.
    intros Hq HB. pose proof HB as [? ? ? ? ? ? ? ? ? ? ?]. unfold take_out.
    split; cbn [q sp nid g subs rans rets]; auto.
    - intros b'. destruct (Bool.bool_dec b' b) as [->|Nb].
      + rewrite !updb_eq, b_q0, Hq, <- app_assoc. reflexivity.
      + rewrite !updb_ne; auto.
    - intros v b' j X. apply b_pub0 in X. destruct (Bool.bool_dec b' b) as [->|Nb]; [rewrite updb_eq|now rewrite updb_ne].
      rewrite Hq in X. destruct X as [X|X]; [discriminate|auto].
    - intros b' j X. apply b_own0. destruct (Bool.bool_dec b' b) as [->|Nb]; [rewrite updb_eq in X|now rewrite updb_ne in X].
      rewrite Hq. now right.
  Qed.

  Lemma B_step s l s' : step ur cap s l = Next s' -> B s -> B s'.
  Proof.
    intros E HB. destruct l as [u c|c|]; cbn [step] in E.
    - unfold sub_step in E. destruct (sp s u) as [|b i|b i|b i] eqn:Hu.
      + destruct c; [destruct (length (q s false) <? cap)%nat|]; injection E as <-; auto using B_claim.
      + injection E as <-. now apply B_publish.
      + injection E as <-. unfold wakeup_if_needed. destruct (seq s =? two31).
        * apply (B_move s _ u (SWrite b i)); cbn; auto; try (intros; congruence); now rewrite Hu.
        * apply B_returns; auto; [now rewrite Hu|intros; congruence].
      + unfold wake_ring in E. destruct c; [|destruct ur; [|discriminate]]; injection E as <-;
          (apply B_returns; auto; [now rewrite Hu|intros; congruence]).
    - unfold loop_step, kwait, drain, remote, peek, mid, decide, cas, load in E.
      assert (T : forall b i r m p, q s b = (i, true) :: r -> B (take_out s b i r m p)) by auto using B_take.
      assert (Sm : forall s', q s' = q s -> sp s' = sp s -> nid s' = nid s -> subs (g s') = subs (g s) ->
        rans (g s') = rans (g s) -> rets (g s') = rets (g s) -> B s').
      { intros. apply (B_same s); auto. }
      destruct (lp s); repeat match type of E with context [match ?x with _ => _ end] => destruct x eqn:? end;
        try discriminate E; injection E as <-; auto; apply Sm; reflexivity.
    - unfold kern_step in E. destruct (arm (k s)), (ur && pend (k s)); try discriminate. injection E as <-.
      apply (B_same s); auto.
  Qed.

  (** ** The loop *)
  Definition K0 (s : st) : Prop :=
    q s false = [] \/ (exists i r, q s false = (i, false) :: r) \/ exists u b i, sp s u = SAdd b i.
  Definition K1 (s : st) : Prop :=
    forall i c, In (i, c) (q s true) -> exists u, sp s u = SPub true i \/ sp s u = SAdd true i.
  Definition raised (s : st) : Prop := pend (k s) = true \/ exists u b i, sp s u = SWrite b i.
  Definition cnt (s : st) : Prop := seq s = (lseq s + 2 * adds (g s)) mod two32 /\ lseq s < two32 /\ adds (g s) <= peak (g s) /\
    lseq s mod 2 = 0 /\ (ur = false -> forall j, j < adds (g s) -> (lseq s + 2 * j) mod two32 = two31 -> raised s).
  Definition sure (s : st) : Prop :=
    pend (k s) || cqe (k s) || msg (k s) = true \/ (exists u b i, sp s u = SWrite b i) \/
    (seq s = two31 /\ K0 s /\ K1 s).

  Definition L (s : st) : Prop :=
    match lp s with
    | LSubmit | LLoad | LPoll | LStore | LDisp => True
    | LTask => cnt s
    | LRem => cnt s /\ (adds (g s) = 0 -> more s = true \/ K0 s)
    | LDecide => cnt s /\ (adds (g s) = 0 -> (more s = true \/ K0 s) /\ K1 s) /\ ur = false
    | LPeek | LMid => (ur = true /\ cnt s) /\ (adds (g s) = 0 -> (more s = true \/ K0 s) /\ K1 s)
    | LChkT | LChkR | LCas => cnt s /\ (adds (g s) = 0 -> K0 s /\ K1 s) /\ (ur = true -> arm (k s) <> AQueued)
    | LWait => (ur = true -> arm (k s) <> AQueued) /\ (timely ur s -> sure s)
    end.
  Definition A (s : st) : Prop :=
    (seq s < two32 /\ seq s mod 2 = 0) /\ (ur = true -> arm (k s) = ANone -> cqe (k s) = true) /\
    (ur = false -> cqe (k s) = false /\ msg (k s) = false).

  (** What other threads do between two steps of the loop. *)
  Definition calm (s s' : st) : Prop :=
    (K0 s -> K0 s') /\ (K1 s -> K1 s') /\ adds (g s') = adds (g s) /\ seq s' = seq s /\ (ur = false -> raised s -> raised s').

  Lemma calm_claim s u b : sp s u = SIdle -> calm s (claim s u b).
  Proof.
    intros Hu. unfold claim, calm. cbn [g adds seq]. split; [|split; [|split; [easy|split; [easy|]]]].
    - intros H. unfold K0 in *. cbn [q sp]. destruct H as [H|[(i & r & H)|(v & b' & i & H)]].
      + destruct b; [left; now rewrite updb_ne by easy|right; left]. exists (nid s), []. rewrite updb_eq, H. reflexivity.
      + right. left. destruct b; [exists i, r; now rewrite updb_ne by easy|]. exists i, (r ++ [(nid s, false)]).
        rewrite updb_eq, H. reflexivity.
      + right. right. exists v, b', i. rewrite upd_ne; auto. intros ->. congruence.
    - intros H i c. unfold K1 in *. cbn [q sp].
      assert (Y : In (i, c) (q s true) -> exists u0, upd (sp s) u (SPub b (nid s)) u0 = SPub true i \/
                                        upd (sp s) u (SPub b (nid s)) u0 = SAdd true i).
      { intros X. destruct (H _ _ X) as [v Y]. exists v. rewrite upd_ne; auto. intros ->. destruct Y; congruence. }
      destruct b; [rewrite updb_eq|now rewrite updb_ne by easy].
      rewrite in_app_iff. intros [X|[[= <- <-]|[]]]; auto. exists u. left. now rewrite upd_eq.
    - intros _ [H|(v & b' & i & H)]; [now left|]. right. exists v, b', i. cbn. rewrite upd_ne; auto. intros ->. congruence.
  Qed.

  Lemma calm_publish s u b i : sp s u = SPub b i -> B s -> calm s (publish s u b i).
  Proof.
    intros Hu HB. unfold publish, calm. cbn [g adds seq]. split; [|split; [|split; [easy|split; [easy|]]]].
    - intros _. right. right. exists u, b, i. cbn [sp]. now rewrite upd_eq.
    - intros H j c. unfold K1 in *. cbn [q sp].
      assert (Y : forall c', In (j, c') (q s true) -> exists u0, upd (sp s) u (SAdd b i) u0 = SPub true j \/
                                        upd (sp s) u (SAdd b i) u0 = SAdd true j).
      { intros c' X. destruct (H _ _ X) as [v Y]. exists v. destruct (Nat.eq_dec v u) as [->|Nv]; [rewrite upd_eq|now rewrite upd_ne].
        right. destruct Y; congruence. }
      destruct b; [rewrite updb_eq|rewrite updb_ne by easy; apply Y].
      intros X. apply in_map_iff in X as ([j' d] & E & X). cbn in E. destruct (Nat.eqb_spec j' i).
      + injection E as <- <-. subst. eauto.
      + injection E as -> ->. eauto.
    - intros _ [H|(v & b' & j & H)]; [now left|]. right. exists v, b', j. cbn. rewrite upd_ne; auto. intros ->. congruence.
  Qed.

  Lemma calm_write s kn u b i : sp s u = SWrite b i -> (ur = false -> pend kn = true) -> calm s (returns s kn (seq s) (adds (g s)) (peak (g s)) u i).
  Proof.
    intros Hu Hk. unfold returns, calm. cbn [g adds seq]. split; [|split; [|split; [easy|split; [easy|]]]].
    - unfold K0. cbn [q sp]. intros [H|[H|(v & b' & j & H)]]; auto. right. right. exists v, b', j.
      rewrite upd_ne; auto. intros ->. congruence.
    - unfold K1. cbn [q sp]. intros H j c X. destruct (H _ _ X) as [v Y]. exists v. rewrite upd_ne; auto.
      intros ->. destruct Y; congruence.
    - intros Eu _. left. cbn. auto.
  Qed.

  Lemma L_calm s s' : calm s s' -> lp s' = lp s -> lseq s' = lseq s -> more s' = more s ->
    arm (k s') = arm (k s) -> peak (g s') = peak (g s) ->
    (lp s = LWait -> sure s -> sure s') -> L s -> L s'.
  Proof.
    intros (C0 & C1 & Ca & Cs & Cr) E1 E2 E3 E4 E5 HS.
    assert (Hc : cnt s -> cnt s').
    { unfold cnt. rewrite E2, E5, Ca, Cs. intros (? & ? & ? & ? & H). split; [auto|]. split; [auto|]. split; [auto|]. split; [auto|]. eauto. }
    unfold L, timely. rewrite E1, E3, E4, E5, Ca. destruct (lp s); tauto.
  Qed.

  Lemma even_mod a : a mod 2 = 0 -> (a mod two32) mod 2 = 0.
  Proof.
    intros H. pose proof (N.div_mod a two32 ltac:(easy)) as H1. pose proof (N.div_mod a 2 ltac:(easy)) as H2.
    rewrite H, N.add_0_r in H2. unfold two32 in *.
    replace (a mod 4294967296) with ((a / 2 - 2147483648 * (a / 4294967296)) * 2) by lia. now apply N.mod_mul.
  Qed.

  Lemma A_seq s s' : seq s' = seq s \/ seq s' = (seq s + 2) mod two32 -> k s' = k s -> A s -> A s'.
  Proof.
    intros H E ((H1 & H1') & H2). unfold A. rewrite E. split; auto. destruct H as [-> | ->]; [auto|].
    split; [now apply N.mod_lt|]. apply even_mod. now rewrite <- N.add_mod_idemp_l, H1' by easy.
  Qed.

  Lemma mod32 a : a mod two32 < two32.
  Proof. now apply N.mod_lt. Qed.

  Lemma add_fields s u b i : let s' := wakeup_if_needed s u b i in
    seq s' = (seq s + 2) mod two32 /\ lp s' = lp s /\ lseq s' = lseq s /\ more s' = more s /\ k s' = k s /\
    adds (g s') = adds (g s) + 1 /\ peak (g s') = peak_after s.
  Proof. cbv zeta. unfold wakeup_if_needed. destruct (seq s =? two31); cbn; now repeat split. Qed.

  Lemma add_raised s u b i : sp s u = SAdd b i -> raised s \/ seq s = two31 -> raised (wakeup_if_needed s u b i).
  Proof.
    intros Hu H. unfold wakeup_if_needed, raised in *. destruct (N.eqb_spec (seq s) two31) as [E|E].
    - right. exists u, b, i. cbn. now rewrite upd_eq.
    - destruct H as [[H|(v & b' & j & H)]|H]; [now left| |easy]. right. exists v, b', j. cbn.
      rewrite upd_ne; auto. intros ->. congruence.
  Qed.

  Lemma add_cnt s u b i : sp s u = SAdd b i -> in_window (lp s) = true -> cnt s -> cnt (wakeup_if_needed s u b i).
  Proof.
    intros Hu W (E1 & E2 & E3 & E4 & E5). pose proof (add_fields s u b i) as F. cbv zeta in F.
    destruct F as (F1 & F2 & F3 & F4 & F5 & F6 & F7). unfold cnt. rewrite F1, F3, F6, F7. unfold peak_after. rewrite W.
    split; [|split; [auto|split; [lia|split; [auto|]]]].
    - rewrite E1, N.add_mod_idemp_l by easy. f_equal. lia.
    - intros Eu j Hj Ej. apply add_raised; auto. destruct (N.eq_dec j (adds (g s))) as [->|N]; [right; congruence|].
      left. apply (E5 Eu j); [lia|auto].
  Qed.

  Lemma L_add s u b i : sp s u = SAdd b i -> A s -> L s -> L (wakeup_if_needed s u b i).
  Proof.
    intros Hu HA HL. pose proof (add_cnt s u b i Hu) as Hc. pose proof (add_fields s u b i) as F. cbv zeta in F.
    destruct F as (F1 & F2 & F3 & F4 & F5 & F6 & F7). unfold L in *. rewrite F2, F4, F5, F6.
    assert (HS : lp s = LWait -> sure s -> sure (wakeup_if_needed s u b i)).
    { intros _ H. destruct (N.eq_dec (seq s) two31) as [E|E].
      - destruct (add_raised s u b i Hu (or_intror E)) as [H1|H1]; [left; now rewrite H1|right; now left].
      - destruct H as [H|[H|(H & _)]]; [left; now rewrite F5| |easy].
        destruct (add_raised s u b i Hu (or_introl (or_intror H))) as [H1|H1]; [left; now rewrite H1|right; now left]. }
    destruct (lp s) eqn:El; try exact I; try (now apply Hc); cbn in Hc; try (destruct HL as [HL HL']; split; [auto|]; intros; lia).
    - destruct HL as [[Eu HL] HL']. split; [auto|]. intros; lia.
    - destruct HL as [[Eu HL] HL']. split; [auto|]. intros; lia.
    - destruct HL as (H1 & H2 & H3). split; [auto|]. split; [intros; lia|auto].
    - destruct HL as (H1 & H2 & H3). split; [auto|]. split; [intros; lia|auto].
    - destruct HL as (H1 & H2 & H3). split; [auto|]. split; [intros; lia|auto].
    - destruct HL as (H1 & H2 & H3). split; [auto|]. split; [intros; lia|auto].
    - destruct HL as [H1 H2]. split; [auto|]. intros Ht. apply HS; auto. apply H2. intros Eu. specialize (Ht Eu).
      rewrite F7 in Ht. unfold peak_after in Ht. now rewrite El in Ht.
  Qed.

  Lemma L_sub s u c s' : B s -> A s -> L s -> sub_step ur cap s u c = Next s' -> L s' /\ A s'.
  Proof.
    intros HB HA HL E. unfold sub_step in E. destruct (sp s u) as [|b i|b i|b i] eqn:Hu.
    - assert (X : forall b, L (claim s u b) /\ A (claim s u b)).
      { intros b. split; [|now apply (A_seq s); [left| |]].
        pose proof (calm_claim s u b Hu) as HC. apply (L_calm s); auto.
        intros _ [H|[(v & b' & i & H)|(H & H0 & H1)]]; [now left| |].
        + right. left. exists v, b', i. cbn [claim sp]. rewrite upd_ne; auto. intros ->. congruence.
        + right. right. destruct HC as (? & ? & ? & Cs & ?). rewrite Cs. auto. }
      destruct c; [destruct (length (q s false) <? cap)%nat|]; injection E as <-; auto.
    - injection E as <-. split; [|now apply (A_seq s); [left| |]].
      pose proof (calm_publish s u b i Hu HB) as HC. apply (L_calm s); auto.
      intros _ [H|[(v & b' & j & H)|(H & H0 & H1)]]; [now left| |].
      + right. left. exists v, b', j. cbn [publish sp]. rewrite upd_ne; auto. intros ->. congruence.
      + right. right. destruct HC as (? & ? & ? & Cs & ?). rewrite Cs. auto.
    - injection E as <-. split; [now apply L_add|]. apply (A_seq s); auto; unfold wakeup_if_needed; destruct (seq s =? two31); auto.
      all: apply mod32.
    - unfold wake_ring in E. pose proof HA as (HA1 & HA2 & HA3).
      destruct c.
      + injection E as <-. pose proof (calm_write s (mk_k true (cqe (k s)) (msg (k s)) (arm (k s))) u b i Hu (fun _ => eq_refl)) as HC.
        split; [|now split]. apply (L_calm s); auto. intros _ _. left. reflexivity.
      + destruct ur eqn:Eu; [|discriminate]. injection E as <-.
        assert (HC : calm s (returns s (mk_k (pend (k s)) (cqe (k s)) true (arm (k s))) (seq s) (adds (g s)) (peak (g s)) u i)).
        { apply (calm_write s _ u b i Hu). intros; congruence. }
        split; [|split; [auto|split; [auto|intros; congruence]]]. apply (L_calm s); auto. intros _ _. left. cbn. now rewrite !Bool.orb_true_r.
  Qed.

  Lemma K_kern s kn p : (K0 s <-> K0 (with_kern s kn p)) /\ (K1 s <-> K1 (with_kern s kn p)).
  Proof. now split. Qed.

  Lemma L_kern s s' : A s -> L s -> kern_step ur s = Next s' -> L s' /\ A s'.
  Proof.
    intros (HA1 & HA2 & HA3) HL E. unfold kern_step in E. destruct (arm (k s)) eqn:Ea; try discriminate.
    destruct (ur && pend (k s)) eqn:Ep; [|discriminate]. apply andb_prop in Ep as [Eu Ep]. injection E as <-. split.
    - assert (Hc : forall kn p, cnt s -> cnt (with_kern s kn p)).
      { intros kn p (H1 & H2 & H3 & H4 & H5). split; [auto|]. split; [auto|]. split; [auto|]. split; [auto|]. congruence. }
      unfold L in *. cbn [with_kern lp k more g lseq arm].
      destruct (lp s); auto.
      + destruct HL as [H1 H2]. split; auto.
      + destruct HL as [[H0 H1] H2]. split; [split|]; auto.
      + destruct HL as [[H0 H1] H2]. split; [split|]; auto.
      + destruct HL as (H1 & H2 & H3). split; [auto|]. split; [exact H2|]. easy.
      + destruct HL as (H1 & H2 & H3). split; [auto|]. split; [exact H2|]. easy.
      + destruct HL as (H1 & H2 & H3). congruence.
      + destruct HL as (H1 & H2 & H3). split; [auto|]. split; [exact H2|]. easy.
      + split; [easy|]. intros _. left. reflexivity.
    - split; [exact HA1|]. split; [auto|]. congruence.
  Qed.

  Lemma K0_take s b i r m p : q s b = (i, true) :: r -> b = true -> K0 s -> K0 (take_out s b i r m p).
  Proof. intros E -> H. unfold K0, take_out in *. cbn [q sp]. rewrite updb_ne by easy. auto. Qed.

  Lemma wrap n a : n < two32 -> a < two31 -> (n + 2 * a) mod two32 = n -> a = 0.
  Proof.
    unfold two32, two31. intros H1 H2 H3. destruct (N.eq_dec a 0); auto. exfalso.
    pose proof (N.div_mod (n + 2 * a) 4294967296). rewrite H3 in H.
    set (d := (n + 2 * a) / 4294967296) in *. assert (2 * a = 4294967296 * d) by lia.
    assert (d < 1) by lia. lia.
  Qed.

  Lemma crossed n a : n < two32 -> n mod 2 = 0 -> two31 <= a -> exists j, j < a /\ (n + 2 * j) mod two32 = two31.
  Proof.
    unfold two32, two31. intros H1 H2 H3. pose proof (N.div_mod n 2 ltac:(easy)) as H4. rewrite H2, N.add_0_r in H4.
    destruct (N.le_gt_cases n 2147483648).
    - exists (1073741824 - n / 2). split; [lia|]. replace (n + 2 * (1073741824 - n / 2)) with 2147483648 by lia. reflexivity.
    - exists (1073741824 + 2147483648 - n / 2). split; [lia|].
      replace (n + 2 * (1073741824 + 2147483648 - n / 2)) with (2147483648 + 1 * 4294967296) by lia.
      now rewrite N.mod_add.
  Qed.

  Lemma L_loop s c s' : B s -> A s -> L s -> loop_step ur s c = Next s' -> L s' /\ A s'.
  Proof.
    intros HB HA HL E. pose proof HA as ((HA1 & HA0) & HA2 & HA3). unfold loop_step in E. unfold L in HL.
    assert (G : forall p, A (go s p)) by (intros p; exact HA).
    assert (Gc : forall p, cnt s -> cnt (go s p)) by (intros p H; exact H).
    destruct (lp s) eqn:El.
    - injection E as <-. destruct c; [|now split]. split; [exact I|]. split; [now split|].
      cbn [with_kern k arm cqe msg]. split; [|exact HA3]. intros Eu. destruct (arm (k s)); try easy. auto.
    - injection E as <-. split; [|exact HA]. unfold L, load, cnt. cbn [lp seq lseq g adds peak k]. rewrite N.mul_0_r, N.add_0_r, N.mod_small by auto.
      split; [auto|]. split; [auto|]. split; [lia|]. split; [auto|]. intros; lia.
    - injection E as <-. unfold drain. destruct (q s false) as [|[i [|]] r] eqn:Eq.
      + split; [|apply G]. unfold L. cbn [go lp]. split; [exact HL|]. intros _. right. left. exact Eq.
      + destruct c; (split; [|exact HA]); unfold L; cbn [take_out lp]; [exact HL|]. split; [exact HL|]. intros _. now left.
      + split; [|apply G]. unfold L. cbn [go lp]. split; [exact HL|]. intros _. right. right. left. exists i, r. exact Eq.
    - injection E as <-. unfold remote. destruct (q s true) as [|[i [|]] r] eqn:Eq.
      + split; [|apply G]. destruct HL as [H1 H2]. unfold L. cbn [go lp].
        assert (X : adds (g s) = 0 -> (more s = true \/ K0 s) /\ K1 s).
        { intros H. split; auto. intros j d. rewrite Eq. easy. }
        destruct (Bool.bool_dec ur true) as [Eu|Eu].
        * rewrite Eu. split; [split; [auto|exact H1]|exact X].
        * apply Bool.not_true_is_false in Eu. rewrite Eu. split; [exact H1|]. split; [exact X|auto].
      + split; [|exact HA]. destruct HL as [H1 H2]. unfold L. cbn [take_out lp]. split; [exact H1|]. cbn [take_out g adds more].
        intros H. destruct (H2 H) as [H3|H3]; [now left|right; exact H3].
      + split; [|exact HA]. unfold L. now rewrite El.
    - injection E as <-. unfold peek. destruct c; [|now split]. destruct HL as [[Eu H1] H2]. split.
      + unfold L. cbn [with_kern lp]. split; [|exact H2]. split; [auto|]. destruct H1 as (? & ? & ? & ? & ?).
        split; [auto|]. split; [auto|]. split; [auto|]. split; [auto|]. congruence.
      + split; [now split|]. cbn [with_kern k arm cqe msg]. split; [|now split].
        intros _ X. exfalso. destruct (cqe (k s)) eqn:Ec; [discriminate|]. now specialize (HA2 Eu X).
    - injection E as <-. unfold mid. destruct c; [|now split]. destruct (more s) eqn:Em; [now split|].
      destruct HL as [[Eu H1] H2].
      assert (X : arm (k s) <> AQueued -> L (go s LChkT)).
      { intros N. unfold L. cbn [go lp]. split; [exact H1|]. split; [|intros _; exact N]. cbn [go g]. intros H.
        destruct (H2 H) as [[H3|H3] H4]; [congruence|now split]. }
      destruct (arm (k s)) eqn:Ea; (split; [|apply G]); [apply X| |apply X]; easy.
    - injection E as <-. destruct (visible (q s false)); split; auto; exact I.
    - injection E as <-. destruct (visible (q s true)); split; auto; exact I.
    - injection E as <-. unfold decide. destruct c; [|now split]. destruct (more s) eqn:Em; [now split|]. split; [|apply G].
      destruct HL as (H1 & H2 & H0). unfold L. cbn [go lp]. split; [exact H1|]. split.
      + cbn [go g]. intros H. destruct (H2 H) as [[H3|H3] H4]; [congruence|now split].
      + congruence.
    - injection E as <-. destruct HL as ((H1 & H1' & H1'' & H4 & H5) & H2 & H3). unfold cas.
      destruct c; [destruct (N.eqb_spec (seq s) (lseq s)) as [Es|Es]|].
      + split; [|split; [split; reflexivity|now split]]. unfold L. cbn [lp]. split; [exact H3|]. intros Hp.
        destruct (N.lt_ge_cases (adds (g s)) two31) as [Ha|Ha].
        * right. right. split; [reflexivity|]. apply H2. apply (wrap (lseq s)); [auto|lia|congruence].
        * destruct (crossed (lseq s) (adds (g s)) H1' H4 Ha) as (j & J1 & J2).
          destruct (Bool.bool_dec ur true) as [Eu|Eu].
          -- specialize (Hp Eu). cbn [g] in Hp. lia.
          -- apply Bool.not_true_is_false in Eu. destruct (H5 Eu j J1 J2) as [H|H]; [left|right; now left]. cbn [k]. now rewrite H.
      + split; [destruct ur; exact I|exact HA].
      + split; [destruct ur; exact I|exact HA].
    - unfold kwait in E. destruct c as [|[|c]]; [destruct (if ur then _ else _); [|discriminate]| |destruct ur; [discriminate|]];
        injection E as <-; split; auto; exact I.
    - injection E as <-. destruct c; split; auto; exact I.
    - injection E as <-. split; [destruct ur; exact I|]. split; [split; reflexivity|now split].
    - injection E as <-. destruct c; (split; [exact I|]); auto.
  Qed.

  Definition Inv (s : st) : Prop := B s /\ A s /\ L s.
  Lemma inv_step s l s' : Inv s -> step ur cap s l = Next s' -> Inv s'.
  Proof.
    intros (HB & HA & HL) E. split; [now apply (B_step s l)|].
    assert (X : L s' /\ A s'); [|tauto].
    destruct l; cbn [step] in E; eauto using L_sub, L_loop, L_kern.
  Qed.
  Lemma inv_init : Inv (init ur).
  Proof.
    split; [apply B_init|]. split.
    - split; [now split|]. split; cbn; easy.
    - unfold L, init. destruct ur; exact I.
  Qed.
  Lemma inv_reach s : reachable (step ur cap) (init ur) s -> Inv s.
  Proof. apply reach_step; [exact inv_step|exact inv_init]. Qed.

  (** ** Blocked *)
  Lemma blocked_sure s : Inv s -> timely ur s -> blocked ur s ->
    (exists u b i, sp s u = SWrite b i) \/ (seq s = two31 /\ K0 s /\ K1 s).
  Proof.
    intros (HB & HA & HL) Ht [Ew Hb]. unfold L in HL. rewrite Ew in HL. destruct HL as [H1 H2].
    destruct (H2 Ht) as [H|H]; auto. exfalso. destruct HA as (_ & HA2 & HA3). destruct ur.
    - destruct Hb as (E1 & E2 & E3). rewrite E1, E2, !Bool.orb_false_r in H. apply E3. split; auto.
      destruct (arm (k s)) eqn:Ea; auto; exfalso; [|now apply H1]. specialize (HA2 eq_refl eq_refl). congruence.
    - destruct (HA3 eq_refl) as [E1 E2]. rewrite Hb, E1, E2 in H. discriminate.
  Qed.

  Lemma rouse_write s u b i n : Inv s -> lp s = LWait -> sp s u = SWrite b i -> (1 <= n)%nat -> rouses ur cap n s u.
  Proof.
    intros (HB & HA & HL) Ew Hu Hn. exists 1%nat. eexists. split; [lia|]. split; [unfold submitting; congruence|]. split.
    - cbn. unfold sub_step. rewrite Hu. cbn. reflexivity.
    - split; [exact Ew|]. intros [_ X]. cbn in X. unfold L in HL. rewrite Ew in HL. destruct HL as [H1 H2].
      destruct HA as (_ & HA2 & HA3). destruct ur; [|discriminate]. destruct X as (X1 & X2 & X3). apply X3. split; auto.
      destruct (arm (k s)) eqn:Ea; auto; exfalso; [|now apply H1]. specialize (HA2 eq_refl eq_refl). congruence.
  Qed.

  Lemma rouse_step s s1 u n : step ur cap s (Sub u 0) = Next s1 -> submitting s u -> rouses ur cap n s1 u -> rouses ur cap (S n) s u.
  Proof.
    intros E Hs (m & s' & Hm & _ & X). exists (S m), s'. split; [lia|]. split; [auto|]. cbn [repeat exec]. now rewrite E.
  Qed.

  Lemma rouse_add s u b i n : Inv s -> lp s = LWait -> seq s = two31 -> sp s u = SAdd b i -> (2 <= n)%nat -> rouses ur cap n s u.
  Proof.
    intros HI Ew Es Hu Hn. destruct n as [|n]; [lia|]. assert (E : step ur cap s (Sub u 0) = Next (wakeup_if_needed s u b i)).
    { cbn. unfold sub_step. now rewrite Hu. }
    eapply rouse_step; [exact E|unfold submitting; congruence|].
    apply (rouse_write _ _ b i); [eauto using inv_step| | |lia]; unfold wakeup_if_needed; rewrite Es, N.eqb_refl; cbn; auto.
    now rewrite upd_eq.
  Qed.

  Lemma rouse_pub s u b i : Inv s -> lp s = LWait -> seq s = two31 -> sp s u = SPub b i -> rouses ur cap 3 s u.
  Proof.
    intros HI Ew Es Hu. assert (E : step ur cap s (Sub u 0) = Next (publish s u b i)).
    { cbn. unfold sub_step. now rewrite Hu. }
    eapply rouse_step; [exact E|unfold submitting; congruence|].
    apply (rouse_add _ _ b i); [eauto using inv_step|exact Ew|exact Es| |lia]. cbn. now rewrite upd_eq.
  Qed.

  Lemma queued_q s i : B s -> queued s i -> exists b c, In (i, c) (q s b).
  Proof.
    intros HB [H1 H2]. apply in_app_iff in H1. 
    assert (X : exists b, In i (map fst (q s b))).
    { destruct H1 as [H1|H1]; rewrite (b_q s HB) in H1; apply in_app_iff in H1 as [H1|H1]; eauto;
        exfalso; apply H2; apply in_app_iff; auto. }
    destruct X as [b X]. apply in_map_iff in X as ([j c] & <- & X). eauto.
  Qed.

  Lemma wake_summoned_pf s : reachable (step ur cap) (init ur) s -> timely ur s -> blocked ur s ->
    forall i, queued s i -> exists u, rouses ur cap 3 s u.
  Proof.
    intros HR Ht Hb i Hi. apply inv_reach in HR as HI. pose proof HI as (HB & _ & _). pose proof Hb as [Ew _].
    destruct (blocked_sure s HI Ht Hb) as [(u & b & j & Hu)|(Es & H0 & H1)].
    - exists u. eapply rouse_write; eauto.
    - destruct (queued_q s i HB Hi) as ([|] & c & Hq).
      + destruct (H1 _ _ Hq) as [u [Hu|Hu]]; exists u; [eapply rouse_pub|eapply rouse_add]; eauto.
      + destruct H0 as [H0|[(j & r & H0)|(u & b & j & Hu)]].
        * rewrite H0 in Hq. easy.
        * destruct (b_own s HB false j) as [u Hu]; [rewrite H0; now left|]. exists u. eapply rouse_pub; eauto.
        * exists u. eapply rouse_add; eauto.
  Qed.

  Lemma wake_remote_pf s : reachable (step ur cap) (init ur) s -> timely ur s -> blocked ur s ->
    forall i, In i (subs (g s) true) -> ~ was_run s i -> returned s i -> exists u, rouses ur cap 1 s u.
  Proof.
    intros HR Ht Hb i Hi Hr Hret. apply inv_reach in HR as HI. pose proof HI as (HB & _ & _). pose proof Hb as [Ew _].
    destruct (blocked_sure s HI Ht Hb) as [(u & b & j & Hu)|(Es & H0 & H1)].
    - exists u. eapply rouse_write; eauto.
    - exfalso. rewrite (b_q s HB) in Hi. apply in_app_iff in Hi as [Hi|Hi].
      + apply Hr. apply in_app_iff. auto.
      + apply in_map_iff in Hi as ([j c] & <- & X). destruct (H1 _ _ X) as [u Hu].
        apply (b_nret s HB u j); auto. destruct Hu as [Hu|Hu]; now rewrite Hu.
  Qed.

  Lemma wake_oldest_pf s : reachable (step ur cap) (init ur) s -> timely ur s -> blocked ur s ->
    forall i rest, subs (g s) false = rans (g s) false ++ i :: rest -> returned s i -> exists u, rouses ur cap 2 s u.
  Proof.
    intros HR Ht Hb i rest Hi Hret. apply inv_reach in HR as HI. pose proof HI as (HB & _ & _). pose proof Hb as [Ew _].
    destruct (blocked_sure s HI Ht Hb) as [(u & b & j & Hu)|(Es & H0 & H1)].
    - exists u. eapply rouse_write; eauto.
    - rewrite (b_q s HB) in Hi. apply app_inv_head in Hi. destruct H0 as [H0|[(j & r & H0)|(u & b & j & Hu)]].
      + rewrite H0 in Hi. discriminate.
      + exfalso. rewrite H0 in Hi. injection Hi as -> _. destruct (b_own s HB false i) as [u Hu]; [rewrite H0; now left|].
        apply (b_nret s HB u i); auto. now rewrite Hu.
      + exists u. eapply rouse_add; eauto.
  Qed.

  Lemma wake_quiescent_pf s : reachable (step ur cap) (init ur) s -> timely ur s -> blocked ur s ->
    (forall u, ~ submitting s u) -> forall i, ~ queued s i.
  Proof.
    intros HR Ht Hb Hn i Hi. destruct (wake_summoned_pf s HR Ht Hb i Hi) as (u & m & s' & _ & Hu & _). now apply (Hn u).
  Qed.

  (** ** Running on its own *)
  Definition idle (s : st) : Prop := forall u, sp s u = SIdle.
  Definition ok (s : st) : Prop := Inv s /\ idle s /\ timely ur s.
  Definition ends (P : st -> Prop) (s : st) : Prop :=
    exists ls s', Forall unaided ls /\ exec (step ur cap) s ls = Next s' /\ ok s' /\ subs (g s') = subs (g s) /\ P s'.

  Lemma ok_step s l s' : ok s -> unaided l -> step ur cap s l = Next s' -> ok s' /\ subs (g s') = subs (g s).
  Proof.
    intros (HI & Hi & Ht) Hl E. assert (X : sp s' = sp s /\ peak (g s') = peak (g s) /\ subs (g s') = subs (g s)).
    { destruct Hl as [-> | ->]; cbn [step] in E.
      - unfold loop_step, kwait, drain, remote, peek, mid, decide, cas, load in E.
        destruct (lp s); repeat match type of E with context [match ?x with _ => _ end] => destruct x eqn:? end;
          try discriminate E; injection E as <-; auto.
      - unfold kern_step in E. destruct (arm (k s)), (ur && pend (k s)); try discriminate. injection E as <-. auto. }
    destruct X as (X1 & X2 & X3). split; auto. split; [eauto using inv_step|]. split.
    - intros u. rewrite X1. apply Hi.
    - unfold timely. rewrite X2. exact Ht.
  Qed.
  Lemma ends_now (P : st -> Prop) s : ok s -> P s -> ends P s.
  Proof. exists [], s. split; [constructor|]. split; [reflexivity|]. auto. Qed.
  Lemma ends_step (P : st -> Prop) s l s' : ok s -> unaided l -> step ur cap s l = Next s' -> ends P s' -> ends P s.
  Proof.
    intros Ho Hl E (ls & s2 & F & X & Y & Z & W). destruct (ok_step s l s' Ho Hl E) as [O1 O2].
    exists (l :: ls), s2. split; [now constructor|]. split; [cbn; now rewrite E|]. split; [auto|]. split; [congruence|auto].
  Qed.
  Lemma ends_trans (P Q : st -> Prop) s : ends P s -> (forall s', ok s' -> P s' -> ends Q s') -> ends Q s.
  Proof.
    intros (ls & s1 & F & X & Y & Z & W) H. destruct (H s1 Y W) as (ls2 & s2 & F2 & X2 & Y2 & Z2 & W2).
    exists (ls ++ ls2), s2. split; [now apply Forall_app|]. split; [rewrite exec_app, X; auto|]. split; [auto|]. split; [congruence|auto].
  Qed.

  Definition empty (s : st) : Prop := q s false = [] /\ q s true = [].
  Definition target (s : st) : Prop := lp s = LLoad \/ empty s.

  Lemma all_pub s b i : ok s -> ~ In (i, false) (q s b).
  Proof. intros ((HB & _) & Hi & _) X. destruct (b_own s HB b i X) as [u Hu]. rewrite Hi in Hu. discriminate. Qed.

  Lemma un0 : unaided (Loop 0). Proof. now left. Qed.

  Lemma t_load s : ok s -> lp s = LLoad -> ends target s.
  Proof. intros. apply ends_now; auto. now left. Qed.
  Lemma t_one s p : ok s -> (forall s', ok s' -> lp s' = p -> ends target s') ->
    (exists s', step ur cap s (Loop 0) = Next s' /\ lp s' = p) -> ends target s.
  Proof.
    intros Ho H (s' & E & Ep). eapply ends_step; [exact Ho|exact un0|exact E|]. apply H; auto.
    exact (proj1 (ok_step s (Loop 0) s' Ho un0 E)).
  Qed.
  Ltac one p L := apply (t_one _ p); [assumption|exact L|cbn; unfold loop_step; match goal with E : lp _ = _ |- _ => rewrite E end; eexists; split; reflexivity].

  Lemma t_submit s : ok s -> lp s = LSubmit -> ends target s.
  Proof. intros Ho E. one LLoad t_load. Qed.
  Lemma t_disp s : ok s -> lp s = LDisp -> ends target s.
  Proof. intros Ho E. one LLoad t_load. Qed.
  Lemma t_store s : ok s -> lp s = LStore -> ends target s.
  Proof.
    intros Ho E. destruct ur eqn:Eu.
    - apply (t_one _ LSubmit); [auto|apply t_submit|]. cbn. unfold loop_step. rewrite E, Eu. eexists. split; reflexivity.
    - apply (t_one _ LDisp); [auto|apply t_disp|]. cbn. unfold loop_step. rewrite E, Eu. eexists. split; reflexivity.
  Qed.

  Lemma t_poll s : ok s -> lp s = LPoll -> ends target s.
  Proof. intros Ho E. one LStore t_store. Qed.

  Lemma t_wait s : ok s -> lp s = LWait -> ends target s.
  Proof.
    intros Ho E. pose proof Ho as (HI & Hi & Ht).
    assert (D : empty s \/ ~ empty s).
    { unfold empty. destruct (q s false), (q s true); auto; right; intros [? ?]; discriminate. }
    destruct D as [D|D]; [apply ends_now; auto; now right|].
    assert (Nb : ~ blocked ur s).
    { intros Hb. destruct (blocked_sure s HI Ht Hb) as [(u & b & i & Hu)|(Es & H0 & H1)].
      - rewrite Hi in Hu. discriminate.
      - apply D. split.
        + destruct H0 as [H0|[(j & r & H0)|(u & b & j & Hu)]]; auto.
          * exfalso. apply (all_pub s false j Ho). rewrite H0. now left.
          * rewrite Hi in Hu. discriminate.
        + destruct (q s true) as [|[i c] r] eqn:Eq; auto. exfalso. destruct (H1 i c) as [u Hu]; [rewrite Eq; now left|].
          rewrite Hi in Hu. destruct Hu; discriminate. }
    assert (Hw : (if ur then cqe (k s) || msg (k s) else pend (k s)) = true -> ends target s).
    { intros Hw. apply (t_one _ LStore); [auto|apply t_store|]. cbn. unfold loop_step, kwait. rewrite E, Hw. eexists. split; reflexivity. }
    destruct ur eqn:Eu.
    - destruct (cqe (k s) || msg (k s)) eqn:Ec; auto. apply Bool.orb_false_iff in Ec as [Ec Em].
      destruct (pend (k s)) eqn:Ep, (arm (k s)) eqn:Ea;
        try (exfalso; apply Nb; split; [auto|]; rewrite ?Eu; split; [auto|]; split; [auto|]; intros [? ?]; congruence).
      assert (Ek : step ur cap s Kern = Next (with_kern s (mk_k false true (msg (k s)) ANone) (lp s))).
      { cbn. unfold kern_step. now rewrite Ea, Ep, Eu. }
      assert (Uk : unaided Kern) by now right.
      eapply (ends_step _ s Kern); [auto|auto|exact Ek|]. apply (t_one _ LStore).
      + exact (proj1 (ok_step _ _ _ Ho Uk Ek)).
      + apply t_store.
      + cbn. unfold loop_step, kwait. cbn [with_kern lp]. rewrite E, Eu. cbn. eexists. split; reflexivity.
    - apply Hw. destruct (pend (k s)) eqn:Ep; auto. exfalso. apply Nb. split; auto.
  Qed.

  Lemma t_two s p1 p2 : ok s -> (forall s', ok s' -> lp s' = p1 -> ends target s') -> (forall s', ok s' -> lp s' = p2 -> ends target s') ->
    (exists s', step ur cap s (Loop 0) = Next s' /\ (lp s' = p1 \/ lp s' = p2)) -> ends target s.
  Proof.
    intros Ho H1 H2 (s' & E & Ep). eapply ends_step; [exact Ho|exact un0|exact E|].
    pose proof (proj1 (ok_step s (Loop 0) s' Ho un0 E)). destruct Ep; auto.
  Qed.

  Lemma t_cas s : ok s -> lp s = LCas -> ends target s.
  Proof.
    intros Ho E. apply (t_two _ LWait (if ur then LSubmit else LPoll)); [auto|apply t_wait| |].
    - destruct ur; [apply t_submit|apply t_poll].
    - cbn. unfold loop_step. rewrite E. unfold cas. destruct (seq s =? lseq s); eexists; (split; [reflexivity|]); auto.
  Qed.
  Lemma t_chkr s : ok s -> lp s = LChkR -> ends target s.
  Proof.
    intros Ho E. apply (t_two _ LSubmit LCas); [auto|apply t_submit|apply t_cas|].
    cbn. unfold loop_step. rewrite E. destruct (visible (q s true)); eexists; (split; [reflexivity|]); auto.
  Qed.
  Lemma t_chkt s : ok s -> lp s = LChkT -> ends target s.
  Proof.
    intros Ho E. apply (t_two _ LSubmit LChkR); [auto|apply t_submit|apply t_chkr|].
    cbn. unfold loop_step. rewrite E. destruct (visible (q s false)); eexists; (split; [reflexivity|]); auto.
  Qed.
  Lemma t_mid s : ok s -> lp s = LMid -> ends target s.
  Proof.
    intros Ho E. apply (t_two _ LSubmit LChkT); [auto|apply t_submit|apply t_chkt|].
    cbn. unfold loop_step. rewrite E. unfold mid. destruct (more s), (arm (k s)); eexists; (split; [reflexivity|]); auto.
  Qed.
  Lemma t_peek s : ok s -> lp s = LPeek -> ends target s.
  Proof. intros Ho E. one LMid t_mid. Qed.
  Lemma t_decide s : ok s -> lp s = LDecide -> ends target s.
  Proof.
    intros Ho E. apply (t_two _ LPoll LCas); [auto|apply t_poll|apply t_cas|].
    cbn. unfold loop_step. rewrite E. unfold decide. destruct (more s); eexists; (split; [reflexivity|]); auto.
  Qed.

  (** The remote ready queue is emptied, the task queue stays as it is. *)
  Lemma d_rem n : forall s, ok s -> lp s = LRem -> length (q s true) = n ->
    ends (fun s' => q s' true = [] /\ q s' false = q s false /\ lp s' = if ur then LPeek else LDecide) s.
  Proof.
    induction n as [|n IH]; intros s Ho E El.
    - destruct (q s true) eqn:Eq; [|discriminate].
      assert (X : step ur cap s (Loop 0) = Next (go s (if ur then LPeek else LDecide))).
      { cbn. unfold loop_step. rewrite E. unfold remote. now rewrite Eq. }
      eapply (ends_step _ s (Loop 0)); [auto|exact un0|exact X|]. apply ends_now; [exact (proj1 (ok_step _ _ _ Ho un0 X))|]. auto.
    - destruct (q s true) as [|[i [|]] r] eqn:Eq; [discriminate| |exfalso; apply (all_pub s true i Ho); rewrite Eq; now left].
      assert (X : step ur cap s (Loop 0) = Next (take_out s true i r (more s) LRem)).
      { cbn. unfold loop_step. rewrite E. unfold remote. now rewrite Eq. }
      eapply (ends_step _ s (Loop 0)); [auto|exact un0|exact X|]. pose proof (proj1 (ok_step _ _ _ Ho un0 X)) as O1.
      apply (ends_trans _ _ _ (IH _ O1 eq_refl ltac:(cbn in *; rewrite ?updb_eq; lia))). intros s' O' (H1 & H2 & H3).
      apply ends_now; auto.
  Qed.

  Lemma d_task n : forall s, ok s -> lp s = LTask -> length (q s false) = n ->
    ends (fun s' => q s' false = [] /\ lp s' = LRem) s.
  Proof.
    induction n as [|n IH]; intros s Ho E El.
    - destruct (q s false) eqn:Eq; [|discriminate].
      assert (X : step ur cap s (Loop 0) = Next (go s LRem)).
      { cbn. unfold loop_step. rewrite E. unfold drain. now rewrite Eq. }
      eapply (ends_step _ s (Loop 0)); [auto|exact un0|exact X|]. apply ends_now; [exact (proj1 (ok_step _ _ _ Ho un0 X))|]. auto.
    - destruct (q s false) as [|[i [|]] r] eqn:Eq; [discriminate| |exfalso; apply (all_pub s false i Ho); rewrite Eq; now left].
      assert (X : step ur cap s (Loop 0) = Next (take_out s false i r (more s) LTask)).
      { cbn. unfold loop_step. rewrite E. unfold drain. now rewrite Eq. }
      eapply (ends_step _ s (Loop 0)); [auto|exact un0|exact X|]. pose proof (proj1 (ok_step _ _ _ Ho un0 X)) as O1.
      apply (IH _ O1 eq_refl). cbn in *; rewrite ?updb_eq; lia.
  Qed.

  Lemma d_all s : ok s -> lp s = LTask -> ends empty s.
  Proof.
    intros Ho E. apply (ends_trans _ _ _ (d_task _ s Ho E eq_refl)). intros s1 O1 [Q1 E1].
    apply (ends_trans _ _ _ (d_rem _ s1 O1 E1 eq_refl)). intros s2 O2 (Q2 & Q3 & _). apply ends_now; auto.
    split; congruence.
  Qed.

  Lemma t_all s : ok s -> ends target s.
  Proof.
    intros Ho. assert (R : forall s, ok s -> lp s = LRem -> ends target s).
    { intros s1 O1 E1. apply (ends_trans _ _ _ (d_rem _ s1 O1 E1 eq_refl)). intros s2 O2 (_ & _ & E2).
      destruct ur; [apply t_peek|apply t_decide]; auto. }
    destruct (lp s) eqn:E; auto using t_submit, t_load, t_peek, t_mid, t_chkt, t_chkr, t_decide, t_cas, t_wait, t_poll, t_store, t_disp.
    apply (ends_trans _ _ _ (d_task _ s Ho E eq_refl)). intros s1 O1 [Q1 E1]. auto.
  Qed.

  Lemma e_all s : ok s -> ends empty s.
  Proof.
    intros Ho. apply (ends_trans _ _ _ (t_all s Ho)). intros s1 O1 [E1|E1]; [|now apply ends_now].
    assert (X : step ur cap s1 (Loop 0) = Next (load s1)) by (cbn; unfold loop_step; now rewrite E1).
    eapply (ends_step _ s1 (Loop 0)); [auto|exact un0|exact X|]. apply d_all; [exact (proj1 (ok_step _ _ _ O1 un0 X))|reflexivity].
  Qed.

  Lemma wake_runs_pf s : reachable (step ur cap) (init ur) s -> timely ur s -> (forall u, ~ submitting s u) ->
    exists ls s', Forall unaided ls /\ exec (step ur cap) s ls = Next s' /\ forall i, returned s i -> was_run s' i.
  Proof.
    intros HR Ht Hn. apply inv_reach in HR as HI.
    assert (Ho : ok s). { split; auto. split; auto. intros u. specialize (Hn u). unfold submitting in Hn. destruct (sp s u); auto; exfalso; apply Hn; discriminate. }
    destruct (e_all s Ho) as (ls & s' & F & X & (HI' & _) & Es & (Q1 & Q2)). exists ls, s'. split; auto. split; auto.
    intros i Hi. destruct HI as (HB & _). destruct HI' as (HB' & _). destruct (b_ret s HB i Hi) as [b Hb]. rewrite <- Es in Hb.
    unfold was_run. apply in_app_iff. rewrite (b_q s' HB') in Hb.
    destruct b; rewrite ?Q1, ?Q2, app_nil_r in Hb; auto.
  Qed.

  Lemma wake_order_pf s : reachable (step ur cap) (init ur) s ->
    (forall b, exists rest, subs (g s) b = rans (g s) b ++ rest) /\ (forall b, NoDup (subs (g s) b)) /\
    (forall i, In i (subs (g s) false) -> ~ In i (subs (g s) true)) /\
    forall i, returned s i -> was_run s i \/ queued s i.
  Proof.
    intros HR. apply inv_reach in HR as (HB & _). split; [|split; [|split]].
    - intros b. rewrite (b_q s HB). eauto.
    - apply (b_nd s HB).
    - intros i H1 H2. exact (b_dj s HB i H1 H2).
    - intros i Hi. destruct (b_ret s HB i Hi) as [b Hb]. unfold was_run, queued.
      destruct (in_dec Nat.eq_dec i (rans (g s) false ++ rans (g s) true)) as [H|H]; auto. right. split; auto.
      apply in_app_iff. destruct b; auto.
  Qed.
End P.
