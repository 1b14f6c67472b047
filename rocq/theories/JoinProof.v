(** Proofs for JoinProps.v. *)
From Verif Require Import Util Conc JoinModel JoinSpec.
From Coq Require Import Lia.

Lemma upd_eq {A} (f : nat -> A) n a : upd f n a n = a.
Proof. unfold upd. now rewrite Nat.eqb_refl. Qed.
Lemma upd_ne {A} (f : nat -> A) n a m : m <> n -> upd f n a m = f m.
Proof. unfold upd. intros H. apply Nat.eqb_neq in H. now rewrite H. Qed.

Definition owns (p : jp) : bool := match p with JOwn | JLink | JRel | JRelT => true | _ => false end.
Definition adding (p : jp) : bool := match p with JOwn | JLink | JRel => true | _ => false end.
Definition towns (p : tp) : bool := match p with TNot | TPop _ | TRel => true | _ => false end.
Definition popped (s : st) (j : nat) : Prop := te s = TPop j.

Record I (s : st) : Prop := mk_I {
  i_j : forall j, owns (jo s j) = true -> busy s = true /\ towns (te s) = false;
  i_t : towns (te s) = true -> busy s = true;
  i_jj : forall i j, owns (jo s i) = true -> owns (jo s j) = true -> i = j;
  i_busy : busy s = true -> towns (te s) = true \/ exists j, owns (jo s j) = true;
  i_acc : acc s = true -> exists j, jo s j = JLink;
  i_term : (towns (te s) = true \/ te s = TEnd) -> term s = true;
  i_body : term s = true -> te s <> TBody;
  i_relt : forall j, jo s j = JRelT \/ jo s j = JDone -> term s = true;
  i_add : (towns (te s) = true \/ te s = TEnd) -> forall j, adding (jo s j) = false;
  i_end : (te s = TRel \/ te s = TEnd) -> q s = [];
  i_q : forall j, In j (q s) -> jo s j = JRel \/ jo s j = JSusp;
  i_nd : NoDup (q s);
  i_pop : forall j, te s = TPop j -> jo s j = JSusp /\ ~ In j (q s) /\ act s j = 0;
  i_act : forall j, jo s j = JSusp \/ jo s j = JRel -> act s j = 0 -> In j (q s) \/ te s = TPop j;
  i_act0 : forall j, 0 < act s j -> (jo s j = JSusp \/ jo s j = JDone) /\ ~ In j (q s) /\ term s = true;
  i_act1 : forall j, act s j <= 1
}.

Lemma I_init : I init.
Proof. split; cbn; intros; try easy; try (destruct H; easy); try lia. constructor. Qed.

Lemma nodup_snoc {A} (l : list A) a : NoDup l -> ~ In a l -> NoDup (l ++ [a]).
Proof.
  induction l as [|x l IH]; cbn; intros N H; [constructor; auto; constructor|].
  inversion N; subst. constructor; [|auto]. rewrite in_app_iff. intros [X|[X|[]]]; auto.
Qed.

Ltac at_j v j := destruct (Nat.eq_dec v j) as [->|?Nv]; [rewrite ?upd_eq in *|rewrite ?upd_ne in * by auto].

Ltac upds := repeat match goal with
  | |- context [upd _ ?j _ ?v] => destruct (Nat.eq_dec v j); [subst v; rewrite ?upd_eq|rewrite ?upd_ne by assumption]
  | H : context [upd _ ?j _ ?v] |- _ => destruct (Nat.eq_dec v j); [subst v; rewrite ?upd_eq in H|rewrite ?upd_ne in H by assumption]
  end.
Ltac hyp := match goal with
  | Hj : jo ?s ?j = _, H : owns (jo ?s ?j) = true |- _ => rewrite Hj in H; discriminate
  | Q : In ?j (q ?s) -> _, H : In ?j (q ?s) |- _ => destruct (Q H); discriminate
  | Q : te ?s = TPop ?j -> _, H : te ?s = TPop ?j |- _ => destruct (Q H); discriminate
  | Q : 0 < act ?s ?j -> _, H : 0 < act ?s ?j |- _ => destruct (Q H) as [[?|?] _]; discriminate
  end.
Ltac keep := match goal with
  | P4 : busy ?s = true -> _, H : busy ?s = true |- _ \/ (exists _, _) =>
      destruct (P4 H) as [?|[v ?]]; [now left|right; exists v; upds; cbn [owns] in *; try hyp; congruence]
  | P5 : acc ?s = true -> _, H : acc ?s = true |- exists _, _ =>
      destruct (P5 H) as [v ?]; exists v; upds; congruence
  end.
Ltac fin := try discriminate; try congruence; try (now auto); try (now eauto); try hyp; try keep.

Lemma step_j s j s' : I s -> join_step s j = Next s' -> I s'.
Proof.
  intros [P1 P2 P3 P4 P5 P6 P7 P8 P9 P10 P11 P12 P13 P14 P15 P16] E. unfold join_step in E.
  pose proof (P11 j) as Q11. pose proof (P13 j) as Q13. pose proof (P15 j) as Q15. pose proof (P1 j) as Q1.
  pose proof (P8 j) as Q8. pose proof (fun v => P3 v j) as Q3.
  assert (Q9 : adding (jo s j) = true -> te s <> TEnd /\ te s <> TRel).
  { intros X. split; intros Y; rewrite (P9 ltac:(rewrite Y; cbn; auto)) in X; discriminate. }
  assert (NT : busy s = false -> towns (te s) = true -> False) by (intros X Y; apply P2 in Y; congruence).
  assert (NJ : busy s = false -> forall v, owns (jo s v) = true -> False) by (intros X v Y; apply P1 in Y as [Y _]; congruence).
  destruct (jo s j) eqn:Hj; try discriminate E.
  2: destruct (term s) eqn:Et; [destruct (busy s) eqn:Eb|destruct (busy s) eqn:Eb].
  6: destruct (acc s) eqn:Ea; [discriminate E|].
  9: destruct (0 <? act s j) eqn:Ea; [apply Nat.ltb_lt in Ea|discriminate E].
  all: cbn [owns] in Q1; injection E as <-; split; cbn [set_j term busy q acc act jo te]; rewrite ?Eb, ?Et, ?Ea; intros; upds; cbn [owns adding] in *; fin.
  all: try (now destruct H).
  all: try (destruct H; now auto).
  all: try (exfalso; eapply NJ; eauto; fail).
  all: try (right; exists j; now rewrite upd_eq).
  all: try (exists j; now rewrite upd_eq).
  all: try (split; [reflexivity|destruct (towns (te s)) eqn:?; [exfalso; now auto|reflexivity]]).
  all: try (symmetry; now auto).
  - destruct (P4 H) as [X|[v X]]; [now left|right]. exists v. upds; [rewrite Hj in X; discriminate|auto].
  - destruct (P4 H) as [X|[v X]]; [now left|right]. exists v. upds; [rewrite Hj in X; discriminate|auto].
  - exfalso. destruct Q1 as [_ X]; auto. destruct Q9 as [Y Z]; auto. destruct H; congruence.
  - exfalso. destruct Q1 as [_ X]; auto. destruct Q9 as [Y Z]; auto. destruct H; congruence.
  - exfalso. destruct Q9 as [Y Z]; auto. destruct H; congruence.
  - apply in_app_iff in H as [H|[H|[]]]; [auto|congruence].
  - apply nodup_snoc; auto. intros X. destruct (Q11 X); discriminate.
  - exfalso. destruct Q1 as [_ X]; auto. rewrite H in X. discriminate.
  - left. apply in_app_iff. right. now left.
  - destruct (P14 j0); auto. left. apply in_app_iff. now left.
  - destruct (P15 j0 H) as (X & Y & Z). split; auto. split; auto. intros W. apply in_app_iff in W as [W|[W|[]]]; congruence.
  - exfalso. apply n. auto.
  - exfalso. destruct Q1 as [_ X]; auto. congruence.
  - now destruct (Q15 Ea) as (_ & _ & X).
  - exfalso. destruct (Q15 Ea) as (_ & X & _). auto.
  - exfalso. destruct (Q13 H) as (_ & _ & X). lia.
  - destruct (Q15 Ea) as (_ & X & Y). auto.
  - exfalso. apply n. auto.
  - exfalso. destruct Q1 as [_ X]; auto. congruence.
Qed.

Lemma step_t s s' : I s -> term_step s = Next s' -> I s'.
Proof.
  intros [P1 P2 P3 P4 P5 P6 P7 P8 P9 P10 P11 P12 P13 P14 P15 P16] E. unfold term_step in E.
  destruct (te s) as [| | |w| |] eqn:Ht; try discriminate E; cbn [towns] in *.
  2: destruct (busy s) eqn:Eb.
  4: destruct (acc s) eqn:Ea; [discriminate E|destruct (q s) as [|w r] eqn:Eq].
  all: injection E as <-; split; cbn [term busy q acc act jo te towns]; intros; try discriminate; try congruence; try (now auto); try (now eauto).
  all: try (now destruct H).
  - destruct (P14 j H H0); [auto|discriminate].
  - destruct (P15 j H) as (X & Y & _). auto.
  - exfalso. destruct (P1 j H). discriminate.
  - destruct (jo s j) eqn:Hj; auto; destruct (P1 j); rewrite ?Hj; auto; discriminate.
  - destruct (P14 j H H0); [auto|discriminate].
  - destruct (P15 j H) as (X & Y & _). auto.
  - destruct (P14 j H H0); [auto|discriminate].
  - apply P11. now right.
  - now inversion P12.
  - injection H as ->. inversion P12; subst. split; [|split; [auto|]].
    + destruct (P11 j) as [X|X]; [now left| |auto]. specialize (P9 (or_introl eq_refl) j). rewrite X in P9. discriminate.
    + destruct (act s j) eqn:Eact; auto. exfalso. destruct (P15 j) as (_ & Y & _); [lia|]. apply Y. now left.
  - destruct (P14 j H H0) as [[X|X]|X]; [right; congruence|auto|discriminate].
  - destruct (P15 j H) as (X & Y & Z). split; auto. split; auto. intros W. apply Y. now right.
  - upds; [lia|]. destruct (P14 j H H0) as [X|X]; [auto|congruence].
  - upds; [|auto]. destruct (P13 w eq_refl) as (X & Y & Z). auto.
  - upds; [|auto]. destruct (P13 w eq_refl) as (X & Y & Z). lia.
  - exfalso. destruct (P1 j H). discriminate.
  - destruct (P14 j H H0); [auto|discriminate].
Qed.

Lemma no_ub s l : I s -> step s l <> Ub.
Proof.
  intros [P1 P2 P3 P4 P5 P6 P7 P8 P9 P10 P11 P12 P13 P14 P15 P16] E. destruct l as [j|]; cbn in E.
  - unfold join_step in E. destruct (jo s j) eqn:Hj; try discriminate.
    + destruct (term s); discriminate.
    + destruct (acc s) eqn:Ea; [|discriminate]. destruct (P5 eq_refl) as [v Hv].
      assert (v = j) by (apply P3; [rewrite Hv|rewrite Hj]; reflexivity). congruence.
    + destruct (0 <? act s j); discriminate.
  - unfold term_step in E. destruct (te s) eqn:Ht; try discriminate.
    + destruct (busy s); discriminate.
    + destruct (acc s) eqn:Ea; [|destruct (q s); discriminate]. destruct (P5 eq_refl) as [v Hv].
      destruct (P1 v) as [_ X]; [now rewrite Hv|]. discriminate.
Qed.

Lemma I_step s l s' : I s -> step s l = Next s' -> I s'.
Proof. destruct l; cbn; [apply step_j|apply step_t]. Qed.
Lemma I_reach s : reachable step init s -> I s.
Proof. apply reach_step; [exact I_step|exact I_init]. Qed.

Lemma join_safe_pf : safe step init.
Proof. apply safe_reach. intros s l R. apply no_ub. now apply I_reach. Qed.

Lemma join_after_pf s j : reachable step init s -> joined s j -> finished s.
Proof. intros R H. apply I_reach in R. apply (i_body s R). apply (i_relt s R j). now right. Qed.

Lemma join_wakes_pf s j : reachable step init s -> gone s -> ~ asleep s j.
Proof.
  intros R G [H1 H2]. apply I_reach in R. destruct (i_act s R j (or_introl H1) H2) as [X|X].
  - rewrite (i_end s R (or_intror G)) in X. easy.
  - unfold gone in G. congruence.
Qed.

Lemma join_once_pf s j : reachable step init s -> act s j <= 1.
Proof. intros R. apply I_reach in R. apply (i_act1 s R). Qed.

(** ** Progress *)
Section Progress.
  Variable ok : lab -> Prop.
  Definition to (P : st -> Prop) (s : st) : Prop := exists ls s', Forall ok ls /\ exec step s ls = Next s' /\ I s' /\ P s'.
  Lemma to_now (P : st -> Prop) s : I s -> P s -> to P s.
  Proof. intros. exists [], s. now repeat (split; [now auto|]). Qed.
  Lemma to_step (P : st -> Prop) s l s' : I s -> ok l -> step s l = Next s' -> (I s' -> to P s') -> to P s.
  Proof.
    intros HI Hl E H. destruct (H (I_step _ _ _ HI E)) as (ls & s2 & F & X). exists (l :: ls), s2. split; [now constructor|]. cbn. now rewrite E.
  Qed.
  Lemma to_trans (P Q : st -> Prop) s : to P s -> (forall s', I s' -> P s' -> to Q s') -> to Q s.
  Proof.
    intros (ls & s1 & F & X & Y & Z) H. destruct (H s1 Y Z) as (ls2 & s2 & F2 & X2 & Y2 & Z2).
    exists (ls ++ ls2), s2. split; [now apply Forall_app|]. split; [now rewrite exec_app, X|auto].
  Qed.

  Definition free (s : st) : Prop := forall v, owns (jo s v) = false.
  (** What a step does not undo, for the joiner [j] and the terminating fiber. *)
  Definition keeps (j : nat) (s s' : st) : Prop :=
    (finished s -> finished s') /\ (jo s j <> JOut -> jo s' j <> JOut).

  Lemma free_upd s j p : (forall v, owns (jo s v) = true -> v = j) -> owns p = false -> forall v, owns (upd (jo s) j p v) = false.
  Proof.
    intros H Hp v. upds; auto. destruct (owns (jo s v)) eqn:E; auto. apply H in E. congruence.
  Qed.

  Lemma release s o : I s -> ok (Jo o) -> owns (jo s o) = true ->
    to (fun s' => free s' /\ te s' = te s /\ forall v, (jo s v <> JOut -> jo s' v <> JOut)) s.
  Proof.
    intros HI Ho Hw. assert (U : forall v, owns (jo s v) = true -> v = o) by (intros v X; exact (i_jj s HI v o X Hw)).
    assert (R1 : forall s, I s -> jo s o = JRel -> to (fun s' => free s' /\ te s' = te s /\ forall v, (jo s v <> JOut -> jo s' v <> JOut)) s).
    { intros s1 H1 E1. eapply (to_step _ s1 (Jo o)); [auto|auto|cbn; unfold join_step; rewrite E1; reflexivity|].
      intros HI'. apply to_now; [exact HI'|]. cbn [set_j jo te]. split; [|split; [reflexivity|intros v; cbn [set_j jo]; upds; congruence]].
      intros v. cbn [set_j jo]. apply free_upd; auto. intros w X. apply (i_jj s1 H1 w o X). now rewrite E1. }
    assert (R2 : forall s, I s -> jo s o = JLink -> to (fun s' => free s' /\ te s' = te s /\ forall v, (jo s v <> JOut -> jo s' v <> JOut)) s).
    { intros s1 H1 E1. eapply (to_step _ s1 (Jo o)); [auto|auto|cbn; unfold join_step; rewrite E1; reflexivity|].
      intros HI'. eapply to_trans; [apply R1; [exact HI'|cbn [jo]; now rewrite upd_eq]|]. cbn [jo te]. intros s2 H2 (X & Y & Z).
      apply to_now; auto. split; [auto|]. split; [auto|]. intros v W. apply Z. upds; [discriminate|auto]. }
    destruct (jo s o) eqn:E; try discriminate Hw.
    - eapply (to_step _ s (Jo o)); [auto|auto| |].
      + cbn. unfold join_step. rewrite E. destruct (acc s) eqn:Ea; [|reflexivity]. exfalso.
        destruct (i_acc s HI Ea) as [v Hv]. assert (v = o) by (apply U; now rewrite Hv). congruence.
      + intros HI'. eapply to_trans; [apply R2; [exact HI'|cbn [jo]; now rewrite upd_eq]|]. cbn [jo te]. intros s2 H2 (X & Y & Z).
        apply to_now; auto. split; [auto|]. split; [auto|]. intros v W. apply Z. upds; [discriminate|auto].
    - now apply R2.
    - now apply R1.
    - eapply (to_step _ s (Jo o)); [auto|auto|cbn; unfold join_step; rewrite E; reflexivity|].
      intros HI'. apply to_now; [exact HI'|]. cbn [set_j jo te]. split; [|split; [reflexivity|intros v; cbn [set_j jo]; upds; congruence]].
      intros v. cbn [set_j jo]. now apply free_upd.
  Qed.

  Hypothesis okT : ok Te.
  Lemma t_end s : I s -> free s -> te s = TEnd -> to (fun s' => free s' /\ te s' = TEnd /\ jo s' = jo s) s.
  Proof. intros. now apply to_now. Qed.
  Lemma t_rel s : I s -> free s -> te s = TRel -> to (fun s' => free s' /\ te s' = TEnd /\ jo s' = jo s) s.
  Proof.
    intros HI F E. eapply (to_step _ s Te); [auto|auto|cbn; unfold term_step; rewrite E; reflexivity|]. intros HI'. now apply to_now.
  Qed.
  Lemma t_not n : forall s, I s -> free s -> te s = TNot -> length (q s) = n -> to (fun s' => free s' /\ te s' = TEnd /\ jo s' = jo s) s.
  Proof.
    induction n as [|n IH]; intros s HI F E El; destruct (q s) as [|w r] eqn:Eq; try discriminate El.
    - assert (Ea : acc s = false).
      { destruct (acc s) eqn:Ea; auto. destruct (i_acc s HI Ea) as [v Hv]. specialize (F v). rewrite Hv in F. discriminate. }
      eapply (to_step _ s Te); [auto|auto|cbn; unfold term_step; rewrite E, Ea, Eq; reflexivity|]. intros HI'. exact (t_rel _ HI' F eq_refl).
    - assert (Ea : acc s = false).
      { destruct (acc s) eqn:Ea; auto. destruct (i_acc s HI Ea) as [v Hv]. specialize (F v). rewrite Hv in F. discriminate. }
      eapply (to_step _ s Te); [auto|auto|cbn; unfold term_step; rewrite E, Ea, Eq; reflexivity|]. intros HI'.
      eapply (to_step _ _ Te); [exact HI'|auto|cbn; unfold term_step; reflexivity|]. intros HI''.
      refine (IH _ HI'' F eq_refl _). cbn in *. lia.
  Qed.
  Lemma t_all s : I s -> free s -> finished s -> to (fun s' => free s' /\ te s' = TEnd /\ jo s' = jo s) s.
  Proof.
    intros HI F Fi. destruct (te s) eqn:E; [easy| | | |now apply t_rel|now apply t_end].
    - assert (Eb : busy s = false).
      { destruct (busy s) eqn:Eb; auto. destruct (i_busy s HI Eb) as [X|[v X]]; [rewrite E in X; discriminate|rewrite F in X; discriminate]. }
      eapply (to_step _ s Te); [auto|auto|cbn; unfold term_step; rewrite E, Eb; reflexivity|]. intros HI'. exact (t_not _ _ HI' F eq_refl eq_refl).
    - eapply t_not; eauto.
    - eapply (to_step _ s Te); [auto|auto|cbn; unfold term_step; rewrite E; reflexivity|]. intros HI'. exact (t_not _ _ HI' F eq_refl eq_refl).
  Qed.

  Lemma j_all s j : I s -> ok (Jo j) -> free s -> te s = TEnd -> jo s j <> JOut -> to (fun s' => joined s' j) s.
  Proof.
    intros HI Hj F E Nj. pose proof (F j) as Fj. destruct (jo s j) eqn:Ej; try discriminate Fj; [easy| | |].
    - assert (Et : term s = true) by (apply (i_term s HI); auto).
      eapply (to_step _ s (Jo j)); [auto|auto|cbn; unfold join_step; rewrite Ej, Et; reflexivity|]. intros HI'.
      destruct (busy s).
      + apply to_now; auto. unfold joined. cbn. now rewrite upd_eq.
      + eapply (to_step _ _ (Jo j)); [auto|auto|cbn; unfold join_step; cbn; rewrite upd_eq; reflexivity|]. intros HI''.
        apply to_now; auto. unfold joined. cbn. now rewrite upd_eq.
    - assert (Ea : (0 <? act s j) = true).
      { apply Nat.ltb_lt. destruct (act s j) eqn:Ea; [|lia]. destruct (i_act s HI j) as [X|X]; auto; [|congruence].
        rewrite (i_end s HI (or_intror E)) in X. easy. }
      eapply (to_step _ s (Jo j)); [auto|auto|cbn; unfold join_step; rewrite Ej, Ea; reflexivity|]. intros HI'.
      apply to_now; auto. unfold joined. cbn. now rewrite upd_eq.
    - now apply to_now.
  Qed.
End Progress.

Lemma join_returns_pf s j : reachable step init s -> finished s -> joining s j ->
  exists ls s', Forall (fun l => l = Te \/ l = Jo j \/ exists o, l = Jo o /\ in_the_way s o) ls /\
    exec step s ls = Next s' /\ joined s' j.
Proof.
  intros R Fi [J1 J2]. apply I_reach in R as HI. set (ok := fun l => l = Te \/ l = Jo j \/ exists o, l = Jo o /\ in_the_way s o).
  assert (K : to ok (fun s' => joined s' j) s); [|destruct K as (ls & s' & F & X & _ & Y); eauto].
  assert (okT : ok Te) by (now left). assert (okj : ok (Jo j)) by (right; now left).
  assert (K : to ok (fun s' => free s' /\ te s' = te s /\ (forall v, jo s v <> JOut -> jo s' v <> JOut)) s).
  { destruct (busy s) eqn:Eb.
    - destruct (i_busy s HI Eb) as [X|[o X]].
      + apply to_now; auto. split; [|auto]. intros v. destruct (owns (jo s v)) eqn:E; auto. destruct (i_j s HI v E). congruence.
      + apply (release ok s o); auto. right; right. exists o. split; auto.
        unfold in_the_way. destruct (jo s o); try discriminate X; auto.
    - apply to_now; auto. split; [|auto]. intros v. destruct (owns (jo s v)) eqn:E; auto. destruct (i_j s HI v E). congruence. }
  eapply to_trans; [exact K|]. intros s1 H1 (F1 & T1 & J). eapply to_trans; [apply (t_all ok okT s1); auto; unfold finished in *; congruence|].
  intros s2 H2 (F2 & T2 & J'). eapply j_all; eauto. rewrite J'. auto.
Qed.
