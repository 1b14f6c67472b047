From Verif Require Import Util Conc SchedModel SchedSpec.
From Coq Require Import Permutation Sorted.
Opaque tmax.

(** ** Counting *)
Notation c := times.
Arguments times : simpl never.
Lemma c_nil f : c f [] = 0. Proof. reflexivity. Qed.
Lemma c_cons f g l : c f (g :: l) = (if f =? g then 1 else 0) + c f l.
Proof. unfold c. simpl. destruct (Nat.eq_dec g f); destruct (Nat.eqb_spec f g); simpl; congruence. Qed.
Lemma c_app f a b : c f (a ++ b) = c f a + c f b.
Proof. unfold c. apply count_occ_app. Qed.
Lemma c_mem f l : mem f l = negb (c f l =? 0).
Proof.
  induction l as [|g l IH]; [reflexivity|]. rewrite c_cons. unfold mem in *. cbn [existsb]. rewrite IH.
  destruct (f =? g); reflexivity.
Qed.
Lemma c_in f l : In f l <-> c f l <> 0.
Proof. unfold c. rewrite (count_occ_In Nat.eq_dec). lia. Qed.
Lemma c_insert f t g l : c f (map snd (insert t g l)) = (if f =? g then 1 else 0) + c f (map snd l).
Proof.
  induction l as [|[u h] l IH]; [reflexivity || (cbn [insert map snd]; rewrite c_cons; reflexivity)|]. cbn [insert].
  destruct (t <? u)%Z; cbn [map snd]; rewrite ?c_cons, ?IH; cbn [map snd]; rewrite ?c_cons; lia.
Qed.
Lemma c_remove f g l : c f (map snd (remove g l)) = if f =? g then 0 else c f (map snd l).
Proof.
  induction l as [|[u h] l IH]; simpl; [destruct (f =? g); reflexivity|].
  destruct (Nat.eqb_spec h g) as [->|N]; cbn [negb map snd]; rewrite ?c_cons, IH.
  - destruct (f =? g); reflexivity.
  - destruct (Nat.eqb_spec f g) as [->|]; destruct (Nat.eqb_spec g h); lia.
Qed.
Lemma c_filter0 f l : c f (filter (fun g => negb (g =? 0)) l) = if f =? 0 then 0 else c f l.
Proof.
  induction l as [|h l IH]; simpl; [destruct (f =? 0); reflexivity|].
  destruct (Nat.eqb_spec h 0) as [->|N]; cbn [negb]; rewrite ?c_cons, IH.
  - destruct (f =? 0); reflexivity.
  - destruct (Nat.eqb_spec f 0) as [->|]; destruct (Nat.eqb_spec 0 h); lia.
Qed.
Lemma c_filter_mem f t l : c f (filter (fun g => negb (mem g t)) l) = if c f t =? 0 then c f l else 0.
Proof.
  induction l as [|h l IH]; simpl; [destruct (c f t =? 0); reflexivity|].
  destruct (mem h t) eqn:E; cbn [negb]; rewrite ?c_cons, IH; rewrite c_mem in E.
  - destruct (Nat.eqb_spec f h) as [->|]; destruct (c _ t =? 0) eqn:E2; try discriminate; lia.
  - destruct (Nat.eqb_spec f h) as [->|]; destruct (c _ t =? 0) eqn:E2; try discriminate; lia.
Qed.

Definition b2n (b : bool) : nat := if b then 1 else 0.
(** ** Safety *)
Section S.
  Variable pr : nat -> prio.
  Hypothesis P0 : pr 0 = Normal.
  Hypothesis P1 : pr 1 = Normal.
  Notation bk f := (is_back (pr f)).

  (** Without the fiber that runs. *)
  Record J (s : st) : Prop := {
    J_one : forall f, c f (q0 s) + c f (q1 s) + c f (map snd (slp s)) + c f (term s) <= 1;
    J_q0 : forall f, bk f = true -> c f (q0 s) = 0;
    J_q1 : forall f, bk f = false -> c f (q1 s) = 0;
    J_dis : act s <> 0 -> c 0 (q0 s) = b2n (negb (bk (act s)));
    J_0 : c 0 (map snd (slp s)) = 0 /\ c 0 (term s) = 0;
    J_rem : forall f, c f (rem s) <> 0 -> f <> 0 /\ c f (term s) = 0 /\ c f (born s) <> 0;
    J_born : forall f, c f (q0 s) + c f (q1 s) + c f (map snd (slp s)) + c f (term s) <> 0 -> c f (born s) <> 0;
    J_b0 : c 0 (born s) <> 0;
    J_sort : StronglySorted (fun a b => (fst a <= fst b)%Z) (slp s) }.
  Definition loose (s : st) (f : nat) : Prop := c f (q0 s) + c f (q1 s) + c f (map snd (slp s)) + c f (term s) = 0.
  Definition I (s : st) : Prop := J s /\ loose s (act s) /\ c (act s) (born s) <> 0.

  Lemma I_init : I init.
  Proof.
    split; [|split; [reflexivity|discriminate]].
    constructor; cbn [init act q0 q1 slp rem term born map snd]; intros; rewrite ?c_cons, ?c_nil in *.
    - destruct (f =? 0); lia.
    - destruct (Nat.eqb_spec f 0); subst; [|lia]. rewrite P0 in H. discriminate.
    - reflexivity.
    - rewrite P1. reflexivity.
    - auto.
    - congruence.
    - destruct (f =? 0); lia.
    - simpl. lia.
    - constructor.
  Qed.

  Lemma linked_c s f : linked s f = negb (c f (q0 s) + c f (q1 s) + c f (term s) =? 0).
  Proof. unfold linked. rewrite c_mem, !c_app. f_equal. f_equal. lia. Qed.
  Lemma asleep_c s f : asleep s f = negb (c f (map snd (slp s)) =? 0).
  Proof. unfold asleep. now rewrite c_mem. Qed.

  Lemma sorted_filter {A} (R : A -> A -> Prop) p l : StronglySorted R l -> StronglySorted R (filter p l).
  Proof.
    induction 1 as [|a l H IH F]; simpl; [constructor|]. destruct (p a); auto. constructor; auto.
    rewrite Forall_forall in *. intros x X. apply filter_In in X. now apply F.
  Qed.
  Lemma insert_split t f l : StronglySorted (fun a b => (fst a <= fst b)%Z) l ->
    exists a b, l = a ++ b /\ insert t f l = a ++ (t, f) :: b /\ Forall (fun p => (fst p <= t)%Z) a /\ Forall (fun p => (t < fst p)%Z) b.
  Proof.
    induction 1 as [|[u g] l H IH F]; simpl.
    - exists [], []. repeat split; constructor.
    - destruct (Z.ltb_spec t u).
      + exists [], ((u, g) :: l). repeat split; try constructor; auto.
        rewrite Forall_forall in *. intros x X. specialize (F x X). simpl in F. lia.
      + destruct IH as (a & b & E1 & E2 & A & B). exists ((u, g) :: a), b. rewrite E1, E2 at 1. repeat split; auto.
  Qed.
  Lemma sorted_app {A} (R : A -> A -> Prop) a b : StronglySorted R a -> StronglySorted R b ->
    (forall x y, In x a -> In y b -> R x y) -> StronglySorted R (a ++ b).
  Proof.
    induction 1 as [|x a H IH F]; simpl; intros Hb X; auto. constructor; auto. apply Forall_app. split; auto.
    rewrite Forall_forall. auto.
  Qed.
  Lemma sorted_app_l {A} (R : A -> A -> Prop) a b : StronglySorted R (a ++ b) -> StronglySorted R a /\ StronglySorted R b.
  Proof.
    induction a as [|x a IH]; simpl; intros H; [split; [constructor|auto]|].
    apply StronglySorted_inv in H as [H F]. apply IH in H as [Ha Hb]. split; auto. constructor; auto.
    apply Forall_app in F. tauto.
  Qed.
  Lemma insert_sorted t f l : StronglySorted (fun a b => (fst a <= fst b)%Z) l -> StronglySorted (fun a b => (fst a <= fst b)%Z) (insert t f l).
  Proof.
    intros H. destruct (insert_split t f l H) as (a & b & -> & -> & A & B). apply sorted_app_l in H as [Ha Hb].
    rewrite Forall_forall in A, B.
    apply sorted_app; auto.
    - constructor; auto. rewrite Forall_forall. intros x X. specialize (B x X). simpl. lia.
    - intros x y X [<-|Y]; simpl.
      + now apply A.
      + specialize (A x X). specialize (B y Y). lia.
  Qed.

  Ltac cc := cbn [act q0 q1 slp rem term born tp adds runs set_act push] in *;
    rewrite ?c_app, ?c_cons, ?c_nil, ?c_insert, ?c_remove, ?c_filter0, ?c_filter_mem.

  (** a fiber that is not linked is put into its ready queue *)
  Lemma J_push s f fr : J s -> linked s f = false -> c f (born s) <> 0 -> (act s = 0 \/ f <> 0) -> J (push pr s f fr).
  Proof.
    intros H NL NB NZ. rewrite linked_c in NL.
    destruct H as [H1 H2 H3 H4 H5 H6 H7 H8 H9].
    assert (Q : forall g (q : list nat), c g (if fr then f :: q else q ++ [f]) = c g q + (if g =? f then 1 else 0)).
    { intros g q. destruct fr; cc; lia. }
    constructor; cc.
    - intros g. specialize (H1 g). rewrite ?c_remove. destruct (bk f); rewrite ?Q; destruct (Nat.eqb_spec g f); subst; unfold b2n in *;
        try destruct (c f (q0 s) + c f (q1 s) + c f (term s) =? 0) eqn:?; simpl in NL; try discriminate; lia.
    - intros g G. specialize (H2 g G). destruct (bk f) eqn:B; auto. rewrite Q. destruct (Nat.eqb_spec g f); subst; [congruence|lia].
    - intros g G. specialize (H3 g G). destruct (bk f) eqn:B; auto. rewrite Q. destruct (Nat.eqb_spec g f); subst; [congruence|lia].
    - intros A. rewrite <- (H4 A). destruct (bk f); auto. rewrite Q. destruct (Nat.eqb_spec 0 f); subst; [|lia]. destruct NZ; congruence.
    - split; [|tauto]. destruct (0 =? f); tauto.
    - auto.
    - intros g G. destruct (Nat.eqb_spec g f) as [->|N]; auto. apply H7. destruct (bk f); rewrite ?Q, ?c_remove in G;
        destruct (Nat.eqb_spec g f); try congruence; lia.
    - auto.
    - apply sorted_filter. auto.
  Qed.
  Lemma loose_push s f fr g : f <> g -> loose s g -> loose (push pr s f fr) g.
  Proof.
    unfold loose. intros N L. cc. destruct (Nat.eqb_spec g f); [congruence|].
    destruct (bk f), fr; cc; destruct (Nat.eqb_spec g f); try congruence; lia.
  Qed.
  Lemma I_push s f fr : I s -> f <> act s -> linked s f = false -> c f (born s) <> 0 -> (act s = 0 \/ f <> 0) -> I (push pr s f fr).
  Proof.
    intros (H & L & B) N NL NB NZ. split; [now apply J_push|split; [|exact B]]. apply (loose_push s f fr (act s)); auto.
  Qed.
  Lemma loose_linked s f : loose s f -> linked s f = false /\ asleep s f = false.
  Proof. unfold loose. rewrite linked_c, asleep_c. intros H. split; apply negb_false_iff, Nat.eqb_eq; lia. Qed.

  Definition good (o : outcome st) : Prop := match o with Next s => I s | Ub => False | Stuck => True end.
  Lemma good_pop0 s : J s -> act s <> 0 -> bk (act s) = false -> hd_error (q0 s) <> Some (act s) -> good (pop0 s).
  Proof.
    intros [H1 H2 H3 H4 H5 H6 H7 H8 H9] NA B N. unfold pop0. specialize (H4 NA). rewrite B in H4.
    destruct (q0 s) as [|f r] eqn:Q; [rewrite ?c_nil in H4; discriminate|].
    destruct (Nat.eqb_spec f (act s)); [subst; now destruct N|].
    split; [|split].
    - constructor; cc.
      + intros g. specialize (H1 g). rewrite ?c_cons in H1. lia.
      + intros g G. specialize (H2 g G). rewrite ?c_cons in H2. lia.
      + auto.
      + intros F. rewrite ?c_cons in H4. destruct (Nat.eqb_spec 0 f); [congruence|].
        specialize (H2 f). rewrite ?c_cons, Nat.eqb_refl in H2. destruct (bk f); [specialize (H2 eq_refl); lia|]. simpl in *. lia.
      + auto.
      + auto.
      + intros g G. apply H7. rewrite ?c_cons. lia.
      + auto.
      + auto.
    - unfold loose. cc. specialize (H1 f). rewrite ?c_cons, Nat.eqb_refl in H1. lia.
    - cc. apply H7. rewrite ?c_cons, Nat.eqb_refl. lia.
  Qed.
  Lemma good_switch s : J s -> act s <> 0 -> hd_error (q0 s) <> Some (act s) -> good (switch pr s).
  Proof.
    intros H NA N. unfold switch. destruct (bk (act s)) eqn:B; [|now apply good_pop0].
    destruct H as [H1 H2 H3 H4 H5 H6 H7 H8 H9]. split; [|split].
    - constructor; cc; auto. congruence.
    - unfold loose. cc. rewrite (H4 NA), B. destruct H5 as [-> ->]. rewrite (H3 0); [reflexivity|]. now rewrite P0.
    - exact H8.
  Qed.
  Lemma hd_c s f : c f (q0 s) = 0 -> hd_error (q0 s) <> Some f.
  Proof. destruct (q0 s); [discriminate|]. cbn [hd_error]. rewrite ?c_cons. intros H [= ->]. rewrite Nat.eqb_refl in H. lia. Qed.

  Lemma good_sleep s t : I s -> act s <> 0 -> good (bind (add_sleep s t) (switch pr)).
  Proof.
    intros (H & L & B) NA. unfold add_sleep. destruct (loose_linked _ _ L) as [_ ->]. cbn [bind].
    pose proof H as [H1 H2 H3 H4 H5 H6 H7 H8 H9].
    apply good_switch; auto.
    - constructor; cc; auto.
      + intros g. specialize (H1 g). unfold loose in L. rewrite ?c_insert. destruct (Nat.eqb_spec g (act s)); subst; lia.
      + destruct (Nat.eqb_spec 0 (act s)); [congruence|]. tauto.
      + intros g G. destruct (Nat.eqb_spec g (act s)); subst; auto. apply H7. rewrite ?c_insert in G.
        destruct (Nat.eqb_spec g (act s)); [congruence|]. lia.
      + now apply insert_sorted.
    - apply hd_c. cc. unfold loose in L. lia.
  Qed.
  Lemma good_yield s : I s -> act s <> 0 -> good (bind (add_ready pr s (act s) false) (switch pr)).
  Proof.
    intros (H & L & B) NA. unfold add_ready. pose proof (loose_linked _ _ L) as [E _]. rewrite E. cbn [bind].
    apply good_switch; auto; [apply J_push; auto|]. cc.
    destruct (bk (act s)) eqn:K; [apply hd_c; unfold loose in L; lia|].
    pose proof (J_dis _ H NA) as D. rewrite K in D. unfold loose in L. destruct (q0 s) as [|f r]; [discriminate|].
    cbn [app hd_error]. intros [= ->]. rewrite ?c_cons, Nat.eqb_refl in L. lia.
  Qed.

  Lemma good_sleepers l now : forall s, l = slp s -> act s = 0 -> I s -> good (sleepers pr l now s).
  Proof.
    induction l as [|[t f] r IH]; intros s E A H; cbn [sleepers]; [exact H|].
    destruct (now <? t)%Z; [exact H|].
    destruct H as (H & L & B). pose proof H as [H1 H2 H3 H4 H5 H6 H7 H8 H9].
    assert (F : c f (q0 s) + c f (q1 s) + c f (term s) = 0).
    { specialize (H1 f). rewrite <- E in H1. cbn [map snd] in H1. rewrite ?c_cons, Nat.eqb_refl in H1. lia. }
    rewrite linked_c, F. cbn [Nat.eqb negb].
    apply IH; cc; auto. split; [|split].
    - constructor; cc; rewrite <- E in *; cbn [map snd] in *.
      + intros g. specialize (H1 g). rewrite ?c_cons in H1. destruct (bk f); rewrite ?c_app, ?c_cons, ?c_nil; lia.
      + intros g G. specialize (H2 g G). destruct (bk f) eqn:K; auto. rewrite ?c_app, ?c_cons, ?c_nil. destruct (Nat.eqb_spec g f); subst; [congruence|lia].
      + intros g G. specialize (H3 g G). destruct (bk f) eqn:K; auto. rewrite ?c_app, ?c_cons, ?c_nil. destruct (Nat.eqb_spec g f); subst; [congruence|lia].
      + congruence.
      + rewrite ?c_cons in H5. split; [lia|tauto].
      + auto.
      + intros g G. apply H7. rewrite ?c_cons. destruct (bk f); rewrite ?c_app, ?c_cons, ?c_nil in G; lia.
      + auto.
      + now apply StronglySorted_inv in H9.
    - unfold loose in *. cc. rewrite A in *. rewrite <- E in *. cbn [map snd] in *. rewrite ?c_cons in L.
      destruct (bk f); rewrite ?c_app, ?c_cons, ?c_nil; lia.
    - exact B.
  Qed.

  Lemma I_step s l : I s -> good (cstep pr s l).
  Proof.
    intros H. pose proof H as (HJ & L & B). pose proof HJ as [H1 H2 H3 H4 H5 H6 H7 H8 H9]. unfold cstep.
    destruct (calm pr s l) eqn:CA; [|exact Logic.I].
    destruct l as [o|o| | |y|t|f now|f| | | |now| |]; cbn [step].
    - (* Act *) destruct (Nat.eqb_spec o (act s)); [exact Logic.I|]. destruct (Nat.eqb_spec o 0); [exact Logic.I|].
      destruct (mem o (born s)) eqn:M; [|exact Logic.I]. cbn [orb negb]. rewrite c_mem in M. unfold add_ready.
      destruct (linked s o) eqn:LO; [exact H|]. apply I_push; auto. lia.
    - (* Remote *) destruct (Nat.eqb_spec o 0); [exact Logic.I|]. destruct (mem o (born s)) eqn:M; [|exact Logic.I].
      destruct (mem o (term s)) eqn:MT; [exact Logic.I|]. cbn [orb negb]. rewrite c_mem in M, MT.
      destruct (mem o (rem s)); [exact H|]. split; [|split; auto]. constructor; cc; auto.
      intros f. rewrite ?c_app, ?c_cons, ?c_nil. destruct (Nat.eqb_spec f o); subst; [|intros X; apply H6; lia].
      intros _. repeat split; auto; lia.
    - (* PopRem *) destruct (rem s) as [|f r] eqn:R; [exact Logic.I|].
      assert (N : I (mk (act s) (q0 s) (q1 s) (slp s) r (term s) (born s) (tp s) (adds s) (runs s))).
      { split; [|split; auto]. constructor; cc; auto. intros g G. apply H6. rewrite ?c_cons. lia. }
      destruct (Nat.eqb_spec f (act s)); [exact N|]. cbn [orb]. destruct (linked s f) eqn:LF; [exact N|].
      assert (X : f <> 0 /\ c f (term s) = 0 /\ c f (born s) <> 0) by (apply H6; rewrite ?c_cons, Nat.eqb_refl; lia).
      unfold add_ready. change (linked _ f) with (linked s f). rewrite LF. apply I_push; auto; cc; tauto.
    - (* Suspend *) destruct (Nat.eqb_spec (act s) 0); [exact Logic.I|]. apply good_switch; auto. apply hd_c. unfold loose in L. lia.
    - (* Yield *) destruct (Nat.eqb_spec (act s) 0); [exact Logic.I|].
      destruct (bk (act s)), y; try exact Logic.I; try exact H; first [apply good_sleep|apply good_yield]; assumption.
    - (* Wait *) destruct (Nat.eqb_spec (act s) 0); [exact Logic.I|]. now apply good_sleep.
    - (* Start *) destruct (mem f (born s)) eqn:M; [exact Logic.I|]. rewrite c_mem in M.
      assert (NB : c f (born s) = 0) by lia.
      assert (NF : loose s f). { unfold loose. destruct (Nat.eq_dec (c f (q0 s) + c f (q1 s) + c f (map snd (slp s)) + c f (term s)) 0); auto. now apply H7 in n. }
      assert (FA : f <> act s) by (intros ->; congruence).
      assert (F0 : f <> 0) by (intros ->; congruence).
      assert (N : I (mk (act s) (q0 s) (q1 s) (slp s) (rem s) (term s) (f :: born s) (tp s) (adds s) (runs s))).
      { split; [|split; [exact L|cc; lia]]. constructor; cc; auto.
        - intros g G. specialize (H6 g G). rewrite ?c_cons. repeat split; try tauto; lia.
        - intros g G. specialize (H7 g G). rewrite ?c_cons. lia.
        - lia. }
      unfold add_ready. destruct now.
      + change (linked _ (act s)) with (linked s (act s)). rewrite (proj1 (loose_linked _ _ L)). cbn [bind].
        assert (X : J (push pr (mk (act s) (q0 s) (q1 s) (slp s) (rem s) (term s) (f :: born s) (tp s) (adds s) (runs s)) (act s) false)).
        { destruct N as (N & _). apply J_push; auto; cc.
          - now destruct (loose_linked _ _ L).
          - lia.
          - destruct (Nat.eq_dec (act s) 0); auto. }
        pose proof (loose_push _ (act s) false f (not_eq_sym FA) NF) as LF.
        destruct X as [X1 X2 X3 X4 X5 X6 X7 X8 X9]. cbn [calm] in CA. split; [|split].
        * constructor; auto. cc. intros _.
          destruct (Nat.eq_dec (act s) 0) as [E|E].
          -- rewrite E in *. rewrite P0 in *. cbn [is_back] in *. rewrite ?c_app, ?c_cons, ?c_nil, Nat.eqb_refl. unfold loose in L.
             destruct (pr f); try discriminate; simpl; lia.
          -- specialize (X4 E). rewrite X4. destruct (pr f), (pr (act s)); try discriminate; reflexivity.
        * exact LF.
        * cc. rewrite Nat.eqb_refl. lia.
      + change (linked _ f) with (linked s f). rewrite (proj1 (loose_linked _ _ NF)). apply I_push; auto; cc.
        * now destruct (loose_linked _ _ NF).
        * rewrite Nat.eqb_refl. lia.
    - (* Attach *) destruct (Nat.eqb_spec f 0); [exact Logic.I|]. destruct (Nat.eqb_spec f (act s)); [exact Logic.I|].
      destruct (linked s f) eqn:LF; [exact Logic.I|]. destruct (asleep s f); [exact Logic.I|]. cbn [orb].
      assert (N : I (mk (act s) (q0 s) (q1 s) (slp s) (rem s) (term s) (f :: born s) (tp s) (adds s) (runs s))).
      { split; [|split; [exact L|cc; lia]]. constructor; cc; auto.
        - intros g G. specialize (H6 g G). rewrite ?c_cons. repeat split; try tauto; lia.
        - intros g G. specialize (H7 g G). rewrite ?c_cons. lia.
        - lia. }
      unfold add_ready. change (linked _ f) with (linked s f). rewrite LF. apply I_push; auto; cc. rewrite Nat.eqb_refl. lia.
    - (* Finish *) destruct (Nat.leb_spec (act s) 1); [exact Logic.I|]. cbn [orb].
      destruct (mem (act s) (rem s)) eqn:M; [exact Logic.I|]. rewrite c_mem in M.
      rewrite (proj1 (loose_linked _ _ L)). apply good_switch; cc; [|lia|apply hd_c; unfold loose in L; cc; lia].
      constructor; cc; auto.
      + intros g. specialize (H1 g). unfold loose in L. rewrite ?c_app, ?c_cons, ?c_nil. destruct (Nat.eqb_spec g (act s)); subst; lia.
      + destruct (Nat.eqb_spec 0 (act s)); lia.
      + intros g G. destruct (H6 g G) as (G1 & G2 & G3). repeat split; auto. rewrite ?c_app, ?c_cons, ?c_nil.
        destruct (Nat.eqb_spec g (act s)); subst; lia.
      + intros g G. rewrite ?c_app, ?c_cons, ?c_nil in G. destruct (Nat.eqb_spec g (act s)); subst; auto. apply H7. lia.
    - (* Destroy *) destruct (Nat.eqb_spec (act s) 0) as [A|]; [|exact Logic.I]. split; [|split].
      + constructor; cc; auto.
        * intros g. specialize (H1 g). rewrite c_nil. lia.
        * congruence.
        * tauto.
        * intros g G. destruct (H6 g G) as (G1 & G2 & G3). rewrite ?c_filter_mem, G2. auto.
        * intros g G. rewrite c_nil in G. rewrite ?c_filter_mem. specialize (H1 g). specialize (H7 g).
          destruct (Nat.eqb_spec (c g (term s)) 0); [apply H7|]; lia.
        * destruct H5 as [_ ->]. auto.
      + unfold loose in *. rewrite A in L. cc. lia.
      + cc. destruct H5 as [_ ->]. auto.
    - (* SuspendExec *) destruct (Nat.eqb_spec (act s) 0) as [|A]; [exact Logic.I|].
      destruct (mem 0 (q0 s)); [|exact Logic.I]. cbn [orb negb]. split; [|split].
      + constructor; cc; auto.
        * intros g. specialize (H1 g). rewrite ?c_filter0. destruct (g =? 0); lia.
        * intros g G. rewrite ?c_filter0. destruct (g =? 0); auto.
        * congruence.
        * intros g G. apply H7. rewrite ?c_filter0 in G. destruct (g =? 0); lia.
      + unfold loose. cc. cbn [Nat.eqb]. rewrite (H3 0); [|now rewrite P0]. lia.
      + exact H8.
    - (* Sleepers *) destruct (Nat.eqb_spec (act s) 0); [|exact Logic.I]. now apply good_sleepers.
    - (* RunNormal *) destruct (Nat.eqb_spec (act s) 0) as [A|]; [|exact Logic.I].
      destruct (q0 s) as [|f r] eqn:Q; [exact Logic.I|]. unfold pop0. rewrite Q.
      unfold loose in L. rewrite A in L. rewrite Q in L. rewrite ?c_cons in L.
      destruct (Nat.eqb_spec f (act s)) as [->|]; [rewrite A in L; cbn [Nat.eqb] in L; lia|]. cbn [bind]. rewrite A in *.
      destruct (Nat.eqb_spec 0 f); [congruence|].
      unfold add_ready. rewrite linked_c. cc. replace (c 0 r + c 0 (q1 s) + c 0 (term s) =? 0) with true by (symmetry; apply Nat.eqb_eq; lia).
      cbn [negb]. unfold push. cc. rewrite P0. cbn [is_back]. split; [|split].
      + constructor; cc.
        * intros g. specialize (H1 g). rewrite ?c_cons in H1. rewrite ?c_app, ?c_cons, ?c_nil, ?c_remove.
          destruct (Nat.eqb_spec g 0); subst; [|lia]. specialize (H5). lia.
        * intros g G. specialize (H2 g G). rewrite ?c_cons in H2. rewrite ?c_app, ?c_cons, ?c_nil.
          destruct (Nat.eqb_spec g 0); subst; [rewrite P0 in G; discriminate|lia].
        * auto.
        * intros F. cbn [Nat.eqb]. specialize (H2 f). rewrite ?c_cons, Nat.eqb_refl in H2.
          destruct (bk f); [specialize (H2 eq_refl); lia|]. simpl. lia.
        * split; [reflexivity|tauto].
        * auto.
        * intros g G. destruct (Nat.eqb_spec g 0) as [->|]; auto. apply H7. rewrite ?c_app, ?c_cons, ?c_nil, ?c_remove in G.
          rewrite ?c_cons. destruct (Nat.eqb_spec g 0); [congruence|]. lia.
        * auto.
        * now apply sorted_filter.
      + unfold loose. cc. specialize (H1 f). rewrite ?c_cons, Nat.eqb_refl in H1. destruct (Nat.eqb_spec f 0); subst; [congruence|]. lia.
      + cc. apply H7. rewrite ?c_cons, Nat.eqb_refl. lia.
    - (* RunBack *) destruct (Nat.eqb_spec (act s) 0) as [A|]; [|exact Logic.I].
      destruct (q1 s) as [|f r] eqn:Q; [exact Logic.I|]. unfold pop1. rewrite Q.
      unfold loose in L. rewrite A, Q in L. rewrite ?c_cons in L.
      destruct (Nat.eqb_spec f (act s)) as [->|]; [rewrite A in L; cbn [Nat.eqb] in L; lia|]. rewrite A in *.
      split; [|split].
      + constructor; cc; auto.
        * intros g. specialize (H1 g). rewrite ?c_cons in H1. lia.
        * intros g G. specialize (H3 g G). rewrite ?c_cons in H3. lia.
        * intros F. specialize (H3 f). rewrite ?c_cons, Nat.eqb_refl in H3.
          destruct (bk f); [|specialize (H3 eq_refl); lia]. simpl. lia.
        * intros g G. apply H7. rewrite ?c_cons. lia.
      + unfold loose. cc. specialize (H1 f). rewrite ?c_cons, Nat.eqb_refl in H1. lia.
      + cc. apply H7. rewrite ?c_cons, Nat.eqb_refl. lia.
  Qed.
End S.

(** ** What a step does to the ready queues and the logs *)
Section Q.
  Variable pr : nat -> prio.
  Notation bk f := (is_back (pr f)).
  Variable P : list nat -> list nat -> list nat -> list nat -> Prop.
  Hypothesis Pb0 : forall f a b x y, bk f = false -> P a b x y -> P (a ++ [f]) b (x ++ [f]) y.
  Hypothesis Pb1 : forall f a b x y, bk f = true -> P a b x y -> P a (b ++ [f]) (x ++ [f]) y.
  Hypothesis Pf : forall f a b x y, pr f = High -> P a b x y -> P (f :: a) b (x ++ [f]) y.
  Hypothesis Pp0 : forall f a b x y, P (f :: a) b x y -> P a b x (y ++ [f]).
  Hypothesis Pp1 : forall f a b x y, P a (f :: b) x y -> P a b x (y ++ [f]).
  Hypothesis P00 : forall a b x y, P a b x y -> P (filter (fun f => negb (f =? 0)) a) b x y.
  Definition Ps (s : st) : Prop := P (q0 s) (q1 s) (adds s) (runs s).
  Definition Po (o : outcome st) : Prop := forall s, o = Next s -> Ps s.

  Lemma Po_next s : Ps s -> Po (Next s). Proof. intros H x [= <-]. exact H. Qed.
  Lemma Po_stuck : Po Stuck. Proof. discriminate. Qed.
  Lemma Po_ub : Po Ub. Proof. discriminate. Qed.
  Lemma Po_add s f fr : (fr = true -> is_high (pr f) = true) -> Ps s -> Po (add_ready pr s f fr).
  Proof.
    intros F H. unfold add_ready. destruct (linked s f); [apply Po_ub|]. apply Po_next. unfold Ps, push. cbn [q0 q1 adds runs].
    destruct (bk f) eqn:B; destruct fr.
    - specialize (F eq_refl). now destruct (pr f).
    - now apply Pb1.
    - specialize (F eq_refl). apply Pf; auto. now destruct (pr f).
    - now apply Pb0.
  Qed.
  Lemma Po_pop0 s : Ps s -> Po (pop0 s).
  Proof.
    unfold Ps, pop0. intros H. destruct (q0 s) as [|f r]; [apply Po_ub|]. destruct (f =? act s); [apply Po_ub|].
    apply Po_next. now apply Pp0.
  Qed.
  Lemma Po_pop1 s : Ps s -> Po (pop1 s).
  Proof.
    unfold Ps, pop1. intros H. destruct (q1 s) as [|f r]; [apply Po_ub|]. destruct (f =? act s); [apply Po_ub|].
    apply Po_next. now apply Pp1.
  Qed.
  Lemma Po_switch s : Ps s -> Po (switch pr s).
  Proof. intros H. unfold switch. destruct (bk (act s)); [now apply Po_next|now apply Po_pop0]. Qed.
  Lemma Po_sleep s t : Ps s -> Po (add_sleep s t).
  Proof. intros H. unfold add_sleep. destruct (asleep s (act s)); [apply Po_ub|now apply Po_next]. Qed.
  Lemma Po_bind o k : Po o -> (forall s, Ps s -> Po (k s)) -> Po (bind o k).
  Proof. intros H K. destruct o; cbn [bind]; [apply Po_stuck|apply Po_ub|]. apply K. now apply H. Qed.
  Lemma Po_sleepers l now : forall s, Ps s -> Po (sleepers pr l now s).
  Proof.
    induction l as [|[t f] r IH]; intros s H; cbn [sleepers]; [now apply Po_next|].
    destruct (now <? t)%Z; [now apply Po_next|]. destruct (linked s f); [apply Po_ub|]. apply IH. unfold Ps. cbn [q0 q1 adds runs].
    destruct (bk f) eqn:B; [now apply Pb1|now apply Pb0].
  Qed.
  Lemma Po_step s l : Ps s -> Po (step pr s l).
  Proof.
    intros H. destruct l as [o|o| | |y|t|f now|f| | | |now| |]; cbn [step];
      repeat match goal with
      | |- Po (if ?b then _ else _) => destruct b
      | |- Po (match ?y with YKeep => _ | YSleep _ => _ | YReady => _ end) => destruct y
      | |- Po (match ?l with nil => _ | cons _ _ => _ end) => destruct l
      | |- Po Stuck => apply Po_stuck
      | |- Po Ub => apply Po_ub
      | |- Po (Next _) => apply Po_next
      | |- Po (add_ready _ _ _ _) => apply Po_add
      | |- Po (pop1 _) => apply Po_pop1
      | |- Po (pop0 _) => apply Po_pop0
      | |- Po (switch _ _) => apply Po_switch
      | |- Po (add_sleep _ _) => apply Po_sleep
      | |- Po (sleepers _ _ _ _) => apply Po_sleepers
      | |- Po (bind _ _) => apply Po_bind
      | |- forall s, Ps s -> _ => intros
      | |- _ = true -> _ => unfold to_front; congruence
      | |- _ => assumption
      end.
    now apply P00.
  Qed.
  Lemma Po_exec ls : forall s s', Ps s -> exec (step pr) s ls = Next s' -> Ps s'.
  Proof.
    induction ls as [|l ls IH]; cbn [exec]; intros s s' H; [now intros [= <-]|].
    destruct (step pr s l) as [| |s1] eqn:E; try discriminate. apply IH. exact (Po_step s l H s1 E).
  Qed.
End Q.

Lemma times_of_prio_app f a b : times f (a ++ b) = times f a + times f b. Proof. apply c_app. Qed.

Lemma sched_once_pf pr s f : reachable (step pr) init s -> f <> 0 -> times f (adds s) = times f (runs s) + times f (ready s).
Proof.
  intros [ls E] N.
  enough (X : Ps (fun a b x y => c f x = c f y + c f (a ++ b)) s) by exact X.
  revert E. apply Po_exec.
  all: intros; rewrite ?c_app, ?c_cons, ?c_nil, ?c_filter0 in *; try lia.
  - destruct (Nat.eqb_spec f 0); [congruence|lia].
  - unfold Ps. cbn [init q0 q1 adds runs]. cbn [app]. rewrite c_nil. lia.
Qed.

Definition sel (pr : nat -> prio) (p : prio) (f : nat) : bool :=
  negb (f =? 0) && match pr f, p with Normal, Normal | Back, Back | High, High => true | _, _ => false end.
Lemma op_app pr p a b : of_prio pr p (a ++ b) = of_prio pr p a ++ of_prio pr p b.
Proof. unfold of_prio. apply filter_app. Qed.
Lemma op_none pr p l : (forall f, In f l -> sel pr p f = false) -> of_prio pr p l = [].
Proof.
  induction l as [|f l IH]; intros H; [reflexivity|]. change (of_prio pr p (f :: l)) with (if sel pr p f then f :: of_prio pr p l else of_prio pr p l).
  rewrite (H f (or_introl eq_refl)). apply IH. intros g G. apply H. now right.
Qed.
Lemma op_one pr p f : of_prio pr p [f] = if sel pr p f then [f] else []. Proof. reflexivity. Qed.
Lemma op_cons pr p f l : of_prio pr p (f :: l) = (if sel pr p f then [f] else []) ++ of_prio pr p l.
Proof. change (f :: l) with ([f] ++ l). now rewrite op_app, op_one. Qed.
Lemma op_filter0 pr p l : of_prio pr p (filter (fun f => negb (f =? 0)) l) = of_prio pr p l.
Proof.
  induction l as [|f l IH]; [reflexivity|]. cbn [filter]. destruct (Nat.eqb_spec f 0) as [->|N]; cbn [negb]; rewrite !op_cons, <- IH; reflexivity.
Qed.

Lemma sched_fifo_pf pr s p : pr 0 = Normal -> reachable (step pr) init s -> p <> High ->
  of_prio pr p (adds s) = of_prio pr p (runs s) ++ of_prio pr p (ready s).
Proof.
  intros P0 [ls E] N.
  enough (X : Ps (fun a b x y => (forall f, In f a -> is_back (pr f) = false) /\ (forall f, In f b -> is_back (pr f) = true) /\
    of_prio pr p x = of_prio pr p y ++ of_prio pr p (a ++ b)) s) by (now destruct X as (_ & _ & X)).
  revert E. apply Po_exec; unfold Ps.
  - intros f a b x y B (A1 & A2 & A3). split; [|split; [exact A2|]].
    + intros g G. apply in_app_or in G as [G|[<-|[]]]; auto.
    + rewrite !op_app, A3, op_one, !op_app, <- !app_assoc.
      assert (X : (if sel pr p f then [f] else []) ++ of_prio pr p b = of_prio pr p b ++ (if sel pr p f then [f] else [])).
      { destruct p.
        - rewrite (op_none pr Normal b); [now rewrite app_nil_r|]. intros g G. specialize (A2 g G). unfold sel. destruct (pr g); try discriminate. apply andb_false_r.
        - assert (Z : sel pr Back f = false) by (unfold sel; destruct (pr f); try discriminate; apply andb_false_r). rewrite Z. now rewrite app_nil_r.
        - congruence. }
      rewrite X. reflexivity.
  - intros f a b x y B (A1 & A2 & A3). split; [exact A1|split].
    + intros g G. apply in_app_or in G as [G|[<-|[]]]; auto.
    + now rewrite !op_app, A3, op_one, !op_app, <- !app_assoc.
  - intros f a b x y B (A1 & A2 & A3). split; [|split; [exact A2|]].
    + intros g [<-|G]; auto. now rewrite B.
    + rewrite op_app, A3, op_one. cbn [app]. rewrite op_cons.
      assert (Z : sel pr p f = false) by (unfold sel; rewrite B; destruct p; try apply andb_false_r; congruence).
      rewrite Z. now rewrite app_nil_r.
  - intros f a b x y (A1 & A2 & A3). split; [|split; [exact A2|]].
    + intros g G. apply A1. now right.
    + rewrite A3. cbn [app]. rewrite op_cons, (op_app pr p y [f]), op_one, <- app_assoc. reflexivity.
  - intros f a b x y (A1 & A2 & A3). split; [exact A1|split].
    + intros g G. apply A2. now right.
    + rewrite A3, !op_app, op_one, op_cons, <- !app_assoc. f_equal.
      specialize (A2 f (or_introl eq_refl)). destruct p; try congruence.
      * assert (Z : sel pr Normal f = false) by (unfold sel; destruct (pr f); try discriminate; apply andb_false_r). now rewrite Z.
      * rewrite (op_none pr Back a); [reflexivity|]. intros g G. specialize (A1 g G). unfold sel. destruct (pr g); try discriminate; apply andb_false_r.
  - intros a b x y (A1 & A2 & A3). split; [|split; [exact A2|]].
    + intros g G. apply filter_In in G. apply A1. tauto.
    + now rewrite A3, !op_app, op_filter0.
  - cbn [init q0 q1 adds runs]. split; [|split].
    + intros g [<-|[]]. now rewrite P0.
    + intros g [].
    + now rewrite app_nil_r.
Qed.

Lemma queues_class pr s : pr 0 = Normal -> reachable (step pr) init s ->
  (forall f, In f (q0 s) -> is_back (pr f) = false) /\ (forall f, In f (q1 s) -> is_back (pr f) = true).
Proof.
  intros P0 [ls E].
  enough (X : Ps (fun a b x y => (forall f, In f a -> is_back (pr f) = false) /\ (forall f, In f b -> is_back (pr f) = true)) s) by exact X.
  revert E. apply Po_exec; unfold Ps.
  1, 2: intros f a b x y B (A1 & A2); split; intros g G; auto; apply in_app_or in G as [G|[<-|[]]]; auto.
  - intros f a b x y B (A1 & A2); split; intros g G; auto. destruct G as [<-|G]; auto. now rewrite B.
  - intros f a b x y (A1 & A2); split; intros g G; auto. apply A1. now right.
  - intros f a b x y (A1 & A2); split; intros g G; auto. apply A2. now right.
  - intros a b x y (A1 & A2); split; intros g G; auto. apply filter_In in G. apply A1. tauto.
  - split; [|intros g []]. intros g [<-|[]]. now rewrite P0.
Qed.

(** Bounded overtaking *)
Lemma sched_bound_pf pr s ls s' before f after :
  pr 0 = Normal -> reachable (step pr) init s -> exec (step pr) s ls = Next s' -> q0 s = before ++ f :: after -> f <> 0 ->
  exists new more, runs s' = runs s ++ new /\ adds s' = adds s ++ more /\
    (In f new \/ length (filter (fun g => negb (is_back (pr g))) new) <= length before + length (filter (fun g => is_high (pr g)) more)).
Proof.
  intros P0 R E Q N. destruct (queues_class pr s P0 R) as [_ Q1].
  set (nb := filter (fun g => negb (is_back (pr g)))). set (hi := filter (fun g => is_high (pr g))).
  assert (Enb : forall a b, length (nb (a ++ b)) = length (nb a) + length (nb b)) by (intros; unfold nb; now rewrite filter_app, app_length).
  assert (Ehi : forall a b, length (hi (a ++ b)) = length (hi a) + length (hi b)) by (intros; unfold hi; now rewrite filter_app, app_length).
  enough (X : Ps (fun a b x y => (forall g, In g b -> is_back (pr g) = true) /\ exists new more, y = runs s ++ new /\ x = adds s ++ more /\
    (In f new \/ exists be af, a = be ++ f :: af /\ length (nb new) + length be <= length before + length (hi more))) s').
  { destruct X as (_ & new & more & E1 & E2 & X). exists new, more. repeat split; auto. destruct X as [X|(be & af & _ & X)]; [now left|right; lia]. }
  revert E. apply Po_exec; unfold Ps.
  - intros g a b x y B (A & new & more & -> & -> & X). split; [exact A|]. exists new, (more ++ [g]). rewrite app_assoc. repeat split; auto.
    destruct X as [X|(be & af & -> & X)]; [now left|]. right. exists be, (af ++ [g]). rewrite <- app_assoc. split; [reflexivity|]. rewrite Ehi. lia.
  - intros g a b x y B (A & new & more & -> & -> & X). split.
    { intros h G. apply in_app_or in G as [G|[<-|[]]]; auto. }
    exists new, (more ++ [g]). rewrite app_assoc. repeat split; auto.
    destruct X as [X|(be & af & -> & X)]; [now left|]. right. exists be, af. split; [reflexivity|]. rewrite Ehi. lia.
  - intros g a b x y B (A & new & more & -> & -> & X). split; [exact A|]. exists new, (more ++ [g]). rewrite app_assoc. repeat split; auto.
    destruct X as [X|(be & af & -> & X)]; [now left|]. right. exists (g :: be), af. split; [reflexivity|]. rewrite Ehi.
    unfold hi at 2. cbn [filter length]. rewrite B. cbn [is_high length]. lia.
  - intros g a b x y (A & new & more & -> & -> & X). split; [exact A|]. exists (new ++ [g]), more. rewrite app_assoc. repeat split; auto.
    destruct X as [X|(be & af & X1 & X)]; [left; apply in_or_app; now left|].
    destruct be as [|h be]; cbn [app] in X1; injection X1 as -> ->; [left; apply in_or_app; right; now left|].
    right. exists be, af. split; [reflexivity|]. rewrite Enb. cbn [length] in X. assert (length (nb [h]) <= 1) by (unfold nb; cbn; destruct (negb _); cbn; lia). lia.
  - intros g a b x y (A & new & more & -> & -> & X). split; [intros h G; apply A; now right|]. exists (new ++ [g]), more. rewrite app_assoc. repeat split; auto.
    destruct X as [X|(be & af & X1 & X)]; [left; apply in_or_app; now left|]. right. exists be, af. split; auto. rewrite Enb.
    assert (Z : length (nb [g]) = 0) by (unfold nb; cbn; now rewrite (A g (or_introl eq_refl))). lia.
  - intros a b x y (A & new & more & -> & -> & X). split; [exact A|]. exists new, more. repeat split; auto.
    destruct X as [X|(be & af & -> & X)]; [now left|]. right. exists (filter (fun g => negb (g =? 0)) be), (filter (fun g => negb (g =? 0)) af).
    rewrite filter_app. cbn [filter]. destruct (Nat.eqb_spec f 0); [congruence|]. split; [reflexivity|].
    assert (Z : forall l, length (filter (fun g => negb (g =? 0)) l) <= length l) by (induction l as [|u l IH]; cbn; [lia|]; destruct (negb _); cbn; lia).
    specialize (Z be). lia.
  - split; [exact Q1|]. exists [], []. rewrite !app_nil_r. repeat split; auto. right. exists before, after. split; auto. cbn. lia.
Qed.

(** ** Sleeping *)
Lemma sleepers_spec pr l now : forall s s', sleepers pr l now s = Next s' -> l = slp s -> StronglySorted (fun a b => (fst a <= fst b)%Z) (slp s) ->
  exists w, slp s = w ++ slp s' /\ Forall (fun p => (fst p <= now)%Z) w /\ Forall (fun p => (now < fst p)%Z) (slp s') /\
    q0 s' = q0 s ++ filter (fun f => negb (is_back (pr f))) (map snd w) /\ q1 s' = q1 s ++ filter (fun f => is_back (pr f)) (map snd w) /\
    act s' = act s /\ term s' = term s /\ (forall g, tp s' g = if mem g (map snd w) then tmax else tp s g).
Proof.
  induction l as [|[t f] r IH]; intros s s' E EL SO; cbn [sleepers] in E.
  - injection E as <-. exists []. rewrite <- EL. cbn. rewrite !app_nil_r. repeat split; auto.
  - destruct (Z.ltb_spec now t) as [T|T].
    + injection E as <-. exists []. cbn [app map filter]. rewrite !app_nil_r. repeat split; auto. rewrite <- EL in *.
      apply StronglySorted_inv in SO as [_ F]. constructor; auto. eapply Forall_impl; [|exact F]. cbn [fst]. intros p. lia.
    + destruct (linked s f); [discriminate|]. rewrite <- EL in SO. apply StronglySorted_inv in SO as [SO F].
      apply IH in E; [|reflexivity|exact SO]. cbn [slp q0 q1 act term tp] in E. destruct E as (w & E1 & E2 & E3 & E4 & E5 & E6 & E7 & E8).
      exists ((t, f) :: w). rewrite <- EL, E1. cbn [map snd filter]. split; [reflexivity|]. split; [constructor; auto|]. split; [exact E3|].
      rewrite E4, E5. split; [|split; [|split; [|split]]]; auto.
      1, 2: destruct (is_back (pr f)); cbn [negb]; rewrite <- ?app_assoc; auto.
      intros g. rewrite E8. unfold updf, mem. cbn [existsb]. destruct (g =? f); cbn [orb]; destruct (existsb (Nat.eqb g) (map snd w)); reflexivity.
Qed.

Section T.
  Variable pr : nat -> prio.
  Hypothesis P0 : pr 0 = Normal.
  Hypothesis P1 : pr 1 = Normal.

  Lemma sched_safe_partial_pf : safe (cstep pr) init /\ forall s, reachable (cstep pr) init s -> NoDup (places s).
  Proof.
    destruct (reach_inv (cstep pr) (I pr) init) as [X Y].
    - intros s l H. exact (I_step pr P0 s l H).
    - apply I_init; auto.
    - split; [exact X|]. intros s R. destruct (Y s R) as (H & L & _). apply (NoDup_count_occ Nat.eq_dec). intros f.
      change (c f (places s) <= 1). unfold places. rewrite c_cons, !c_app. pose proof (J_one _ _ H f) as H1. unfold loose in L.
      destruct (Nat.eqb_spec f (act s)); subst; lia.
  Qed.
  Lemma I_reach s : reachable (cstep pr) init s -> I pr s.
  Proof.
    intros R. destruct (reach_inv (cstep pr) (I pr) init) as [_ Y].
    - intros x l H. exact (I_step pr P0 x l H).
    - apply I_init; auto.
    - exact (Y s R).
  Qed.
  Lemma I_next s l s' : I pr s -> cstep pr s l = Next s' -> I pr s'.
  Proof. intros H E. pose proof (I_step pr P0 s l H) as X. rewrite E in X. exact X. Qed.
  Lemma I_exec ls : forall s s', I pr s -> exec (cstep pr) s ls = Next s' -> I pr s'.
  Proof.
    induction ls as [|l ls IH]; cbn [exec]; intros s s' H; [now intros [= <-]|].
    destruct (cstep pr s l) as [| |s1] eqn:E; try discriminate. apply IH. exact (I_next s l s1 H E).
  Qed.

  (** A sleeper goes behind those with the same or an earlier deadline. *)
  Lemma slp_switch s s' : switch pr s = Next s' -> slp s' = slp s /\ tp s' = tp s.
  Proof.
    unfold switch, pop0. destruct (is_back _); [now intros [= <-]|]. destruct (q0 s); [discriminate|]. destruct (_ =? _); [discriminate|].
    now intros [= <-].
  Qed.
  Lemma sched_wait_pf s t s' : reachable (cstep pr) init s -> step pr s (Wait t) = Next s' ->
    exists a b, slp s = a ++ b /\ slp s' = a ++ (t, act s) :: b /\ Forall (fun p => (fst p <= t)%Z) a /\ Forall (fun p => (t < fst p)%Z) b.
  Proof.
    intros R E. destruct (I_reach s R) as (H & L & _). cbn [step] in E. destruct (act s =? 0); [discriminate|].
    unfold add_sleep in E. destruct (asleep s (act s)); [discriminate|]. cbn [bind] in E. apply slp_switch in E as [-> _]. cbn [slp].
    exact (insert_split t (act s) _ (J_sort _ _ H)).
  Qed.
  Lemma sched_sleepers_pf s now s' : reachable (cstep pr) init s -> step pr s (Sleepers now) = Next s' ->
    exists w, slp s = w ++ slp s' /\ StronglySorted (fun a b => (fst a <= fst b)%Z) w /\
      Forall (fun p => (fst p <= now)%Z) w /\ Forall (fun p => (now < fst p)%Z) (slp s') /\
      q0 s' = q0 s ++ filter (fun f => negb (is_back (pr f))) (map snd w) /\ q1 s' = q1 s ++ filter (fun f => is_back (pr f)) (map snd w).
  Proof.
    intros R E. destruct (I_reach s R) as (H & L & _). cbn [step] in E. destruct (act s =? 0); [|discriminate].
    apply sleepers_spec in E; [|reflexivity|exact (J_sort _ _ H)]. destruct E as (w & E1 & E2 & E3 & E4 & E5 & _).
    exists w. repeat split; auto. pose proof (J_sort _ _ H) as SO. rewrite E1 in SO. now apply sorted_app_l in SO.
  Qed.

  (** Who is asleep. *)
  Lemma in_remove t f g l : In (t, f) l -> f <> g -> In (t, f) (remove g l).
  Proof. intros H N. apply filter_In. split; auto. cbn [snd]. destruct (Nat.eqb_spec f g); [congruence|reflexivity]. Qed.
  Lemma in_insert t f u g l : In (t, f) l -> In (t, f) (insert u g l).
  Proof.
    induction l as [|[v h] l IH]; [now intros []|]. cbn [insert]. destruct (u <? v)%Z; [now right|].
    intros [E|H]; [now left|right; auto].
  Qed.
  Lemma remove_id g l : c g (map snd l) = 0 -> remove g l = l.
  Proof.
    induction l as [|[u h] l IH]; [reflexivity|]. cbn [map snd remove filter]. rewrite c_cons. destruct (Nat.eqb_spec g h); [lia|].
    intros H. destruct (Nat.eqb_spec h g); [congruence|]. cbn [negb]. f_equal. apply IH. lia.
  Qed.
  Lemma in_c t f (l : list (Z * nat)) : In (t, f) l -> c f (map snd l) <> 0.
  Proof. intros H. apply c_in. change f with (snd (t, f)). now apply in_map. Qed.

  (** What a step of another fiber does to the sleepers and the deadlines. *)
  Lemma slp_step s l s' : I pr s -> step pr s l = Next s' ->
    (slp s' = slp s /\ tp s' = tp s) \/
    (exists g, slp s' = remove g (slp s) /\ tp s' = tp s /\ (l = Act g \/ l = PopRem /\ hd_error (rem s) = Some g)) \/
    (exists t, slp s' = insert t (act s) (slp s) /\ tp s' = updf (tp s) (act s) t /\ (l = Wait t \/ l = Yield (YSleep t))) \/
    (exists now w, l = Sleepers now /\ slp s = w ++ slp s' /\ Forall (fun p => (fst p <= now)%Z) w /\ Forall (fun p => (now < fst p)%Z) (slp s') /\
      (forall g, tp s' g = if mem g (map snd w) then tmax else tp s g)).
  Proof.
    intros H E. pose proof H as (HJ & L & B). pose proof HJ as [H1 H2 H3 H4 H5 H6 H7 H8 H9].
    assert (RA : remove (act s) (slp s) = slp s) by (apply remove_id; unfold loose in L; lia).
    destruct l as [o|o| | |y|t|f now|f| | | |now| |]; cbn [step] in E.
    - destruct ((o =? act s) || (o =? 0) || negb (mem o (born s))); [discriminate|]. unfold add_ready in E. destruct (linked s o).
      + injection E as <-. now left.
      + injection E as <-. right. left. exists o. repeat split; auto.
    - destruct ((o =? 0) || negb (mem o (born s)) || mem o (term s)); [discriminate|]. destruct (mem o (rem s)); injection E as <-; now left.
    - destruct (rem s) as [|f r]; [discriminate|]. destruct ((f =? act s) || linked s f); [injection E as <-; now left|].
      unfold add_ready in E. destruct (linked _ f); [discriminate|]. injection E as <-. right. left. exists f. repeat split; auto.
    - destruct (act s =? 0); [discriminate|]. left. now apply slp_switch.
    - destruct (act s =? 0); [discriminate|].
      assert (XS : forall t, bind (add_sleep s t) (switch pr) = Next s' -> slp s' = insert t (act s) (slp s) /\ tp s' = updf (tp s) (act s) t).
      { intros t. unfold add_sleep. destruct (asleep _ _); [discriminate|]. cbn [bind]. intros X. now apply slp_switch in X. }
      assert (XR : bind (add_ready pr s (act s) false) (switch pr) = Next s' -> slp s' = slp s /\ tp s' = tp s).
      { unfold add_ready. destruct (linked _ _); [discriminate|]. cbn [bind]. intros X. apply slp_switch in X. cbn [push slp tp] in X. now rewrite RA in X. }
      destruct (is_back (pr (act s))), y; try discriminate.
      + injection E as <-. now left.
      + right. right. left. exists t. destruct (XS t E). auto.
      + left. auto.
      + left. auto.
    - destruct (act s =? 0); [discriminate|]. right. right. left. exists t. unfold add_sleep in E. destruct (asleep _ _); [discriminate|]. cbn [bind] in E.
      apply slp_switch in E as [E1 E2]. auto.
    - destruct (mem f (born s)) eqn:M; [discriminate|]. rewrite c_mem in M. unfold add_ready in E.
      destruct now; destruct (linked _ _); try discriminate; cbn [bind] in E; injection E as <-; left; cbn [push set_act slp tp]; [now rewrite RA|].
      rewrite remove_id; auto. destruct (Nat.eq_dec (c f (map snd (slp s))) 0); auto. destruct (H7 f); lia.
    - destruct ((f =? 0) || (f =? act s) || linked s f); [discriminate|]. cbn [orb] in E. destruct (asleep s f) eqn:A; [discriminate|]. rewrite asleep_c in A.
      unfold add_ready in E. destruct (linked _ f); [discriminate|]. injection E as <-. left. cbn [push slp tp]. rewrite remove_id; auto. lia.
    - destruct ((act s <=? 1) || mem (act s) (rem s)); [discriminate|]. destruct (linked s (act s)); [discriminate|]. left. now apply slp_switch in E.
    - destruct (act s =? 0); [|discriminate]. injection E as <-. now left.
    - destruct ((act s =? 0) || negb (mem 0 (q0 s))); [discriminate|]. injection E as <-. now left.
    - destruct (act s =? 0); [|discriminate]. right. right. right. exists now. apply sleepers_spec in E; [|reflexivity|exact H9].
      destruct E as (w & E1 & E2 & E3 & _ & _ & _ & _ & E8). exists w. auto.
    - destruct (act s =? 0); [|discriminate]. destruct (q0 s) as [|f r] eqn:Q; [discriminate|]. unfold pop0 in E. rewrite Q in E. destruct (f =? act s); [discriminate|].
      cbn [bind] in E. unfold add_ready in E. destruct (linked _ 0); [discriminate|]. injection E as <-. left. cbn [push slp tp]. rewrite remove_id; auto. tauto.
    - destruct (act s =? 0); [|discriminate]. destruct (q1 s) as [|f r] eqn:Q; [discriminate|]. unfold pop1 in E. rewrite Q in E. destruct (f =? act s); [discriminate|].
      injection E as <-. now left.
  Qed.

  Lemma sched_early_pf s l s' t f : reachable (cstep pr) init s -> step pr s l = Next s' -> In (t, f) (slp s) -> ~ In (t, f) (slp s') ->
    l = Act f \/ (l = PopRem /\ hd_error (rem s) = Some f) \/ exists now, l = Sleepers now /\ (t <= now)%Z.
  Proof.
    intros R E A N. apply slp_step in E; [|now apply I_reach].
    destruct E as [[E _]|[(g & E & _ & X)|[(u & E & _)|(now & w & E & E1 & E2 & _)]]].
    - rewrite E in N. contradiction.
    - destruct (Nat.eq_dec f g) as [->|NE]; [destruct X; auto|]. destruct N. rewrite E. now apply in_remove.
    - destruct N. rewrite E. now apply in_insert.
    - right. right. exists now. split; auto. rewrite E1 in A. apply in_app_or in A as [A|A]; [|contradiction].
      rewrite Forall_forall in E2. exact (E2 _ A).
  Qed.

  (** An activation makes the fiber ready, whether it was blocked or asleep. *)
  Lemma in_ready_push s f fr : In f (ready (push pr s f fr)) /\ ~ In f (map snd (slp (push pr s f fr))).
  Proof.
    rewrite !c_in. unfold ready, push. cbn [q0 q1 slp]. rewrite c_app, c_remove, Nat.eqb_refl. split; [|lia].
    destruct (is_back (pr f)), fr; rewrite ?c_app, ?c_cons, ?c_nil, Nat.eqb_refl; lia.
  Qed.
  Lemma ready_linked s f : linked s f = true -> ~ In f (term s) -> In f (ready s).
  Proof. rewrite linked_c, !c_in. unfold ready. rewrite c_app. intros. destruct (Nat.eqb_spec (c f (q0 s) + c f (q1 s) + c f (term s)) 0); [discriminate|]. lia. Qed.
  Lemma sched_woken_pf s o l s' : reachable (cstep pr) init s -> (l = Act o \/ l = PopRem /\ hd_error (rem s) = Some o) ->
    step pr s l = Next s' -> o <> act s -> ~ In o (term s) -> In o (ready s') /\ ~ In o (map snd (slp s')).
  Proof.
    intros R LL E NA NT. destruct (I_reach s R) as (H & L & _).
    assert (Z : linked s o = true -> In o (ready s) /\ ~ In o (map snd (slp s))).
    { intros LO. split; [now apply ready_linked|]. rewrite c_in. rewrite linked_c in LO. pose proof (J_one _ _ H o).
      destruct (Nat.eqb_spec (c o (q0 s) + c o (q1 s) + c o (term s)) 0); [discriminate|]. lia. }
    destruct LL as [-> | [-> HD]]; cbn [step] in E.
    - destruct ((o =? act s) || (o =? 0) || negb (mem o (born s))); [discriminate|]. unfold add_ready in E.
      destruct (linked s o) eqn:LO; injection E as <-; [auto|apply in_ready_push].
    - destruct (rem s) as [|f r]; [discriminate|]. injection HD as ->. destruct (Nat.eqb_spec o (act s)); [congruence|]. cbn [orb] in E.
      destruct (linked s o) eqn:LO.
      + injection E as <-. unfold ready. cbn [q0 q1 slp]. apply Z; auto.
      + unfold add_ready in E. destruct (linked _ o); [discriminate|]. injection E as <-. apply in_ready_push.
  Qed.
  Lemma sched_front_pf s o l s' : pr o = High -> (l = Act o \/ l = PopRem /\ hd_error (rem s) = Some o \/ l = Start o false) ->
    step pr s l = Next s' -> o <> act s -> ~ In o (ready s) -> ~ In o (term s) -> q0 s' = o :: q0 s.
  Proof.
    intros HP LL E NA NR NT.
    assert (NL : linked s o = false).
    { destruct (linked s o) eqn:X; auto. destruct NR. now apply ready_linked. }
    assert (G : forall x, q0 x = q0 s -> q0 (push pr x o (to_front pr o)) = o :: q0 s).
    { intros x Q. unfold push, to_front. cbn [q0]. rewrite HP. cbn [is_back is_high]. now rewrite Q. }
    destruct LL as [-> | [[-> HD] | ->]]; cbn [step] in E.
    - destruct ((o =? act s) || (o =? 0) || negb (mem o (born s))); [discriminate|]. unfold add_ready in E. rewrite NL in E. injection E as <-. now apply G.
    - destruct (rem s) as [|f r]; [discriminate|]. injection HD as ->. destruct (Nat.eqb_spec o (act s)); [congruence|]. rewrite NL in E. cbn [orb] in E.
      unfold add_ready in E. destruct (linked _ o); [discriminate|]. injection E as <-. now apply G.
    - destruct (mem o (born s)); [discriminate|]. unfold add_ready in E. destruct (linked _ o); [discriminate|]. injection E as <-. now apply G.
  Qed.

  (** ** The result of a timed wait *)
  Definition trig (t : Z) (f : nat) (s : st) (ls : list lab) : Prop :=
    exists l1 now l2 x, ls = l1 ++ Sleepers now :: l2 /\ exec (cstep pr) s l1 = Next x /\ In (t, f) (slp x) /\ (t <= now)%Z.
  Definition away (f : nat) (s : st) (ls : list lab) : Prop :=
    forall l1 l2 x, ls = l1 ++ l2 -> l2 <> [] -> exec (cstep pr) s l1 = Next x -> act x <> f.
  Lemma away_cons f s l ls s' : away f s (l :: ls) -> cstep pr s l = Next s' -> act s <> f /\ away f s' ls.
  Proof.
    intros A E. split; [apply (A [] (l :: ls)); auto; discriminate|]. intros l1 l2 x -> N X. apply (A (l :: l1) l2); auto. cbn [exec]. now rewrite E.
  Qed.
  Lemma trig_cons t f s l ls s' : cstep pr s l = Next s' ->
    trig t f s (l :: ls) <-> (exists now, l = Sleepers now /\ In (t, f) (slp s) /\ (t <= now)%Z) \/ trig t f s' ls.
  Proof.
    intros E. split.
    - intros (l1 & now & l2 & x & E1 & E2 & E3). destruct l1 as [|m l1]; cbn [app] in E1; injection E1 as -> ->.
      + injection E2 as <-. left. exists now. tauto.
      + right. exists l1, now, l2, x. cbn [exec] in E2. rewrite E in E2. tauto.
    - intros [(now & -> & X)|(l1 & now & l2 & x & -> & E2 & E3)].
      + exists [], now, ls, s. tauto.
      + exists (l :: l1), now, l2, x. cbn [exec]. now rewrite E.
  Qed.
  Lemma cstep_step s l s' : cstep pr s l = Next s' -> step pr s l = Next s'.
  Proof. unfold cstep. destruct (calm _ _ _); [auto|discriminate]. Qed.

  Lemma c_insert_ne f t g l : f <> g -> c f (map snd (insert t g l)) = c f (map snd l).
  Proof. intros N. rewrite c_insert. destruct (Nat.eqb_spec f g); [congruence|reflexivity]. Qed.
  Lemma awake_step s l s' f : I pr s -> step pr s l = Next s' -> act s <> f -> c f (map snd (slp s)) = 0 ->
    c f (map snd (slp s')) = 0 /\ tp s' f = tp s f.
  Proof.
    intros H E A Z. apply slp_step in E; auto.
    destruct E as [[-> ->]|[(g & -> & -> & _)|[(u & -> & -> & _)|(now & w & _ & E1 & _ & _ & ->)]]]; auto.
    - rewrite c_remove. destruct (f =? g); auto.
    - rewrite c_insert_ne by auto. split; auto. unfold updf. destruct (Nat.eqb_spec f (act s)); congruence.
    - rewrite E1, map_app, c_app in Z. split; [lia|]. rewrite c_mem. replace (c f (map snd w)) with 0 by lia. reflexivity.
  Qed.
  Lemma awake_exec t f ls : forall s s', I pr s -> exec (cstep pr) s ls = Next s' -> away f s ls -> c f (map snd (slp s)) = 0 ->
    tp s' f = tp s f /\ ~ trig t f s ls.
  Proof.
    induction ls as [|l ls IH]; intros s s' H E A Z.
    - injection E as <-. split; auto. intros (l1 & now & l2 & x & E & _). destruct l1; discriminate.
    - cbn [exec] in E. destruct (cstep pr s l) as [| |s1] eqn:E1; try discriminate. destruct (away_cons _ _ _ _ _ A E1) as [NA A'].
      destruct (awake_step s l s1 f H (cstep_step _ _ _ E1) NA Z) as [Z1 T1].
      destruct (IH s1 s' (I_next s l s1 H E1) E A' Z1) as [T2 N]. split; [congruence|].
      rewrite (trig_cons _ _ _ _ _ _ E1). intros [(now & _ & X & _)|X]; [|auto]. now apply in_c in X.
  Qed.
  Lemma asleep_exec t f ls : forall s s', I pr s -> exec (cstep pr) s ls = Next s' -> away f s ls -> act s' = f -> In (t, f) (slp s) -> tp s f = t -> (t < tmax)%Z ->
    tp s' f = tmax <-> trig t f s ls.
  Proof.
    induction ls as [|l ls IH]; intros s s' H E A AE Z T LT.
    - injection E as <-. destruct H as (_ & L & _). unfold loose in L. rewrite AE in L. apply in_c in Z. lia.
    - cbn [exec] in E. destruct (cstep pr s l) as [| |s1] eqn:E1; try discriminate. destruct (away_cons _ _ _ _ _ A E1) as [NA A'].
      pose proof (I_next s l s1 H E1) as H1. rewrite (trig_cons _ _ _ _ _ _ E1).
      pose proof (cstep_step _ _ _ E1) as ST. pose proof ST as ST2. apply slp_step in ST; auto.
      assert (U : c f (map snd (slp s)) <= 1) by (destruct H as (HJ & _); pose proof (J_one _ _ HJ f); lia).
      destruct ST as [[S1 S2]|[(g & S1 & S2 & LL)|[(u & S1 & S2 & LL)|(now & w & -> & S1 & S2 & S3 & S4)]]].
      + rewrite (IH s1 s'); auto; try congruence.
        split; [now right|]. intros [(now & -> & _ & X)|X]; auto. exfalso.
        cbn [step] in ST2. destruct (act s =? 0); [|discriminate]. apply sleepers_spec in ST2; [|reflexivity|destruct H as (HJ & _); exact (J_sort _ _ HJ)].
        destruct ST2 as (w & W1 & W2 & W3 & _). rewrite <- S1 in Z. rewrite Forall_forall in W3. specialize (W3 _ Z). cbn [fst] in W3. lia.
      + assert (NS : ~ exists now, l = Sleepers now /\ In (t, f) (slp s) /\ (t <= now)%Z).
        { intros (now & -> & _). destruct LL as [LL|[LL _]]; discriminate. }
        destruct (Nat.eq_dec f g) as [->|NG].
        * destruct (awake_exec t g ls s1 s' H1 E A') as [T1 N1]; [rewrite S1, c_remove, Nat.eqb_refl; reflexivity|].
          rewrite T1, S2, T. split; [lia|tauto].
        * rewrite (IH s1 s'); auto; [tauto|rewrite S1; now apply in_remove|congruence].
      + assert (NS : ~ exists now, l = Sleepers now /\ In (t, f) (slp s) /\ (t <= now)%Z).
        { intros (now & -> & _). destruct LL; discriminate. }
        rewrite (IH s1 s'); auto; [tauto|rewrite S1; now apply in_insert|]. rewrite S2. unfold updf. destruct (Nat.eqb_spec f (act s)); congruence.
      + rewrite S1 in Z. apply in_app_or in Z as [Z|Z].
        * assert (F : In f (map snd w)) by (change f with (snd (t, f)); now apply in_map).
          destruct (awake_exec t f ls s1 s' H1 E A') as [T1 N1].
          { rewrite S1, map_app, c_app in U. apply c_in in F. lia. }
          rewrite T1, S4, c_mem. apply c_in in F. destruct (Nat.eqb_spec (c f (map snd w)) 0); [contradiction|]. cbn [negb].
          split; auto. intros _. left. exists now. rewrite Forall_forall in S2. specialize (S2 _ Z). cbn [fst] in S2. split; [reflexivity|].
          split; [rewrite S1; apply in_or_app; now left|exact S2].
        * rewrite Forall_forall in S3. pose proof (S3 _ Z) as Z3. cbn [fst] in Z3.
          rewrite (IH s1 s'); auto.
          -- split; [now right|]. intros [(n & [= <-] & _ & X)|X]; auto. lia.
          -- rewrite S4, c_mem. apply in_c in Z. rewrite S1, map_app, c_app in U. replace (c f (map snd w)) with 0 by lia. exact T.
  Qed.
  Lemma sched_timeout_partial_pf s t s1 ls s2 :
    reachable (cstep pr) init s -> step pr s (Wait t) = Next s1 -> (t < tmax)%Z -> exec (cstep pr) s1 ls = Next s2 ->
    (forall l1 l2 x, ls = l1 ++ l2 -> l2 <> [] -> exec (cstep pr) s1 l1 = Next x -> act x <> act s) -> act s2 = act s ->
    timed_out s2 (act s) = true <->
    exists l1 now l2 x, ls = l1 ++ Sleepers now :: l2 /\ exec (cstep pr) s1 l1 = Next x /\ In (t, act s) (slp x) /\ (t <= now)%Z.
  Proof.
    intros R E LT X A AE. unfold timed_out. rewrite Z.eqb_eq.
    assert (C : cstep pr s (Wait t) = Next s1) by exact E. pose proof (I_reach s R) as H.
    assert (H1 : I pr s1) by exact (I_next s _ s1 H C).
    pose proof E as E'. cbn [step] in E'. destruct (act s =? 0); [discriminate|]. unfold add_sleep in E'. destruct (asleep s (act s)); [discriminate|]. cbn [bind] in E'.
    apply slp_switch in E' as [S1 S2]. cbn [slp tp] in S1, S2.
    apply (asleep_exec t (act s) ls s1 s2); auto.
    - rewrite S1. destruct H as (HJ & _). destruct (insert_split t (act s) _ (J_sort _ _ HJ)) as (a & b & _ & -> & _). apply in_or_app. right. now left.
    - rewrite S2. unfold updf. now rewrite Nat.eqb_refl.
  Qed.
End T.

(** ** The remote queue *)
Section R.
  Variable pr : nat -> prio.
  Definition Ro (r : list nat) (o : outcome st) : Prop := forall s, o = Next s -> rem s = r.
  Lemma Ro_next r s : rem s = r -> Ro r (Next s). Proof. now intros H x [= <-]. Qed.
  Lemma Ro_add r s f fr : rem s = r -> Ro r (add_ready pr s f fr).
  Proof. intros H. unfold add_ready. destruct (linked s f); [discriminate|]. now apply Ro_next. Qed.
  Lemma Ro_pop0 r s : rem s = r -> Ro r (pop0 s).
  Proof. intros H. unfold pop0. destruct (q0 s); [discriminate|]. destruct (_ =? _); [discriminate|]. now apply Ro_next. Qed.
  Lemma Ro_pop1 r s : rem s = r -> Ro r (pop1 s).
  Proof. intros H. unfold pop1. destruct (q1 s); [discriminate|]. destruct (_ =? _); [discriminate|]. now apply Ro_next. Qed.
  Lemma Ro_switch r s : rem s = r -> Ro r (switch pr s).
  Proof. intros H. unfold switch. destruct (is_back _); [now apply Ro_next|now apply Ro_pop0]. Qed.
  Lemma Ro_sleep r s t : rem s = r -> Ro r (add_sleep s t).
  Proof. intros H. unfold add_sleep. destruct (asleep _ _); [discriminate|]. now apply Ro_next. Qed.
  Lemma Ro_bind r o k : Ro r o -> (forall s, rem s = r -> Ro r (k s)) -> Ro r (bind o k).
  Proof. intros H K. destruct o; cbn [bind]; try discriminate. apply K. now apply H. Qed.
  Lemma Ro_sleepers r l now : forall s, rem s = r -> Ro r (sleepers pr l now s).
  Proof.
    induction l as [|[t f] l IH]; intros s H; cbn [sleepers]; [now apply Ro_next|]. destruct (now <? t)%Z; [now apply Ro_next|].
    destruct (linked s f); [discriminate|]. now apply IH.
  Qed.
  Lemma rem_step s l s' : step pr s l = Next s' ->
    rem s' = match l with PopRem => tl (rem s) | Remote o => if mem o (rem s) then rem s else rem s ++ [o] | _ => rem s end.
  Proof.
    revert s'. change (Ro (match l with PopRem => tl (rem s) | Remote o => if mem o (rem s) then rem s else rem s ++ [o] | _ => rem s end) (step pr s l)).
    destruct l as [o|o| | |y|t|f now|f| | | |now| |]; cbn [step];
      repeat match goal with
      | |- Ro _ (if ?b then _ else _) => destruct b
      | |- Ro _ (match ?y with YKeep => _ | YSleep _ => _ | YReady => _ end) => destruct y
      | |- Ro _ (match ?l with nil => _ | cons _ _ => _ end) => destruct l
      | |- Ro _ Stuck => discriminate
      | |- Ro _ Ub => discriminate
      | |- Ro _ (Next _) => apply Ro_next
      | |- Ro _ (add_ready _ _ _ _) => apply Ro_add
      | |- Ro _ (pop1 _) => apply Ro_pop1
      | |- Ro _ (pop0 _) => apply Ro_pop0
      | |- Ro _ (switch _ _) => apply Ro_switch
      | |- Ro _ (add_sleep _ _) => apply Ro_sleep
      | |- Ro _ (sleepers _ _ _ _) => apply Ro_sleepers
      | |- Ro _ (bind _ _) => apply Ro_bind
      | |- forall s, rem s = _ -> _ => intros
      | |- _ => assumption || reflexivity
      end.
  Qed.
  Lemma sched_remote_pf s l s' o : step pr s l = Next s' -> (l = Remote o \/ In o (rem s)) ->
    In o (rem s') \/ (l = PopRem /\ hd_error (rem s) = Some o).
  Proof.
    intros E H. apply rem_step in E. rewrite E. destruct H as [->|H].
    - left. destruct (mem o (rem s)) eqn:M; [rewrite c_mem in M; apply c_in; lia|]. apply in_or_app. right. now left.
    - destruct l; auto; [left|].
      + destruct (mem o0 (rem s)); auto. apply in_or_app. now left.
      + destruct (rem s) as [|f r]; [destruct H|]. destruct H as [->|H]; [right|left]; auto.
  Qed.
End R.

(** ** Refutations *)
Definition prA (f : nat) : prio := if f =? 2 then Back else Normal.
Definition prH (f : nat) : prio := if f =? 2 then High else Normal.

Lemma sched_dispatch_refuted_pf :
  exec (step prA) init [Start 2 false; Suspend; RunBack; Start 3 true; Suspend] = Ub /\
  exec (step prA) init [Start 2 true; Suspend; RunNormal] = Ub.
Proof. split; vm_compute; reflexivity. Qed.
Lemma sched_forever_refuted_pf :
  exists s, exec (step (fun _ => Normal)) init [Start 2 false; Wait tmax; RunNormal; Act 1; Suspend; RunNormal] = Next s /\
    act s = 1 /\ timed_out s 1 = true.
Proof. eexists. split; [vm_compute; reflexivity|]. split; vm_compute; reflexivity. Qed.
Lemma sched_high_refuted_pf :
  exists s s', exec (step prH) init [Start 3 false; Start 2 false; Suspend; Wait 5] = Next s /\ prH 2 = High /\ prH 3 = Normal /\ 
    step prH s (Sleepers 5) = Next s' /\ ready s = [3] /\ ready s' = [3; 2].
Proof. eexists. eexists. split; [vm_compute; reflexivity|]. do 2 (split; [reflexivity|]). split; [vm_compute; reflexivity|]. split; reflexivity. Qed.
