From Verif Require Import Util Conc EcProof MonModel MonSpec MonProof MonWake MonLoc BarrierModel BarrierSpec.

Definition bown (t : nat) (l : bloc) : bool :=
  match l with BIn | BNtf | BTest _ | BWait _ | BOut _ | KSet | KUnl => true | _ => false end.
Definition bwants (t : nat) (l : bloc) (c : bst) : bool :=
  match l with BTest cy => negb (cy =? cycle c)%N || (cycle c =? size_max)%N | _ => false end.
Definition bowes (t : nat) (l : bloc) : bool := match l with BNtf | KUnl | KNtf => true | _ => false end.

Local Arguments Nat.ltb : simpl never.
Local Arguments N.eqb : simpl never.
Local Arguments N.modulo : simpl never.
Lemma barrier_paired NP : paired (bcode NP) bown.
Proof.
  intros t l. destruct l; cbn; auto; intros c n c' l' H.
  - destruct (t <? NP); injection H; intros; subst; reflexivity.
  - destruct (_ =? 0)%N; injection H; intros; subst; reflexivity.
  - injection H; intros; subst. destruct (_ || _); reflexivity.
  - injection H; intros; subst. reflexivity.
  - injection H; intros; subst. reflexivity.
Qed.
Lemma barrier_sane NP : sane (bcode NP).
Proof.
  intros t l. destruct l; cbn; auto; try discriminate.
  - intros c n. destruct (t <? NP); discriminate.
  - intros c n. destruct (_ =? 0)%N; discriminate.
Qed.

Lemma barrier_discipline NP : cv_discipline (bcode NP) bown bwants bowes.
Proof.
  intros t l. destruct l; cbn; auto; try (split; [reflexivity || discriminate|intros; discriminate]); intros c n c' l' H.
  - destruct (t <? NP); injection H; intros; subst; cbn; repeat split; auto; try discriminate;
    try (intros u k E1 E2; destruct k; cbn in *; congruence); intros; destruct k; reflexivity.
  - destruct (_ =? 0)%N; injection H; intros; subst; cbn; repeat split; auto; try discriminate.
    intros u k E1 E2; destruct k; cbn in *; congruence.
  - injection H; intros; subst. cbn. destruct (_ || _) eqn:E; cbn; repeat split; auto; try discriminate; try congruence.
    intros k [= <-]. exact E.
  - injection H; intros; subst; cbn; repeat split; auto; try discriminate;
    try (intros u k E1 E2; destruct k; cbn in *; congruence); intros; destruct k; reflexivity.
  - injection H; intros; subst; cbn; repeat split; auto; try discriminate.
Qed.

Lemma sumn_all1 f n : (forall i, i < n -> f i <= 1) -> n <= sumn f n -> forall i, i < n -> f i = 1.
Proof.
  induction n; simpl; intros H S i Hi; [lia|].
  assert (A := sumn_le f n 1 ltac:(auto)). assert (B := H n ltac:(lia)).
  destruct (Nat.eq_dec i n) as [->|]; [lia|]. apply IHn; auto; lia.
Qed.

Section BarrierProof.
  Variable NP : nat.
  Hypothesis NP1 : 0 < NP.
  Hypothesis NP2 : (N.of_nat NP < two64)%N.
  (** The participants are the only fibers. *)
  Notation step := (step NP (bcode NP)).

  Definition arr (c : bst) (t : nat) (l : bloc) : nat := match l with BLock | BIn => pred (ent c t) | _ => ent c t end.
  Definition ext (c : bst) (t : nat) (l : bloc) : list bool :=
    ret c t ++ match l with BNtf => [true] | BOut r | BRet r => [r] | _ => [] end.
  Definition loc_ok (R : nat) (c : bst) (t : nat) (l : bloc) : Prop :=
    match l with
    | BIdle => length (ret c t) = ent c t /\ ent c t = R
    | BLock | BIn => S (length (ret c t)) = ent c t /\ ent c t = S R
    | BTest cy | BWait cy => S (length (ret c t)) = ent c t /\ R <= ent c t <= S R /\ cy = N.of_nat (pred (ent c t))
    | BNtf | BOut _ | BRet _ => S (length (ret c t)) = ent c t /\ ent c t = R
    | _ => False
    end.
  Record BI (c : bst) (at_ : nat -> bloc) (R : nat) (W : list nat) : Prop := mkBI {
    b_cy : cycle c = N.of_nat R;
    b_R : (N.of_nat R < size_max)%N;
    b_cur : (1 <= current c)%N;
    b_sum : (N.of_nat (sumn (fun t => arr c t (at_ t) - R)%nat NP) + current c = N.of_nat NP)%N;
    b_loc : forall t, t < NP -> loc_ok R c t (at_ t);
    b_W : length W = R;
    b_win : forall t r, nth_error W r = Some t <-> t < NP /\ nth_error (ext c t (at_ t)) r = Some true
  }.
  Definition BInv (s : mst bst bloc) : Prop :=
    (forall t, t < NP -> (N.of_nat (ent (cs s) t) < size_max)%N) -> exists R W, BI (cs s) (at_ s) R W.

  Lemma BI_ext c at1 at2 R W : BI c at1 R W -> (forall t, at2 t = at1 t) -> BI c at2 R W.
  Proof.
    intros [] E. constructor; auto.
    - rewrite <- b_sum0. do 2 f_equal. apply sumn_ext. intros. now rewrite E.
    - intros. rewrite E. auto.
    - intros t r. rewrite E. auto.
  Qed.
  Lemma ent_mono s l s' t : step s l = Next s' -> ent (cs s) t <= ent (cs s') t.
  Proof.
    intros H. destruct l as [v c]. destruct (mon_move _ _ _ _ _ _ H) as [_ [l f n c' l' E Ec Ef Ecs E1 E2 E3|? ? ? Ecs|l E E1 E2 Ecs E3|Ecs E1]];
      try (rewrite Ecs; auto; fail).
    rewrite Ecs. clear Ecs. destruct l; cbn [bcode] in Ec; try discriminate; injection Ec; clear Ec; intros; subst f; cbv zeta in Ef.
    - destruct (v <? NP); injection Ef; intros; subst; cbn; auto. destruct (Nat.eq_dec t v) as [->|]; [rewrite upd_eq|rewrite upd_neq by auto]; lia.
    - destruct (_ =? 0)%N; injection Ef; intros; subst; cbn; auto.
    - injection Ef; intros; subst; cbn; auto.
    - injection Ef; intros; subst; cbn; auto.
    - injection Ef; intros; subst; cbn; auto.
  Qed.

  (** A fiber moves without a call-relevant change. *)
  Lemma BI_move c at1 at2 R W t : BI c at1 R W -> (forall u, u <> t -> at2 u = at1 u) ->
    arr c t (at2 t) = arr c t (at1 t) -> (forall r, nth_error (ext c t (at2 t)) r = Some true <-> nth_error (ext c t (at1 t)) r = Some true) -> loc_ok R c t (at2 t) -> BI c at2 R W.
  Proof.
    intros [] E E1 E2 E3. constructor; auto.
    - rewrite <- b_sum0. do 2 f_equal. apply sumn_ext. intros i _. destruct (Nat.eq_dec i t) as [->|]; [now rewrite E1|now rewrite E].
    - intros u Hu. destruct (Nat.eq_dec u t) as [->|]; auto. rewrite E; auto.
    - intros u r. rewrite b_win0. destruct (Nat.eq_dec u t) as [->|]; [rewrite E2; tauto|rewrite E; tauto].
  Qed.

  Lemma nth_snoc {A} (l : list A) x r y : nth_error (l ++ [x]) r = Some y <-> nth_error l r = Some y \/ r = length l /\ x = y.
  Proof.
    destruct (Nat.lt_ge_cases r (length l)) as [H|H].
    - rewrite nth_error_app1 by auto. split; auto. intros [X|[X _]]; auto. lia.
    - rewrite nth_error_app2 by auto. assert (N : nth_error l r = None) by now apply nth_error_None. rewrite N.
      destruct (r - length l) eqn:D; simpl.
      + split. intros [= ->]. right. split; auto; lia. intros [X|[_ ->]]; congruence.
      + split. destruct n; discriminate. intros [X|[X _]]; [discriminate|lia].
  Qed.

  Lemma b_step s l s' : no_try s -> BInv s -> step s l = Next s' -> BInv s'.
  Proof.
    intros NT B H Hb. assert (Hb0 : forall t, t < NP -> (N.of_nat (ent (cs s) t) < size_max)%N).
    { intros t Ht. assert (X := ent_mono s l s' t H). specialize (Hb t Ht). lia. }
    specialize (B Hb0).
    destruct B as (R & W & B). destruct l as [v c].
    destruct (mon_move _ _ _ _ _ _ H) as [Hv [l f n c' l' E Ec Ef Ecs E1 E2 E3|kt kf E ? ? ? ?|l E E1 E2 Ecs E3|Ecs E1]].
    - rewrite Ecs in *. clear Ecs. assert (LO := b_loc _ _ _ _ B v Hv). rewrite E1 in LO.
      destruct l; cbn [bcode] in Ec; try discriminate; injection Ec; clear Ec; intros; subst f; cbv zeta in Ef.
      + (* a new call *)
        rewrite (proj2 (Nat.ltb_lt v NP) Hv) in Ef. revert E2; injection Ef; clear Ef; intros ? ?; subst l' c'; intros E2. destruct LO as [LO1 LO2].
        exists R, W. destruct B. constructor; cbn; auto.
        * rewrite <- b_sum0. do 2 f_equal. apply sumn_ext. intros i _. destruct (Nat.eq_dec i v) as [->|Ne].
          -- rewrite E2, E1. cbn. rewrite upd_eq. reflexivity.
          -- rewrite E3 by auto. unfold arr. cbn. rewrite upd_neq by auto. reflexivity.
        * intros u Hu. destruct (Nat.eq_dec u v) as [->|Ne].
          -- rewrite E2. cbn. rewrite upd_eq. auto.
          -- rewrite E3 by auto. specialize (b_loc0 u Hu). unfold loc_ok. cbn. rewrite upd_neq by auto. exact b_loc0.
        * intros u r. rewrite b_win0. destruct (Nat.eq_dec u v) as [->|Ne]; [rewrite E2, E1|rewrite E3 by auto]; reflexivity.
      + (* arrival *)
        cbn in LO. destruct LO as [LO1 LO2]. assert (SU := b_sum _ _ _ _ B). assert (CU := b_cur _ _ _ _ B).
        assert (EC : ((current (cs s) + (two64 - 1)) mod two64 = current (cs s) - 1)%N).
        { replace (current (cs s) + (two64 - 1))%N with ((current (cs s) - 1) + 1 * two64)%N by (unfold two64 in *; lia).
          rewrite N.mod_add by (unfold two64; lia). apply N.mod_small. unfold two64 in *. lia. }
        assert (Av : arr (cs s) v (at_ s v) - R = 0) by (rewrite E1; cbn; lia).
        assert (A1 : forall u, u < NP -> R <= arr (cs s) u (at_ s u) <= S R).
        { intros u Hu. assert (X := b_loc _ _ _ _ B u Hu). destruct (at_ s u); cbn in X; cbn; try tauto; lia. }
        change (current (cs s) + 18446744073709551615)%N with (current (cs s) + (two64 - 1))%N in Ef; rewrite EC in Ef. destruct (N.eqb_spec (current (cs s) - 1) 0) as [Z|Z]; revert E2; injection Ef; clear Ef; intros ? ?; subst l' c'; intros E2.
        * (* the last one *)
          assert (All : forall u, u < NP -> u <> v -> arr (cs s) u (at_ s u) = S R).
          { set (g := fun u => if u =? v then 1 else arr (cs s) u (at_ s u) - R).
            assert (G := sumn_chg g (fun t => arr (cs s) t (at_ s t) - R) v NP Hv).
            assert (G1 : forall i, i <> v -> g i = arr (cs s) i (at_ s i) - R)
              by (intros i Hi; unfold g; now rewrite (proj2 (Nat.eqb_neq i v) Hi)).
            specialize (G G1). cbn beta in G. rewrite Av in G. unfold g in G at 2. rewrite Nat.eqb_refl in G.
            intros u Hu Ne. assert (X := sumn_all1 g NP). 
            assert (Y : g u = 1). { apply X; auto.
              - intros i Hi. unfold g. destruct (i =? v); auto. specialize (A1 i Hi). lia.
              - lia. }
            rewrite G1 in Y by auto. lia. }
          assert (Esum : sumn (fun t => arr (cs s) t (at_ s' t) - S R) NP = 0).
          { rewrite (sumn_ext _ (fun _ => 0)). clear; induction NP; simpl; auto. rewrite IHn. auto.
            intros i Hi. destruct (Nat.eq_dec i v) as [->|Ne]; [rewrite E2; cbn; lia|].
            rewrite E3 by auto. rewrite All by auto. lia. }
          assert (HbR : (N.of_nat (S R) < size_max)%N).
          { assert (X := Hb v Hv). cbn in X. rewrite LO2 in X. exact X. }
          exists (S R), (W ++ [v]). constructor; cbn.
          -- rewrite (b_cy _ _ _ _ B). rewrite N.mod_small. lia. unfold size_max, two64 in *. lia.
          -- auto.
          -- lia.
          -- change (N.of_nat (sumn (fun t => arr (cs s) t (at_ s' t) - S R)%nat NP) + N.of_nat NP = N.of_nat NP)%N. rewrite Esum. lia.
          -- intros u Hu. destruct (Nat.eq_dec u v) as [->|Ne]; [rewrite E2; cbn; auto|].
             rewrite E3 by auto. specialize (All u Hu Ne). assert (X := b_loc _ _ _ _ B u Hu).
             destruct (at_ s u) eqn:Eu; cbn in X, All; cbn; try lia; try (destruct X as (X1 & X2 & X3); repeat split; auto; lia).
          -- rewrite app_length, (b_W _ _ _ _ B). simpl. lia.
          -- intros u r. rewrite nth_snoc, (b_win _ _ _ _ B), (b_W _ _ _ _ B).
             destruct (Nat.eq_dec u v) as [->|Ne].
             ++ rewrite E2, E1. unfold ext. cbn. rewrite app_nil_r, nth_snoc. assert (length (ret (cs s) v) = R) by lia. rewrite H0. tauto.
             ++ rewrite E3 by auto. unfold ext; cbn. assert (v <> u) by congruence. tauto.
        * exists R, W. assert (G := sumn_chg (fun t => arr (cs s) t (at_ s' t) - R) (fun t => arr (cs s) t (at_ s t) - R) v NP Hv).
          cbn beta in G. rewrite Av, E2 in G. cbn [arr] in G. specialize (G ltac:(intros i Hi; cbn beta; now rewrite E3)).
          assert (CY := b_cy _ _ _ _ B).
          constructor; cbn.
          -- exact CY.
          -- apply B.
          -- lia.
          -- change (N.of_nat (sumn (fun t => arr (cs s) t (at_ s' t) - R)%nat NP) + (current (cs s) - 1) = N.of_nat NP)%N. lia.
          -- intros u Hu. destruct (Nat.eq_dec u v) as [->|Ne].
             ++ rewrite E2. cbn. split; auto. split; [lia|]. rewrite CY. f_equal. lia.
             ++ rewrite E3 by auto. exact (b_loc _ _ _ _ B u Hu).
          -- apply B.
          -- intros u r. rewrite (b_win _ _ _ _ B). destruct (Nat.eq_dec u v) as [->|Ne]; [rewrite E2, E1|rewrite E3 by auto]; reflexivity.
      + (* the predicate *)
        cbn in LO. destruct LO as (LO1 & LO2 & LO3). revert E2; injection Ef; clear Ef; intros EL ?; subst c'; intros E2. exists R, W.
        assert (SZ := b_R _ _ _ _ B). assert (CY := b_cy _ _ _ _ B).
        apply (BI_move _ (at_ s) _ _ _ v); auto; rewrite ?E1, ?E2; rewrite <- EL; rewrite CY;
          rewrite (proj2 (N.eqb_neq (N.of_nat R) size_max)) by lia; rewrite orb_false_r;
          destruct (N.eqb_spec cy (N.of_nat R)) as [Q|Q]; cbn; try tauto.
        * intros r. unfold ext. rewrite app_nil_r, nth_snoc. intuition discriminate.
        * split; auto. assert (pred (ent (cs s) v) <> R) by (intros Q'; apply Q; congruence). lia.
      + (* return *)
        revert E2; injection Ef; clear Ef; intros ? ?; subst l' c'; intros E2. cbn in LO. destruct LO as [LO1 LO2].
        exists R, W. destruct B. constructor; cbn; auto.
        * rewrite <- b_sum0. do 2 f_equal. apply sumn_ext. intros i _. destruct (Nat.eq_dec i v) as [->|Ne].
          -- rewrite E2, E1. reflexivity.
          -- rewrite E3 by auto. reflexivity.
        * intros u Hu. destruct (Nat.eq_dec u v) as [->|Ne].
          -- rewrite E2. cbn. rewrite upd_eq, app_length. simpl. lia.
          -- rewrite E3 by auto. specialize (b_loc0 u Hu). unfold loc_ok. cbn. rewrite upd_neq by auto. exact b_loc0.
        * intros u i. rewrite b_win0. destruct (Nat.eq_dec u v) as [->|Ne]; [rewrite E2, E1|rewrite E3 by auto]; unfold ext; cbn.
          -- rewrite upd_eq, app_nil_r. reflexivity.
          -- rewrite upd_neq by auto. reflexivity.
      + cbn in LO. contradiction.
    - exfalso. assert (X := NT v). rewrite E in X. contradiction.
    - rewrite Ecs. exists R, W. assert (LO := b_loc _ _ _ _ B v Hv). rewrite E1 in LO.
      apply (BI_move _ (at_ s) _ _ _ v); auto; rewrite ?E1;
      destruct l; cbn in E2; try contradiction; rewrite E2; cbn; cbn in LO; tauto.
    - rewrite Ecs. exists R, W. now apply (BI_ext _ (at_ s)).
  Qed.

  Notation init := (binit NP).
  Lemma b_own0 (t : nat) : bown t ((fun _ => BIdle) t) = false. Proof. reflexivity. Qed.
  Lemma b_no_try s : reachable step init s -> no_try s.
  Proof. eapply (no_try_pf NP (bcode NP) bown (barrier_paired NP) _ _ b_own0). intros t [] kt kf; discriminate. Qed.
  Lemma sumn_0 f n : (forall i, i < n -> f i = 0) -> sumn f n = 0.
  Proof. induction n; simpl; intros; auto. rewrite IHn, H; auto. Qed.
  Lemma b_init : BInv init.
  Proof.
    intros _. exists 0, []. constructor; cbn; auto.
    - reflexivity.
    - lia.
    - rewrite sumn_0; auto.
    - intros t [|r]; split; try discriminate; intros [_ X]; discriminate.
  Qed.
  Lemma b_inv s : reachable step init s -> BInv s.
  Proof.
    intros R. apply (reach_step step (fun s => reachable step init s /\ BInv s) init); auto.
    - intros x l y [A B] H. split. eapply reachable_step; eauto. eapply b_step; eauto. now apply b_no_try.
    - split. apply reachable_refl. apply b_init.
  Qed.

  Definition bounded (s : mst bst bloc) : Prop := forall t, t < NP -> (N.of_nat (entered s t) < size_max)%N.

  Lemma loc_ret R c t l : loc_ok R c t l -> length (ret c t) <= R /\ R <= ent c t <= S R.
  Proof. destruct l; cbn; intros; try contradiction; lia. Qed.

  Lemma barrier_rounds_pf s t u : reachable step init s -> bounded s -> t < NP -> u < NP ->
    returned s t <= entered s u.
  Proof.
    intros Re Bo Ht Hu. destruct (b_inv s Re Bo) as (R & W & B).
    assert (A1 := loc_ret _ _ _ _ (b_loc _ _ _ _ B t Ht)). assert (A2 := loc_ret _ _ _ _ (b_loc _ _ _ _ B u Hu)).
    unfold returned, entered. lia.
  Qed.

  Lemma ext_ret c t l r v : nth_error (ret c t) r = Some v -> nth_error (ext c t l) r = Some v.
  Proof. intros H. unfold ext. rewrite nth_error_app1; auto. apply nth_error_Some. congruence. Qed.

  Lemma barrier_one_true_pf s t u r : reachable step init s -> bounded s -> t < NP -> u < NP ->
    answer s t r = Some true -> answer s u r = Some true -> t = u.
  Proof.
    intros Re Bo Ht Hu E1 E2. destruct (b_inv s Re Bo) as (R & W & B).
    assert (X1 : nth_error W r = Some t) by (apply (b_win _ _ _ _ B); split; auto; now apply ext_ret).
    assert (X2 : nth_error W r = Some u) by (apply (b_win _ _ _ _ B); split; auto; now apply ext_ret).
    congruence.
  Qed.
  Lemma barrier_some_true_pf s r : reachable step init s -> bounded s -> (forall u, u < NP -> r < returned s u) ->
    exists t, t < NP /\ answer s t r = Some true.
  Proof.
    intros Re Bo Hr. destruct (b_inv s Re Bo) as (R & W & B).
    assert (A := loc_ret _ _ _ _ (b_loc _ _ _ _ B 0 NP1)). assert (Hr0 := Hr 0 NP1). unfold returned in *.
    destruct (nth_error W r) as [t|] eqn:E.
    - exists t. apply (b_win _ _ _ _ B) in E. destruct E as [Ht E]. split; auto. unfold ext in E.
      rewrite nth_error_app1 in E; auto.
    - apply nth_error_None in E. rewrite (b_W _ _ _ _ B) in E. lia.
  Qed.

  Lemma barrier_released_pf s k : reachable step init s -> bounded s -> (forall t, t < NP -> at_rest s t) ->
    (forall u, u < NP -> k <= entered s u) -> forall t, t < NP -> k <= returned s t.
  Proof.
    intros Re Bo Q En. destruct (b_inv s Re Bo) as (R & W & B).
    assert (Out : forall t, NP <= t -> pc s t = Run BIdle)
      by (intros t Ht; exact (mon_out NP (bcode NP) bown (barrier_paired NP) _ _ b_own0 s t Re Ht)).
    assert (Q2 : forall u, at_rest s u) by (intros u; destruct (Nat.lt_ge_cases u NP); auto; left; auto).
    assert (NL : forall t, ~ lock_suspended s t).
    { intros t. apply (mutex_quiet_pf NP (bcode NP) bown (barrier_paired NP) _ _ b_own0 s t Re).
      intros u. destruct (Q2 u) as [H|[H|H]]; auto. left. exists BIdle. auto. }
    (* who is suspended waits for the current round *)
    assert (X : forall t, t < NP -> pc s t = Run BIdle \/ at_ s t = BTest (cycle (cs s))).
    { intros t Ht. destruct (Q t Ht) as [H|[H|[l H]]]; auto. now destruct (NL t). right.
      assert (LO := b_loc _ _ _ _ B t Ht). unfold at_ in *. rewrite H in *. cbn [tail] in *.
      destruct (cv_src NP (bcode NP) bown (barrier_paired NP) _ _ b_own0 s t l Re) as [l1 Hl1]; [now rewrite H|].
      destruct l1; try discriminate. injection Hl1; intros <-.
      destruct (bwants t (BTest cy) (cs s)) eqn:Wa.
      - destruct (cv_no_lost_wakeup_pf NP (bcode NP) bown bwants bowes (barrier_paired NP) (barrier_discipline NP) _ _ b_own0 s t _ Re H Wa) as [u Hu].
        unfold owing in Hu. destruct (Q2 u) as [P|[[k' P]|[k' P]]]; rewrite P in Hu; try discriminate.
        destruct (NL u). exists k'. auto.
      - cbn in Wa. apply orb_false_iff in Wa. destruct Wa as [Wa _]. apply negb_false_iff, N.eqb_eq in Wa. congruence. }
    intros t Ht. destruct (Nat.le_gt_cases k (returned s t)) as [|Lt]; auto. exfalso.
    assert (LO := b_loc _ _ _ _ B t Ht). assert (Hk := En t Ht). unfold returned, entered in *.
    destruct (X t Ht) as [P|P].
    - unfold at_ in LO. rewrite P in LO. cbn in LO. lia.
    - rewrite P in LO. cbn in LO. destruct LO as (L1 & L2 & L3). rewrite (b_cy _ _ _ _ B) in L3. apply Nat2N.inj in L3.
      assert (SU := b_sum _ _ _ _ B). assert (CU := b_cur _ _ _ _ B).
      assert (F : NP <= sumn (fun t => arr (cs s) t (at_ s t) - R) NP).
      { clear SU. assert (G : forall n, n <= NP -> n <= sumn (fun t => arr (cs s) t (at_ s t) - R) n).
        { induction n; simpl; intros Hn; auto. specialize (IHn ltac:(lia)).
          assert (LU := b_loc _ _ _ _ B n Hn). assert (EU := En n Hn).
          assert (1 <= arr (cs s) n (at_ s n) - R); [|lia].
          destruct (X n Hn) as [P'|P']; [unfold at_ in *; rewrite P' in *; cbn in *; lia|rewrite P' in *; cbn in *; lia]. }
        now apply G. }
      lia.
  Qed.

  Lemma barrier_safe_pf : safe step init.
  Proof.
    apply safe_reach. intros s [t c] Re H.
    assert (I := mon_inv NP (bcode NP) bown (barrier_paired NP) _ _ b_own0 s Re).
    destruct (step_ub NP (bcode NP) bown (barrier_paired NP) s t c I H) as (l & E & [(f & Ec & Ef)|(all & k & Ec & Eo & _)]).
    - assert (X := barrier_sane NP t l). rewrite Ec in X. now apply (X (cs s) c).
    - assert (NK : t < NP -> match at_ s t with KLock | KSet | KUnl | KNtf => False | _ => True end).
      { intros Ht. unfold at_.
        refine (proj2 (pointwise NP (bcode NP) bown (barrier_paired NP) _ _ b_own0
          (fun t p => t < NP -> match p with TSpin _ _ | TTest _ _ => False | _ => True end /\
             match tail p with KLock | KSet | KUnl | KNtf => False | _ => True end) _ _ _ s Re t Ht)).
        - clear. intros t p p' Hp Ht O _. destruct (Hp Ht) as [Hn Hl]. clear Hp. destruct O; cbn [tail] in *; try contradiction; auto;
            try (destruct l; cbn [bcode] in H; try discriminate; try contradiction; injection H; intros; subst; auto; fail).
          + split; auto. destruct l; cbn [bcode] in H; try discriminate; try contradiction; injection H; clear H; intros; subst f.
            * rewrite (proj2 (Nat.ltb_lt t NP) Ht) in H0. injection H0; intros EL _; rewrite <- EL; exact Logic.I.
            * cbv zeta in H0. destruct (_ =? 0)%N; injection H0; intros EL _; rewrite <- EL; exact Logic.I.
            * injection H0; intros EL _; rewrite <- EL. destruct (_ || _); exact Logic.I.
            * injection H0; intros EL _; rewrite <- EL; exact Logic.I.
          + destruct b; auto.
          + destruct a; auto.
        - intros u p p' Hp [->|[->|(j & -> & ->)]] Hu; auto. rewrite woke_tail. destruct (Hp Hu). split; auto.
          destruct p as [| | | | | | | |[]|[]|[]|]; auto.
        - cbn. auto. }
      destruct (Nat.lt_ge_cases t NP) as [Ht|Ht].
      + specialize (NK Ht). unfold at_ in NK. rewrite E in NK. cbn in NK. destruct l; cbn in Ec; try discriminate; cbn in Eo; try discriminate; contradiction.
      + unfold MonModel.step in H. cbn [fst] in H. rewrite (proj2 (Nat.leb_le _ _) Ht) in H. discriminate.
  Qed.
End BarrierProof.

(** With any number of further fibers that call Cancel(). *)
Lemma barrier_cancelled_pf NP NT s : reachable (step NT (bcode NP)) (binit NP) s ->
  (forall t, at_rest s t) -> cycle (cs s) = size_max -> forall t, pc s t = Run BIdle.
Proof.
  intros Re Q Cy t.
  assert (NL : forall t, ~ lock_suspended s t).
  { intros u. apply (mutex_quiet_pf NT (bcode NP) bown (barrier_paired NP) _ _ b_own0 s u Re).
    intros v. destruct (Q v) as [H|[H|H]]; auto. left. exists BIdle. auto. }
  destruct (Q t) as [H|[H|[l H]]]; auto. now destruct (NL t). exfalso.
  destruct (cv_src NT (bcode NP) bown (barrier_paired NP) _ _ b_own0 s t l Re) as [l1 Hl1]; [now rewrite H|].
  destruct l1; try discriminate. injection Hl1; intros <-.
  destruct (cv_no_lost_wakeup_pf NT (bcode NP) bown bwants bowes (barrier_paired NP) (barrier_discipline NP) _ _ b_own0 s t _ Re H) as [u Hu].
  { cbn. rewrite Cy, N.eqb_refl, orb_true_r. reflexivity. }
  unfold owing in Hu. destruct (Q u) as [P|[[k' P]|[k' P]]]; rewrite P in Hu; try discriminate.
  destruct (NL u). exists k'. auto.
Qed.
