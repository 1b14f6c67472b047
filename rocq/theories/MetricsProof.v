From Verif Require Import Util Conc MetricsModel MetricsSpec.
From Coq Require Import ZArith Permutation.

Lemma leqb_spec a b : leqb a b = true <-> a = b.
Proof. unfold leqb. match goal with |- context[if ?d then _ else _] => destruct d end; intuition congruence. Qed.

Definition bump (t : nat) (L : labels) (x : Z) (c : nat * labels * op) : Z :=
  let '(t', L', o) := c in if ((t' =? t)%nat && leqb L' L)%bool then opval o x else x.
Lemma given_snoc t L cs c : given t L (cs ++ [c]) = bump t L (given t L cs) c.
Proof. unfold given. rewrite fold_left_app. destruct c as [[t' L'] o]. reflexivity. Qed.
Lemma bump_eq t L x o : bump t L x (t, L, o) = opval o x.
Proof. unfold bump. rewrite Nat.eqb_refl. now rewrite (proj2 (leqb_spec L L) eq_refl). Qed.
Lemma bump_neq t L x t' L' o : t' <> t \/ L' <> L -> bump t L x (t', L', o) = x.
Proof.
  unfold bump. intros H. destruct (t' =? t) eqn:A; simpl; auto. destruct (leqb L' L) eqn:B; auto.
  apply Nat.eqb_eq in A. apply leqb_spec in B. tauto.
Qed.
Lemma given_none t L cs : (forall t' o, ~ In (t', L, o) cs) -> given t L cs = 0%Z.
Proof.
  induction cs as [|c cs IH] using rev_ind; intros H; auto. rewrite given_snoc. destruct c as [[t' L'] o].
  rewrite bump_neq. { apply IH. intros t2 o2 I. apply (H t2 o2). apply in_or_app. now left. }
  right. intros ->. apply (H t' o). apply in_or_app. right. now left.
Qed.

Lemma resize_nth v n i : i < n -> nth i (resize v n) 0%Z = nth i v 0%Z.
Proof.
  intros H. unfold resize. destruct (Nat.lt_ge_cases i (length v)) as [A|A].
  - rewrite app_nth1 by (rewrite firstn_length; lia).
    rewrite <- (firstn_skipn n v) at 2. rewrite app_nth1 by (rewrite firstn_length; lia). reflexivity.
  - rewrite (nth_overflow v) by lia. rewrite app_nth2 by (rewrite firstn_length; lia).
    destruct (nth_in_or_default (i - length (firstn n v)) (repeat 0%Z (n - length v)) 0%Z) as [I|E]; auto.
    now apply repeat_spec in I.
Qed.
Lemma resize_len v n : length (resize v n) = n.
Proof. unfold resize. rewrite app_length, firstn_length, repeat_length. lia. Qed.

Lemma write_some v id o v' : write v id o = Some v' -> id < length v /\ v' = set id (opval o (nth id v 0%Z)) v.
Proof.
  unfold write. destruct (nth_error v id) eqn:E; [|discriminate]. intros H. injection H as <-.
  split. { apply nth_error_Some. congruence. } now rewrite (nth_error_nth _ _ _ E).
Qed.
Lemma write_ok v id o : id < length v -> write v id o <> None.
Proof. unfold write. intros H. destruct (nth_error v id) eqn:E; [discriminate|]. apply nth_error_None in E. lia. Qed.

Section P.
  Variable hash : list N -> N.
  Variable U : labels -> Prop.
  Hypothesis Hap : apart hash U.
  Notation hof := (hash_of hash).

  Record J (n : nat) (s : st) : Prop := {
    j_len : length (thr s) = n;
    j_pend : forall t L o, In (t, L, o) (pend s) -> U L /\ t < n;
    j_gmap : forall h id, find (gmap s) h = Some id -> exists L, nth_error (gvals s) id = Some L /\ hof L = h;
    j_gval : forall id L, nth_error (gvals s) id = Some L -> find (gmap s) (hof L) = Some id /\ U L;
    j_tmap : forall t th h id, nth_error (thr s) t = Some th -> find (tmap th) h = Some id ->
      find (gmap s) h = Some id /\ id < length (tvec th);
    j_vec : forall t th, nth_error (thr s) t = Some th -> length (tvec th) <= length (gvals s);
    j_done : forall t L o, In (t, L, o) (done s) -> exists id, nth_error (gvals s) id = Some L;
    j_seen : forall id L, nth_error (gvals s) id = Some L -> exists t o, In (t, L, o) (done s);
    j_val : forall t th id L, nth_error (thr s) t = Some th -> nth_error (gvals s) id = Some L ->
      nth id (tvec th) 0%Z = given t L (done s);
    j_range : forall t L o, In (t, L, o) (done s) -> t < n
  }.

  Lemma J_init n : J n (init n).
  Proof.
    assert (X : forall A (i : nat) (x : A), nth_error [] i = Some x -> False) by (intros A [|i] x E; discriminate).
    assert (Y : forall t th, nth_error (repeat (mkT [] []) n) t = Some th -> th = mkT [] []).
    { intros t th E. apply nth_error_In in E. now apply repeat_spec in E. }
    constructor; unfold init; simpl; intros; try tauto; try (exfalso; eapply X; eauto; fail); try discriminate.
    - apply repeat_length.
    - rewrite (Y t th H) in H0. discriminate.
    - rewrite (Y t th H). simpl. lia.
  Qed.

  (** One thread's vector gets one write at the id of [L]. *)
  Lemma J_write n s t th0 th id L o v gm gv pe :
    J n s -> nth_error (thr s) t = Some th0 -> U L ->
    (forall x, In x pe -> In x (pend s)) ->
    (* the tables after the call *)
    (forall h i, find gm h = Some i -> exists L, nth_error gv i = Some L /\ hof L = h) ->
    (forall i K, nth_error gv i = Some K -> find gm (hof K) = Some i /\ U K) ->
    (forall h i, find (gmap s) h = Some i -> find gm h = Some i) ->
    (forall h i, find (tmap th) h = Some i -> find gm h = Some i /\ i < length (tvec th)) ->
    length (tvec th) <= length gv -> length (gvals s) <= length gv ->
    (forall i K, nth_error (gvals s) i = Some K -> nth_error gv i = Some K) ->
    (forall i K, nth_error gv i = Some K -> nth_error (gvals s) i = Some K \/ (i = id /\ K = L /\ i = length (gvals s))) ->
    nth_error gv id = Some L ->
    (forall i, nth i (tvec th) 0%Z = nth i (tvec th0) 0%Z) ->
    write (tvec th) id o = Some v ->
    J n (mk (set t (mkT (tmap th) v) (thr s)) gm gv pe (done s ++ [(t, L, o)])).
  Proof.
    intros HJ Ht HU Hpe Hg1 Hg2 Hgm Htm Hlv Hlg Hgv Hgv' Hid Hvec Hw.
    destruct HJ as [jl jp jg1 jg2 jt jv jd js jx jr].
    assert (Htn : t < n). { rewrite <- jl. apply nth_error_Some. congruence. }
    apply write_some in Hw. destruct Hw as [Hidl ->].
    assert (Th : forall t' th', nth_error (set t (mkT (tmap th) (set id (opval o (nth id (tvec th) 0%Z)) (tvec th))) (thr s)) t' = Some th' ->
               (t' = t /\ th' = mkT (tmap th) (set id (opval o (nth id (tvec th) 0%Z)) (tvec th))) \/ (t' <> t /\ nth_error (thr s) t' = Some th')).
    { intros t' th' E. destruct (Nat.eq_dec t' t) as [->|D].
      - rewrite set_nth_error_eq in E by (rewrite jl; exact Htn). injection E as <-. now left.
      - rewrite set_nth_error_neq in E by congruence. now right. }
    constructor; cbn [thr gmap gvals pend done].
    - now rewrite set_length.
    - intros t' L' o' I. exact (jp t' L' o' (Hpe _ I)).
    - exact Hg1.
    - exact Hg2.
    - intros t' th' h i E F. destruct (Th _ _ E) as [[-> ->]|[D E']].
      + cbn [tmap tvec] in *. rewrite set_length. exact (Htm h i F).
      + destruct (jt _ _ _ _ E' F). split; auto.
    - intros t' th' E. destruct (Th _ _ E) as [[-> ->]|[D E']].
      + cbn [tvec]. now rewrite set_length.
      + pose proof (jv _ _ E'). lia.
    - intros t' L' o' I. apply in_app_or in I. destruct I as [I|[I|[]]].
      + destruct (jd _ _ _ I) as [i Hi]. exists i. auto.
      + injection I as <- <- <-. eauto.
    - intros i K E. destruct (Hgv' _ _ E) as [E'|(-> & -> & _)].
      + destruct (js _ _ E') as (t' & o' & I). exists t', o'. apply in_or_app. now left.
      + exists t, o. apply in_or_app. right. now left.
    - intros t' th' i K E F. rewrite given_snoc.
      assert (Kid : i <> id -> K <> L).
      { intros D ->. destruct (Hg2 _ _ F) as [A _]. destruct (Hg2 _ _ Hid) as [B _]. congruence. }
      assert (Old : forall t2 th2, nth_error (thr s) t2 = Some th2 -> nth i (tvec th2) 0%Z = given t2 K (done s)).
      { intros t2 th2 E2. destruct (Hgv' _ _ F) as [F'|(-> & -> & G)]; [eauto|].
        rewrite given_none. { apply nth_overflow. rewrite G. eauto. }
        intros t3 o3 I. destruct (jd _ _ _ I) as [k Hk]. pose proof (Hgv _ _ Hk) as Hk'.
        destruct (Hg2 _ _ Hk') as [A _]. destruct (Hg2 _ _ Hid) as [B _].
        assert (k = id) by congruence. subst k.
        assert (id < length (gvals s)) by (apply nth_error_Some; congruence). lia. }
      destruct (Th _ _ E) as [[-> ->]|[D E']].
      + cbn [tvec]. destruct (Nat.eq_dec i id) as [->|D].
        * assert (K = L) by congruence. subst K. rewrite bump_eq.
          rewrite set_nth_eq by exact Hidl. now rewrite Hvec, (Old t th0 Ht).
        * rewrite set_nth_neq by congruence. rewrite bump_neq by (right; intros X; exact (Kid D (eq_sym X))).
          now rewrite Hvec, (Old t th0 Ht).
      + rewrite bump_neq by (left; congruence). exact (Old _ _ E').
    - intros t' L' o' I. apply in_app_or in I. destruct I as [I|[I|[]]]; [eauto|]. now injection I as <- <- <-.
  Qed.

  Definition lab_ok (l : lab) : Prop := match l with Call _ L _ => U L | Finish _ => True end.

  Lemma In_cut {A} (l : list A) i x : In x (firstn i l ++ skipn (S i) l) -> In x l.
  Proof.
    intros I. apply in_app_or in I. rewrite <- (firstn_skipn i l). apply in_or_app.
    destruct I as [I|I]; [now left|right]. destruct (skipn i l) eqn:E.
    - assert (skipn (S i) l = []). { apply skipn_all2. assert (X := f_equal (@length A) E). rewrite skipn_length in X. simpl in X. lia. }
      rewrite H in I. exact I.
    - right. replace l0 with (skipn (S i) l); auto. clear I. revert l E. induction i; intros [|b l] E; simpl in *; try congruence. apply IHi in E. exact E.
  Qed.

  Lemma J_step n s l : J n s -> lab_ok l -> calm hash s l = true ->
    match step hash s l with Next s' => J n s' | Ub => False | Stuck => True end.
  Proof.
    intros HJ HU HC. pose proof HJ as HJ0. destruct HJ0 as [jl jp jg1 jg2 jt jv jd js jx jr].
    destruct l as [t L o|i]; cbn [step].
    - destruct (nth_error (thr s) t) as [th|] eqn:Et; auto.
      destruct (find (tmap th) (hof L)) as [id|] eqn:Ef.
      + destruct (jt _ _ _ _ Et Ef) as [Eg Hl].
        destruct (write (tvec th) id o) as [v|] eqn:Ew; [|exact (write_ok _ _ _ Hl Ew)].
        destruct (jg1 _ _ Eg) as (K & EK & HK).
        assert (K = L). { apply Hap; auto. exact (proj2 (jg2 _ _ EK)). } subst K.
        refine (J_write n s t th th id L o v (gmap s) (gvals s) (pend s) HJ Et HU (fun x h => h) jg1 jg2 (fun h i e => e) _ (jv _ _ Et) (le_n _) (fun i K e => e) (fun i K e => or_introl e) EK (fun i => eq_refl) Ew).
        intros h i F. exact (jt _ _ _ _ Et F).
      + constructor; cbn [thr gmap gvals pend done]; auto.
        intros t' L' o' I. apply in_app_or in I. destruct I as [I|[I|[]]]; [eauto|]. injection I as <- <- <-.
        split; auto. rewrite <- jl. apply nth_error_Some. congruence.
    - destruct (nth_error (pend s) i) as [[[t L] o]|] eqn:Ep; auto.
      cbn [calm] in HC. rewrite Ep in HC.
      destruct (nth_error (thr s) t) as [th|] eqn:Et; auto.
      destruct (jp _ _ _ (nth_error_In _ _ Ep)) as [HUL _].
      unfold emplace. destruct (find (tmap th) (hof L)) as [id|] eqn:Ef.
      + destruct (jt _ _ _ _ Et Ef) as [Eg Hl].
        destruct (write (tvec th) id o) as [v|] eqn:Ew; [|exact (write_ok _ _ _ Hl Ew)].
        destruct (jg1 _ _ Eg) as (K & EK & HK).
        assert (K = L). { apply Hap; auto. exact (proj2 (jg2 _ _ EK)). } subst K.
        refine (J_write n s t th th id L o v (gmap s) (gvals s) _ HJ Et HUL (fun x h => In_cut _ _ _ h) jg1 jg2 (fun h i e => e) _ (jv _ _ Et) (le_n _) (fun i K e => e) (fun i K e => or_introl e) EK (fun i => eq_refl) Ew).
        intros h k F. exact (jt _ _ _ _ Et F).
      + destruct (find (gmap s) (hof L)) as [id|] eqn:Eg.
        * apply Nat.leb_le in HC. cbn [tmap tvec].
          destruct (write (resize (tvec th) (S id)) id o) as [v|] eqn:Ew;
            [|refine (write_ok _ _ _ _ Ew); rewrite resize_len; lia].
          destruct (jg1 _ _ Eg) as (K & EK & HK).
          assert (K = L). { apply Hap; auto. exact (proj2 (jg2 _ _ EK)). } subst K.
          refine (J_write n s t th (mkT ((hof L, id) :: tmap th) (resize (tvec th) (S id))) id L o v (gmap s) (gvals s) _ HJ Et HUL (fun x h => In_cut _ _ _ h) jg1 jg2 (fun h i e => e) _ _ (le_n _) (fun i K e => e) (fun i K e => or_introl e) EK _ Ew); cbn [tmap tvec].
          -- intros h k F. rewrite resize_len. cbn [find] in F. destruct (hof L =? h)%N eqn:Eh.
             ++ injection F as <-. apply N.eqb_eq in Eh. subst h. split; auto.
             ++ destruct (jt _ _ _ _ Et F). split; auto. lia.
          -- rewrite resize_len. assert (id < length (gvals s)) by (apply nth_error_Some; congruence). lia.
          -- intros k. destruct (Nat.lt_ge_cases k (S id)). { now apply resize_nth. }
             rewrite !nth_overflow; auto; [lia|rewrite resize_len; lia].
        * cbn [tmap tvec]. set (id := length (gvals s)) in *.
          destruct (write (resize (tvec th) (S id)) id o) as [v|] eqn:Ew;
            [|refine (write_ok _ _ _ _ Ew); rewrite resize_len; lia].
          assert (New : nth_error (gvals s ++ [L]) id = Some L).
          { unfold id. rewrite nth_error_app2, Nat.sub_diag by lia. reflexivity. }
          assert (Fresh : forall h k, find (gmap s) h = Some k -> hof L <> h) by congruence.
          refine (J_write n s t th (mkT ((hof L, id) :: tmap th) (resize (tvec th) (S id))) id L o v ((hof L, id) :: gmap s) (gvals s ++ [L]) _ HJ Et HUL (fun x h => In_cut _ _ _ h) _ _ _ _ _ _ _ _ New _ Ew); cbn [tmap tvec].
          -- intros h k F. cbn [find] in F. destruct (hof L =? h)%N eqn:Eh.
             ++ injection F as <-. apply N.eqb_eq in Eh. eauto.
             ++ destruct (jg1 _ _ F) as (K & EK & HK). exists K. split; auto.
                rewrite nth_error_app1; auto. apply nth_error_Some. congruence.
          -- intros k K F. cbn [find]. destruct (Nat.lt_ge_cases k id) as [A|A].
             ++ rewrite nth_error_app1 in F by exact A. destruct (jg2 _ _ F) as [B C]. split; auto.
                rewrite (proj2 (N.eqb_neq _ _) (Fresh _ _ B)). exact B.
             ++ assert (k = id). { assert (k < length (gvals s ++ [L])) by (apply nth_error_Some; congruence).
                  rewrite app_length in H. simpl in H. fold id in H. lia. }
                subst k. rewrite New in F. injection F as <-. rewrite N.eqb_refl. auto.
          -- intros h k F. cbn [find]. rewrite (proj2 (N.eqb_neq _ _) (Fresh _ _ F)). exact F.
          -- intros h k F. rewrite resize_len. cbn [find] in *. destruct (hof L =? h)%N eqn:Eh.
             ++ injection F as <-. auto.
             ++ destruct (jt _ _ _ _ Et F). split; auto. pose proof (jv _ _ Et). fold id in H1. lia.
          -- rewrite resize_len, app_length. simpl. fold id. lia.
          -- rewrite app_length. lia.
          -- intros k K F. rewrite nth_error_app1; auto. apply nth_error_Some. congruence.
          -- intros k K F. destruct (Nat.lt_ge_cases k id) as [A|A].
             ++ left. now rewrite nth_error_app1 in F by exact A.
             ++ right. assert (k = id). { assert (k < length (gvals s ++ [L])) by (apply nth_error_Some; congruence).
                  rewrite app_length in H. simpl in H. fold id in H. lia. }
                subst k. rewrite New in F. injection F as <-. auto.
          -- intros k. destruct (Nat.lt_ge_cases k (S id)). { now apply resize_nth. }
             pose proof (jv _ _ Et). fold id in H0.
             rewrite !nth_overflow; auto; [lia|rewrite resize_len; lia].
  Qed.

  Lemma calls_ok ls : (forall t L o, In (t, L, o) (calls ls) -> U L) -> Forall lab_ok ls.
  Proof.
    induction ls as [|l ls IH]; intros H; constructor.
    - destruct l; simpl; auto. apply (H t L o). simpl. auto.
    - apply IH. intros t L o I. apply (H t L o). unfold calls in *. simpl. apply in_or_app. now right.
  Qed.
  Lemma J_exec n ls : (forall t L o, In (t, L, o) (calls ls) -> U L) ->
    match exec (cstep hash) (init n) ls with Next s => J n s | Ub => False | Stuck => True end.
  Proof.
    intros H. apply calls_ok in H. generalize (J_init n). generalize (init n). induction ls as [|l ls IH]; intros s HJ; cbn [exec]; auto.
    inversion H; subst. unfold cstep at 1. destruct (calm hash s l) eqn:Ec; auto.
    pose proof (J_step n s l HJ H2 Ec) as X. destruct (step hash s l); auto. exact (IH H3 _ X).
  Qed.

  Lemma report_in s L v : In (L, v) (report s) <-> exists id, nth_error (gvals s) id = Some L /\ v = combined (thr s) id.
  Proof.
    unfold report. rewrite in_map_iff. split.
    - intros ([L' i] & E & I). simpl in E. injection E as <- <-. exists i. split; auto.
      apply In_nth_error in I. destruct I as [k Hk].
      assert (G : forall (l : list labels) b k, nth_error (combine l (seq b (length l))) k = Some (L', i) -> nth_error l (i - b) = Some L' /\ b <= i).
      { induction l as [|x l IH]; intros b k0 E; destruct k0; simpl in E; try discriminate.
        - injection E as -> ->. rewrite Nat.sub_diag. simpl. auto.
        - apply IH in E. destruct E as [E Hb]. split; [|lia]. replace (i - b) with (S (i - S b)) by lia. exact E. }
      destruct (G _ _ _ Hk) as [X _]. now rewrite Nat.sub_0_r in X.
    - intros (id & E & ->). exists (L, id). split; auto.
      assert (G : forall (l : list labels) b k, nth_error l k = Some L -> In (L, b + k) (combine l (seq b (length l)))).
      { induction l as [|x l IH]; intros b k F; destruct k; simpl in F; try discriminate.
        - injection F as ->. simpl. left. f_equal. lia.
        - simpl. right. replace (b + S k) with (S b + k) by lia. auto. }
      exact (G _ 0 _ E).
  Qed.
  Lemma report_fst s : map fst (report s) = gvals s.
  Proof.
    unfold report. rewrite map_map. cbn [fst].
    generalize 0 at 1. generalize (gvals s). induction l; intros; simpl; auto. now f_equal.
  Qed.
  Lemma combined_total n s id L : J n s -> nth_error (gvals s) id = Some L -> combined (thr s) id = total n L (done s).
  Proof.
    intros HJ E. unfold combined, total. f_equal. rewrite <- (j_len _ _ HJ).
    assert (G : forall ts b, (forall t th, nth_error ts t = Some th -> nth id (tvec th) 0%Z = given (b + t) L (done s)) ->
      map (fun th => nth id (tvec th) 0%Z) ts = map (fun t => given t L (done s)) (seq b (length ts))).
    { induction ts as [|x ts IH]; intros b H; simpl; auto. f_equal.
      - rewrite (H 0 x eq_refl). f_equal. lia.
      - apply IH. intros t th F. rewrite (H (S t) th F). f_equal. lia. }
    apply G. intros t th F. exact (j_val _ _ HJ _ _ _ _ F E).
  Qed.
  Lemma J_report n s : J n s -> NoDup (map fst (report s)) /\
    forall L v, In (L, v) (report s) <-> (exists t o, In (t, L, o) (done s)) /\ v = total n L (done s).
  Proof.
    intros HJ. split.
    - rewrite report_fst. apply NoDup_nth_error. intros i j Hi E.
      destruct (nth_error (gvals s) i) as [L|] eqn:Ei; [|apply nth_error_None in Ei; lia].
      destruct (j_gval _ _ HJ _ _ Ei) as [A _]. destruct (j_gval _ _ HJ _ _ (eq_sym E)) as [B _]. congruence.
    - intros L v. rewrite report_in. split.
      + intros (id & E & ->). split; [exact (j_seen _ _ HJ _ _ E)|]. exact (combined_total n s id L HJ E).
      + intros ((t & o & I) & ->). destruct (j_done _ _ HJ _ _ _ I) as [id E]. exists id. split; auto.
        symmetry. exact (combined_total n s id L HJ E).
  Qed.

  Lemma metrics_partial_pf n ls : (forall t L o, In (t, L, o) (calls ls) -> U L) ->
    exec (cstep hash) (init n) ls <> Ub /\
    forall s, exec (cstep hash) (init n) ls = Next s ->
      NoDup (map fst (report s)) /\
      forall L v, In (L, v) (report s) <-> (exists t o, In (t, L, o) (done s)) /\ v = total n L (done s).
  Proof.
    intros H. pose proof (J_exec n ls H) as X. split.
    - intros E. now rewrite E in X.
    - intros s E. rewrite E in X. exact (J_report n s X).
  Qed.

  (** One thread. *)
  Definition K1 (s : st) : Prop := forall th h id, nth_error (thr s) 0 = Some th -> find (gmap s) h = Some id -> find (tmap th) h = Some id.
  Lemma one_calm s l : J 1 s -> K1 s -> calm hash s l = true.
  Proof.
    intros HJ HK. destruct l as [|i]; auto. cbn [calm]. destruct (nth_error (pend s) i) as [[[t L] o]|] eqn:Ep; auto.
    destruct (j_pend _ _ HJ _ _ _ (nth_error_In _ _ Ep)) as [_ Ht]. assert (t = 0) by lia. subst t.
    destruct (nth_error (thr s) 0) as [th|] eqn:Et; auto.
    destruct (find (gmap s) (hof L)) eqn:Eg; [|destruct (find (tmap th) (hof L)); auto].
    now rewrite (HK th _ _ Et Eg).
  Qed.
  Lemma one_K s l s' : J 1 s -> K1 s -> step hash s l = Next s' -> K1 s'.
  Proof.
    intros HJ HK E. unfold K1 in *.
    assert (T0 : forall t th x th', nth_error (thr s) t = Some th -> nth_error (set t x (thr s)) 0 = Some th' -> t = 0 /\ th' = x).
    { intros t th x th' A B. assert (t < 1). { rewrite <- (j_len _ _ HJ). apply nth_error_Some. congruence. }
      assert (t = 0) by lia. subst t. rewrite set_nth_error_eq in B by (rewrite (j_len _ _ HJ); lia). split; congruence. }
    destruct l as [t L o|i]; cbn [step] in E.
    - destruct (nth_error (thr s) t) as [th|] eqn:Et; [|discriminate].
      destruct (find (tmap th) (hof L)) as [id|] eqn:Ef.
      + destruct (write (tvec th) id o); [|discriminate]. injection E as <-. cbn [thr gmap]. intros th' h k A B.
        destruct (T0 _ _ _ _ Et A) as [-> ->]. cbn [tmap]. eauto.
      + injection E as <-. exact HK.
    - destruct (nth_error (pend s) i) as [[[t L] o]|] eqn:Ep; [|discriminate].
      destruct (nth_error (thr s) t) as [th|] eqn:Et; [|discriminate].
      unfold emplace in E. destruct (find (tmap th) (hof L)) as [id|] eqn:Ef.
      + destruct (write (tvec th) id o); [|discriminate]. injection E as <-. cbn [thr gmap]. intros th' h k A B.
        destruct (T0 _ _ _ _ Et A) as [-> ->]. cbn [tmap]. eauto.
      + destruct (find (gmap s) (hof L)) as [id|] eqn:Eg; cbn [tmap tvec] in E.
        * destruct (write _ id o); [|discriminate]. injection E as <-. cbn [thr gmap]. intros th' h k A B.
          destruct (T0 _ _ _ _ Et A) as [-> ->]. cbn [tmap find]. destruct (hof L =? h)%N eqn:Eh; eauto.
          apply N.eqb_eq in Eh. congruence.
        * destruct (write _ _ o); [|discriminate]. injection E as <-. cbn [thr gmap]. intros th' h k A B.
          destruct (T0 _ _ _ _ Et A) as [-> ->]. cbn [tmap find] in *. destruct (hof L =? h)%N eqn:Eh; eauto.
  Qed.
  Lemma one_exec ls : (forall t L o, In (t, L, o) (calls ls) -> U L) ->
    exec (step hash) (init 1) ls = exec (cstep hash) (init 1) ls.
  Proof.
    intros H. apply calls_ok in H. assert (X : J 1 (init 1) /\ K1 (init 1)).
    { split; [apply J_init|]. intros th h id A B. discriminate. }
    revert X. generalize (init 1). induction ls as [|l ls IH]; intros s [HJ HK]; cbn [exec]; auto.
    inversion H; subst. unfold cstep at 1. rewrite (one_calm s l HJ HK).
    pose proof (J_step 1 s l HJ H2 (one_calm s l HJ HK)) as X. pose proof (one_K s l) as Y.
    destruct (step hash s l) as [| |s']; auto.
  Qed.
End P.

(** Nothing is lost between a call and its end. *)
Lemma cut_perm {A} (l : list A) i x : nth_error l i = Some x -> Permutation l (x :: firstn i l ++ skipn (S i) l).
Proof.
  revert i. induction l as [|a l IH]; intros [|i] E; simpl in E; try discriminate.
  - injection E as ->. reflexivity.
  - simpl. rewrite perm_swap. constructor. exact (IH i E).
Qed.
Lemma step_calls hash s l s' : step hash s l = Next s' ->
  Permutation (pend s' ++ done s') (calls [l] ++ pend s ++ done s).
Proof.
  intros E. destruct l as [t L o|i]; cbn [step] in E.
  - destruct (nth_error (thr s) t) as [th|] eqn:Et; [|discriminate].
    destruct (find (tmap th) (hash_of hash L)) as [id|] eqn:Ef.
    + destruct (write (tvec th) id o); [|discriminate]. injection E as <-. cbn [pend done calls flat_map app].
      rewrite app_assoc. rewrite <- Permutation_cons_append. reflexivity.
    + injection E as <-. cbn [pend done calls flat_map app]. rewrite <- Permutation_cons_append. reflexivity.
  - destruct (nth_error (pend s) i) as [[[t L] o]|] eqn:Ep; [|discriminate].
    destruct (nth_error (thr s) t) as [th|] eqn:Et; [|discriminate].
    destruct (emplace hash th (gmap s) (gvals s) L) as [[[th' gm] gv] id].
    destruct (write (tvec th') id o); [|discriminate]. injection E as <-. cbn [pend done calls flat_map app].
    rewrite app_assoc, <- Permutation_cons_append.
    apply (Permutation_app_tail (done s)) with (1 := Permutation_sym (cut_perm _ _ _ Ep)).
Qed.
Lemma metrics_calls_pf hash n ls s : exec (step hash) (init n) ls = Next s -> Permutation (calls ls) (pend s ++ done s).
Proof.
  intros E. assert (G : forall ls s0 s, exec (step hash) s0 ls = Next s -> Permutation (calls ls ++ pend s0 ++ done s0) (pend s ++ done s)).
  { clear. induction ls as [|l ls IH]; intros s0 s E; cbn [exec] in E. { injection E as <-. reflexivity. }
    destruct (step hash s0 l) as [| |s1] eqn:E1; try discriminate. apply step_calls in E1. apply IH in E.
    rewrite <- E, E1. replace (calls (l :: ls)) with (calls [l] ++ calls ls) by (unfold calls; simpl; now rewrite app_nil_r).
    rewrite !app_assoc. apply Permutation_app_tail. apply Permutation_app_tail. apply Permutation_app_comm. }
  apply G in E. simpl in E. now rewrite app_nil_r in E.
Qed.

Lemma fold_add_map0 {A} (l : list A) : fold_right Z.add 0%Z (map (fun _ => 0%Z) l) = 0%Z.
Proof. induction l; simpl; lia. Qed.
Lemma total_snoc_add n L cs t L' v : t < n -> total n L (cs ++ [(t, L', Add v)]) = (total n L cs + if leqb L' L then v else 0)%Z.
Proof.
  intros Ht. unfold total.
  assert (G : forall k b, fold_right Z.add 0%Z (map (fun u => given u L (cs ++ [(t, L', Add v)])) (seq b k)) =
    (fold_right Z.add 0%Z (map (fun u => given u L cs) (seq b k)) + if leqb L' L then (if ((b <=? t)%nat && (t <? b + k)%nat)%bool then v else 0) else 0)%Z).
  { induction k; intros b; cbn [seq map fold_right].
    - destruct (leqb L' L); auto. destruct (b <=? t) eqn:A; auto. destruct (t <? b + 0) eqn:B; auto.
      apply Nat.leb_le in A. apply Nat.ltb_lt in B. lia.
    - rewrite IHk, given_snoc. unfold bump. destruct (leqb L' L); [|rewrite andb_false_r; lia]. rewrite andb_true_r.
      destruct (t =? b) eqn:Q; [apply Nat.eqb_eq in Q|apply Nat.eqb_neq in Q]; cbn [opval].
      + subst t. rewrite (proj2 (Nat.leb_gt (S b) b)), (proj2 (Nat.leb_le b b)), (proj2 (Nat.ltb_lt b (b + S k))) by lia. simpl. lia.
      + destruct (S b <=? t) eqn:A1; [apply Nat.leb_le in A1|apply Nat.leb_gt in A1].
        * rewrite (proj2 (Nat.leb_le b t)) by lia. replace (b + S k) with (S b + k) by lia. lia.
        * rewrite (proj2 (Nat.leb_gt b t)) by lia. simpl. lia. }
  rewrite G. simpl. rewrite (proj2 (Nat.ltb_lt t n) Ht). reflexivity.
Qed.
Lemma increments_total n L cs : (forall t L' o, In (t, L', o) cs -> t < n /\ exists v, o = Add v) -> total n L cs = increments L cs.
Proof.
  induction cs as [|[[t L'] o] cs IH] using rev_ind; intros H.
  - unfold total, increments, given. simpl. apply fold_add_map0.
  - destruct (H t L' o) as [Ht [v ->]]. { apply in_or_app. right. now left. }
    rewrite total_snoc_add, IH by (auto; intros t2 L2 o2 I; apply (H t2 L2 o2); apply in_or_app; now left).
    unfold increments. rewrite map_app, fold_right_app. cbn [map fold_right].
    generalize (if leqb L' L then v else 0)%Z as w. clear. intros w.
    induction (map (fun c : nat * labels * op => match c with (_, L', Add v) => if leqb L' L then v else 0 | _ => 0 end)%Z cs); simpl; lia.
Qed.

Lemma exec_cons {S L} (st : S -> L -> outcome S) s l s' ls o : st s l = Next s' -> exec st s' ls = o -> exec st s (l :: ls) = o.
Proof. intros A B. cbn [exec]. now rewrite A. Qed.
