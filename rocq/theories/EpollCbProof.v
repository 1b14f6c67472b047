(** Proofs for EpollCbProps.v. *)
From Verif Require Import Util Conc EpollCbModel EpollCbSpec.
From Verif Require Import RingCbProof.
From Verif Require RingCbModel.
From Coq Require Import Lia.

Record K (s : st) : Prop := mk_K {
  k_chain : exists l, chain (ents s) (nfree s) l /\ NoDup l;
  k_armed : forall i c, In (i, c) (armed s) <-> nth_error (ents s) i = Some (Some c, None);
  k_ent : forall i c ix, nth_error (ents s) i = Some (Some c, ix) -> ix = None /\ c < nid s;
  k_len : 1 <= length (ents s)
}.
Definition B (s : st) : Prop :=
  (forall i e, In (i, e) (batch s) -> In (i, e) (armed s) \/ exists nx, nth_error (ents s) i = Some (None, nx)) /\
  (forall c e, mode s = Run c e -> c = e).

Lemma K_init n : 1 <= n -> K (init n).
Proof.
  intros H1. unfold init. split; cbn [ents nfree armed nid].
  - exists (seq 0 n). destruct n as [|n]; [lia|]. split.
    + apply (chain_seq _ 0 (S n)) with (i := 0); [|lia|lia]. intros i Hi. now apply linked_nth.
    + apply seq_NoDup.
  - intros i c. split; [easy|]. intros H. now apply linked_none in H.
  - intros i c ix H. now apply linked_none in H.
  - now rewrite linked_len.
Qed.

Lemma K_regrow s : K s -> nfree s = None -> K (regrow s).
Proof.
  intros [(l & C & ND) P2 P3 P4] En.
  set (n := length (ents s)) in *.
  assert (A1 : forall i, i < n -> nth_error (ents s ++ RingCbModel.linked n n) i = nth_error (ents s) i) by (intros; now apply nth_error_app1).
  assert (A2 : forall i, n <= i -> nth_error (ents s ++ RingCbModel.linked n n) i = nth_error (RingCbModel.linked n n) (i - n)) by (intros; now apply nth_error_app2).
  assert (A3 : forall i c ix, nth_error (ents s ++ RingCbModel.linked n n) i = Some (Some c, ix) <-> nth_error (ents s) i = Some (Some c, ix)).
  { intros i c ix. split; intros H.
    - destruct (Nat.lt_ge_cases i n); [now rewrite A1 in H|]. rewrite A2 in H by auto. now apply linked_none in H.
    - rewrite A1; auto. apply nth_error_Some. congruence. }
  unfold regrow. fold n. split; cbn [ents nfree armed nid].
  - exists (seq n n). split; [|apply seq_NoDup].
    replace (Some n) with (Some (n + 0)) by (f_equal; lia). replace (seq n n) with (seq (n + 0) n) by (f_equal; lia).
    apply (chain_seq _ n n); [|lia|lia]. intros i Hi. rewrite A2 by lia. replace (n + i - n) with i by lia. now apply linked_nth.
  - intros i c. rewrite A3. apply P2.
  - intros i c ix H. apply A3 in H. eauto.
  - rewrite app_length. lia.
Qed.

Lemma K_take s i : K s -> nfree s = Some i ->
  exists nx, nth_error (ents s) i = Some (None, nx) /\
    let s' := mk (set i (Some (nid s), None) (ents s)) nx (batch s) (mode s) ((i, nid s) :: armed s) (S (nid s)) in
    take_entry s = Next s' /\ K s'.
Proof.
  intros [(l & C & ND) P2 P3 P4] En. unfold take_entry. rewrite En in *. inversion C as [|i' nx l' Hi C']; subst.
  exists nx. split; [exact Hi|]. cbv zeta. rewrite Hi. split; [reflexivity|].
  assert (Li : i < length (ents s)) by (apply nth_error_Some; congruence). apply NoDup_cons_iff in ND as [Ni ND].
  split; cbn [ents nfree armed nid].
  - exists l'. split; [now apply chain_set|auto].
  - intros j c. destruct (Nat.eq_dec j i) as [->|Hj].
    + rewrite set_nth_error_eq by auto. cbn. rewrite P2. split.
      * intros [X|X]; [injection X as <-; reflexivity|]. rewrite Hi in X. discriminate X.
      * intros X. left. injection X as <-. reflexivity.
    + rewrite set_nth_error_neq by auto. cbn. rewrite P2. split; [intros [X|X]; [congruence|auto]|auto].
  - intros j c ix H. destruct (Nat.eq_dec j i) as [->|Hj].
    + rewrite set_nth_error_eq in H by auto. injection H as <- <-. split; auto; lia.
    + rewrite set_nth_error_neq in H by auto. destruct (P3 _ _ _ H). split; auto; lia.
  - rewrite set_length. auto.
Qed.

Lemma armed_nth s i c : K s -> In (i, c) (armed s) -> i < length (ents s).
Proof. intros HK H. apply (k_armed s HK) in H. apply nth_error_Some. congruence. Qed.

Lemma chain_in e o l i : chain e o l -> In i l -> exists nx, nth_error e i = Some (None, nx).
Proof. induction 1; cbn; intros A; [easy|]. destruct A as [->|A]; eauto. Qed.

Lemma K_disarm s i c : K s -> In (i, c) (armed s) ->
  let s' := mk (set i (None, nfree s) (ents s)) (Some i) (batch s) (mode s) (filter (fun p => negb (fst p =? i)) (armed s)) (nid s) in
  disarm s i = Next s' /\ K s'.
Proof.
  intros HK H. unfold disarm. assert (L := armed_nth s i c HK H).
  assert (X : existsb (fun p => fst p =? i) (armed s) = true) by (apply existsb_exists; exists (i, c); split; auto; apply Nat.eqb_refl).
  cbv zeta. rewrite X. rewrite (proj2 (Nat.ltb_lt _ _)) by auto. split; [reflexivity|].
  destruct HK as [(l & C & ND) P2 P3 P4]. apply P2 in H as Hi.
  split; cbn [ents nfree armed nid].
  - exists (i :: l). assert (Ni : ~ In i l) by (intros A; destruct (chain_in _ _ _ _ C A); congruence). split.
    + apply (ch_cons _ _ (nfree s)); [now rewrite set_nth_error_eq|now apply chain_set].
    + now constructor.
  - intros j d. rewrite filter_In. cbn. destruct (Nat.eqb_spec j i) as [->|Hj]; cbn.
    + rewrite set_nth_error_eq by auto. split; [easy|discriminate].
    + rewrite set_nth_error_neq by auto. rewrite P2. tauto.
  - intros j d ix A. destruct (Nat.eq_dec j i) as [->|Hj]; [rewrite set_nth_error_eq in A by auto; discriminate|].
    rewrite set_nth_error_neq in A by auto. eauto.
  - rewrite set_length. auto.
Qed.

Lemma in_armed_b s i : existsb (fun p => fst p =? i) (armed s) = true -> exists c, In (i, c) (armed s).
Proof. intros H. apply existsb_exists in H as ([j c] & A & E). cbn in E. apply Nat.eqb_eq in E. subst j. eauto. Qed.
Lemma pair_eqb_eq p q : pair_eqb p q = true -> p = q.
Proof. destruct p, q. unfold pair_eqb. cbn. intros H. apply andb_true_iff in H as [A C]. apply Nat.eqb_eq in A, C. now subst. Qed.

Lemma KB_arm s : K s -> B s -> calm s Arm = true -> match arm s with Next s' => K s' /\ B s' | Ub => False | Stuck => True end.
Proof.
  intros HK [B1 B2] HC. unfold arm. cbn in HC. destruct (nfree s) as [i|] eqn:En.
  - destruct (K_take s i HK En) as (nx & Hi & E & K'). rewrite E. split; [exact K'|]. split; cbn [batch mode armed ents]; auto.
    intros j e Hj. assert (j <> i). { intros ->. apply negb_true_iff in HC. assert (existsb (fun p => fst p =? i) (batch s) = true); [|congruence].
      apply existsb_exists. exists (i, e). split; auto. apply Nat.eqb_refl. }
    rewrite set_nth_error_neq by auto. destruct (B1 j e Hj); [left; now right|right; auto].
  - destruct (mode s) eqn:Em; [|discriminate]. assert (HR := K_regrow s HK En).
    destruct (K_take (regrow s) (length (ents s)) HR eq_refl) as (nx & Hi & E & K'). rewrite E. split; [exact K'|].
    split; cbn [batch mode armed ents regrow]; [|rewrite Em; discriminate].
    intros j e Hj. assert (j < length (ents s)).
    { destruct (B1 j e Hj) as [A|[ix A]]; [eapply armed_nth; eauto|apply nth_error_Some; congruence]. }
    rewrite set_nth_error_neq by lia. rewrite nth_error_app1 by auto. destruct (B1 j e Hj); [left; now right|right; auto].
Qed.

Lemma KB_step s l : K s /\ B s -> match cstep s l with Next s' => K s' /\ B s' | Ub => False | Stuck => True end.
Proof.
  intros [HK HB]. unfold cstep. destruct (calm s l) eqn:HC; [|exact I]. destruct l as [|i|ev| |]; cbn [step].
  - now apply KB_arm.
  - destruct (existsb (fun p => fst p =? i) (armed s)) eqn:Ex; [|unfold disarm; rewrite Ex; exact I].
    apply in_armed_b in Ex as [c Hc]. destruct (K_disarm s i c HK Hc) as [-> K']. split; [exact K'|]. destruct HB as [B1 B2].
    split; cbn [batch mode armed ents]; auto. assert (L := armed_nth s i c HK Hc). intros j e Hj. destruct (Nat.eq_dec j i) as [->|Hn].
    + right. rewrite set_nth_error_eq by auto. eauto.
    + rewrite set_nth_error_neq by auto. destruct (B1 j e Hj) as [A|A]; [left|auto]. apply filter_In. split; auto. cbn. now apply negb_true_iff, Nat.eqb_neq.
  - destruct (mode s) eqn:Em; [|exact I]. destruct (batch s) eqn:Eb; [|exact I]. destruct (forallb _ ev) eqn:Ef; [|exact I].
    split; [destruct HK; split; auto|]. split; [|discriminate]. cbn. intros i e H. left.
    rewrite forallb_forall in Ef. apply Ef in H. apply existsb_exists in H as (q & Hq & E). apply pair_eqb_eq in E. congruence.
  - destruct (mode s) eqn:Em; [|exact I]. unfold dispatch. destruct HB as [B1 B2]. destruct (batch s) as [|[i e] r] eqn:Eb; [exact I|].
    destruct (B1 i e) as [A|[nx A]]; [now left| |].
    + apply (k_armed s HK) in A. rewrite A. split; [destruct HK; split; auto|]. split; cbn; [intros j d H; apply B1; now right|congruence].
    + rewrite A. split; [destruct HK; split; auto|]. split; cbn; [intros j d H; apply B1; now right|congruence].
  - destruct (mode s) eqn:Em; [exact I|]. split; [destruct HK; split; auto|]. destruct HB as [B1 B2]. split; cbn; [auto|discriminate].
Qed.

Section N.
  Variable n : nat.
  Hypothesis Hn : 1 <= n.
  Lemma KB_init : K (init n) /\ B (init n).
  Proof. split; [now apply K_init|]. split; [easy|discriminate]. Qed.
  Lemma epoll_safe_pf : safe cstep (init n).
  Proof. apply (reach_inv cstep (fun s => K s /\ B s) (init n) KB_step KB_init). Qed.
  Lemma KB_reach s : reachable cstep (init n) s -> K s /\ B s.
  Proof. apply (reach_inv cstep (fun s => K s /\ B s) (init n) KB_step KB_init). Qed.

  Lemma epoll_own_pf s c e : reachable cstep (init n) s -> mode s = Run c e -> c = e.
  Proof. intros R. apply KB_reach in R as [_ [_ H]]. apply H. Qed.
  Lemma epoll_delivered_pf s i e r : reachable cstep (init n) s -> mode s = Out -> batch s = (i, e) :: r -> is_armed s i e ->
    exists s', step s Dispatch = Next s' /\ mode s' = Run e e /\ batch s' = r.
  Proof.
    intros R M Eb A. apply KB_reach in R as [HK _]. apply (k_armed s HK) in A. cbn [step]. rewrite M. unfold dispatch. rewrite Eb, A.
    eexists. split; [reflexivity|]. auto.
  Qed.
  Lemma epoll_skipped_pf s i e r : reachable cstep (init n) s -> mode s = Out -> batch s = (i, e) :: r -> ~ is_armed s i e ->
    exists s', step s Dispatch = Next s' /\ mode s' = Out /\ batch s' = r.
  Proof.
    intros R M Eb A. apply KB_reach in R as [HK [HB _]]. destruct (HB i e) as [X|[nx X]]; [rewrite Eb; now left|easy|].
    cbn [step]. rewrite M. unfold dispatch. rewrite Eb, X. eexists. split; [reflexivity|]. auto.
  Qed.
  Lemma epoll_arm_pf s s' : reachable cstep (init n) s -> cstep s Arm = Next s' ->
    (forall c, ~ is_armed s (arm_result s) c) /\ (forall i c, is_armed s' i c <-> (i = arm_result s /\ c = nid s) \/ is_armed s i c).
  Proof.
    intros R St. apply KB_reach in R as [HK _]. unfold cstep in St. destruct (calm s Arm); [|discriminate]. cbn [step] in St. unfold arm in St.
    unfold arm_result, is_armed. destruct (nfree s) as [i|] eqn:En.
    - destruct (K_take s i HK En) as (nx & Hi & E & _). rewrite E in St. injection St as <-. cbn. split.
      + intros c A. apply (k_armed s HK) in A. congruence.
      + intros j c. split; [intros [X|X]; [left; split; congruence|auto]|intros [[-> ->]|X]; auto].
    - destruct (mode s); [|discriminate]. destruct (K_take (regrow s) (length (ents s)) (K_regrow s HK En) eq_refl) as (nx & Hi & E & _).
      rewrite E in St. injection St as <-. cbn. split.
      + intros c A. apply (armed_nth s _ _ HK) in A. lia.
      + intros j c. split; [intros [X|X]; [left; split; congruence|auto]|intros [[-> ->]|X]; auto].
  Qed.
  Lemma epoll_disarm_pf s i s' : reachable cstep (init n) s -> step s (Disarm i) = Next s' ->
    forall j c, is_armed s' j c <-> j <> i /\ is_armed s j c.
  Proof.
    intros R St j c. cbn in St. unfold disarm in St. destruct (existsb _ _); [|discriminate]. destruct (_ <? _); [|discriminate]. injection St as <-.
    unfold is_armed. cbn. rewrite filter_In. cbn. rewrite negb_true_iff, Nat.eqb_neq. tauto.
  Qed.
End N.

Lemma epoll_own_refuted_pf : exists s c e, reachable step (init 512) s /\ mode s = Run c e /\ c <> e.
Proof.
  destruct (reach_obs step mode (init 512) [Arm; Arm; Wait [(0, 0); (1, 1)]; Dispatch; Disarm 1; Arm; Return; Dispatch] (Run 2 1)) as (s & R & E);
    [vm_compute; reflexivity|].
  exists s, 2, 1. auto.
Qed.
Lemma epoll_safe_refuted_pf : ~ safe step (init 512).
Proof. intros H. apply (H (repeat Arm 512 ++ [Wait [(7, 7)]; Dispatch; Arm])). vm_compute. reflexivity. Qed.
