(** Proofs for FdTabProps.v. *)
From Verif Require Import Util Conc FdTabModel FdTabSpec.
From Coq Require Import ZArith Lia.

Lemma find_some l : forall i k, find_free l i = Some k -> i <= k /\ nth_error l k = Some (-1)%Z /\ forall j, i <= j < k -> nth_error l j <> Some (-1)%Z.
Proof.
  induction l as [|x l IH]; intros i k H; [discriminate|]. cbn in H. destruct i as [|i].
  - destruct (Z.eqb_spec x (-1)) as [->|Hx].
    + injection H as <-. split; [lia|]. split; [reflexivity|lia].
    + destruct (find_free l 0) as [m|] eqn:E; [|discriminate]. injection H as <-. destruct (IH 0 m E) as (A & B & C).
      split; [lia|]. split; [exact B|]. intros [|j] Hj; [cbn; congruence|cbn; apply C; lia].
  - destruct (find_free l i) as [m|] eqn:E; [|discriminate]. injection H as <-. destruct (IH i m E) as (A & B & C).
    split; [lia|]. split; [exact B|]. intros [|j] Hj; [lia|cbn; apply C; lia].
Qed.
Lemma find_none l : forall i, find_free l i = None -> forall j, i <= j -> nth_error l j <> Some (-1)%Z.
Proof.
  induction l as [|x l IH]; intros i H j Hj; [destruct j; discriminate|]. cbn in H. destruct i as [|i].
  - destruct (Z.eqb_spec x (-1)) as [->|Hx]; [discriminate|]. destruct (find_free l 0) eqn:E; [discriminate|].
    destruct j; cbn; [congruence|]. apply (IH 0 E). lia.
  - destruct (find_free l i) eqn:E; [discriminate|]. destruct j; [lia|]. cbn. apply (IH i E). lia.
Qed.

Definition used (l : list Z) : nat := length (filter (fun x => negb (x =? -1)%Z) l).
Lemma used_le l : used l <= length l.
Proof. unfold used. induction l as [|x l IH]; cbn; [lia|]. destruct (negb _); cbn; lia. Qed.
Lemma used_full l : (forall j, nth_error l j <> Some (-1)%Z) -> used l = length l.
Proof.
  unfold used. induction l as [|x l IH]; intros H; [reflexivity|]. cbn. destruct (Z.eqb_spec x (-1)) as [->|Hx]; [now destruct (H 0)|].
  cbn. f_equal. apply IH. intros j. exact (H (S j)).
Qed.
Lemma used_set l : forall k x y, nth_error l k = Some x ->
  used (set k y l) + (if (x =? -1)%Z then 0 else 1) = used l + (if (y =? -1)%Z then 0 else 1).
Proof.
  unfold used. induction l as [|z l IH]; intros k x y H; [destruct k; discriminate|]. destruct k as [|k].
  - injection H as ->. cbn. destruct (y =? -1)%Z, (x =? -1)%Z; cbn; lia.
  - cbn in H. specialize (IH k x y H). cbn. destruct (z =? -1)%Z; cbn; lia.
Qed.

Record J (n : nat) (s : st) : Prop := mk_J {
  j_len : length (tbl s) = n /\ length (ktbl s) = n;
  j_nxt : nxt s <= n;
  j_low : forall j, j < nxt s -> nth_error (tbl s) j <> Some (-1)%Z;
  j_live : forall k fd, In (k, fd) (live s) -> (0 <= fd)%Z /\ nth_error (tbl s) k = Some fd /\ nth_error (ktbl s) k = Some fd;
  j_nd : NoDup (map fst (live s));
  j_ktbl : forall k fd, nth_error (ktbl s) k = Some fd -> fd <> (-1)%Z -> In (k, fd) (live s);
  j_used : used (tbl s) = length (live s) + fails s;
  j_cnt : cnt s = length (live s)
}.

Lemma J_init n : J n (init n).
Proof.
  assert (A : forall k fd, nth_error (repeat (-1)%Z n) k = Some fd -> fd = (-1)%Z).
  { intros k fd H. apply nth_error_In in H. now apply repeat_spec in H. }
  unfold init. split; cbn; rewrite ?repeat_length; auto; try lia; try easy.
  - constructor.
  - unfold used. induction n; cbn; auto. apply IHn. intros k fd H. apply nth_error_In in H. now apply repeat_spec in H.
Qed.

Lemma filter_map_fst (f : nat -> bool) (l : list (nat * Z)) : map fst (filter (fun p => f (fst p)) l) = filter f (map fst l).
Proof. induction l as [|[a b] l IH]; cbn; auto. destruct (f a); cbn; now rewrite IH. Qed.
Lemma filter_one (l : list nat) k : NoDup l -> In k l -> S (length (filter (fun a => negb (a =? k)) l)) = length l.
Proof.
  induction 1 as [|x l Nx ND IH]; intros H; [easy|]. cbn. destruct H as [->|H].
  - rewrite Nat.eqb_refl. cbn. f_equal. clear -Nx. induction l as [|y l IH]; auto. cbn.
    destruct (Nat.eqb_spec y k) as [->|]; [now destruct Nx; left|]. cbn. f_equal. apply IH. intros ?. apply Nx. now right.
  - destruct (Nat.eqb_spec x k) as [->|]; [easy|]. cbn. f_equal. auto.
Qed.

Lemma J_step n s l : J n s -> match step s l with Next s' => J n s' | Ub => False | Stuck => True end.
Proof.
  intros HJ. pose proof HJ as [[P1 P1'] P2 P3 P4 P5 P6 P7 P8]. destruct l as [fd ok|k ok]; cbn [step].
  - destruct (Z.leb_spec 0 fd) as [Hfd|]; [|exact I]. unfold reg.
    destruct (Nat.ltb_spec (length (tbl s)) (nxt s)); [lia|].
    destruct (find_free (tbl s) (nxt s)) as [k|] eqn:Ek; [|exact HJ].
    destruct (find_some _ _ _ Ek) as (A & B & C). assert (Lk : k < n) by (rewrite <- P1; apply nth_error_Some; congruence).
    assert (Nk : forall fd', ~ In (k, fd') (live s)) by (intros fd' X; destruct (P4 k fd' X) as (Y & Z & _); rewrite B in Z; injection Z as <-; lia).
    assert (Us := used_set (tbl s) k (-1)%Z fd B). cbn in Us. destruct (Z.eqb_spec fd (-1)) as [|_]; [lia|].
    assert (Low : forall j, j <= k -> nth_error (set k fd (tbl s)) j <> Some (-1)%Z).
    { intros j Hj. destruct (Nat.eq_dec j k) as [->|Hn]; [rewrite set_nth_error_eq by lia; intros X; injection X as X; lia|].
      rewrite set_nth_error_neq by auto. destruct (Nat.lt_ge_cases j (nxt s)); [auto|apply C; lia]. }
    destruct ok; split; cbn [tbl ktbl nxt live fails cnt]; rewrite ?set_length; auto.
    + intros j Hj. apply Low. lia.
    + intros j fd' [X|X].
      * injection X as <- <-. rewrite !set_nth_error_eq by lia. auto.
      * destruct (Nat.eq_dec j k) as [->|Hn]; [now apply Nk in X|]. rewrite !set_nth_error_neq by auto. auto.
    + cbn. constructor; auto. intros X. apply in_map_iff in X as ([a b] & X & Y). cbn in X. subst a. now apply Nk in Y.
    + intros j fd' X Y. destruct (Nat.eq_dec j k) as [->|Hn].
      * rewrite set_nth_error_eq in X by lia. injection X as <-. now left.
      * rewrite set_nth_error_neq in X by auto. right. auto.
    + cbn. lia.
    + cbn. lia.
    + lia.
    + intros j Hj. apply Low. lia.
    + intros j fd' X. destruct (Nat.eq_dec j k) as [->|Hn]; [now apply Nk in X|]. rewrite !set_nth_error_neq by auto. auto.
    + lia.
  - destruct (existsb _ (live s)) eqn:Ex; [|exact I]. apply existsb_exists in Ex as ([k' fd] & Hk & E). cbn in E. apply Nat.eqb_eq in E. subst k'.
    destruct (P4 k fd Hk) as (A & B & C). unfold unreg. rewrite B. destruct ok; [|exact I].
    assert (Lk : k < n) by (rewrite <- P1; apply nth_error_Some; congruence).
    assert (Us := used_set (tbl s) k fd (-1)%Z B). cbn in Us. destruct (Z.eqb_spec fd (-1)) as [|_]; [lia|].
    assert (Len : S (length (filter (fun p : nat * Z => negb (fst p =? k)) (live s))) = length (live s)).
    { rewrite <- (map_length fst (filter _ _)), (filter_map_fst (fun a => negb (a =? k))), <- (map_length fst (live s)). apply filter_one; auto.
      apply in_map_iff. exists (k, fd). auto. }
    split; cbn [tbl ktbl nxt live fails cnt]; rewrite ?set_length; auto.
    + destruct (Nat.ltb_spec k (nxt s)); lia.
    + intros j Hj. assert (j <> k) by (destruct (Nat.ltb_spec k (nxt s)); lia). rewrite set_nth_error_neq by auto.
      apply P3. destruct (Nat.ltb_spec k (nxt s)); lia.
    + intros j fd' X. apply filter_In in X as [X Y]. cbn in Y. apply negb_true_iff, Nat.eqb_neq in Y. rewrite !set_nth_error_neq by auto. auto.
    + rewrite (filter_map_fst (fun a => negb (a =? k))). now apply NoDup_filter.
    + intros j fd' X Y. destruct (Nat.eq_dec j k) as [->|Hn].
      * rewrite set_nth_error_eq in X by lia. injection X as <-. easy.
      * rewrite set_nth_error_neq in X by auto. apply filter_In. split; [auto|]. cbn. now apply negb_true_iff, Nat.eqb_neq.
    + lia.
    + lia.
Qed.

Section N.
  Variable n : nat.
  Lemma fdtab_safe_pf : safe step (init n).
  Proof. apply (reach_inv step (J n) (init n) (J_step n) (J_init n)). Qed.
  Lemma J_reach s : reachable step (init n) s -> J n s.
  Proof. apply (reach_inv step (J n) (init n) (J_step n) (J_init n)). Qed.

  Lemma fdtab_fresh_pf s fd ok k s' : reachable step (init n) s -> reg_result s ok = Some k -> step s (Reg fd ok) = Next s' ->
    ~ held s k /\ holds s' k fd /\ (forall j g, j <> k -> holds s' j g <-> holds s j g).
  Proof.
    intros R E St. apply J_reach in R as [[P1 P1'] P2 P3 P4 P5 P6 P7 P8]. unfold reg_result in E. cbn in St.
    destruct (Z.leb_spec 0 fd) as [Hfd|]; [|discriminate]. unfold reg in St. destruct (_ <? _); [discriminate|].
    destruct (find_free (tbl s) (nxt s)) as [m|] eqn:Ek; [|discriminate]. destruct ok; [|discriminate]. injection E as ->. injection St as <-.
    destruct (find_some _ _ _ Ek) as (A & B & C). unfold held, holds. cbn. split; [|split].
    - intros [g X]. destruct (P4 k g X) as (Y & Z & _). rewrite B in Z. injection Z as <-. lia.
    - now left.
    - intros j g Hj. split; [intros [X|X]; [congruence|auto]|auto].
  Qed.
  Lemma fdtab_translate_pf s k fd : reachable step (init n) s -> holds s k fd ->
    translate s k = Some fd /\ unreg_result s k = Some fd /\ nth_error (ktbl s) k = Some fd.
  Proof. intros R H. apply J_reach in R as HJ. destruct (j_live n s HJ k fd H) as (A & B & C). auto. Qed.
  Lemma fdtab_unreg_pf s k s' : step s (Unreg k true) = Next s' -> ~ held s' k /\ (forall j g, j <> k -> holds s' j g <-> holds s j g).
  Proof.
    cbn. destruct (existsb _ _); [|discriminate]. unfold unreg. destruct (nth_error (tbl s) k); [|discriminate]. intros E. injection E as <-.
    unfold held, holds. cbn. split.
    - intros [g X]. apply filter_In in X as [_ X]. cbn in X. now rewrite Nat.eqb_refl in X.
    - intros j g Hj. rewrite filter_In. cbn. rewrite (proj2 (Nat.eqb_neq _ _)) by auto. cbn. tauto.
  Qed.
  Lemma fdtab_full_pf s : reachable step (init n) s -> reg_result s true = None -> length (live s) + fails s = n.
  Proof.
    intros R E. apply J_reach in R as [[P1 P1'] P2 P3 P4 P5 P6 P7 P8]. unfold reg_result in E.
    destruct (find_free (tbl s) (nxt s)) eqn:Ek; [discriminate|]. rewrite <- P7, <- P1. apply used_full. intros j.
    destruct (Nat.lt_ge_cases j (nxt s)); [auto|]. eapply find_none; eauto.
  Qed.
  Lemma fdtab_kernel_pf s k fd : reachable step (init n) s -> nth_error (ktbl s) k = Some fd -> fd = (-1)%Z \/ holds s k fd.
  Proof. intros R H. apply J_reach in R as HJ. destruct (Z.eq_dec fd (-1)); [now left|right]. now apply (j_ktbl n s HJ). Qed.
  Lemma fdtab_count_pf s : reachable step (init n) s -> cnt s = length (live s) /\ NoDup (map fst (live s)).
  Proof. intros R. apply J_reach in R as HJ. split; [apply (j_cnt n s HJ)|apply (j_nd n s HJ)]. Qed.

  (** [m] failing registrations leak the first [m] slots. *)
  Lemma leak m : m <= n -> exists s, exec step (init n) (repeat (Reg 5 false) m) = Next s /\ live s = [] /\ fails s = m.
  Proof.
    induction m as [|m IH]; intros H; [exists (init n); auto|]. destruct IH as (s & E & L & F); [lia|].
    replace (repeat (Reg 5 false) (S m)) with (repeat (Reg 5 false) m ++ [Reg 5 false]).
    2: { symmetry. apply (repeat_cons m). }
    rewrite exec_app, E. cbn [exec step]. assert (R : reachable step (init n) s) by (eexists; exact E).
    change (0 <=? 5)%Z with true. cbn [negb]. apply J_reach in R as R'. unfold reg.
    destruct (Nat.ltb_spec (length (tbl s)) (nxt s)) as [X|X]; [destruct R' as [[? ?] ? ? ? ? ? ? ?]; lia|].
    destruct (find_free (tbl s) (nxt s)) as [k|] eqn:Ek.
    - eexists. split; [reflexivity|]. cbn. auto.
    - exfalso. assert (Y := fdtab_full_pf s R). unfold reg_result in Y. rewrite Ek in Y. specialize (Y eq_refl). rewrite L in Y. cbn in Y. lia.
  Qed.
  Lemma fdtab_leak_pf : exists s, reachable step (init n) s /\ live s = [] /\ reg_result s true = None.
  Proof.
    destruct (leak n (Nat.le_refl n)) as (s & E & L & F). assert (R : reachable step (init n) s) by (eexists; exact E).
    exists s. split; auto. split; auto. unfold reg_result. destruct (find_free (tbl s) (nxt s)) as [k|] eqn:Ek; auto. exfalso.
    apply J_reach in R as [[P1 P1'] P2 P3 P4 P5 P6 P7 P8]. rewrite L, F in P7. cbn in P7.
    destruct (find_some _ _ _ Ek) as (_ & B & _).
    assert (X := used_set (tbl s) k (-1)%Z 0%Z B). cbn in X. assert (Y := used_le (set k 0%Z (tbl s))). rewrite set_length in Y. lia.
  Qed.
End N.
