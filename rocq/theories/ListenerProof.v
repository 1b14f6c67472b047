(** Proofs for ListenerProps.v. *)
From Verif Require Import Util Conc ListenerModel ListenerSpec.
From Coq Require Import Lia.

Definition count {A} (f : A -> bool) (l : list A) : nat := length (filter f l).
Lemma count_set {A} (f : A -> bool) l : forall k x y, nth_error l k = Some x ->
  count f (set k y l) + (if f x then 1 else 0) = count f l + (if f y then 1 else 0).
Proof.
  unfold count. induction l as [|z l IH]; intros k x y H; [destruct k; discriminate|]. destruct k as [|k].
  - injection H as ->. cbn. destruct (f y), (f x); cbn; lia.
  - cbn in H. specialize (IH k x y H). cbn. destruct (f z); cbn; lia.
Qed.
Lemma count_le {A} (f : A -> bool) l : count f l <= length l.
Proof. unfold count. induction l as [|x l IH]; cbn; [lia|]. destruct (f x); cbn; lia. Qed.
Lemma count_pos {A} (f : A -> bool) l k x : nth_error l k = Some x -> f x = true -> 1 <= count f l.
Proof.
  intros H E. unfold count. apply nth_error_In in H. assert (X : In x (filter f l)) by (apply filter_In; auto). destruct (filter f l); [easy|cbn; lia].
Qed.

(** Holds a unit of the gate. *)
Definition inm (x : cpc) : bool := match x with Back _ _ | Hold _ _ | Gone _ | Done _ => true | _ => false end.
(** Holds the lock. *)
Definition hasm (x : cpc) : bool := match x with Hold _ _ | Gone _ | Done _ => true | _ => false end.
Definition int (x : tpc) : bool := match x with TOut => false | _ => true end.
Definition hast (x : tpc) : bool := match x with TRun _ | TRel _ => true | _ => false end.

Record J (n m : nat) (s : st) : Prop := mk_J {
  j_len : length (conns s) = n /\ length (travs s) = m;
  j_gate : gate s = (N.of_nat (count inm (conns s)) * kMigrateVal + N.of_nat (count int (travs s)))%N;
  j_excl : count hasm (conns s) = 0 \/ count hast (travs s) = 0;
  j_oc : oc s = N.of_nat (served s + match acc s with AReject => 1 | AWait => 0 end);
  j_hi : (N.of_nat (served s) <= hi s)%N /\ (maxc s <= hi s)%N /\ (hi s < two32)%N
}.

Lemma on_thread_iff x t : on_thread x t <-> linked x = Some t.
Proof. destruct x; cbn; split; intros H; try discriminate; try contradiction; congruence. Qed.
Lemma in_list_iff t l : forall k c, In c (in_list t k l) <-> exists j x, c = k + j /\ nth_error l j = Some x /\ linked x = Some t.
Proof.
  assert (On : forall x, on t x = true <-> linked x = Some t).
  { intros x. unfold on. destruct (linked x) as [u|]; [|easy]. rewrite Nat.eqb_eq. split; congruence. }
  induction l as [|x l IH]; intros k c.
  - cbn. split; [easy|]. intros (j & y & _ & H & _). destruct j; discriminate.
  - cbn [in_list]. assert (A : In c (in_list t (S k) l) <-> exists j y, c = k + S j /\ nth_error l j = Some y /\ linked y = Some t).
    { rewrite IH. split; intros (j & y & E & H); exists j, y; (split; [lia|auto]). }
    destruct (on t x) eqn:Ex.
    + apply On in Ex. cbn [In]. rewrite A. split.
      * intros [<-|(j & y & E & H)]; [exists 0, x; cbn; auto|exists (S j), y; auto].
      * intros ([|j] & y & E & H & L); [left; lia|right; exists j, y; auto].
    + rewrite A. split.
      * intros (j & y & E & H). exists (S j), y. auto.
      * intros ([|j] & y & E & H & L); [|exists j, y; auto]. injection H as ->. apply On in L. congruence.
Qed.
Lemma in_list_nd t l : forall k, NoDup (in_list t k l).
Proof.
  induction l as [|x l IH]; intros k; [constructor|]. cbn. destruct (on t x); auto. constructor; auto. intros A.
  apply in_list_iff in A as (j & _ & E & _). lia.
Qed.
Lemma listener_visit_pf s i s' t : nth_error (travs s) i = Some (TRun t) -> step s (Visit i) = Next s' ->
  exists l, vlog s' = vlog s ++ map (fun c => (i, c)) l /\ NoDup l /\ forall c, In c l <-> listed s c t.
Proof.
  intros H E. cbn in E. unfold visit in E. rewrite H in E. injection E as <-. exists (in_list t 0 (conns s)). split; [reflexivity|].
  split; [apply in_list_nd|]. intros c. rewrite in_list_iff. unfold listed. split.
  - intros (j & x & -> & A & B). exists x. split; [exact A|]. now apply on_thread_iff.
  - intros (x & A & B). exists c, x. apply on_thread_iff in B. auto.
Qed.

Section N.
  Variable n m : nat.
  Variable mx : N.
  Hypothesis Hn : (N.of_nat n + 1 < two32)%N.
  Hypothesis Hm : (N.of_nat m < two32)%N.
  Hypothesis Hx : (mx < two32)%N.

  Lemma J_init : J n m (init n m mx).
  Proof.
    assert (A : forall (f : cpc -> bool), f Free = false -> count f (repeat Free n) = 0).
    { intros f Hf. unfold count. clear Hn. induction n as [|k IH]; cbn; auto. now rewrite Hf. }
    assert (B : forall (f : tpc -> bool), f TOut = false -> count f (repeat TOut m) = 0).
    { intros f Hf. unfold count. clear Hm. induction m as [|k IH]; cbn; auto. now rewrite Hf. }
    unfold init. split; unfold served; cbn [conns travs gate acc oc maxc hi].
    - now rewrite !repeat_length.
    - rewrite A, B by reflexivity. reflexivity.
    - left. now apply A.
    - fold (count serving (repeat Free n)). rewrite (A serving) by reflexivity. reflexivity.
    - fold (count serving (repeat Free n)). rewrite (A serving) by reflexivity. split; [lia|split; [lia|auto]].
  Qed.

  Lemma add64_small a b : (a + b < two64)%N -> add64 a b = (a + b)%N.
  Proof. intros H. unfold add64. now apply N.mod_small. Qed.
  Lemma sub64_small a b : (b <= a)%N -> (a < two64)%N -> (0 < b)%N -> sub64 a b = (a - b)%N.
  Proof.
    intros H L B. unfold sub64. replace (a + (two64 - b))%N with ((a - b) + 1 * two64)%N by lia. rewrite N.mod_add by discriminate. apply N.mod_small. lia.
  Qed.
  Lemma add32_small a b : (a + b < two32)%N -> add32 a b = (a + b)%N.
  Proof. intros H. unfold add32. now apply N.mod_small. Qed.
  Lemma sub32_small a b : (b <= a)%N -> (a < two32)%N -> (0 < b)%N -> sub32 a b = (a - b)%N.
  Proof.
    intros H L B. unfold sub32. replace (a + (two32 - b))%N with ((a - b) + 1 * two32)%N by lia. rewrite N.mod_add by discriminate. apply N.mod_small. lia.
  Qed.
  Lemma gate_low a b : (b < two32)%N -> N.land (a * kMigrateVal + b) mask = b.
  Proof.
    intros H. change mask with (N.ones 32). rewrite N.land_ones. change (2 ^ 32)%N with kMigrateVal.
    rewrite N.add_comm, N.mod_add by discriminate. apply N.mod_small. exact H.
  Qed.
  Lemma gate_high a b : (b < two32)%N -> N.shiftr (a * kMigrateVal + b) 32 = a.
  Proof.
    intros H. rewrite N.shiftr_div_pow2. change (2 ^ 32)%N with kMigrateVal. rewrite N.div_add_l by discriminate. rewrite N.div_small by exact H. lia.
  Qed.

  Lemma has_in l : count hasm l <= count inm l.
  Proof. unfold count. induction l as [|x l IH]; cbn; [lia|]. destruct x; cbn; lia. Qed.
  Lemma hast_int l : count hast l <= count int l.
  Proof. unfold count. induction l as [|x l IH]; cbn; [lia|]. destruct x; cbn; lia. Qed.

  Ltac bounds s HJ :=
    destruct HJ as [[Ln Lm] Hg He Ho Hh];
    assert (Bi := count_le inm (conns s)); assert (Bt := count_le int (travs s)); assert (Bs := count_le serving (conns s));
    assert (Eq64 : two64 = (kMigrateVal * two32)%N) by reflexivity;
    assert (Ek : kMigrateVal = two32) by reflexivity;
    change (served s) with (count serving (conns s)) in *.

  (** A connection goes from [x] to [y], the gate to [g]. *)
  Lemma J_put s c x y g : J n m s -> nth_error (conns s) c = Some x -> serving x = serving y ->
    g = (N.of_nat (count inm (set c y (conns s))) * kMigrateVal + N.of_nat (count int (travs s)))%N ->
    (hasm x = false -> hasm y = true -> count hast (travs s) = 0) ->
    J n m (put s c y g).
  Proof.
    intros HJ H Es Eg Eh. bounds s HJ. assert (Cs := count_set serving _ _ _ y H). assert (Ch := count_set hasm _ _ _ y H). rewrite Es in Cs.
    unfold put. split; cbn [conns travs gate acc oc maxc hi]; unfold served; cbn [conns]; fold (count serving (set c y (conns s))).
    - now rewrite set_length.
    - exact Eg.
    - destruct (hasm y) eqn:Ey, (hasm x) eqn:Ex; try lia; right; auto.
    - rewrite Ho. f_equal. lia.
    - replace (count serving (set c y (conns s))) with (count serving (conns s)) by lia. exact Hh.
  Qed.
  Lemma J_putt s i x y g : J n m s -> nth_error (travs s) i = Some x ->
    g = (N.of_nat (count inm (conns s)) * kMigrateVal + N.of_nat (count int (set i y (travs s))))%N ->
    (hast x = false -> hast y = true -> count hasm (conns s) = 0) ->
    J n m (putt s i y g).
  Proof.
    intros HJ H Eg Eh. destruct HJ as [[Ln Lm] Hg He Ho Hh]. assert (Ch := count_set hast _ _ _ y H).
    unfold putt. split; cbn [conns travs gate acc oc maxc hi]; auto.
    - now rewrite set_length.
    - destruct (hast y) eqn:Ey, (hast x) eqn:Ex; try lia; left; auto.
  Qed.

  Lemma J_step s l : J n m s -> match step s l with Next s' => J n m s' | Ub => False | Stuck => True end.
  Proof.
    intros HJ. destruct l as [c t| |c|c|c|c d|c|i t|i|i|i|mm]; cbn [step].
    - unfold accept. destruct (acc s) eqn:Ea; [|exact I]. destruct (nth_error (conns s) c) as [[]|] eqn:Ec; try exact I. bounds s HJ. rewrite Ea in Ho.
      assert (Ad : add32 (oc s) 1 = (oc s + 1)%N) by (apply add32_small; lia). rewrite Ad.
      destruct (N.leb_spec (maxc s) (oc s)) as [X|X].
      + split; cbn [conns travs gate acc oc maxc hi]; auto. change (served _) with (count serving (conns s)). lia.
      + assert (Cs := count_set serving _ _ _ (Start t) Ec). assert (Ci := count_set inm _ _ _ (Start t) Ec). assert (Ch := count_set hasm _ _ _ (Start t) Ec).
        cbn in Cs, Ci, Ch. split; cbn [conns travs gate acc oc maxc hi]; unfold served; cbn [conns]; fold (count serving (set c (Start t) (conns s))).
        * now rewrite set_length.
        * rewrite Hg. f_equal. f_equal. lia.
        * lia.
        * lia.
        * lia.
    - unfold reject. destruct (acc s) eqn:Ea; [exact I|]. bounds s HJ. rewrite Ea in Ho.
      split; cbn [conns travs gate acc oc maxc hi]; auto. change (served _) with (count serving (conns s)). rewrite sub32_small; lia.
    - unfold link. destruct (nth_error (conns s) c) as [[]|] eqn:Ec; try exact I. eapply J_put; eauto; [|discriminate].
      assert (Ci := count_set inm _ _ _ (Serve t) Ec). cbn in Ci. rewrite (j_gate n m s HJ). f_equal. f_equal. lia.
    - unfold close. destruct (nth_error (conns s) c) as [[]|] eqn:Ec; try exact I. eapply J_put; eauto; [|discriminate].
      assert (Ci := count_set inm _ _ _ Closed Ec). cbn in Ci. rewrite (j_gate n m s HJ). f_equal. f_equal. lia.
    - unfold over. destruct (nth_error (conns s) c) as [[]|] eqn:Ec; try exact I. bounds s HJ.
      assert (Cs := count_set serving _ _ _ Free Ec). assert (Ci := count_set inm _ _ _ Free Ec). assert (Ch := count_set hasm _ _ _ Free Ec).
      cbn in Cs, Ci, Ch. split; cbn [conns travs gate acc oc maxc hi]; unfold served; cbn [conns]; fold (count serving (set c Free (conns s))).
      + now rewrite set_length.
      + rewrite Hg. f_equal. f_equal. lia.
      + lia.
      + rewrite sub32_small; [lia|lia| |lia]. destruct (acc s); lia.
      + lia.
    - unfold migrate. destruct (nth_error (conns s) c) as [[]|] eqn:Ec; try exact I. destruct (t =? d); [exact HJ|].
      assert (Ci := fun y => count_set inm _ _ _ y Ec). pose proof HJ as HJ'. bounds s HJ.
      assert (Lt : count inm (conns s) < n).
      { assert (Z := Ci (Hold 0 0)). cbn in Z. assert (Y := count_le inm (set c (Hold 0 0) (conns s))). rewrite set_length in Y. lia. }
      assert (Ag : add64 (gate s) kMigrateVal = (gate s + kMigrateVal)%N) by (apply add64_small; nia). rewrite Ag.
      assert (Gl : N.land (gate s) mask = N.of_nat (count int (travs s))) by (rewrite Hg; apply gate_low; lia). rewrite Gl. destruct (N.eqb_spec (N.of_nat (count int (travs s))) 0) as [Z|Z].
      + eapply J_put; eauto; [|intros _ _; assert (X := hast_int (travs s)); lia].
        specialize (Ci (Hold t d)). cbn in Ci. rewrite Hg. nia.
      + eapply J_put; eauto; [|discriminate]. specialize (Ci (Back t d)). cbn in Ci. rewrite Hg. nia.
    - unfold move. destruct (nth_error (conns s) c) as [[| | |t d|t d|d|d|]|] eqn:Ec; try exact I;
        assert (Ci := fun y => count_set inm _ _ _ y Ec); pose proof HJ as HJ'; bounds s HJ.
      + specialize (Ci (Serve t)). cbn in Ci. eapply J_put; eauto; [|discriminate]. rewrite sub64_small; nia.
      + specialize (Ci (Gone d)). cbn in Ci. eapply J_put; eauto; [|discriminate]. rewrite Hg. f_equal. f_equal. lia.
      + specialize (Ci (Done d)). cbn in Ci. eapply J_put; eauto; [|discriminate]. rewrite Hg. f_equal. f_equal. lia.
      + specialize (Ci (Serve d)). cbn in Ci. eapply J_put; eauto; [|discriminate]. rewrite sub64_small; nia.
    - unfold trav. destruct (nth_error (travs s) i) as [[]|] eqn:Ei; try exact I. pose proof HJ as HJ'. bounds s HJ.
      assert (Ct := fun y => count_set int _ _ _ y Ei).
      assert (Lt : count int (travs s) < m).
      { assert (Z := Ct (TRun 0)). cbn in Z. assert (Y := count_le int (set i (TRun 0) (travs s))). rewrite set_length in Y. lia. }
      assert (Ag : add64 (gate s) 1 = (gate s + 1)%N) by (apply add64_small; nia). rewrite Ag. assert (Gh : N.shiftr (gate s) 32 = N.of_nat (count inm (conns s))) by (rewrite Hg; apply gate_high; lia). rewrite Gh.
      destruct (N.eqb_spec (N.of_nat (count inm (conns s))) 0) as [Z|Z].
      + specialize (Ct (TRun t)). cbn in Ct. eapply J_putt; eauto; [lia|]. intros _ _. assert (X := has_in (conns s)). lia.
      + specialize (Ct (TSpin t)). cbn in Ct. eapply J_putt; eauto; [lia|discriminate].
    - unfold spin. destruct (nth_error (travs s) i) as [[]|] eqn:Ei; try exact I. pose proof HJ as HJ'. bounds s HJ.
      assert (Ct := fun y => count_set int _ _ _ y Ei). assert (Gh : N.shiftr (gate s) 32 = N.of_nat (count inm (conns s))) by (rewrite Hg; apply gate_high; lia). rewrite Gh.
      destruct (N.eqb_spec (N.of_nat (count inm (conns s))) 0) as [Z|Z].
      + specialize (Ct (TRun t)). cbn in Ct. eapply J_putt; eauto; [lia|]. intros _ _. assert (X := has_in (conns s)). lia.
      + specialize (Ct (TSpin t)). cbn in Ct. eapply J_putt; eauto; [lia|discriminate].
    - unfold visit. destruct (nth_error (travs s) i) as [[]|] eqn:Ei; try exact I. bounds s HJ.
      assert (Ct := count_set int _ _ _ (TRel t) Ei). assert (Ch := count_set hast _ _ _ (TRel t) Ei). cbn in Ct, Ch.
      split; cbn [conns travs gate acc oc maxc hi]; auto.
      + now rewrite set_length.
      + lia.
      + lia.
    - unfold leave. destruct (nth_error (travs s) i) as [[]|] eqn:Ei; try exact I. pose proof HJ as HJ'. bounds s HJ.
      assert (Ct := count_set int _ _ _ TOut Ei). cbn in Ct. eapply J_putt; eauto; [|discriminate]. rewrite sub64_small; nia.
    - destruct (N.ltb_spec mm two32) as [L|L]; [|exact I]. destruct HJ as [HL Hg He Ho (Ha & Hb & Hc)]. split; cbn [conns travs gate acc oc maxc hi]; auto.
      change (served _) with (served s). lia.
  Qed.

  Lemma listener_safe_pf : safe step (init n m mx).
  Proof. apply (reach_inv step (J n m) (init n m mx) J_step J_init). Qed.
  Lemma J_reach s : reachable step (init n m mx) s -> J n m s.
  Proof. apply (reach_inv step (J n m) (init n m mx) J_step J_init). Qed.

  Lemma listener_excl_pf s i c : reachable step (init n m mx) s -> traversing s i -> ~ relinking s c.
  Proof.
    intros R (t & Ht) (u & d & Hc). apply J_reach in R as HJ. assert (A := count_pos hast _ _ _ Ht eq_refl).
    assert (B : 1 <= count hasm (conns s)).
    { destruct Hc as [Hc|[Hc|Hc]]; apply (count_pos hasm _ _ _ Hc eq_refl). }
    destruct (j_excl n m s HJ); lia.
  Qed.
  Lemma listener_accept_pf s c t s' : reachable step (init n m mx) s -> step s (Accept c t) = Next s' ->
    (served s' = S (served s) /\ (N.of_nat (served s') <= maxc s)%N) \/ (served s' = served s /\ (maxc s <= N.of_nat (served s))%N).
  Proof.
    intros R E. apply J_reach in R as HJ. cbn in E. unfold accept in E. destruct (acc s) eqn:Ea; [|discriminate].
    destruct (nth_error (conns s) c) as [[]|] eqn:Ec; try discriminate. assert (Ho := j_oc n m s HJ). rewrite Ea in Ho.
    destruct (N.leb_spec (maxc s) (oc s)) as [X|X]; injection E as <-.
    - right. change (served _) with (served s) at 1. split; auto. lia.
    - left. unfold served at 1 3. cbn [conns]. fold (count serving (set c (Start t) (conns s))). assert (Cs := count_set serving _ _ _ (Start t) Ec). cbn in Cs.
      unfold served in *. fold (count serving (conns s)) in *. lia.
  Qed.

  Lemma idle_counts s : idle s -> count inm (conns s) = 0 /\ count int (travs s) = 0.
  Proof.
    intros [A B]. split.
    - destruct (count inm (conns s)) eqn:E; auto. exfalso. unfold count in E. destruct (filter inm (conns s)) as [|x l] eqn:F; [discriminate|].
      assert (X : In x (filter inm (conns s))) by (rewrite F; now left). apply filter_In in X as [X Y]. apply In_nth_error in X as [k X]. specialize (A k x X).
      destruct x; try easy.
    - destruct (count int (travs s)) eqn:E; auto. exfalso. unfold count in E. destruct (filter int (travs s)) as [|x l] eqn:F; [discriminate|].
      assert (X : In x (filter int (travs s))) by (rewrite F; now left). apply filter_In in X as [X Y]. apply In_nth_error in X as [k X]. specialize (B k x X).
      now subst x.
  Qed.
  Lemma listener_idle_pf s : reachable step (init n m mx) s -> idle s ->
    (forall c d t, nth_error (conns s) c = Some (Serve t) -> t <> d -> exists s', step s (Migrate c d) = Next s' /\ nth_error (conns s') c = Some (Hold t d)) /\
    (forall i t, i < m -> exists s', step s (Trav i t) = Next s' /\ traversing s' i).
  Proof.
    intros R H. apply J_reach in R as [[Ln Lm] Hg _ _ _]. destruct (idle_counts s H) as [E1 E2]. rewrite E1, E2 in Hg. cbn in Hg. split.
    - intros c d t Hc Hd. cbn [step]. unfold migrate. rewrite Hc. rewrite (proj2 (Nat.eqb_neq _ _)) by auto. rewrite Hg. cbn [N.land N.eqb].
      eexists. split; [reflexivity|]. unfold put. cbn [conns]. apply set_nth_error_eq. apply nth_error_Some. congruence.
    - intros i t Hi. cbn [step]. unfold trav. destruct (nth_error (travs s) i) as [x|] eqn:Ei; [|apply nth_error_None in Ei; lia].
      destruct H as [_ H]. rewrite (H i x Ei) in *. rewrite Hg. cbn [N.shiftr N.eqb]. eexists. split; [reflexivity|]. exists t. unfold putt. cbn [travs].
      apply set_nth_error_eq. lia.
  Qed.

  Lemma next_eq (a b : st) : Next a = Next b -> a = b.
  Proof. now intros [= ->]. Qed.
  Lemma listener_limit_pf B ls s : exec step (init n m mx) ls = Next s -> (mx <= B)%N -> (forall k, In (SetMax k) ls -> (k <= B)%N) -> (N.of_nat (served s) <= B)%N.
  Proof.
    intros E L H. assert (HJ : J n m s) by (apply J_reach; now exists ls). destruct (j_hi n m s HJ) as [A _]. enough (hi s <= B)%N by lia. clear A HJ.
    assert (L' : (hi (init n m mx) <= B)%N) by exact L. clear L. revert E L' H. generalize (init n m mx). induction ls as [|l ls IH]; intros s0 E L' H.
    - injection E as ->. exact L'.
    - cbn in E. destruct (step s0 l) as [| |s1] eqn:E1; try discriminate. apply (IH s1 E); [|intros k Hk; apply H; now right].
      assert (X : hi s1 = hi s0 \/ exists k, l = SetMax k /\ hi s1 = N.max k (hi s0)).
      { destruct l; cbn [step] in E1; unfold accept, reject, link, close, over, migrate, move, trav, spin, visit, leave, put, putt in E1;
          repeat match type of E1 with (match ?x with _ => _ end) = _ => destruct x; try discriminate end; apply next_eq in E1; subst; cbn [hi]; try (left; reflexivity). right. eexists. split; reflexivity. }
      destruct X as [->|(k & -> & ->)]; auto. specialize (H k (or_introl eq_refl)). lia.
  Qed.

  (** *** A whole TraverseConnections *)
  Definition inv c i (p : nat * nat) : bool := (fst p =? i) && (snd p =? c).
  Definition vis (s : st) c i : nat := count (inv c i) (vlog s).
  Lemma count_app {A} (f : A -> bool) a b : count f (a ++ b) = count f a + count f b.
  Proof. unfold count. now rewrite filter_app, app_length. Qed.
  Lemma count_in_list c i t s : count (inv c i) (map (fun x => (i, x)) (in_list t 0 (conns s))) = if on t (nth c (conns s) Free) then 1 else 0.
  Proof.
    assert (E : forall l, count (inv c i) (map (fun x => (i, x)) l) = count (Nat.eqb c) l).
    { intros l. unfold count. induction l as [|x l IH]; cbn; auto. unfold inv at 1. cbn [fst snd]. rewrite Nat.eqb_refl, (Nat.eqb_sym x c). cbn [andb].
      destruct (c =? x); cbn; lia. }
    rewrite E. assert (ND := in_list_nd t (conns s) 0). assert (IN := in_list_iff t (conns s) 0 c).
    assert (O : In c (in_list t 0 (conns s)) <-> on t (nth c (conns s) Free) = true).
    { rewrite IN. unfold on. split.
      - intros (j & x & Ej & H & L). cbn in Ej. subst j. rewrite (nth_error_nth _ _ Free H), L. apply Nat.eqb_refl.
      - intros H. destruct (nth_error (conns s) c) as [x|] eqn:Ec.
        + rewrite (nth_error_nth _ _ Free Ec) in H. exists c, x. split; [lia|split; auto]. destruct (linked x); [|discriminate]. apply Nat.eqb_eq in H. congruence.
        + apply nth_error_None in Ec. rewrite nth_overflow in H by auto. discriminate. }
    clear IN E. revert ND O. generalize (in_list t 0 (conns s)). intros l ND O. assert (C : count (Nat.eqb c) l = if in_dec Nat.eq_dec c l then 1 else 0).
    { clear O. induction l as [|x l IH]; [reflexivity|]. inversion ND; subst. specialize (IH H2). unfold count in *. cbn [filter].
      destruct (Nat.eqb_spec c x) as [->|Hx'].
      - cbn [length]. rewrite IH. destruct (in_dec Nat.eq_dec x l); [easy|]. destruct (in_dec Nat.eq_dec x (x :: l)) as [|A]; [reflexivity|]. destruct A. now left.
      - rewrite IH. destruct (in_dec Nat.eq_dec c l), (in_dec Nat.eq_dec c (x :: l)) as [B|B]; auto.
        + destruct B. now right.
        + destruct B as [B|B]; congruence. }
    rewrite C. destruct (in_dec Nat.eq_dec c l) as [A|A].
    - apply O in A. now rewrite A.
    - destruct (on t (nth c (conns s) Free)); auto. destruct A. now apply O.
  Qed.

  Lemma still_serve s l s' c t : step s l = Next s' -> still c l = true -> nth_error (conns s) c = Some (Serve t) -> nth_error (conns s') c = Some (Serve t).
  Proof.
    intros E S H.
    assert (P : forall k x, nth_error (conns s) k = Some x -> x <> Serve t \/ k <> c -> forall y, nth_error (set k y (conns s)) c = Some (Serve t)).
    { intros k x Hk D y. rewrite set_nth_error_neq; auto. intros ->. destruct D as [D|D]; congruence. }
    destruct l; cbn [step] in E; unfold accept, reject, link, close, over, migrate, move, trav, spin, visit, leave, put, putt in E;
      repeat match type of E with (match ?x with _ => _ end) = _ => destruct x eqn:?; try discriminate end; apply next_eq in E; subst; cbn [conns]; auto;
      try (eapply P; [eassumption|left; congruence]); try (cbn [still] in S; apply Bool.negb_true_iff, Nat.eqb_neq in S; eapply P; [eassumption|right; auto]).
  Qed.

  Definition phase (i : nat) (x : tpc) (rest : list lab) : Prop :=
    match x with
    | TOut => rest = [Trav i i; Visit i; Leave i] \/ rest = []
    | TSpin t | TRun t => t = i /\ rest = [Visit i; Leave i]
    | TRel _ => rest = [Leave i]
    end.
  Definition todo (rest : list lab) : bool := 1 <? length rest.
  Lemma of_trav_step i l s s' : step s l = Next s' -> of_trav i l = false -> (forall j, l = Spin j -> j <> i) ->
    nth_error (travs s') i = nth_error (travs s) i /\ forall c, vis s' c i = vis s c i.
  Proof.
    intros E O Sp.
    destruct l; cbn [step] in E; unfold accept, reject, link, close, over, migrate, move, trav, spin, visit, leave, put, putt in E;
      repeat match type of E with (match ?x with _ => _ end) = _ => destruct x eqn:?; try discriminate end; apply next_eq in E; subst; cbn [travs]; auto;
      cbn [of_trav] in O; try (apply Nat.eqb_neq in O); try (rewrite set_nth_error_neq by auto; auto).
    split; auto. intros c. unfold vis. cbn [vlog]. rewrite count_app. rewrite <- Nat.add_0_r. f_equal. unfold count.
    induction (in_list _ 0 (conns s)) as [|x l IH]; cbn; auto. unfold inv at 1. cbn [fst snd]. rewrite (proj2 (Nat.eqb_neq _ _)); auto.
  Qed.
  Lemma whole_one c i t : forall ls s s' x rest, exec step s ls = Next s' -> forallb (still c) ls = true -> nth_error (conns s) c = Some (Serve t) ->
    nth_error (travs s) i = Some x -> filter (of_trav i) ls = rest -> phase i x rest ->
    vis s' c i = vis s c i + (if todo rest && (i =? t) then 1 else 0).
  Proof.
    induction ls as [|l ls IH]; intros s s' x rest E S Hc Hx' F P.
    - injection E as <-. cbn in F. subst rest. cbn. lia.
    - cbn in E, S. apply andb_prop in S as [S1 S2]. destruct (step s l) as [| |s1] eqn:E1; try discriminate.
      assert (Hc1 := still_serve _ _ _ _ _ E1 S1 Hc). cbn [filter] in F. destruct (of_trav i l) eqn:O.
      + assert (Hi : i < length (travs s)) by (apply nth_error_Some; congruence).
        destruct l; try discriminate; cbn [of_trav] in O; apply Nat.eqb_eq in O; subst i0; cbn [step] in E1.
        * unfold trav in E1. rewrite Hx' in E1. destruct x; try discriminate. cbn [phase] in P. destruct P as [P|P]; [|congruence]. rewrite P in F. injection F as -> F.
          assert (Ev : vis s1 c i = vis s c i) by (apply next_eq in E1; now subst).
          rewrite P. cbn [todo length Nat.ltb Nat.leb andb]. rewrite <- Ev. rewrite (IH s1 s' (if (N.shiftr (gate s) 32 =? 0)%N then TRun i else TSpin i) [Visit i; Leave i]); auto.
          { apply next_eq in E1; subst. unfold putt. cbn [travs]. now apply set_nth_error_eq. }
          destruct (N.shiftr (gate s) 32 =? 0)%N; cbn; auto.
        * unfold visit in E1. rewrite Hx' in E1. destruct x as [|u|u|u]; try discriminate. destruct P as [-> P]. rewrite P in F. injection F as F.
          rewrite (IH s1 s' (TRel i) [Leave i]); auto; [|apply next_eq in E1; subst; cbn [travs]; now apply set_nth_error_eq|reflexivity].
          rewrite P. cbn [todo length Nat.ltb Nat.leb andb]. apply next_eq in E1; subst. unfold vis at 1. cbn [vlog]. rewrite count_app, count_in_list.
          rewrite (nth_error_nth _ _ Free Hc). unfold on. cbn [linked]. rewrite (Nat.eqb_sym t i). fold (vis s c i). lia.
        * unfold leave in E1. rewrite Hx' in E1. destruct x; try discriminate. cbn [phase] in P. rewrite P in F. injection F as F.
          assert (Ev : vis s1 c i = vis s c i) by (apply next_eq in E1; now subst).
          rewrite (IH s1 s' TOut []); auto; [|apply next_eq in E1; subst; unfold putt; cbn [travs]; now apply set_nth_error_eq|right; auto].
          rewrite P, Ev. cbn. lia.
      + destruct l; try (destruct (of_trav_step i _ _ _ E1 O) as [A B]; [discriminate|]; rewrite <- B; apply (IH s1 s' x rest); auto; rewrite A; exact Hx').
        destruct (Nat.eq_dec i0 i) as [->|D].
        * cbn in E1. unfold spin in E1. rewrite Hx' in E1. destruct x as [|u|u|u]; try discriminate. destruct P as [-> P].
          assert (Ev : vis s1 c i = vis s c i) by (apply next_eq in E1; now subst). rewrite <- Ev.
          apply (IH s1 s' (if (N.shiftr (gate s) 32 =? 0)%N then TRun i else TSpin i) rest); auto.
          { apply next_eq in E1; subst. unfold putt. cbn [travs]. apply set_nth_error_eq. apply nth_error_Some. congruence. }
          destruct (N.shiftr (gate s) 32 =? 0)%N; cbn; auto.
        * destruct (of_trav_step i _ _ _ E1 O) as [A B]; [congruence|]. rewrite <- B. apply (IH s1 s' x rest); auto. rewrite A. exact Hx'.
  Qed.
  (** Visits of [c] are visits of [c] by one of the traversals. *)
  Fixpoint sum (f : nat -> nat) (k : nat) : nat := match k with 0 => 0 | S k' => sum f k' + f k' end.
  Lemma sum_ext k : forall f g, (forall i, i < k -> f i = g i) -> sum f k = sum g k.
  Proof. induction k as [|k IH]; intros f g H; cbn; auto. rewrite (H k) by lia. rewrite (IH f g); auto. Qed.
  Lemma sum_one k : forall f g t, t < k -> (forall i, i < k -> f i = g i + if i =? t then 1 else 0) -> sum f k = sum g k + 1.
  Proof.
    induction k as [|k IH]; intros f g t L H; [lia|]. cbn. rewrite (H k) by lia. destruct (Nat.eqb_spec k t) as [->|D].
    - rewrite (sum_ext t f g); [lia|]. intros i Hi. rewrite H by lia. rewrite (proj2 (Nat.eqb_neq _ _)) by lia. lia.
    - rewrite (IH f g t); [lia|lia|]. intros i Hi. apply H. lia.
  Qed.
  Lemma calls_sum s c k : (forall p, In p (vlog s) -> fst p < k) -> calls s c = sum (vis s c) k.
  Proof.
    unfold calls, vis. generalize (vlog s). induction l as [|p l IH]; intros H.
    - cbn. clear. induction k; cbn; lia.
    - assert (Hp : fst p < k) by (apply H; now left). assert (Hr : forall q, In q l -> fst q < k) by (intros q Hq; apply H; now right). specialize (IH Hr).
      cbn [filter]. destruct (Nat.eqb_spec (snd p) c) as [Ec|Ec].
      + cbn [length]. rewrite IH. rewrite (sum_one k (fun i => count (inv c i) (p :: l)) (fun i => count (inv c i) l) (fst p) Hp); [lia|].
        intros i Hi. unfold count. cbn [filter]. unfold inv at 1. rewrite (Nat.eqb_sym i). rewrite Ec, Nat.eqb_refl. destruct (fst p =? i); cbn; lia.
      + rewrite IH. apply sum_ext. intros j _. unfold count. cbn [filter]. unfold inv at 2. rewrite (proj2 (Nat.eqb_neq (snd p) c)) by auto. now rewrite Bool.andb_false_r.
  Qed.
  Lemma vlog_bound s p : reachable step (init n m mx) s -> In p (vlog s) -> fst p < m.
  Proof.
    intros R. revert p. pattern s.
    enough (K : forall s, reachable step (init n m mx) s -> (forall p, In p (vlog s) -> fst p < m) /\ length (travs s) = m) by (intros p; apply K; auto).
    clear s R. apply reach_step; [|split; [easy|cbn; apply repeat_length]]. intros s l s' [A L] E.
    destruct l; cbn [step] in E; unfold accept, reject, link, close, over, migrate, move, trav, spin, visit, leave, put, putt in E;
      repeat match type of E with (match ?x with _ => _ end) = _ => destruct x eqn:?; try discriminate end; apply next_eq in E; subst; cbn [travs vlog]; rewrite ?set_length; auto.
    split; auto. intros p Hp. apply in_app_or in Hp as [Hp|Hp]; auto. apply in_map_iff in Hp as (y & <- & _). cbn [fst]. apply nth_error_Some. congruence.
  Qed.
  Lemma listener_visits_partial_pf s ls s' c t : reachable step (init n m mx) s -> whole_call m s ls -> exec step s ls = Next s' ->
    nth_error (conns s) c = Some (Serve t) -> t < m -> forallb (still c) ls = true -> calls s' c = calls s c + 1.
  Proof.
    intros R W E Hc Ht S. assert (R' : reachable step (init n m mx) s') by (eapply reachable_trans; [exact R|now exists ls]).
    rewrite !(calls_sum _ c m) by (intros p; now apply vlog_bound). apply (sum_one m _ _ t Ht). intros i Hi. destruct (W i Hi) as [A B].
    rewrite (whole_one c i t ls s s' TOut _ E S Hc A B); [reflexivity|]. now left.
  Qed.
End N.

Lemma listener_visits_refuted_pf : ~ visits_once.
Proof.
  intros H.
  destruct (reach_obs step (fun s => s) (init 1 2 5) [Accept 0 1; Link 0] (mk [Serve 1] [TOut; TOut] AWait 0 1 5 5 [])) as (s & R & ->); [vm_compute; reflexivity|].
  specialize (H 1 2 5%N 2 _ [Trav 0 0; Visit 0; Leave 0; Migrate 0 0; Move 0; Move 0; Move 0; Trav 1 1; Visit 1; Leave 1]
    (mk [Serve 0] [TOut; TOut] AWait 0 1 5 5 []) 0 1 eq_refl eq_refl eq_refl R eq_refl).
  assert (X : calls (mk [Serve 0] [TOut; TOut] AWait 0 1 5 5 []) 0 = 1); [|discriminate X].
  apply H.
  - intros t L. destruct t as [|[|t]]; [split; reflexivity|split; reflexivity|lia].
  - vm_compute. reflexivity.
  - exists (Serve 1). split; reflexivity.
  - lia.
  - vm_compute. repeat split.
  - intros c' d Hin. cbn in Hin. repeat (destruct Hin as [Hin|Hin]; [try discriminate; injection Hin as <- <-; lia|]). easy.
Qed.
