From Verif Require Import Util Conc EcModel EcProof AwaitModel AwaitSpec AwaitProof CounterSpec CounterModel.

Definition CI (x : cst) : Prop :=
  (decs (hist x) <= added (hist x))%N /\ (added (hist x) - decs (hist x) < flag)%N /\
  cnt x = (added (hist x) - decs (hist x) + if cancelled (hist x) then flag else 0)%N /\
  forall r a d c, In (r, (a, d, c)) (returns (hist x)) -> (r = true -> a = d) /\ (r = false -> c = true).

Lemma CI_load x : CI x -> load x = cnt x.
Proof.
  intros (A & B & C & _). unfold load. apply N.mod_small. rewrite C. unfold flag, two64 in *.
  destruct (cancelled (hist x)); lia.
Qed.
Lemma CI_low x : CI x -> low (load x) = (added (hist x) - decs (hist x))%N.
Proof.
  intros I. rewrite (CI_load _ I). destruct I as (A & B & C & _). unfold low. rewrite C. destruct (cancelled (hist x)).
  - rewrite N.add_mod, N.mod_same, N.add_0_r, N.mod_mod, N.mod_small; auto; discriminate.
  - rewrite N.add_0_r. now apply N.mod_small.
Qed.
Lemma tb63 x : CI x -> N.testbit (cnt x) 63 = cancelled (hist x).
Proof.
  intros (A & B & C & _). rewrite C. unfold flag in *.
  rewrite N.testbit_eqb. destruct (cancelled (hist x)).
  - replace (added (hist x) - decs (hist x) + 2 ^ 63)%N with (added (hist x) - decs (hist x) + 1 * 2 ^ 63)%N by lia.
    rewrite N.div_add, N.div_small by (auto; discriminate). reflexivity.
  - rewrite N.add_0_r, N.div_small by auto. reflexivity.
Qed.
Lemma cwait_ok k x : CI x -> cwait k x = true <-> finished (hist x).
Proof.
  intros I. unfold cwait, finished. rewrite (CI_load _ I), (tb63 _ I). destruct I as (A & B & C & _). rewrite C.
  rewrite orb_true_iff, N.eqb_eq. destruct (cancelled (hist x)); split; intros; auto; destruct H; try discriminate; left; unfold flag in *; lia.
Qed.
Lemma cres_ok x : CI x -> cresult x = negb (cancelled (hist x)).
Proof.
  intros I. pose proof (tb63 _ I) as T. unfold cresult. rewrite (CI_load _ I).
  assert (E : N.land (cnt x) flag = if N.testbit (cnt x) 63 then flag else 0%N).
  { apply N.bits_inj. intros i. rewrite N.land_spec. unfold flag.
    destruct (N.eq_dec i 63) as [->|Ne].
    - rewrite N.pow2_bits_true, andb_true_r. destruct (N.testbit (cnt x) 63); [now rewrite N.pow2_bits_true|now rewrite N.bits_0].
    - rewrite N.pow2_bits_false by auto. rewrite andb_false_r.
      destruct (N.testbit (cnt x) 63); [now rewrite N.pow2_bits_false by auto|now rewrite N.bits_0]. }
  rewrite E, T. destruct (cancelled (hist x)); reflexivity.
Qed.
Lemma CI_ret k x : CI x -> cwait k x = true -> CI (creturn k x).
Proof.
  intros I W. pose proof (cres_ok _ I) as R. apply (cwait_ok k) in W; auto.
  destruct I as (A & B & C & D). unfold creturn, CI. simpl. repeat split; auto;
  intros Hr; subst; apply in_app_or in H; destruct H as [H|[H|[]]];
    try (now destruct (D _ _ _ _ H); auto); injection H as Hr <- <- <-.
  - destruct W as [W|W]; auto. rewrite W in R. simpl in R. congruence.
  - rewrite Hr in R. now destruct (cancelled (hist x)).
Qed.
Lemma lor_flag d b : (d < flag)%N -> N.lor (d + if b : bool then flag else 0) flag = (d + flag)%N.
Proof.
  intros H. assert (B : forall i, N.testbit d i = true -> (i < 63)%N).
  { intros i Hi. destruct (N.lt_ge_cases i 63) as [|Ge]; auto. exfalso.
    rewrite N.testbit_eqb, N.div_small in Hi; [discriminate|].
    eapply N.lt_le_trans; [exact H|]. unfold flag. now apply N.pow_le_mono_r. }
  assert (Z : N.land d flag = 0%N).
  { apply N.bits_inj. intros i. rewrite N.land_spec, N.bits_0. destruct (N.testbit d i) eqn:E; auto.
    apply B in E. unfold flag. rewrite N.pow2_bits_false by lia. reflexivity. }
  assert (P : (d + flag = N.lor d flag)%N) by (rewrite <- N.lxor_lor by exact Z; now apply N.add_nocarry_lxor).
  destruct b.
  - rewrite P, <- N.lor_assoc, N.lor_diag. reflexivity.
  - rewrite N.add_0_r. now symmetry.
Qed.
Lemma CI_op g x : CI x -> CI (fst (cop_run g x)).
Proof.
  intros I. pose proof I as I0. unfold cop_run, crun. pose proof (CI_low _ I) as Lw. assert (EL := CI_load _ I). pose proof (tb63 _ I) as T. destruct I as (A & B & C & D).
  unfold add64, sub64, two64, flag in *.
  destruct (cop_of g) as [| |n|n].
  - destruct (N.eqb_spec (low (load x)) 0); simpl; [exact I0|].
    unfold CI, flag; simpl. split; [|split; [|split]]; auto; try lia.
    rewrite ?EL, C. destruct (cancelled (hist x)).
    + replace (added (hist x) - decs (hist x) + 2 ^ 63 + 18446744073709551615)%N
        with (added (hist x) - (decs (hist x) + 1) + 2 ^ 63 + 1 * 18446744073709551616)%N by lia.
      rewrite N.mod_add by discriminate. apply N.mod_small. lia.
    + replace (added (hist x) - decs (hist x) + 0 + 18446744073709551615)%N
        with (added (hist x) - (decs (hist x) + 1) + 0 + 1 * 18446744073709551616)%N by lia.
      rewrite N.mod_add by discriminate. apply N.mod_small. lia.
  - simpl. unfold CI, flag; simpl. split; [|split; [|split]]; auto.
    rewrite EL, C. apply (lor_flag _ (cancelled (hist x))). exact B.
  - destruct (N.ltb_spec (low (load x) + n) (2^63)); simpl; [|exact I0].
    unfold CI, flag; simpl. split; [|split; [|split]]; auto; try lia. rewrite EL, C. rewrite N.mod_small; destruct (cancelled (hist x)); lia.
  - destruct (N.eqb_spec (low (load x)) 0); simpl; [|exact I0].
    destruct (N.ltb_spec n two32); simpl; [|exact I0].
    unfold CI, flag; simpl. unfold two32 in *. split; [|split; [|split]]; auto; try lia.
Qed.

Lemma LM v h : load (mk_c v h) = (v mod two64)%N. Proof. reflexivity. Qed.
Lemma c_hop g x k : cwait k (fst (cop_run g x)) = true -> cwait k x = true \/ snd (cop_run g x) = true.
Proof.
  unfold cop_run, crun. assert (Hl : (load x < two64)%N) by (apply N.mod_lt; discriminate).
  assert (Dm := N.div_mod (load x) flag ltac:(discriminate)). fold (low (load x)) in Dm.
  assert (Lb : (low (load x) < flag)%N) by (apply N.mod_lt; discriminate).
  assert (Q : (load x / flag < 2)%N) by (apply N.div_lt_upper_bound; [discriminate|exact Hl]).
  assert (T : forall v, (v < two64)%N -> N.testbit v 63 = true -> (flag <= v)%N).
  { intros v Hv. rewrite N.testbit_eqb. intros H. apply N.eqb_eq in H.
    destruct (N.lt_ge_cases v flag) as [Lt|]; auto. rewrite N.div_small in H by exact Lt. discriminate. }
  assert (T2 : (flag <= load x)%N -> N.testbit (load x) 63 = true).
  { intros H. rewrite N.testbit_eqb. change (2 ^ 63)%N with flag.
    assert (1 <= load x / flag)%N by (apply N.div_le_lower_bound; [discriminate|lia]).
    replace (load x / flag)%N with 1%N by lia. reflexivity. }
  assert (F : (load x = low (load x) \/ load x = low (load x) + flag)%N) by (destruct (load x / flag)%N as [|[| |]]; unfold flag in *; lia).
  unfold cwait.
  destruct (cop_of g) as [| |n|n]; simpl.
  - destruct (N.eqb_spec (low (load x)) 0); simpl; auto. rewrite !LM.
    unfold sub64. rewrite N.mod_mod by discriminate.
    replace ((load x + (two64 - 1)) mod two64)%N with (load x - 1)%N.
    2: { replace (load x + (two64 - 1))%N with (load x - 1 + 1 * two64)%N by (unfold two64 in *; lia).
         rewrite N.mod_add by discriminate. symmetry. apply N.mod_small. lia. }
    rewrite !orb_true_iff, !N.eqb_eq. intros [H|H]; [right; lia|]. apply T in H; [|unfold two64 in *; lia].
    left. right. apply T2. lia.
  - auto.
  - destruct (N.ltb_spec (low (load x) + n) flag); simpl; auto. rewrite !LM.
    unfold add64. rewrite N.mod_mod by discriminate. rewrite N.mod_small by (unfold flag, two64 in *; lia).
    rewrite !orb_true_iff, !N.eqb_eq. intros [H'|H']; left; [left; lia|].
    apply T in H'; [|unfold flag, two64 in *; lia]. right. apply T2. lia.
  - destruct (N.eqb_spec (low (load x)) 0); simpl; auto. destruct (N.ltb_spec n two32); simpl; auto.
    intros _. left. destruct F as [F|F]; rewrite orb_true_iff, N.eqb_eq; [left; lia|right; apply T2; lia].
Qed.
Lemma c_take j x k : cwait j x = true -> cwait k (creturn j x) = true -> cwait k x = true.
Proof. auto. Qed.

Section C16.
  Variable NT : nat.
  Variable menu : nat -> nat -> option call.
  Hypothesis Hnt : (N.of_nat NT < two32)%N.
  Lemma c_inv n s : (n < two32)%N -> reachable (cstep NT menu) (cinit n) s -> CI (cs s).
  Proof.
    intros Hn. apply await_cs_inv.
    - intros. now apply CI_op.
    - intros. now apply CI_ret.
    - unfold CI, flag, two32 in *; simpl. repeat split; try lia; tauto.
  Qed.
  Lemma counter_result_pf n s r a d c : (n < two32)%N -> reachable (cstep NT menu) (cinit n) s ->
    In (r, (a, d, c)) (returns (hist (cs s))) -> (r = true -> a = d) /\ (r = false -> c = true).
  Proof. intros Hn R. now apply (c_inv n s Hn R). Qed.
  Lemma counter_released_pf n ls s t k : (n < two32)%N -> exec (cstep NT menu) (cinit n) ls = Next s ->
    timely (cstep NT menu) (cinit n) ls -> suspended_on s t k -> finished (hist (cs s)) ->
    exists u, notifying s u.
  Proof.
    intros Hn E T [tm S] F.
    assert (R : reachable (cstep NT menu) (cinit n) s) by now exists ls.
    destruct (await_no_lost_wakeup_pf cwait creturn cop_run true menu (fun _ => true) NT Hnt c_hop c_take (or_introl eq_refl)
      (mk_c n (fresh_calls n)) s t k tm R) as [u H]; auto.
    - apply (await_window_pf cwait creturn cop_run true menu (fun _ => true) NT Hnt c_hop c_take (or_introl eq_refl)
        (mk_c n (fresh_calls n)) ls s E).
      intros m s1 u l ky E1 P K. apply N.nle_gt. intros B. apply (T m s1 u E1). exists l, ky. auto.
    - apply cwait_ok; auto. eapply c_inv; eauto.
    - exists u. unfold notifying. destruct H as [->|[->| ->]]; exact I.
  Qed.
  Lemma counter_safe_pf n : safe (cstep NT menu) (cinit n).
  Proof. apply await_safe_pf; auto. Qed.
End C16.
