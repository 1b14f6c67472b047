(** Proofs for HistProps.v. *)
From Verif Require Import Util HistModel HistSpec.
From Coq Require Import Lia Lqa Permutation.

Lemma limits_len : length limits = 153%nat. Proof. reflexivity. Qed.
Opaque top limits.
Lemma ltb_spec x y : if ltb x y then x < y else y <= x.
Proof.
  unfold ltb. destruct (Qle_bool y x) eqn:E; cbn.
  - now apply Qle_bool_iff.
  - apply Qnot_le_lt. intros H. apply Qle_bool_iff in H. congruence.
Qed.
Lemma ltb_lt x y : ltb x y = true <-> x < y.
Proof. assert (H := ltb_spec x y). destruct (ltb x y); split; intros; try easy. exfalso. lra. Qed.

(** *** Words *)
Lemma two64_nz : two64 <> 0%N. Proof. discriminate. Qed.
Lemma w64_lt x : (w64 x < two64)%N.
Proof. apply N.mod_lt, two64_nz. Qed.
Lemma w64_id x : (x < two64)%N -> w64 x = x.
Proof. apply N.mod_small. Qed.
Lemma w64_l a b : w64 (w64 a + b) = w64 (a + b).
Proof. apply N.add_mod_idemp_l, two64_nz. Qed.
Lemma w64_r a b : w64 (a + w64 b) = w64 (a + b).
Proof. apply N.add_mod_idemp_r, two64_nz. Qed.
Lemma w64_eq x : exists k, x = (w64 x + k * two64)%N.
Proof. exists (x / two64)%N. unfold w64. rewrite N.mul_comm, N.add_comm. apply N.div_mod'. Qed.
Lemma w64_add x k : w64 (x + k * two64) = w64 x.
Proof. apply N.mod_add, two64_nz. Qed.
Lemma w64_0 : w64 0 = 0%N. Proof. reflexivity. Qed.
Opaque two64.

(** *** The bucket of a value *)
Lemma ub_spec l v : forall k, exists j, upper_bound l v k = (k + j)%nat /\ (j <= length l)%nat /\
  (forall i, (i < j)%nat -> inject_Z (nth i l top) <= v) /\ ((j < length l)%nat -> v < inject_Z (nth j l top)).
Proof.
  induction l as [|x l IH]; intros k.
  - exists 0%nat. cbn. repeat split; lia.
  - cbn [upper_bound]. assert (X := ltb_spec v (inject_Z x)). destruct (ltb v (inject_Z x)).
    + exists 0%nat. cbn. repeat split; try lia. auto.
    + destruct (IH (S k)) as (j & E & L & A & B). exists (S j). split; [lia|]. split; [cbn; lia|]. split.
      * intros [|i] Hi; cbn; auto. apply A. lia.
      * intros Hj. cbn. apply B. cbn in Hj. lia.
Qed.
Lemma bucket_falls v : falls v (bucket v).
Proof.
  unfold bucket. destruct (ub_spec limits v 0) as (j & -> & L & A & B). rewrite limits_len in *. cbn [Nat.add]. unfold falls, limit.
  split; [lia|]. split; intros H; [apply A|apply B]; lia.
Qed.
Fixpoint sortedb (l : list Z) : bool := match l with x :: (y :: _) as r => (x <? y)%Z && sortedb r | _ => true end.
Lemma sortedb_nth l : sortedb l = true -> forall i j, (i < j < length l)%nat -> (nth i l top < nth j l top)%Z.
Proof.
  induction l as [|x l IH]; intros H i j L; [cbn in L; lia|]. destruct l as [|y l]; [cbn in L; lia|].
  cbn [sortedb] in H. apply andb_prop in H as [H1 H2]. apply Z.ltb_lt in H1. destruct j as [|j]; [lia|]. destruct i as [|i].
  - destruct j as [|j]; [exact H1|]. specialize (IH H2 0%nat (S j)). cbn in IH, L |- *. assert (0 < S j < S (length l))%nat by lia. specialize (IH H). lia.
  - apply (IH H2 i j). cbn in L |- *. lia.
Qed.
Lemma limit_lt i j : (i < j < 153)%nat -> limit i < limit j.
Proof.
  intros L. unfold limit. rewrite <- Zlt_Qlt. apply sortedb_nth; [vm_compute; reflexivity|]. rewrite limits_len. lia.
Qed.
Lemma falls_unique v b c : falls v b -> falls v c -> b = c.
Proof.
  assert (K : forall b c, falls v b -> falls v c -> ~ (b < c)%nat).
  { intros x y (A1 & A2 & A3) (B1 & B2 & B3) L. assert (v < limit x) by (apply A3; lia). assert (limit (y - 1) <= v) by (apply B2; lia).
    destruct (Nat.eq_dec x (y - 1)) as [E|E]; [rewrite <- E in *; lra|]. assert (limit x < limit (y - 1)) by (apply limit_lt; lia). lra. }
  intros A B. assert (X := K b c A B). assert (Y := K c b B A). lia.
Qed.
Lemma falls_bucket v b : falls v b <-> bucket v = b.
Proof. split; [|intros <-; apply bucket_falls]. intros H. apply (falls_unique v); auto. apply bucket_falls. Qed.
Lemma bucket_lt v : (bucket v < 154)%nat.
Proof. apply (bucket_falls v). Qed.

Definition tallyf (b : nat) (l : list (Q * N)) : N := fold_right (fun p a => if (bucket (fst p) =? b)%nat then (snd p + a)%N else a) 0%N l.
Lemma tally_f b l n : tally b l n <-> n = tallyf b l.
Proof.
  split.
  - induction 1; cbn [tallyf fold_right fst snd]; auto; fold (tallyf b l).
    + apply falls_bucket in H. rewrite H, Nat.eqb_refl. lia.
    + rewrite falls_bucket in H. rewrite (proj2 (Nat.eqb_neq _ _)); auto.
  - intros ->. induction l as [|[v c] l IH]; [constructor|]. cbn [tallyf fold_right fst snd]; fold (tallyf b l). destruct (Nat.eqb_spec (bucket v) b) as [E|E].
    + constructor; auto. now apply falls_bucket.
    + constructor; auto. now rewrite falls_bucket.
Qed.
Lemma tallyf_app b l k : tallyf b (l ++ k) = (tallyf b l + tallyf b k)%N.
Proof. induction l as [|[v c] l IH]; cbn [tallyf fold_right app fst snd]; auto. fold (tallyf b (l ++ k)) (tallyf b l). destruct (bucket v =? b)%nat; lia. Qed.
Lemma total_app l k : total (l ++ k) = (total l + total k)%N.
Proof. induction l as [|[v c] l IH]; cbn [total fold_right app fst snd]; auto. fold (total (l ++ k)) (total l). lia. Qed.

(** *** Lists of counters *)
Definition words (l : list N) : Prop := forall x, In x l -> (x < two64)%N.
Lemma nth_word l i : words l -> (nth i l 0 < two64)%N.
Proof. intros H. destruct (nth_in_or_default i l 0%N) as [A| ->]; auto. reflexivity. Qed.
Lemma grow_len n l : length (grow n l) = Nat.max n (length l).
Proof. unfold grow. rewrite app_length, repeat_length. lia. Qed.
Lemma grow_nth n l i : nth i (grow n l) 0%N = nth i l 0%N.
Proof.
  unfold grow. destruct (Nat.lt_ge_cases i (length l)) as [L|L].
  - now apply app_nth1.
  - rewrite app_nth2 by lia. rewrite (nth_overflow l) by lia. apply nth_repeat.
Qed.
Lemma grow_words n l : words l -> words (grow n l).
Proof. intros H x Hx. unfold grow in Hx. apply in_app_or in Hx as [Hx|Hx]; auto. apply repeat_spec in Hx. subst. reflexivity. Qed.
Lemma sumN_app a b : sumN (a ++ b) = (sumN a + sumN b)%N.
Proof. induction a as [|x a IH]; cbn; auto. fold (sumN (a ++ b)) (sumN a). lia. Qed.
Lemma sumN_zeros n : sumN (repeat 0%N n) = 0%N.
Proof. induction n; cbn; auto. Qed.
Lemma grow_sum n l : sumN (grow n l) = sumN l.
Proof. unfold grow. rewrite sumN_app, sumN_zeros. lia. Qed.
Lemma set_sum l : forall i y, (i < length l)%nat -> (sumN (set i y l) + nth i l 0 = sumN l + y)%N.
Proof.
  induction l as [|x l IH]; intros i y L; [cbn in L; lia|]. destruct i as [|i]; cbn [set nth sumN fold_right].
  - fold (sumN l). lia.
  - fold (sumN l) (sumN (set i y l)). cbn in L. specialize (IH i y). lia.
Qed.
Lemma set_words l i y : words l -> (y < two64)%N -> words (set i y l).
Proof.
  intros H Hy. revert i. induction l as [|x l IH]; intros i z Hz; [destruct i; destruct Hz|]. destruct i as [|i]; cbn in Hz; destruct Hz as [<-|Hz]; auto.
  - apply H. now right.
  - apply H. now left.
  - apply (IH (fun x Hx => H x (or_intror Hx)) i). exact Hz.
Qed.
Lemma set_nth l : forall i j y, (i < length l)%nat -> nth j (set i y l) 0%N = if (j =? i)%nat then y else nth j l 0%N.
Proof.
  induction l as [|x l IH]; intros i j y L; [cbn in L; lia|]. destruct i as [|i], j as [|j]; cbn; auto. apply IH. cbn in L. lia.
Qed.
Lemma plus_len a : forall o, length (plus a o) = length a.
Proof. induction a as [|x a IH]; intros [|y o]; cbn; auto. Qed.
Lemma plus_words a : forall o, words a -> words (plus a o).
Proof.
  induction a as [|x a IH]; intros [|y o] H; cbn; auto. intros z [<-|Hz]; [apply w64_lt|]. apply (IH o); auto. intros u Hu. apply H. now right.
Qed.
Lemma plus_nth a : forall o i, words a -> (length o <= length a)%nat -> nth i (plus a o) 0%N = w64 (nth i a 0%N + nth i o 0%N).
Proof.
  induction a as [|x a IH]; intros [|y o] i H L; try (cbn in L; lia).
  - cbn [plus]. replace (nth i (@nil N) 0%N) with 0%N by now destruct i. symmetry. apply w64_0.
  - cbn [plus]. assert (X := nth_word (x :: a) i H). replace (nth i (@nil N) 0%N) with 0%N by now destruct i. rewrite N.add_0_r. now rewrite w64_id.
  - destruct i as [|i]; cbn; auto. apply IH; [|cbn in L; lia]. intros u Hu. apply H. now right.
Qed.
Lemma plus_sum a : forall o, (length o <= length a)%nat -> w64 (sumN (plus a o)) = w64 (sumN a + sumN o).
Proof.
  induction a as [|x a IH]; intros [|y o] L; try (cbn in L; lia).
  - reflexivity.
  - cbn [plus]. now rewrite N.add_0_r.
  - cbn [plus sumN fold_right]. fold (sumN a) (sumN o) (sumN (plus a o)). rewrite w64_l. rewrite <- w64_r, IH, w64_r by (cbn in L; lia). f_equal. lia.
Qed.

Section R.
  Variable rnd : Q -> Q.

  (** *** Every histogram *)
  Record Inv (h : hist) : Prop := {
    i_words : words (bks h);
    i_len : (length (bks h) <= 154)%nat;
    i_num : num h = w64 (sumN (bks h))
  }.
  Lemma fold_w64 l : forall a, fold_left (fun a b => w64 (a + b)) l (w64 a) = w64 (a + sumN l).
  Proof.
    induction l as [|x l IH]; intros a; cbn [fold_left sumN fold_right]; [now rewrite N.add_0_r|]. fold (sumN l). rewrite w64_l, IH. f_equal. lia.
  Qed.
  Lemma inv_run e : Inv (run rnd e).
  Proof.
    induction e as [|e IH v c|e IH1 o IH2|e IH]; cbn [run].
    - split; cbn; [easy|lia|reflexivity].
    - destruct IH as [W L Hn]. unfold add. set (l := if (length (bks (run rnd e)) <=? bucket v)%nat then _ else _).
      assert (Wl : words l) by (unfold l; destruct (_ <=? _)%nat; auto; now apply grow_words).
      assert (Bv := bucket_lt v).
      assert (Ll : (bucket v < length l <= 154)%nat) by (unfold l; destruct (Nat.leb_spec (length (bks (run rnd e))) (bucket v)); rewrite ?grow_len; lia).
      assert (Sl : sumN l = sumN (bks (run rnd e))) by (unfold l; destruct (_ <=? _)%nat; auto; apply grow_sum).
      split; cbn [bks num].
      + apply set_words; auto. apply w64_lt.
      + rewrite set_length. lia.
      + assert (X := set_sum l (bucket v) (w64 (nth (bucket v) l 0%N + c)) (proj1 Ll)). destruct (w64_eq (nth (bucket v) l 0%N + c)) as (k & Ek).
        rewrite Hn, w64_l, <- Sl. rewrite <- (w64_add (sumN (set _ _ l)) k). f_equal. lia.
    - destruct IH1 as [W1 L1 N1], IH2 as [W2 L2 N2]. unfold merge. set (l := if (length (bks (run rnd e)) <? length (bks (run rnd o)))%nat then _ else _).
      assert (Wl : words l) by (unfold l; destruct (_ <? _)%nat; auto; now apply grow_words).
      assert (Ll : (length (bks (run rnd o)) <= length l <= 154)%nat)
        by (unfold l; destruct (Nat.ltb_spec (length (bks (run rnd e))) (length (bks (run rnd o)))); rewrite ?grow_len; lia).
      assert (Sl : sumN l = sumN (bks (run rnd e))) by (unfold l; destruct (_ <? _)%nat; auto; apply grow_sum).
      split; cbn [bks num].
      + now apply plus_words.
      + rewrite plus_len. lia.
      + rewrite plus_sum by lia. rewrite N1, N2, w64_l, w64_r, Sl. reflexivity.
    - destruct IH as [W L Hn]. unfold decay. split; cbn [bks num].
      + intros x Hx. apply in_map_iff in Hx as (y & <- & Hy). rewrite N.shiftr_div_pow2. apply W in Hy. change (2 ^ 1)%N with 2%N. lia.
      + now rewrite map_length.
      + change 0%N with (w64 0). rewrite fold_w64. reflexivity.
  Qed.
  Lemma hist_total_pf e : num (run rnd e) = w64 (sumN (bks (run rnd e))).
  Proof. apply inv_run. Qed.

  (** *** Without Decay *)
  Record Rep (h : hist) (l : list (Q * N)) : Prop := {
    r_num : num h = w64 (total l);
    r_cnt : forall b, counter h b = w64 (tallyf b l);
    r_min : (forall v c, In (v, c) l -> hmin h <= v) /\ hmin h <= inject_Z top /\ ((exists c, In (hmin h, c) l) \/ hmin h = inject_Z top);
    r_max : (forall v c, In (v, c) l -> v <= hmax h) /\ 0 <= hmax h /\ ((exists c, In (hmax h, c) l) \/ hmax h = 0)
  }.
  Lemma rep_run e : no_decay e = true -> Rep (run rnd e) (samples e).
  Proof.
    induction e as [|e IH v c|e IH1 o IH2|e IH]; cbn [run no_decay samples]; intros ND; try discriminate.
    - split; cbn.
      + reflexivity.
      + intros [|b]; reflexivity.
      + split; [easy|]. split; [lra|now right].
      + split; [easy|]. split; [lra|now right].
    - specialize (IH ND). destruct IH as [Hn Hc Hmi Hma]. destruct (inv_run e) as [W L _]. unfold add. set (l := if (length (bks (run rnd e)) <=? bucket v)%nat then _ else _).
      assert (Nl : forall i, nth i l 0%N = counter (run rnd e) i) by (intros i; unfold l; destruct (_ <=? _)%nat; auto; apply grow_nth).
      assert (Ll : (bucket v < length l)%nat) by (unfold l; destruct (Nat.leb_spec (length (bks (run rnd e))) (bucket v)); rewrite ?grow_len; lia).
      split; unfold counter; cbn [num bks hmin hmax].
      + rewrite Hn. cbn [total fold_right snd]. fold (total (samples e)). rewrite w64_l. f_equal. lia.
      + intros b. rewrite set_nth by auto. rewrite !Nl, !Hc. cbn [tallyf fold_right fst snd]. fold (tallyf b (samples e)). destruct (Nat.eqb_spec b (bucket v)) as [->|D].
        * rewrite Nat.eqb_refl, w64_l. f_equal. lia.
        * rewrite (proj2 (Nat.eqb_neq _ _)) by auto. reflexivity.
      + destruct Hmi as (A & B & C). assert (X := ltb_spec v (hmin (run rnd e))). destruct (ltb v (hmin (run rnd e))).
        * split; [|split; [lra|left; exists c; now left]]. intros u d [E|Hu]; [injection E as <- <-; lra|]. apply A in Hu. lra.
        * split; [|split; [lra|]]. { intros u d [E|Hu]; [injection E as <- <-; lra|]. now apply (A u d). } destruct C as [[d C]|C]; auto. left. exists d. now right.
      + destruct Hma as (A & B & C). assert (X := ltb_spec (hmax (run rnd e)) v). destruct (ltb (hmax (run rnd e)) v).
        * split; [|split; [lra|left; exists c; now left]]. intros u d [E|Hu]; [injection E as <- <-; lra|]. apply A in Hu. lra.
        * split; [|split; [lra|]]. { intros u d [E|Hu]; [injection E as <- <-; lra|]. now apply (A u d). } destruct C as [[d C]|C]; auto. left. exists d. now right.
    - apply andb_prop in ND as [N1 N2]. specialize (IH1 N1). specialize (IH2 N2). destruct IH1 as [Hn Hc Hmi Hma], IH2 as [Hn' Hc' Hmi' Hma'].
      destruct (inv_run e) as [W L _], (inv_run o) as [W' L' _]. unfold merge. set (l := if (length (bks (run rnd e)) <? length (bks (run rnd o)))%nat then _ else _).
      assert (Nl : forall i, nth i l 0%N = counter (run rnd e) i) by (intros i; unfold l; destruct (_ <? _)%nat; auto; apply grow_nth).
      assert (Wl : words l) by (unfold l; destruct (_ <? _)%nat; auto; now apply grow_words).
      assert (Ll : (length (bks (run rnd o)) <= length l)%nat)
        by (unfold l; destruct (Nat.ltb_spec (length (bks (run rnd e))) (length (bks (run rnd o)))); rewrite ?grow_len; lia).
      split; unfold counter; cbn [num bks hmin hmax].
      + rewrite Hn, Hn', w64_l, w64_r, total_app. reflexivity.
      + intros b. rewrite plus_nth by auto. rewrite Nl. fold (counter (run rnd o) b). rewrite Hc, Hc', w64_l, w64_r, tallyf_app. reflexivity.
      + destruct Hmi as (A & B & C), Hmi' as (A' & B' & C'). assert (X := ltb_spec (hmin (run rnd o)) (hmin (run rnd e))). destruct (ltb (hmin (run rnd o)) (hmin (run rnd e))).
        * split; [|split; [lra|]]. { intros v c Hv. apply in_app_or in Hv as [Hv|Hv]; [apply A in Hv; lra|now apply A' in Hv]. }
          destruct C' as [[c C']|C']; auto. left. exists c. apply in_or_app. auto.
        * split; [|split; [lra|]]. { intros v c Hv. apply in_app_or in Hv as [Hv|Hv]; [now apply A in Hv|apply A' in Hv; lra]. }
          destruct C as [[c C]|C]; auto. left. exists c. apply in_or_app. auto.
      + destruct Hma as (A & B & C), Hma' as (A' & B' & C'). assert (X := ltb_spec (hmax (run rnd e)) (hmax (run rnd o))). destruct (ltb (hmax (run rnd e)) (hmax (run rnd o))).
        * split; [|split; [lra|]]. { intros v c Hv. apply in_app_or in Hv as [Hv|Hv]; [apply A in Hv; lra|now apply A' in Hv]. }
          destruct C' as [[c C']|C']; auto. left. exists c. apply in_or_app. auto.
        * split; [|split; [lra|]]. { intros v c Hv. apply in_app_or in Hv as [Hv|Hv]; [now apply A in Hv|apply A' in Hv; lra]. }
          destruct C as [[c C]|C]; auto. left. exists c. apply in_or_app. auto.
  Qed.
  Lemma hist_count_pf e : no_decay e = true -> num (run rnd e) = (total (samples e) mod two64)%N.
  Proof. intros H. apply (rep_run e H). Qed.
  Lemma hist_bucket_pf e b n : no_decay e = true -> tally b (samples e) n -> counter (run rnd e) b = (n mod two64)%N.
  Proof. intros H T. apply tally_f in T. subst. apply (rep_run e H). Qed.

  Lemma total_perm l k : Permutation l k -> total l = total k.
  Proof. induction 1; cbn [total fold_right]; auto; try congruence; fold (total l); try fold (total l'); lia. Qed.
  Lemma tallyf_perm b l k : Permutation l k -> tallyf b l = tallyf b k.
  Proof.
    induction 1; cbn [tallyf fold_right]; auto; try congruence.
    - fold (tallyf b l) (tallyf b l'). destruct (_ =? _)%nat; lia.
    - fold (tallyf b l). destruct (_ =? _)%nat, (_ =? _)%nat; lia.
  Qed.
  Lemma hist_same_pf e f : no_decay e = true -> no_decay f = true -> Permutation (samples e) (samples f) -> same (run rnd e) (run rnd f).
  Proof.
    intros He Hf P. destruct (rep_run e He) as [N1 C1 (A1 & B1 & D1) (E1 & F1 & G1)], (rep_run f Hf) as [N2 C2 (A2 & B2 & D2) (E2 & F2 & G2)].
    assert (P' := Permutation_sym P). split; [|split; [|split]].
    - apply Qle_antisym.
      + destruct D2 as [[c D2]| ->]; auto. apply (A1 _ c). eapply Permutation_in; eauto.
      + destruct D1 as [[c D1]| ->]; auto. apply (A2 _ c). eapply Permutation_in; eauto.
    - apply Qle_antisym.
      + destruct G1 as [[c G1]| ->]; auto. apply (E2 _ c). eapply Permutation_in; eauto.
      + destruct G2 as [[c G2]| ->]; auto. apply (E1 _ c). eapply Permutation_in; eauto.
    - rewrite N1, N2. f_equal. now apply total_perm.
    - intros b. rewrite C1, C2. f_equal. now apply tallyf_perm.
  Qed.
  Lemma hist_range_pf e lo hi : no_decay e = true -> in_range (samples e) -> least lo (samples e) -> greatest hi (samples e) ->
    hmin (run rnd e) == lo /\ hmax (run rnd e) == hi.
  Proof.
    intros ND R ((c & L1) & L2) ((d & G1) & G2). destruct (rep_run e ND) as [_ _ (A & B & C) (D & E & F)]. split; apply Qle_antisym.
    - now apply (A lo c).
    - destruct C as [[k C]| ->]; [now apply (L2 _ k)|]. now apply (R lo c).
    - destruct F as [[k F]| ->]; [now apply (G2 _ k)|]. now apply (R hi d).
    - now apply (D hi d).
  Qed.

  (** *** Percentiles *)
  Section P.
  Hypothesis HR : rounding rnd.
  Lemma rle x y : x <= y -> rnd x <= rnd y. Proof. apply HR. Qed.
  Lemma rnd0 : rnd 0 == 0. Proof. apply (rnd_int rnd HR 0). discriminate. Qed.
  Lemma rnd1 : rnd 1 == 1. Proof. apply (rnd_int rnd HR 1). discriminate. Qed.
  Lemma rnn x : 0 <= x -> 0 <= rnd x. Proof. intros H. apply rle in H. assert (X := rnd0). lra. Qed.
  Lemma rN_nn n : 0 <= rnd (inject_Z (Z.of_N n)).
  Proof. apply rnn. change 0 with (inject_Z 0). rewrite <- Zle_Qle. lia. Qed.
  Lemma rN_le n k : (n <= k)%N -> rnd (inject_Z (Z.of_N n)) <= rnd (inject_Z (Z.of_N k)).
  Proof. intros H. apply rle. rewrite <- Zle_Qle. lia. Qed.
  Lemma rN_pos n : (1 <= n)%N -> 0 < rnd (inject_Z (Z.of_N n)).
  Proof. intros H. assert (X := rN_le 1 n H). change (inject_Z (Z.of_N 1)) with 1 in X. assert (Y := rnd1). lra. Qed.

  Lemma all_small : forallb (fun z => (0 <? z)%Z && (z <=? 2 ^ 53)%Z) limits = true. Proof. vm_compute. reflexivity. Qed.
  Lemma limit_small i : (i < 153)%nat -> exists z, limit i = inject_Z z /\ (0 < z <= 2 ^ 53)%Z.
  Proof.
    intros H. exists (nth i limits top). split; [reflexivity|]. assert (A := all_small). rewrite forallb_forall in A.
    specialize (A (nth i limits top)). rewrite <- limits_len in H. specialize (A (nth_In _ _ H)). lia.
  Qed.
  Lemma low_small b : (b <= 153)%nat -> exists z, low b = inject_Z z /\ (0 <= z <= 2 ^ 53)%Z.
  Proof. intros H. destruct b as [|b]; [exists 0%Z; split; [reflexivity|lia]|]. destruct (limit_small b) as (z & E & B); [lia|]. exists z. split; auto. lia. Qed.
  Lemma low_limit b : (b <= 153)%nat -> low b < limit b.
  Proof.
    intros H. destruct b as [|b].
    - vm_compute. reflexivity.
    - cbn [low]. destruct (Nat.eq_dec b 152) as [->|D]; [vm_compute; reflexivity|]. apply limit_lt. lia.
  Qed.
  Lemma rlow b : (b <= 153)%nat -> rnd (low b) == low b.
  Proof. intros H. destruct (low_small b H) as (z & -> & B). apply (rnd_int rnd HR). lia. Qed.
  Lemma rlimit b : (b < 153)%nat -> rnd (limit b) == limit b.
  Proof. intros H. destruct (limit_small b H) as (z & -> & B). apply (rnd_int rnd HR). lia. Qed.
  Lemma rdiff b : (b < 153)%nat -> rnd (limit b - low b) == limit b - low b.
  Proof.
    intros H. destruct (limit_small b H) as (z & Ez & Bz), (low_small b ltac:(lia)) as (y & Ey & By). rewrite Ez, Ey.
    assert (X : inject_Z z - inject_Z y == inject_Z (z - y)) by (unfold Zminus; rewrite inject_Z_plus, inject_Z_opp; reflexivity).
    assert (Y := rnd_int rnd HR (z - y)). assert (Z : rnd (inject_Z z - inject_Z y) == rnd (inject_Z (z - y))).
    { apply Qle_antisym; apply rle; lra. }
    rewrite Z, Y by lia. lra.
  Qed.

  (** Before it is clamped. *)
  Definition frac (n p : N) : Q := rnd (rnd (inject_Z (Z.of_N p)) / rnd (inject_Z (Z.of_N n))).
  Definition raw (b : nat) (n p : N) : Q := rnd (low b + rnd (rnd (limit b - low b) * frac n p)).
  Definition clamp (h : hist) (r : Q) : Q := let r := if ltb r (hmin h) then hmin h else r in if ltb (hmax h) r then hmax h else r.
  Lemma interp_raw h b p : interpolate rnd h b p = clamp h (raw b (w64 (nth b (bks h) 0%N + 1)) p).
  Proof. reflexivity. Qed.
  Lemma clamp_le h x y : x <= y -> clamp h x <= clamp h y.
  Proof.
    intros H. unfold clamp. assert (A := ltb_spec x (hmin h)). assert (B := ltb_spec y (hmin h)).
    set (x' := if ltb x (hmin h) then hmin h else x). set (y' := if ltb y (hmin h) then hmin h else y).
    assert (X : x' <= y') by (unfold x', y'; destruct (ltb x (hmin h)), (ltb y (hmin h)); lra).
    assert (C := ltb_spec (hmax h) x'). assert (D := ltb_spec (hmax h) y'). destruct (ltb (hmax h) x'), (ltb (hmax h) y'); lra.
  Qed.
  Lemma clamp_max h x : clamp h x <= hmax h.
  Proof. unfold clamp. set (y := if ltb x (hmin h) then _ else _). assert (D := ltb_spec (hmax h) y). destruct (ltb (hmax h) y); lra. Qed.
  Lemma clamp_min h x : hmin h <= hmax h -> hmin h <= clamp h x.
  Proof.
    intros H. unfold clamp. set (y := if ltb x (hmin h) then _ else _). assert (Y : hmin h <= y).
    { unfold y. assert (D := ltb_spec x (hmin h)). destruct (ltb x (hmin h)); lra. }
    destruct (ltb (hmax h) y); lra.
  Qed.

  Lemma frac_nn n p : (1 <= n)%N -> 0 <= frac n p.
  Proof. intros H. unfold frac. apply rnn. assert (A := rN_pos n H). assert (B := rN_nn p). apply Qle_shift_div_l; auto. lra. Qed.
  Lemma frac_le n p q : (1 <= n)%N -> (p <= q)%N -> frac n p <= frac n q.
  Proof.
    intros H L. unfold frac. apply rle. assert (A := rN_pos n H). assert (B := rN_le p q L). unfold Qdiv. apply Qmult_le_compat_r; auto. apply Qlt_le_weak, Qinv_lt_0_compat. auto.
  Qed.
  Lemma frac_1 n p : (1 <= n)%N -> (p <= n)%N -> frac n p <= 1.
  Proof.
    intros H L. unfold frac. assert (X : rnd (inject_Z (Z.of_N p)) / rnd (inject_Z (Z.of_N n)) <= 1).
    { apply Qle_shift_div_r; [now apply rN_pos|]. assert (B := rN_le p n L). lra. }
    apply rle in X. assert (Y := rnd1). lra.
  Qed.
  Lemma rd_nn b : (b <= 153)%nat -> 0 <= rnd (limit b - low b).
  Proof. intros H. apply rnn. assert (X := low_limit b H). lra. Qed.
  Lemma raw_low b n p : (b <= 153)%nat -> (1 <= n)%N -> low b <= raw b n p.
  Proof.
    intros H Hn. unfold raw. assert (A := rd_nn b H). assert (B := frac_nn n p Hn). assert (C : 0 <= rnd (limit b - low b) * frac n p) by now apply Qmult_le_0_compat.
    apply rnn in C. assert (D : low b <= low b + rnd (rnd (limit b - low b) * frac n p)) by lra. apply rle in D. assert (E := rlow b H). lra.
  Qed.
  Lemma raw_le b n p q : (b <= 153)%nat -> (1 <= n)%N -> (p <= q)%N -> raw b n p <= raw b n q.
  Proof.
    intros H Hn L. unfold raw. assert (A := rd_nn b H). assert (B := frac_le n p q Hn L). apply rle.
    assert (C : rnd (limit b - low b) * frac n p <= rnd (limit b - low b) * frac n q).
    { rewrite !(Qmult_comm (rnd (limit b - low b))). now apply Qmult_le_compat_r. }
    apply rle in C. lra.
  Qed.
  Lemma raw_high b n p : (b < 153)%nat -> (1 <= n)%N -> (p <= n)%N -> raw b n p <= limit b.
  Proof.
    intros H Hn L. unfold raw. assert (A := rd_nn b ltac:(lia)). assert (B := frac_1 n p Hn L).
    assert (C : rnd (limit b - low b) * frac n p <= rnd (limit b - low b)).
    { setoid_replace (rnd (limit b - low b)) with (rnd (limit b - low b) * 1) at 2 by lra. rewrite !(Qmult_comm (rnd (limit b - low b))). now apply Qmult_le_compat_r. }
    assert (E := rdiff b H). assert (C' : rnd (limit b - low b) * frac n p <= limit b - low b) by lra. apply rle in C'.
    assert (D : low b + rnd (rnd (limit b - low b) * frac n p) <= limit b) by lra. apply rle in D. assert (F := rlimit b H). lra.
  Qed.

  (** The value for a threshold, in the buckets from [b] on. *)
  Fixpoint pick (h : hist) (bs : list N) (b : nat) (sum t : N) : Q :=
    match bs with
    | [] => hmax h
    | x :: bs' => if (t <=? sum + x)%N then interpolate rnd h b (t - sum) else pick h bs' (S b) (sum + x) t
    end.
  Lemma pick_low h bs : forall b sum t, (b + length bs <= 154)%nat -> (forall i, (nth i (bks h) 0 + 1 < two64)%N) -> clamp h (low b) <= pick h bs b sum t.
  Proof.
    induction bs as [|x bs IH]; intros b sum t L W; cbn [pick]; [apply clamp_max|]. cbn in L. destruct (t <=? sum + x)%N.
    - rewrite interp_raw. apply clamp_le, raw_low; [lia|]. rewrite w64_id by auto. lia.
    - destruct bs as [|y bs]; [apply clamp_max|]. eapply Qle_trans; [|apply IH; auto; lia]. apply clamp_le. cbn [low]. assert (X := low_limit b). cbn in L.
      assert (low b < limit b) by (apply X; lia). lra.
  Qed.
  Lemma pick_le h : forall bs b sum t u, (b + length bs <= 154)%nat -> (forall i, (nth i (bks h) 0 + 1 < two64)%N) ->
    (forall i, nth i bs 0 = nth (b + i) (bks h) 0)%N -> (t <= u)%N -> pick h bs b sum t <= pick h bs b sum u.
  Proof.
    induction bs as [|x bs IH]; intros b sum t u L W E Lt; cbn [pick]; [lra|]. cbn in L.
    assert (Ex := E 0%nat). cbn in Ex. rewrite Nat.add_0_r in Ex.
    destruct (N.leb_spec t (sum + x)) as [A|A], (N.leb_spec u (sum + x)) as [B|B]; try lia.
    - rewrite !interp_raw. apply clamp_le, raw_le; try lia. rewrite w64_id by auto. lia.
    - destruct bs as [|y bs]; [apply clamp_max|]. eapply Qle_trans; [|apply pick_low; auto; cbn in *; lia]. rewrite interp_raw. apply clamp_le. cbn [low]. cbn in L.
      apply raw_high; try lia. rewrite w64_id by auto. lia. rewrite w64_id by auto. lia.
    - apply IH; auto; [lia|]. intros i. specialize (E (S i)). cbn in E. rewrite E. f_equal. lia.
  Qed.

  Definition thr (h : hist) (p : Q) : N := match threshold rnd h p with Some t => t | None => 0%N end.
  Lemma thr_ok h p : (num h <= 2 ^ 63)%N -> 0 <= p -> p <= 100 -> threshold rnd h p = Some (thr h p).
  Proof.
    intros Hn P0 P1. unfold thr. enough (threshold rnd h p <> None) by (destruct (threshold rnd h p); congruence). unfold threshold.
    set (x := rnd _). assert (X0 : 0 <= x).
    { unfold x. apply rnn. apply Qmult_le_0_compat; [apply rN_nn|]. apply rnn. apply Qle_shift_div_l; lra. }
    assert (X1 : x <= inject_Z (2 ^ 63)).
    { unfold x. assert (R63 := rnd_63 rnd HR). assert (A : rnd (inject_Z (Z.of_N (num h))) <= inject_Z (2 ^ 63)).
      { assert (Y : inject_Z (Z.of_N (num h)) <= inject_Z (2 ^ 63)) by (rewrite <- Zle_Qle; lia). apply rle in Y. lra. }
      assert (B : rnd (p / 100) <= 1). { assert (Y : p / 100 <= 1) by (apply Qle_shift_div_r; lra). apply rle in Y. assert (Z := rnd1). lra. }
      assert (C := rN_nn (num h)).
      assert (D : rnd (inject_Z (Z.of_N (num h))) * rnd (p / 100) <= rnd (inject_Z (Z.of_N (num h))) * 1).
      { rewrite !(Qmult_comm (rnd (inject_Z (Z.of_N (num h))))). now apply Qmult_le_compat_r. }
      assert (F : rnd (inject_Z (Z.of_N (num h))) * rnd (p / 100) <= inject_Z (2 ^ 63)) by lra. apply rle in F. lra. }
    apply Qfloor_resp_le in X0. apply Qfloor_resp_le in X1. rewrite Qfloor_Z in X1. change (Qfloor 0) with 0%Z in X0.
    assert (T : (Z.of_N two64 = 2 ^ 64)%Z) by reflexivity. destruct (Z.leb_spec 0 (Qfloor x)); [|lia]. destruct (Z.ltb_spec (Qfloor x) (Z.of_N two64)); [discriminate|lia].
  Qed.
  Lemma thr_le h p q : (num h <= 2 ^ 63)%N -> 0 <= p -> p <= q -> q <= 100 -> (thr h p <= thr h q)%N.
  Proof.
    intros Hn P0 L P1. assert (A := thr_ok h p Hn P0 ltac:(lra)). assert (B := thr_ok h q Hn ltac:(lra) P1). revert A B. unfold threshold.
    destruct (_ && _)%bool; [|discriminate]. destruct (_ && _)%bool; [|discriminate]. intros [= <-] [= <-].
    enough (Qfloor (rnd (rnd (inject_Z (Z.of_N (num h))) * rnd (p / 100))) <= Qfloor (rnd (rnd (inject_Z (Z.of_N (num h))) * rnd (q / 100))))%Z by lia.
    apply Qfloor_resp_le, rle. rewrite !(Qmult_comm (rnd (inject_Z (Z.of_N (num h))))). apply Qmult_le_compat_r; [|apply rN_nn]. apply rle. unfold Qdiv. apply Qmult_le_compat_r; auto. discriminate.
  Qed.

  Lemma asc_tail p ps : asc (p :: ps) -> asc ps.
  Proof. destruct ps; cbn; tauto. Qed.
  Lemma asc_thr h p ps : (num h <= 2 ^ 63)%N -> Forall okp (p :: ps) -> asc (p :: ps) -> Forall (fun q => (thr h p <= thr h q)%N) ps.
  Proof.
    intros Hn. revert p. induction ps as [|q ps IH]; intros p F A; constructor.
    - inversion F as [|? ? [P0 P1] F']; subst. inversion F' as [|? ? [Q0 Q1] _]; subst. apply thr_le; auto. apply A.
    - inversion F as [|? ? [P0 P1] F']; subst. inversion F' as [|? ? [Q0 Q1] _]; subst. assert (X := IH q F' (asc_tail _ _ A)).
      assert (Y : (thr h p <= thr h q)%N) by (apply thr_le; auto; apply A). eapply Forall_impl; [|exact X]. cbn. intros. lia.
  Qed.
  (** The inner loop takes a prefix; what remains is above the sum. *)
  Lemma inner_pick h b sum x : (num h <= 2 ^ 63)%N -> nth b (bks h) 0%N = x -> (sum + x < two64)%N -> forall ps, Forall okp ps -> asc ps ->
    Forall (fun p => (sum <= thr h p)%N) ps ->
    exists a r, ps = a ++ r /\ inner rnd h b (sum + x) ps = Some (map (fun p => interpolate rnd h b (thr h p - sum)) a, r) /\
      Forall (fun p => (thr h p <= sum + x)%N) a /\ Forall (fun p => (sum + x < thr h p)%N) r.
  Proof.
    intros Hn Hx Hs. induction ps as [|p ps IH]; intros F A G.
    - exists [], []. cbn. repeat split; constructor.
    - cbn [inner]. assert (F0 := Forall_inv F). rewrite thr_ok; try apply F0; auto. destruct (N.leb_spec (thr h p) (sum + x)) as [L|L].
      + destruct (IH (Forall_inv_tail F) (asc_tail _ _ A) (Forall_inv_tail G)) as (a & r & E1 & E2 & E3 & E4). exists (p :: a), r. rewrite E2, Hx.
        assert (Gp := Forall_inv G). cbn in Gp.
        assert (El : w64 (sum + x + (two64 - x)) = sum).
        { replace (sum + x + (two64 - x))%N with (sum + 1 * two64)%N by lia. rewrite w64_add. apply w64_id. lia. }
        rewrite El. assert (Ep : w64 (thr h p + (two64 - sum)) = (thr h p - sum)%N).
        { replace (thr h p + (two64 - sum))%N with ((thr h p - sum) + 1 * two64)%N by lia. rewrite w64_add. apply w64_id. lia. }
        rewrite Ep. split; [now rewrite E1|]. split; [reflexivity|]. split; auto.
      + exists [], (p :: ps). split; [reflexivity|]. split; [reflexivity|]. split; [constructor|]. constructor; auto.
        assert (X := asc_thr h p ps Hn F A). eapply Forall_impl; [|exact X]. cbn. intros. lia.
  Qed.
  Lemma asc_app a r : asc (a ++ r) -> asc r.
  Proof. induction a as [|x a IH]; intros H; auto. apply IH. now apply asc_tail in H. Qed.
  Lemma outer_pick h : (num h <= 2 ^ 63)%N -> forall bs b sum ps, (forall i, nth i bs 0 = nth (b + i) (bks h) 0)%N -> (sum + sumN bs < two64)%N ->
    Forall okp ps -> asc ps -> Forall (fun p => (sum <= thr h p)%N) ps ->
    outer rnd h bs b sum ps = Some (map (fun p => pick h bs b sum (thr h p)) ps).
  Proof.
    intros Hn. induction bs as [|x bs IH]; intros b sum ps E L F A G; [reflexivity|].
    destruct ps as [|p ps]; [reflexivity|]. cbn [outer]. cbn [sumN fold_right] in L. fold (sumN bs) in L.
    assert (Ex := E 0%nat). cbn in Ex. rewrite Nat.add_0_r in Ex. rewrite w64_id by lia.
    destruct (inner_pick h b sum x Hn (eq_sym Ex) ltac:(lia) (p :: ps) F A G) as (a & r & E1 & E2 & E3 & E4). rewrite E2.
    rewrite (IH (S b) (sum + x)%N r).
    - rewrite E1, map_app. f_equal. f_equal.
      + apply map_ext_in. intros q Hq. rewrite Forall_forall in E3. apply E3 in Hq. cbn [pick]. destruct (N.leb_spec (thr h q) (sum + x)); [reflexivity|lia].
      + apply map_ext_in. intros q Hq. rewrite Forall_forall in E4. apply E4 in Hq. cbn [pick]. destruct (N.leb_spec (thr h q) (sum + x)); [lia|reflexivity].
    - intros i. specialize (E (S i)). cbn in E. rewrite E. f_equal. lia.
    - lia.
    - rewrite E1 in F. apply Forall_app in F. apply F.
    - rewrite E1 in A. eapply asc_app; eauto.
    - eapply Forall_impl; [|exact E4]. cbn. intros. lia.
  Qed.

  Definition value (h : hist) (p : Q) : Q := if (num h =? 0)%N then 0 else pick h (bks h) 0 0 (thr h p).
  Lemma pct_value e ps : (sumN (bks (run rnd e)) <= 2 ^ 63)%N -> Forall okp ps -> asc ps ->
    percentiles rnd (run rnd e) ps = Some (map (value (run rnd e)) ps).
  Proof.
    intros S F A. assert (T : (two64 = 2 ^ 64)%N) by reflexivity. destruct (inv_run e) as [W L Hn]. rewrite w64_id in Hn by lia. unfold percentiles, value. destruct (num (run rnd e) =? 0)%N; [reflexivity|].
    apply outer_pick; auto; try lia. apply Forall_forall. intros. lia.
  Qed.
  Lemma pct_one e p : (sumN (bks (run rnd e)) <= 2 ^ 63)%N -> 0 <= p -> p <= 100 -> percentile rnd (run rnd e) p = Some (value (run rnd e) p).
  Proof.
    intros S P0 P1. unfold percentile. rewrite (pct_value e [p] S); [reflexivity| |exact I]. constructor; [|constructor]. split; auto.
  Qed.

  Lemma hist_percentile_safe_pf e p : (sumN (bks (run rnd e)) <= 2 ^ 63)%N -> 0 <= p -> p <= 100 -> exists r, percentile rnd (run rnd e) p = Some r.
  Proof. intros. eexists. now apply pct_one. Qed.
  Lemma hist_percentiles_pf e ps : (sumN (bks (run rnd e)) <= 2 ^ 63)%N -> Forall okp ps -> asc ps ->
    exists rs, percentiles rnd (run rnd e) ps = Some rs /\ Forall2 (fun p r => percentile rnd (run rnd e) p = Some r) ps rs.
  Proof.
    intros S F A. exists (map (value (run rnd e)) ps). split; [now apply pct_value|]. clear A. induction ps as [|p ps IH]; cbn; constructor.
    - apply pct_one; auto; apply (Forall_inv F).
    - apply IH. now apply Forall_inv_tail in F.
  Qed.
  Lemma hist_monotone_pf e p q r r' : (sumN (bks (run rnd e)) <= 2 ^ 63)%N -> 0 <= p -> p <= q -> q <= 100 ->
    percentile rnd (run rnd e) p = Some r -> percentile rnd (run rnd e) q = Some r' -> r <= r'.
  Proof.
    intros S P0 L P1. rewrite !pct_one by (auto; lra). intros [= <-] [= <-]. unfold value. destruct (num (run rnd e) =? 0)%N; [lra|].
    assert (T : (two64 = 2 ^ 64)%N) by reflexivity. destruct (inv_run e) as [W Ll Hn]. apply pick_le; auto.
    - intros i. assert (X : (nth i (bks (run rnd e)) 0 <= sumN (bks (run rnd e)))%N).
      { generalize (bks (run rnd e)) i. clear. induction l as [|x l IH]; intros [|i]; cbn [nth sumN fold_right]; try lia. fold (sumN l). specialize (IH i). lia. }
      lia.
    - apply thr_le; auto. rewrite Hn, w64_id; lia.
  Qed.
  Lemma pick_bounds h : hmin h <= hmax h -> forall bs b sum t, hmin h <= pick h bs b sum t /\ pick h bs b sum t <= hmax h.
  Proof.
    intros H. induction bs as [|x bs IH]; intros b sum t; cbn [pick]; [lra|]. destruct (t <=? sum + x)%N; auto. rewrite interp_raw. split; [now apply clamp_min|apply clamp_max].
  Qed.
  Lemma hist_minmax_pf e p r : (sumN (bks (run rnd e)) <= 2 ^ 63)%N -> (num (run rnd e) <> 0)%N -> hmin (run rnd e) <= hmax (run rnd e) -> 0 <= p -> p <= 100 ->
    percentile rnd (run rnd e) p = Some r -> hmin (run rnd e) <= r /\ r <= hmax (run rnd e).
  Proof.
    intros S Hn M P0 P1. rewrite pct_one by auto. intros [= <-]. unfold value. destruct (N.eqb_spec (num (run rnd e)) 0) as [E|_]; [congruence|]. now apply pick_bounds.
  Qed.
  Lemma tally_total l : total l = sumN (map (fun b => tallyf b l) (seq 0 154)).
  Proof.
    assert (Z : forall k s, sumN (map (fun _ : nat => 0%N) (seq s k)) = 0%N) by (induction k; intros; cbn; auto).
    induction l as [|[v c] l IH].
    - change (total []) with 0%N. symmetry. apply Z.
    - cbn [total fold_right snd]. fold (total l). rewrite IH. cbn [tallyf fold_right fst snd]. assert (B := bucket_lt v).
      assert (K : forall k s, (s <= bucket v < s + k)%nat ->
        (c + sumN (map (fun b => tallyf b l) (seq s k)) = sumN (map (fun b => if (bucket v =? b)%nat then c + tallyf b l else tallyf b l) (seq s k)))%N).
      { assert (K0 : forall k s, (bucket v < s)%nat ->
          sumN (map (fun b => if (bucket v =? b)%nat then c + tallyf b l else tallyf b l) (seq s k))%N = sumN (map (fun b => tallyf b l) (seq s k))).
        { induction k as [|k IHk]; intros s Hs; [reflexivity|]. cbn [seq map sumN fold_right]. rewrite (proj2 (Nat.eqb_neq _ _)) by lia.
          fold (sumN (map (fun b => tallyf b l) (seq (S s) k))). rewrite <- IHk by lia. reflexivity. }
        induction k as [|k IHk]; intros s Hs; [lia|]. cbn [seq map sumN fold_right].
        fold (sumN (map (fun b => tallyf b l) (seq (S s) k))) (sumN (map (fun b => if (bucket v =? b)%nat then c + tallyf b l else tallyf b l) (seq (S s) k)))%N.
        destruct (Nat.eqb_spec (bucket v) s) as [E|E].
        - rewrite K0 by lia. lia.
        - rewrite <- IHk by lia. lia. }
      apply (K 154%nat 0%nat). lia.
  Qed.
  Lemma sum_total e : no_decay e = true -> (total (samples e) < two64)%N -> sumN (bks (run rnd e)) = total (samples e).
  Proof.
    intros ND L. destruct (rep_run e ND) as [_ C _ _]. destruct (inv_run e) as [_ Ll _]. rewrite tally_total in L |- *.
    assert (X : forall k l s, (length l <= k)%nat -> (forall i, nth i l 0%N = w64 (tallyf (s + i) (samples e))) ->
      (sumN (map (fun b => tallyf b (samples e)) (seq s k)) < two64)%N -> sumN l = sumN (map (fun b => tallyf b (samples e)) (seq s k))).
    { induction k as [|k IH]; intros l s Hl Hc Hb.
      - destruct l; [reflexivity|cbn in Hl; lia].
      - cbn [seq map sumN fold_right] in *. fold (sumN (map (fun b => tallyf b (samples e)) (seq (S s) k))) in *. destruct l as [|x l].
        + assert (Y := Hc 0%nat). cbn in Y. rewrite Nat.add_0_r, w64_id in Y by lia. rewrite <- Y. cbn. rewrite <- (IH [] (S s)); auto; try lia.
          * cbn. lia.
          * intros i. specialize (Hc (S i)). cbn in Hc. rewrite Nat.add_succ_r in Hc. cbn. destruct i; exact Hc.
        + assert (Y := Hc 0%nat). cbn in Y. rewrite Nat.add_0_r, w64_id in Y by lia. rewrite Y. cbn [sumN fold_right]. fold (sumN l). rewrite (IH l (S s)); auto; try lia.
          * cbn in Hl. lia.
          * intros i. specialize (Hc (S i)). cbn in Hc. now rewrite Nat.add_succ_r in Hc. }
    apply X; auto.
  Qed.
  Lemma hist_percentile_pf e p r lo hi : no_decay e = true -> (0 < total (samples e) <= 2 ^ 63)%N -> in_range (samples e) -> 0 <= p -> p <= 100 ->
    percentile rnd (run rnd e) p = Some r -> least lo (samples e) -> greatest hi (samples e) -> lo <= r /\ r <= hi.
  Proof.
    intros ND T R P0 P1 E Lo Hi. assert (T64 : (two64 = 2 ^ 64)%N) by reflexivity.
    destruct (hist_range_pf e lo hi ND R Lo Hi) as [Emin Emax]. assert (Es := sum_total e ND ltac:(lia)).
    assert (Ll : lo <= hi). { destruct Lo as [[c Lo1] Lo2], Hi as [[d Hi1] Hi2]. now apply (Lo2 hi d). }
    assert (X := hist_minmax_pf e p r). rewrite (hist_count_pf e ND) in X. fold (w64 (total (samples e))) in X. rewrite w64_id in X by lia.
    destruct X as [A B]; auto; try lia; lra.
  Qed.

  (** *** sum() *)
  Lemma iabs_nn l : (0 <= iabs l)%Z.
  Proof. induction l as [|[z c] l IH]; cbn [iabs fold_right fst snd]; [lia|]. fold (iabs l). nia. Qed.
  Lemma isum_abs l : (Z.abs (isum l) <= iabs l)%Z.
  Proof. induction l as [|[z c] l IH]; cbn [iabs isum fold_right fst snd]; [lia|]. fold (iabs l) (isum l). nia. Qed.
  Lemma isum_app l k : isum (l ++ k) = (isum l + isum k)%Z.
  Proof. induction l as [|[z c] l IH]; cbn [isum fold_right fst snd app]; [reflexivity|]. fold (isum l) (isum (l ++ k)). lia. Qed.
  Lemma iabs_app l k : iabs (l ++ k) = (iabs l + iabs k)%Z.
  Proof. induction l as [|[z c] l IH]; cbn [iabs fold_right fst snd app]; [reflexivity|]. fold (iabs l) (iabs (l ++ k)). lia. Qed.
  Lemma rnd_compat x y : x == y -> rnd x == rnd y.
  Proof. intros H. apply Qle_antisym; apply rle; lra. Qed.
  Lemma rnd_int' x z : x == inject_Z z -> (Z.abs z <= 2 ^ 53)%Z -> rnd x == inject_Z z.
  Proof. intros H B. rewrite (rnd_compat _ _ H). now apply (rnd_int rnd HR). Qed.
  Lemma hist_sum_pf e : no_decay e = true -> forall l, samples e = as_samples l -> (iabs l <= 2 ^ 53)%Z -> hsum (run rnd e) == inject_Z (isum l).
  Proof.
    induction e as [|e IH v c|e IH1 o IH2|e IH]; cbn [run no_decay samples]; intros ND l E B; try discriminate.
    - destruct l; [|discriminate]. reflexivity.
    - destruct l as [|[z d] l]; [discriminate|]. cbn [as_samples map fst snd] in E. injection E as -> -> Es. fold (as_samples l) in Es.
      cbn [iabs isum fold_right fst snd] in B |- *. fold (iabs l) in B. fold (isum l). assert (Nn := iabs_nn l). assert (Ab := isum_abs l).
      assert (Pn : (0 <= Z.abs z * Z.of_N d)%Z) by (apply Z.mul_nonneg_nonneg; lia).
      assert (Pz : (Z.abs (z * Z.of_N d) = Z.abs z * Z.of_N d)%Z) by (rewrite Z.abs_mul; lia).
      assert (Pd : z <> 0%Z -> (Z.of_N d <= Z.abs z * Z.of_N d)%Z) by (intros Z0; assert (Z1 : (1 * Z.of_N d <= Z.abs z * Z.of_N d)%Z) by (apply Z.mul_le_mono_nonneg_r; lia); lia).
      unfold add. cbn [hsum]. assert (H := IH ND l Es ltac:(lia)).
      assert (P : rnd (inject_Z z * rnd (inject_Z (Z.of_N d))) == inject_Z (z * Z.of_N d)).
      { destruct (Z.eq_dec z 0) as [->|Z0].
        - apply rnd_int'; [|cbn; lia]. change (inject_Z (0 * Z.of_N d)) with 0. change (inject_Z 0) with 0. lra.
        - specialize (Pd Z0). apply rnd_int'; [|lia]. rewrite (rnd_int' (inject_Z (Z.of_N d)) (Z.of_N d)); [|reflexivity|lia]. now rewrite inject_Z_mult. }
      apply rnd_int'; [|lia]. rewrite P, H, inject_Z_plus. lra.
    - apply andb_prop in ND as [N1 N2]. unfold as_samples in E. symmetry in E. apply map_eq_app in E as (l1 & l2 & -> & E1 & E2). rewrite iabs_app in B. rewrite isum_app.
      assert (X1 := iabs_nn l1). assert (X2 := iabs_nn l2). assert (Y1 := isum_abs l1). assert (Y2 := isum_abs l2).
      unfold merge. cbn [hsum]. apply rnd_int'; [|lia]. rewrite inject_Z_plus, (IH1 N1 l1), (IH2 N2 l2); auto; try lia. reflexivity.
  Qed.
  End P.
End R.

Definition exact (x : Q) : Q := x.
Lemma rounding_exact : rounding exact.
Proof. split; unfold exact; intros; auto; reflexivity. Qed.

Lemma hist_within_refuted_pf : ~ within_samples.
Proof.
  intros H. specialize (H exact (AddTo New (-5) 1) 50 (0 # 2) (-5) (-5) rounding_exact eq_refl).
  destruct H as [_ H].
  - split; [reflexivity|discriminate].
  - discriminate.
  - discriminate.
  - vm_compute. reflexivity.
  - split; [exists 1%N; now left|]. intros v c [E|[]]. injection E as <- <-. discriminate.
  - split; [exists 1%N; now left|]. intros v c [E|[]]. injection E as <- <-. discriminate.
  - apply H. reflexivity.
Qed.
