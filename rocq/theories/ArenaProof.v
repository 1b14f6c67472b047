(** Proofs for ArenaProps.v. *)
From Verif Require Import Util Conc ArenaModel ArenaSpec.
From Coq Require Import Lia.
Open Scope N_scope.
Local Opaque two64 two32.
Lemma two64_v : two64 = 18446744073709551616. Proof. reflexivity. Qed.
Lemma two32_v : two32 = 4294967296. Proof. reflexivity. Qed.

(** The part of the current block that is free. *)
Definition free (a : arena) : N * N := (cur a, rest a).
Definition sep (l : list (N * N)) : Prop := forall k m x y, nth_error l k = Some x -> nth_error l m = Some y -> k <> m -> apart x y.
Record Good (a : arena) : Prop := {
  g_free : 0 < rest a -> (exists b, In b (blocks a) /\ within (free a) (region b)) /\ forall x, In x (out a) -> apart x (free a);
  g_out : forall x, In x (out a) -> exists b, In b (blocks a) /\ within x (region b);
  g_sep : sep (out a);
  g_blk : forall b, In b (blocks a) -> from b = mr a /\ sz b = real b /\ ptr b + real b <= two64;
  g_vmr : vmr a = mr a;
  g_mem : mem a = total (blocks a) mod two64
}.
Lemma good_new0 r : Good (new r).
Proof. split; cbn [new rest out blocks mr vmr mem]; try easy. intros k m x y Hx. destruct k; discriminate. Qed.
Definition far (a b : arena) : Prop := forall x y, In x (blocks a) -> In y (blocks b) -> apart (region x) (region y).
Record Inv (s : list arena) : Prop := {
  i_good : forall i a, nth_error s i = Some a -> Good a;
  i_far : forall i j a b, nth_error s i = Some a -> nth_error s j = Some b -> i <> j -> far a b
}.

Lemma apart_sym x y : apart x y -> apart y x. Proof. unfold apart. tauto. Qed.
Lemma apart_in x y x' y' : apart x y -> within x' x -> within y' y -> apart x' y'.
Proof. unfold apart, within. lia. Qed.
Lemma far_sym a b : far a b -> far b a.
Proof. intros H x y Hx Hy. apply apart_sym. auto. Qed.

Lemma set_cases {A} i (b : A) s k a : nth_error (set i b s) k = Some a -> (k = i /\ a = b /\ (i < length s)%nat) \/ (k <> i /\ nth_error s k = Some a).
Proof.
  intros H. destruct (Nat.eq_dec k i) as [->|D].
  - left. assert (L : (i < length s)%nat) by (rewrite <- (set_length i b); apply nth_error_Some; congruence). rewrite set_nth_error_eq in H by auto. injection H as <-. auto.
  - right. rewrite set_nth_error_neq in H by auto. auto.
Qed.
Lemma inv_disjoint s : Inv s -> disjoint s.
Proof.
  intros [G F] i j a b k m x y Ha Hb Hx Hy D. destruct (Nat.eq_dec i j) as [->|D'].
  - assert (a = b) by congruence. subst b. apply (g_sep a (G _ _ Ha) k m); auto; congruence.
  - destruct (g_out a (G _ _ Ha) x (nth_error_In _ _ Hx)) as (u & Hu & Wu). destruct (g_out b (G _ _ Hb) y (nth_error_In _ _ Hy)) as (v & Hv & Wv).
    apply (apart_in (region u) (region v)); auto. apply (F i j a b); auto.
Qed.
Lemma inv_inside s : Inv s -> inside s.
Proof. intros [G F] i a x Ha Hx. apply (g_out a (G _ _ Ha)); auto. Qed.
Lemma inv_counted s : Inv s -> counted s.
Proof. intros [G F] i a Ha. apply (g_mem a (G _ _ Ha)). Qed.

Lemma may_far s n p : may s n p = true -> 0 < p /\ p mod 16 = 0 /\ p + n <= two64 /\ forall i a b, nth_error s i = Some a -> In b (blocks a) -> apart (p, n) (region b).
Proof.
  unfold may. intros H. apply andb_prop in H as [H F]. apply andb_prop in H as [H H3]. apply andb_prop in H as [H1 H2].
  apply N.ltb_lt in H1. apply N.eqb_eq in H2. apply N.leb_le in H3. repeat (split; auto). intros i a b Ha Hb. rewrite forallb_forall in F.
  apply nth_error_In in Ha. specialize (F a Ha). rewrite forallb_forall in F. specialize (F b Hb). unfold apartb in F. unfold apart, region. cbn [fst snd].
  apply Bool.orb_true_iff in F as [F|F]; apply N.leb_le in F; auto.
Qed.

Lemma total_app l m : total (l ++ m) = total l + total m.
Proof. induction l; cbn [app total]; lia. Qed.

(** Replacing one arena by one that has perhaps one more block, from [may]. *)
Lemma inv_set s i a a' p n : Inv s -> nth_error s i = Some a -> Good a' ->
  (forall b, In b (blocks a') -> In b (blocks a) \/ (region b = (p, n) /\ may s n p = true)) -> Inv (set i a' s).
Proof.
  intros [G F] Ha G' B. assert (X : forall j b, j <> i -> nth_error s j = Some b -> far a' b).
  { intros j b D Hb x y Hx Hy. destruct (B x Hx) as [O|[-> M]].
    - apply (F i j a b); auto.
    - apply may_far in M as (_ & _ & _ & M). eapply M; eauto. }
  split.
  - intros k c Hk. apply set_cases in Hk as [(-> & -> & _)|(D & Hk)]; eauto.
  - intros k m c d Hc Hd D. apply set_cases in Hc as [(-> & -> & _)|(D1 & Hc)]; apply set_cases in Hd as [(-> & -> & _)|(D2 & Hd)]; try congruence.
    + eauto.
    + apply far_sym. eauto.
    + apply (F k m); auto.
Qed.
Lemma sep_cons x l : sep l -> (forall y, In y l -> apart y x) -> sep (x :: l).
Proof.
  intros S H k m y z Hy Hz D. destruct k as [|k], m as [|m]; cbn in *; try congruence.
  - injection Hy as <-. apply apart_sym. apply H. eapply nth_error_In; eauto.
  - injection Hz as <-. apply H. eapply nth_error_In; eauto.
  - apply (S k m); auto.
Qed.

Lemma good_bump a k n d : Good a -> k <= rest a -> k = d + n -> 0 < n -> Good (hand (cur a + d) n (bump k a)).
Proof.
  intros [Gf Go Gs Gb Gv Gm] L -> P. destruct Gf as [(b & Hb & W) A]; [lia|]. unfold within, free, region, apart in *. cbn [fst snd] in *.
  split; cbn [hand bump blocks out cur rest mr vmr mem]; auto.
  - intros R. split.
    + exists b. split; auto. unfold within, free, region; cbn [hand bump cur rest fst snd]. lia.
    + intros x [<-|Hx]; unfold apart, free; cbn [hand bump cur rest fst snd]; [lia|]. specialize (A x Hx). lia.
  - intros x [<-|Hx]; [|exact (Go x Hx)]. exists b. split; auto. unfold within, region; cbn [fst snd]. lia.
  - apply sep_cons; auto. intros y Hy. specialize (A y Hy). unfold apart; cbn [fst snd]. lia.
Qed.
Lemma out_apart s i a p n b x : Inv s -> nth_error s i = Some a -> may s n p = true -> In x (out a) -> b = (p, n) -> apart x b.
Proof.
  intros [G F] Ha M Hx ->. apply may_far in M as (_ & _ & _ & M). destruct (g_out a (G _ _ Ha) x Hx) as (u & Hu & W).
  apply apart_sym. apply (apart_in (p, n) (region u)); auto; [eapply M; eauto|]. unfold within. lia.
Qed.
Lemma good_new s i a n p : Inv s -> nth_error s i = Some a -> may s n p = true -> 0 < n -> Good (hand p n (new_block n p a)).
Proof.
  intros I Ha M P. destruct (i_good s I i a Ha) as [Gf Go Gs Gb Gv Gm]. assert (M' := may_far _ _ _ M). destruct M' as (_ & _ & Hp & M').
  split; cbn [hand new_block blocks out cur rest mr vmr mem]; auto.
  - intros R. destruct (Gf R) as [(b & Hb & W) A]. split.
    + exists b. split; [apply in_or_app; auto|exact W].
    + intros x [<-|Hx]; [|auto]. apply apart_in with (x := (p, n)) (y := region b); [eapply M'; eauto| |exact W]. unfold within; cbn; lia.
  - intros x [<-|Hx].
    + exists (Block p n (mr a) n). split; [apply in_or_app; cbn; auto|]. unfold within, region; cbn; lia.
    + destruct (Go x Hx) as (b & Hb & W). exists b. split; [apply in_or_app; auto|auto].
  - apply sep_cons; auto. intros y Hy. eapply out_apart; eauto.
  - intros b Hb. apply in_app_or in Hb as [Hb|[<-|[]]]; auto.
  - rewrite total_app, Gm. cbn [total real]. rewrite N.add_0_r, N.add_mod_idemp_l; [auto|rewrite two64_v; lia].
Qed.
Lemma good_place s i a n p : Inv s -> nth_error s i = Some a -> may s kBlockSize p = true -> 0 < n -> n <= kBlockSize ->
  Good (hand p n (bump n (place p kBlockSize (new_block kBlockSize p a)))).
Proof.
  intros I Ha M P L. destruct (i_good s I i a Ha) as [Gf Go Gs Gb Gv Gm]. assert (M' := may_far _ _ _ M). destruct M' as (_ & _ & Hp & M').
  assert (X : Good (place p kBlockSize (new_block kBlockSize p a))).
  { split; cbn [place new_block blocks out cur rest mr vmr mem]; auto.
    - intros _. split.
      + exists (Block p kBlockSize (mr a) kBlockSize). split; [apply in_or_app; cbn; auto|]. unfold within, region; cbn; lia.
      + intros x Hx. eapply out_apart; eauto.
    - intros x Hx. destruct (Go x Hx) as (b & Hb & W). exists b. split; [apply in_or_app; auto|auto].
    - intros b Hb. apply in_app_or in Hb as [Hb|[<-|[]]]; auto.
    - rewrite total_app, Gm. cbn [total real]. rewrite N.add_0_r, N.add_mod_idemp_l; [auto|rewrite two64_v; lia]. }
  apply (good_bump _ n n 0) in X; auto. cbn [place cur] in X. rewrite N.add_0_r in X. exact X.
Qed.

Lemma outs_set s i a a' : nth_error s i = Some a -> outs (set i a' s) i = out a' /\ forall k, k <> i -> outs (set i a' s) k = outs s k.
Proof.
  intros H. assert (L : (i < length s)%nat) by (apply nth_error_Some; congruence). unfold outs. split; [now rewrite set_nth_error_eq|]. intros k D. rewrite set_nth_error_neq; auto.
Qed.
Lemma outs_eq s i a : nth_error s i = Some a -> outs s i = out a.
Proof. unfold outs. now intros ->. Qed.

Lemma mod_8 p : p mod 16 = 0 -> p mod 8 = 0.
Proof. intros H. apply N.mod_divide in H as [c ->]; [|lia]. replace (c * 16) with (c * 2 * 8) by lia. apply N.mod_mul. lia. Qed.
Lemma fallback_ok s i a n p : Inv s -> nth_error s i = Some a -> 0 < n -> n < two32 ->
  fallback s n p a = Stuck \/ exists a', fallback s n p a = Next a' /\ Inv (set i a' s) /\ out a' = (p, n) :: out a /\ p mod 16 = 0.
Proof.
  intros I Ha P L. unfold fallback, u32. rewrite N.mod_small by auto. destruct (N.ltb_spec (kBlockSize / 4) n) as [X|X].
  - destruct (may s n p) eqn:M; [right|now left]. eexists. split; [reflexivity|]. split; [|split; [reflexivity|]].
    + apply (inv_set s i a _ p n); auto; [eapply good_new; eauto|]. cbn [hand new_block blocks]. intros b Hb. apply in_app_or in Hb as [Hb|[<-|[]]]; auto.
    + apply may_far in M. tauto.
  - destruct (may s kBlockSize p) eqn:M; [right|now left]. eexists. split; [reflexivity|]. split; [|split; [reflexivity|]].
    + apply (inv_set s i a _ p kBlockSize); auto; [eapply good_place; eauto; change (kBlockSize / 4) with 2048 in X; unfold kBlockSize; lia|].
      cbn [hand bump place new_block blocks]. intros b Hb. apply in_app_or in Hb as [Hb|[<-|[]]]; auto.
    + apply may_far in M. tauto.
Qed.
Lemma slop_lt p : slop p < 8.
Proof. unfold slop. assert (X := N.mod_lt p 8). destruct (N.eqb_spec (p mod 8) 0); lia. Qed.
Lemma slop_ok p : (p + slop p) mod 8 = 0.
Proof.
  unfold slop. destruct (N.eqb_spec (p mod 8) 0) as [E|E]; [now rewrite N.add_0_r|]. assert (X := N.mod_lt p 8). rewrite (N.div_mod p 8) at 1 by lia.
  replace (8 * (p / 8) + p mod 8 + (8 - p mod 8)) with ((p / 8 + 1) * 8) by lia. apply N.mod_mul. lia.
Qed.
Lemma good_swap a b : Good b -> vmr a = vmr b -> Good (swap_in a b).
Proof. intros [Gf Go Gs Gb Gv Gm] E. split; cbn [swap_in mr vmr cur rest mem blocks out]; auto. congruence. Qed.

Lemma step_ok s l : Inv s -> match cstep s l with Next s' => Inv s' /\ gives s l s' | Ub => False | Stuck => True end.
Proof.
  intros I. unfold cstep. destruct (calm s l) eqn:C; auto. destruct l as [i n p|i n p|i j|i r]; cbn [step calm] in *.
  - destruct (N.eqb_spec n 0) as [E|E]; auto. apply N.ltb_lt in C. unfold on. destruct (nth_error s i) as [a|] eqn:Ha; auto. unfold allocate. destruct (N.leb_spec n (rest a)) as [L|L].
    + cbn [bind]. assert (G := good_bump a n n 0 (i_good s I i a Ha) L eq_refl ltac:(lia)). rewrite N.add_0_r in G. split.
      * apply (inv_set s i a _ 0 0); auto.
      * split; [apply set_length|]. edestruct (outs_set s i a) as [E1 E2]; eauto. split; [|exact E2]. rewrite E1, (outs_eq _ _ _ Ha). cbn [hand bump out]. eauto.
    + destruct (fallback_ok s i a n p I Ha ltac:(lia) C) as [-> |(a' & -> & I' & O & _)]; cbn [bind]; auto. split; auto. split; [apply set_length|].
      edestruct (outs_set s i a) as [E1 E2]; eauto. split; [|exact E2]. rewrite E1, (outs_eq _ _ _ Ha), O. eauto.
  - destruct (N.eqb_spec n 0) as [E|E]; auto. apply N.ltb_lt in C. unfold on. destruct (nth_error s i) as [a|] eqn:Ha; auto. unfold allocate_aligned. cbv zeta.
    assert (SL := slop_lt (cur a)). rewrite N.mod_small by (rewrite two64_v; rewrite two32_v in C; lia). destruct (N.leb_spec (n + slop (cur a)) (rest a)) as [L|L].
    + cbn [bind]. assert (G := good_bump a (n + slop (cur a)) n (slop (cur a)) (i_good s I i a Ha) L ltac:(lia) ltac:(lia)). split.
      * apply (inv_set s i a _ 0 0); auto.
      * split; [apply set_length|]. edestruct (outs_set s i a) as [E1 E2]; eauto. split; [|exact E2]. rewrite E1, (outs_eq _ _ _ Ha). cbn [hand bump out].
        eexists. split; [reflexivity|]. apply slop_ok.
    + destruct (fallback_ok s i a n p I Ha ltac:(lia) C) as [-> |(a' & -> & I' & O & M)]; cbn [bind]; auto. split; auto. split; [apply set_length|].
      edestruct (outs_set s i a) as [E1 E2]; eauto. split; [|exact E2]. rewrite E1, (outs_eq _ _ _ Ha), O. eexists. split; [reflexivity|]. now apply mod_8.
  - destruct (nth_error s i) as [a|] eqn:Ha; auto. destruct (nth_error s j) as [b|] eqn:Hb; auto. apply Nat.eqb_eq in C.
    destruct (Nat.eqb_spec i j) as [->|D].
    { split; auto. split; auto. }
    assert (Ga := i_good s I i a Ha). assert (Gb := i_good s I j b Hb). rewrite (g_vmr a Ga), (g_vmr b Gb), C, Nat.eqb_refl.
    assert (V : vmr a = vmr b) by (rewrite (g_vmr a Ga), (g_vmr b Gb); auto).
    assert (Li : (i < length s)%nat) by (apply nth_error_Some; congruence). assert (Lj : (j < length s)%nat) by (apply nth_error_Some; congruence). split.
    + split.
      * intros k c Hk. apply set_cases in Hk as [(-> & -> & _)|(D1 & Hk)]; [apply good_swap; auto|].
        apply set_cases in Hk as [(-> & -> & _)|(D2 & Hk)]; [apply good_swap; auto|]. apply (i_good s I k); auto.
      * assert (F := i_far s I). intros k m c d Hc Hd Dk. apply set_cases in Hc as [(-> & -> & _)|(D1 & Hc)]; apply set_cases in Hd as [(-> & -> & _)|(D2 & Hd)]; try congruence.
        -- apply set_cases in Hd as [(-> & -> & _)|(D3 & Hd)]; unfold far; cbn [swap_in blocks]; [apply (F i j a b)|apply (F i m a d)]; auto.
        -- apply set_cases in Hc as [(-> & -> & _)|(D3 & Hc)]; unfold far; cbn [swap_in blocks]; [apply (F j i b a)|apply (F k i c a)]; auto.
        -- apply set_cases in Hc as [(-> & -> & _)|(D3 & Hc)]; apply set_cases in Hd as [(-> & -> & _)|(D4 & Hd)]; unfold far; cbn [swap_in blocks]; try congruence;
             [apply (F j m b d)|apply (F k j c b)|apply (F k m c d)]; auto.
    + split; [now rewrite !set_length|]. unfold outs. split; [|split].
      * rewrite set_nth_error_neq, set_nth_error_eq, Hb by auto. reflexivity.
      * rewrite set_nth_error_eq, Ha by (now rewrite set_length). reflexivity.
      * intros k D1 D2. rewrite !set_nth_error_neq by auto. reflexivity.
  - unfold on. destruct (nth_error s i) as [a|] eqn:Ha; auto. assert (Ga := i_good s I i a Ha).
    assert (R : returns a = true). { apply forallb_forall. intros b Hb. apply (g_blk a Ga) in Hb as (E1 & E2 & _). rewrite E1, E2, Nat.eqb_refl, N.eqb_refl. reflexivity. }
    rewrite R. cbn [bind]. split.
    + apply (inv_set s i a _ 0 0); auto; [|intros b []]. apply good_new0.
    + split; [apply set_length|]. exact (outs_set s i a (new r) Ha).
Qed.
Lemma inv_init n : Inv (init n).
Proof.
  assert (X : forall i a, nth_error (init n) i = Some a -> a = new 0) by (intros i a H; apply nth_error_In, repeat_spec in H; auto). split.
  - intros i a H. apply X in H. subst. apply good_new0.
  - intros i j a b Ha Hb D x y Hx. apply X in Ha. subst. destruct Hx.
Qed.
Lemma arena_inv n : safe cstep (init n) /\ forall s, reachable cstep (init n) s -> Inv s.
Proof. apply reach_inv; [|apply inv_init]. intros s l H. assert (X := step_ok s l H). destruct (cstep s l); tauto. Qed.
Lemma arena_partial_pf n : safe cstep (init n) /\ (forall s, reachable cstep (init n) s -> disjoint s /\ inside s /\ counted s) /\
  forall s l s', reachable cstep (init n) s -> cstep s l = Next s' -> gives s l s'.
Proof.
  destruct (arena_inv n) as [S R]. split; auto. split.
  - intros s H. apply R in H. split; [|split]; [now apply inv_disjoint|now apply inv_inside|now apply inv_counted].
  - intros s l s' H E. assert (X := step_ok s l (R s H)). rewrite E in X. tauto.
Qed.
