From Coq Require Import Permutation.
From Verif Require Import Util SegmentPoolModel SegmentPoolSpec.
Open Scope N_scope.

(** Entries in address order; a returned entry (length 0) still blocks one unit. *)
Fixpoint chain (lo : N) (l : list seg) (hi : N) : Prop :=
  match l with
  | [] => lo <= hi
  | (o, n) :: t => lo <= o /\ chain (o + N.max n 1) t hi
  end.
Definition nz (x : seg) : bool := negb (snd x =? 0).
Definition Inv (st : pool * list seg) : Prop :=
  let (p, held) := st in
  psize p < two32 /\ chain 0 (taken p) (psize p) /\ Permutation (filter nz (taken p)) held /\
  (forall x t, taken p = x :: t -> snd x <> 0) /\ (forall t x, taken p = t ++ [x] -> snd x <> 0).

Lemma chain_weak lo lo' l hi : chain lo l hi -> lo' <= lo -> chain lo' l hi.
Proof. destruct l as [|[o n] t]; simpl; intros; intuition lia. Qed.
Lemma chain_hi lo l hi hi' : chain lo l hi -> hi <= hi' -> chain lo l hi'.
Proof. revert lo; induction l as [|[o n] t IH]; simpl; intros; [lia|]. destruct H; eauto. Qed.
Lemma chain_le lo l hi : chain lo l hi -> lo <= hi.
Proof. revert lo; induction l as [|[o n] t IH]; simpl; intros; auto. destruct H as [H1 H]. apply IH in H. lia. Qed.
Lemma chain_app lo l x hi :
  chain lo (l ++ [x]) hi <-> exists m, chain lo l m /\ m <= fst x /\ fst x + N.max (snd x) 1 <= hi.
Proof.
  revert lo; induction l as [|[o n] t IH]; intros lo; simpl.
  - destruct x as [o n]; simpl. split.
    + intros [? ?]. exists lo. lia.
    + intros (m & ? & ? & ?). lia.
  - rewrite IH. split.
    + intros (? & m & ? & ? & ?). exists m. auto.
    + intros (m & [? ?] & ? & ?). split; auto. exists m. auto.
Qed.
Lemma chain_In lo l hi x : chain lo l hi -> In x l -> lo <= fst x /\ fst x + N.max (snd x) 1 <= hi.
Proof.
  revert lo; induction l as [|[o n] t IH]; simpl; intros lo H; [tauto|].
  destruct H as [H1 H2]. intros [<-|Hin]; simpl.
  - split; auto. now apply chain_le in H2.
  - apply IH in H2; auto. lia.
Qed.

Lemma chain_disjoint lo l hi : chain lo l hi -> pairwise_disjoint (filter nz l).
Proof.
  revert lo; induction l as [|[o n] t IH]; simpl; intros lo H.
  - intros [|i] j a b; simpl; discriminate.
  - destruct H as [H1 H2]. specialize (IH _ H2). unfold nz at 1. simpl.
    destruct (N.eqb_spec n 0) as [E|E]; simpl; auto.
    intros [|i] [|j] a b Hij Ha Hb; simpl in *; try congruence.
    + inversion Ha; subst a. apply nth_error_In, filter_In in Hb as [Hb _].
      eapply chain_In in Hb; eauto. left; simpl. lia.
    + inversion Hb; subst b. apply nth_error_In, filter_In in Ha as [Ha _].
      eapply chain_In in Ha; eauto. right; simpl. lia.
    + eapply (IH i j); eauto.
Qed.

Lemma disjoint_sym a b : disjoint a b -> disjoint b a.
Proof. unfold disjoint. tauto. Qed.

(** [pairwise_disjoint] in inductive form, invariant under permutation. *)
Lemma pd_cons x l : pairwise_disjoint (x :: l) <->
  (forall y, In y l -> disjoint x y) /\ pairwise_disjoint l.
Proof.
  split.
  - intros H. split.
    + intros y Hy. apply In_nth_error in Hy as [k Hk]. apply (H 0%nat (S k) x y); auto.
    + intros i j a b Hij Ha Hb. apply (H (S i) (S j) a b); auto.
  - intros [H1 H2] [|i] [|j] a b Hij Ha Hb; simpl in *; try congruence.
    + inversion Ha; subst. apply H1. eapply nth_error_In; eauto.
    + inversion Hb; subst. apply disjoint_sym, H1. eapply nth_error_In; eauto.
    + eapply (H2 i j); eauto.
Qed.
Lemma pd_perm l l' : Permutation l l' -> pairwise_disjoint l -> pairwise_disjoint l'.
Proof.
  induction 1; auto.
  - rewrite !pd_cons. intros [H1 H2]. split; auto. intros y Hy. apply H1.
    eapply Permutation_in; [symmetry|]; eauto.
  - rewrite !pd_cons. simpl. intros (H1 & H2 & H3). repeat split; auto.
    intros z [<-|Hz]; auto. apply disjoint_sym. auto.
Qed.

Lemma seg_eqb_spec a b : reflect (a = b) (seg_eqb a b).
Proof.
  destruct a as [a1 a2], b as [b1 b2]. unfold seg_eqb; simpl.
  destruct (N.eqb_spec a1 b1), (N.eqb_spec a2 b2); simpl; constructor; congruence.
Qed.
Lemma remove1_perm x l : In x l -> Permutation l (x :: remove1 x l).
Proof.
  induction l as [|y t IH]; simpl; [tauto|]. intros H.
  destruct (seg_eqb_spec x y) as [->|Hne]; auto.
  destruct H as [->|H]; [congruence|]. rewrite (IH H) at 1. apply perm_swap.
Qed.

Lemma pzf_spec l : exists z, l = z ++ pop_zero_front l /\ filter nz z = [] /\
  (forall x t, pop_zero_front l = x :: t -> snd x <> 0).
Proof.
  induction l as [|[o n] t (z & H1 & H2 & H3)]; simpl.
  - exists []. repeat split; auto. discriminate.
  - destruct (N.eqb_spec n 0) as [E|E].
    + exists ((o, n) :: z). simpl. rewrite <- H1. unfold nz at 1; simpl.
      subst n. simpl. auto.
    + exists []. repeat split; auto. intros x t' Hx. inversion Hx. subst x. auto.
Qed.
Lemma filter_rev {A} (f : A -> bool) l : filter f (rev l) = rev (filter f l).
Proof.
  induction l; simpl; auto. rewrite filter_app, IHl. simpl. destruct (f a); simpl; auto using app_nil_r.
Qed.
Lemma pzb_spec l : exists z, l = pop_zero_back l ++ z /\ filter nz z = [] /\
  (forall t x, pop_zero_back l = t ++ [x] -> snd x <> 0).
Proof.
  destruct (pzf_spec (rev l)) as (z & H1 & H2 & H3). exists (rev z).
  unfold pop_zero_back. repeat split.
  - rewrite <- rev_app_distr, <- H1. symmetry. apply rev_involutive.
  - now rewrite filter_rev, H2.
  - intros t x Hx. apply (f_equal (@rev _)) in Hx. rewrite rev_involutive, rev_app_distr in Hx.
    simpl in Hx. eauto.
Qed.
Lemma chain_app_r lo a b hi : chain lo (a ++ b) hi -> chain lo b hi.
Proof.
  revert lo; induction a as [|[o n] t IH]; simpl; auto.
  intros lo [H1 H2]. apply IH in H2. eapply chain_weak; eauto. lia.
Qed.
Lemma chain_app_l lo a b hi : chain lo (a ++ b) hi -> chain lo a hi.
Proof.
  revert lo; induction a as [|[o n] t IH]; simpl; intros lo.
  - apply chain_le.
  - intros [H1 H2]. split; auto.
Qed.

Lemma pzf_keep l x : In x l -> snd x <> 0 -> In x (pop_zero_front l).
Proof.
  intros Hin Hn. destruct (pzf_spec l) as (z & H1 & H2 & _). rewrite H1 in Hin.
  apply in_app_or in Hin as [Hin|Hin]; auto. exfalso.
  assert (In x (filter nz z)) as Hx.
  { apply filter_In. split; auto. unfold nz. destruct (N.eqb_spec (snd x) 0); auto. }
  rewrite H2 in Hx. destruct Hx.
Qed.

(** The front of pop_zero_back is still non-zero when the front of its argument is. *)
Lemma trim_ok l hi : chain 0 l hi ->
  let l' := pop_zero_back (pop_zero_front l) in
  chain 0 l' hi /\ filter nz l' = filter nz l /\
  (forall x t, l' = x :: t -> snd x <> 0) /\ (forall t x, l' = t ++ [x] -> snd x <> 0).
Proof.
  intros Hc l'. destruct (pzf_spec l) as (z & H1 & H2 & H3).
  destruct (pzb_spec (pop_zero_front l)) as (z' & H1' & H2' & H3').
  fold l' in H1', H3'. repeat split; auto.
  - rewrite H1 in Hc. apply chain_app_r in Hc. rewrite H1' in Hc. now apply chain_app_l in Hc.
  - rewrite H1, H1', !filter_app, H2, H2', app_nil_r. reflexivity.
  - intros x t E. rewrite E in H1'. simpl in H1'. eauto.
Qed.

Lemma clear_ok lo l hi o n : chain lo l hi -> In (o, n) l ->
  exists a b, l = a ++ (o, n) :: b /\ clear_lower_bound o l = Some (a ++ (o, 0) :: b).
Proof.
  revert lo; induction l as [|[o' n'] t IH]; simpl; intros lo H; [tauto|].
  destruct H as [H1 H2]. intros [E|Hin].
  - inversion E; subst. rewrite N.ltb_irrefl. exists [], t. auto.
  - pose proof (chain_In _ _ _ _ H2 Hin) as [Ho _]. simpl in Ho.
    destruct (N.ltb_spec o' o) as [Hlt|Hge]; [|lia].
    destruct (IH _ H2 Hin) as (a & b & -> & ->). exists ((o', n') :: a), b. auto.
Qed.
Lemma chain_clear lo a o n b hi : chain lo (a ++ (o, n) :: b) hi -> chain lo (a ++ (o, 0) :: b) hi.
Proof.
  revert lo; induction a as [|[o' n'] t IH]; simpl; intros lo [H1 H2]; split; auto.
  eapply chain_weak; eauto. lia.
Qed.

Lemma last_app_eq {A} (t : list A) x d : last (t ++ [x]) d = x.
Proof. induction t; simpl; auto. destruct (t ++ [x]) eqn:E; auto. destruct t; discriminate. Qed.

Lemma Inv_step st e : Inv st -> pallowed 1 st e ->
  exists st', pexec st e = Some st' /\ Inv st' /\
    psize (fst st') = match e with Gro a => psize (fst st) + a | _ => psize (fst st) end.
Proof.
  destruct st as [p held]. intros (Hs & Hc & Hp & Hf & Hb) Ha.
  destruct e as [n|o n|a]; cbn [pexec pallowed fst snd] in *.
  - unfold Request. destruct (taken p) as [|[o l] t] eqn:Et.
    + destruct (N.ltb_spec (psize p) n).
      * eexists; split; [reflexivity|]. split; [|reflexivity]. unfold Inv. rewrite Et. auto.
      * eexists; split; [reflexivity|]. split; [|reflexivity]. unfold Inv; cbn [psize taken].
        repeat split; auto; simpl.
        -- lia.
        -- lia.
        -- unfold nz. simpl. destruct (N.eqb_spec n 0); [lia|]. simpl. now constructor.
        -- intros x t' E. inversion E. simpl. lia.
        -- intros t' x E. destruct t' as [|? [|? ?]]; inversion E; simpl; lia.
    + destruct (N.leb_spec n o).
      * eexists; split; [reflexivity|]. split; [|reflexivity]. unfold Inv; cbn [psize taken].
        repeat split; auto.
        -- simpl in *. destruct Hc as [_ Hc]. lia.
        -- simpl in *. lia.
        -- simpl in *. apply Hc.
        -- simpl filter. unfold nz at 1. simpl snd. destruct (N.eqb_spec n 0); [lia|].
           cbn [negb]. constructor. exact Hp.
        -- intros x t' E. inversion E. simpl. lia.
        -- intros [|y t'] x E; [inversion E|]. inversion E. eauto.
      * set (bk := last ((o, l) :: t) (0, 0)). cbv zeta.
        assert (exists t', (o, l) :: t = t' ++ [bk]) as [t' Et'].
        { exists (removelast ((o, l) :: t)). apply app_removelast_last. discriminate. }
        assert (Hbk : In bk ((o, l) :: t)) by (rewrite Et'; apply in_or_app; simpl; auto).
        pose proof (chain_In _ _ _ _ Hc Hbk) as [_ Hhi].
        assert (Hbn : snd bk <> 0) by eauto.
        assert (Eu : u32 (fst bk + snd bk) = fst bk + snd bk).
        { unfold u32. apply N.mod_small. lia. }
        rewrite Eu. destruct (N.leb_spec (fst bk + snd bk + n) (psize p)).
        -- eexists; split; [reflexivity|]. split; [|reflexivity]. unfold Inv; cbn [psize taken].
           split; [auto|]. split; [|split; [|split]].
           ++ apply chain_app. exists (fst bk + snd bk). cbn [fst snd]. split; [|lia].
              rewrite Et' in Hc |- *. apply chain_app in Hc as (m & Hm & ? & ?).
              apply chain_app. exists m. split; auto. split; auto. lia.
           ++ rewrite filter_app.
              replace (filter nz [(fst bk + snd bk, n)]) with [(fst bk + snd bk, n)].
              2:{ unfold filter, nz; cbn [fst snd]. destruct (N.eqb_spec n 0); [lia|]. reflexivity. }
              rewrite <- Permutation_cons_append. constructor. exact Hp.
           ++ intros x t'' E. inversion E; subst. eapply Hf; reflexivity.
           ++ intros t'' x E. apply app_inj_tail in E as [_ <-]. simpl. lia.
        -- eexists; split; [reflexivity|]. split; [|reflexivity]. unfold Inv. rewrite Et. auto.
  - assert (Hin : In (o, n) (taken p) /\ n <> 0).
    { eapply Permutation_in in Ha; [|symmetry; exact Hp]. apply filter_In in Ha as [? Hn].
      split; auto. unfold nz in Hn. simpl in Hn. destruct (N.eqb_spec n 0); auto. discriminate. }
    destruct Hin as [Hin Hn].
    destruct (clear_ok _ _ _ _ _ Hc Hin) as (a & b & El & Ec).
    unfold Return. destruct (taken p) as [|[o' n'] t] eqn:Et; [destruct Hin|].
    assert (E : (if o' =? o then Some ((o', 0) :: t) else clear_lower_bound o ((o', n') :: t))
                = Some (a ++ (o, 0) :: b)).
    { destruct (N.eqb_spec o' o) as [->|]; auto. simpl in Ec. rewrite N.ltb_irrefl in Ec. exact Ec. }
    rewrite E. eexists; split; [reflexivity|]. split; [|reflexivity].
    rewrite El in Hc. apply chain_clear in Hc.
    destruct (trim_ok _ _ Hc) as (T1 & T2 & T3 & T4).
    unfold Inv; cbn [psize taken]. split; [auto|]. split; [auto|]. split; [|auto].
    rewrite T2. rewrite El in Hp. rewrite filter_app in *. simpl in Hp. unfold nz at 2 in Hp.
    simpl in *. destruct (N.eqb_spec n 0); [congruence|]. cbn [negb] in Hp.
    apply (Permutation_cons_inv (a := (o, n))).
    rewrite <- (remove1_perm _ _ Ha). rewrite <- Hp. apply Permutation_middle.
  - eexists; split; [reflexivity|]. unfold Grow, u32. rewrite N.mod_small by auto.
    split; [|reflexivity]. unfold Inv; cbn [psize taken]. repeat split; auto.
    eapply chain_hi; eauto. lia.
Qed.

Lemma Inv_run h : forall st, Inv st -> plegal 1 st h ->
  exists st', prun st h = Some st' /\ Inv st' /\ psize (fst st') = grown (psize (fst st)) h.
Proof.
  induction h as [|e h IH]; intros st HI HL; simpl in *.
  - eauto.
  - destruct HL as [Ha HL]. destruct (Inv_step _ _ HI Ha) as (st1 & E & I1 & S1).
    rewrite E. destruct (IH st1 I1 (HL _ E)) as (st2 & E2 & I2 & S2).
    exists st2. split; auto. split; auto. rewrite S2, S1. destruct e; reflexivity.
Qed.

Lemma Inv_init s : s < two32 -> Inv (NewPool s, []).
Proof.
  intros. unfold Inv; simpl. repeat split; auto; try discriminate; try lia.
  intros t x E. destruct t; discriminate.
Qed.

Lemma Inv_facts p held : Inv (p, held) -> pairwise_disjoint held /\ inside (psize p) held.
Proof.
  intros (Hs & Hc & Hp & Hf & Hb). split.
  - eapply pd_perm; eauto. eapply chain_disjoint; eauto.
  - intros x Hx. eapply Permutation_in in Hx; [|symmetry; exact Hp].
    apply filter_In in Hx as [Hx _]. eapply chain_In in Hx; eauto. lia.
Qed.

Lemma segpool_disjoint_pf : forall s h, s < two32 -> plegal 1 (NewPool s, []) h ->
  exists p held, prun (NewPool s, []) h = Some (p, held) /\
    psize p = grown s h /\ pairwise_disjoint held /\ inside (psize p) held.
Proof.
  intros s h Hs HL. destruct (Inv_run h _ (Inv_init s Hs) HL) as ([p held] & E & HI & Hg).
  exists p, held. split; auto. split; auto. now apply Inv_facts.
Qed.

Lemma Inv_empty p : Inv (p, []) -> taken p = [].
Proof.
  intros (Hs & Hc & Hp & Hf & Hb). destruct (taken p) as [|x t] eqn:E; auto.
  symmetry in Hp. apply Permutation_nil in Hp. simpl in Hp. unfold nz at 1 in Hp.
  specialize (Hf _ _ eq_refl). destruct (N.eqb_spec (snd x) 0); [congruence|discriminate].
Qed.

Lemma segpool_fully_free_pf : forall s h p, s < two32 -> plegal 1 (NewPool s, []) h ->
  prun (NewPool s, []) h = Some (p, []) ->
  fst (Request (grown s h) p) = Some 0 /\ (forall n, n <= grown s h -> fst (Request n p) = Some 0).
Proof.
  intros s h p Hs HL E. destruct (Inv_run h _ (Inv_init s Hs) HL) as (st & E' & HI & Hg).
  rewrite E in E'. inversion E'; subst st. simpl in Hg. apply Inv_empty in HI.
  assert (A : forall n, n <= grown s h -> fst (Request n p) = Some 0).
  { intros n Hn. unfold Request. rewrite HI. destruct (N.ltb_spec (psize p) n); [lia|]. reflexivity. }
  split; auto. apply A. lia.
Qed.

(** Byte level *)
Definition conv (x : seg) : seg := (fst x * kAlign, snd x * kAlign).

Lemma cnt_ok size : 0 < size -> size <= 4096 * (two32 - 1) ->
  exists c, ((size + kAlign - 1) mod two64) / kAlign = c /\ 1 <= c < two32 /\
    size <= c * kAlign < size + kAlign.
Proof.
  intros H1 H2. unfold kAlign, two32 in *. eexists; split; [reflexivity|].
  rewrite N.mod_small by (unfold two64; lia). lia.
Qed.
Lemma remove1_conv x l : remove1 (conv x) (map conv l) = map conv (remove1 x l).
Proof.
  induction l as [|y t IH]; simpl; auto.
  destruct (seg_eqb_spec x y) as [->|Hne].
  - destruct (seg_eqb_spec (conv y) (conv y)); congruence.
  - destruct (seg_eqb_spec (conv x) (conv y)) as [E|E].
    + exfalso. apply Hne. destruct x, y. unfold conv, kAlign in E. simpl in E. inversion E.
      f_equal; lia.
    + simpl. now rewrite IH.
Qed.

Definition BInv (st : pool * list seg) : Prop :=
  exists held, snd st = map conv held /\ Inv (fst st, held).

Lemma mul_small a : a <= two32 -> (a * kAlign) mod two64 = a * kAlign.
Proof. intros. apply N.mod_small. unfold two32, two64, kAlign in *. lia. Qed.

Lemma BInv_step st e : BInv st -> ballowed st e ->
  exists st', bexec st e = Some st' /\ BInv st' /\ psize (fst st') = psize (fst st) /\
    (forall size, e = BReq size -> st' = (fst st', snd st) \/
        exists r, snd st' = r :: snd st /\ size <= snd r < size + kAlign).
Proof.
  destruct st as [p bh]. intros (held & Hh & HI) Ha. cbn [fst snd] in *. subst bh.
  destruct e as [size|start n]; cbn [bexec ballowed fst snd] in *.
  - destruct (cnt_ok size) as (c & Ec & Hc & Hsz); [tauto|tauto|].
    unfold RequestBuffer. rewrite Ec. cbv zeta.
    replace (u32 c) with c by (unfold u32; rewrite N.mod_small; lia).
    destruct (Inv_step (p, held) (Req c) HI) as ([p' held'] & E & I' & S'); [simpl; lia|].
    simpl in E. destruct (Request c p) as [[o|] p1] eqn:ER; inversion E; subst p' held'.
    + assert (Ho : o <= two32 /\ c <= two32).
      { apply Inv_facts in I' as [_ Hin].
        specialize (Hin (o, c) ltac:(simpl; auto)). simpl in *.
        destruct HI as (Hs & _). lia. }
      rewrite !mul_small by tauto.
      eexists; split; [reflexivity|]. split; [|split].
      * exists ((o, c) :: held). split; auto.
      * simpl in *. auto.
      * intros s' E'. inversion E'; subst s'. right. eexists; split; [reflexivity|]. simpl. lia.
    + eexists; split; [reflexivity|]. split; [|split].
      * exists held. split; auto.
      * auto.
      * intros s' E'. left. reflexivity.
  - apply in_map_iff in Ha as ([o l] & Ec & Hin). unfold conv in Ec. cbn [fst snd] in Ec.
    inversion Ec; subst. unfold ReturnBuffer. rewrite N.div_mul by discriminate.
    destruct (Inv_step (p, held) (Ret o l) HI Hin) as ([p' held'] & E & I' & S').
    assert (Ho : u32 o = o).
    { apply Inv_facts in HI as HF. destruct HF as [_ Hi]. specialize (Hi _ Hin). simpl in Hi.
      destruct HI as (Hs & Hc & Hp & _).
      eapply Permutation_in in Hin; [|symmetry; exact Hp]. apply filter_In in Hin as [Hin _].
      eapply chain_In in Hin; eauto. simpl in Hin.
      unfold u32. apply N.mod_small. lia. }
    rewrite Ho. simpl in E. destruct (Return o p) as [p1|]; inversion E; subst.
    eexists; split; [reflexivity|]. split; [|split]; try discriminate; auto.
    exists (remove1 (o, l) held). split; auto.
    change (o * kAlign, l * kAlign) with (conv (o, l)). apply remove1_conv.
Qed.

Lemma BInv_run h : forall st, BInv st -> blegal st h ->
  exists st', brun st h = Some st' /\ BInv st' /\ psize (fst st') = psize (fst st).
Proof.
  induction h as [|e h IH]; intros st HI HL; simpl in *.
  - eauto.
  - destruct HL as [Ha HL]. destruct (BInv_step _ _ HI Ha) as (st1 & E & I1 & S1 & _).
    rewrite E. destruct (IH st1 I1 (HL _ E)) as (st2 & E2 & I2 & S2).
    exists st2. rewrite S2. auto.
Qed.

Lemma pd_conv l : pairwise_disjoint l -> pairwise_disjoint (map conv l).
Proof.
  induction l as [|x l IH]; intros H.
  - intros i j a b _ Ha. destruct i; discriminate.
  - apply pd_cons in H as [H1 H2]. simpl. apply pd_cons. split; auto.
    intros y Hy. apply in_map_iff in Hy as (z & <- & Hz). specialize (H1 _ Hz).
    unfold disjoint, conv, kAlign in *. simpl. lia.
Qed.

Lemma uring_buffers_disjoint_pf : forall size h,
  size <= 4096 * (two32 - 1) ->
  let p0 := RegisterBuffers size (NewPool 0) in
  blegal (p0, []) h ->
  exists p held, brun (p0, []) h = Some (p, held) /\
    pairwise_disjoint held /\
    inside (4096 * ((size + 4095) / 4096)) held /\
    (forall n, 0 < n -> n <= 4096 * (two32 - 1) ->
       forall r, fst (RequestBuffer n p) = Some r ->
         n <= snd r < n + 4096 /\ fst r + snd r <= 4096 * ((size + 4095) / 4096) /\
         forall x, In x held -> disjoint r x).
Proof.
  intros size h Hs p0 HL.
  assert (Hp0 : psize p0 = (size + 4095) / 4096 /\ psize p0 < two32 /\ taken p0 = []).
  { unfold p0, RegisterBuffers, Grow, NewPool, u32, kAlign. cbn [psize taken].
    unfold two32, two64 in *.
    replace (size + 4096 - 1) with (size + 4095) by lia.
    rewrite (N.mod_small (size + 4095)) by lia.
    assert (Hd : (size + 4095) / 4096 < 4294967296).
    { apply N.div_lt_upper_bound; lia. }
    rewrite N.add_0_l, N.mod_mod by discriminate. rewrite N.mod_small by exact Hd. auto. }
  clearbody p0. destruct Hp0 as (Hp1 & Hp2 & Hp3).
  assert (I0 : BInv (p0, [])).
  { exists []. split; auto. unfold Inv; cbn [fst]. rewrite Hp3. repeat split; auto; try discriminate; simpl; try lia.
    intros t x E. destruct t; discriminate. }
  destruct (BInv_run h _ I0 HL) as ([p held] & E & HI & Hsz). simpl in Hsz.
  exists p, held. split; auto.
  assert (F : forall p held, BInv (p, held) -> pairwise_disjoint held /\ inside (4096 * psize p) held).
  { intros q g (h' & Eh & HI'). cbn [fst snd] in *. subst g. apply Inv_facts in HI' as [D I]. split.
    - now apply pd_conv.
    - intros x Hx. apply in_map_iff in Hx as (y & <- & Hy). apply I in Hy.
      unfold conv, kAlign. cbn [fst snd]. lia. }
  destruct (F _ _ HI) as [D Ins]. rewrite Hsz, Hp1 in Ins. split; auto. split; auto.
  intros n Hn1 Hn2 r Hr.
  destruct (BInv_step (p, held) (BReq n) HI) as (st' & E' & I' & S' & R'); [simpl; auto|].
  destruct (R' n eq_refl) as [Hx|(r' & Hr' & Hr2)].
  - cbn [bexec] in E'. destruct (RequestBuffer n p) as [[?|] ?]; simpl in Hr; inversion Hr; subst.
    inversion E'; subst. simpl in Hx. inversion Hx as [Hy]. exfalso.
    apply (f_equal (@length _)) in Hy. simpl in Hy. lia.
  - cbn [bexec] in E'. destruct (RequestBuffer n p) as [[?|] p1]; simpl in Hr; inversion Hr; subst.
    inversion E'; subst. cbn [fst snd] in *. inversion Hr'; subst r'.
    destruct (F _ _ I') as [D' Ins']. rewrite S', Hsz, Hp1 in Ins'.
    apply pd_cons in D' as [D1 _]. specialize (Ins' r ltac:(simpl; auto)). auto.
Qed.
