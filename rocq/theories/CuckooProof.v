From Verif Require Import Util Conc CuckooModel CuckooSpec.
From Coq Require Import Permutation.
Arguments find {V}. Arguments at_ {V}. Arguments bucket {V}. Arguments put {V}. Arguments entries {V}. Arguments somes {V}.
Arguments first_empty {V}. Arguments index {V}. Arguments roll {V}. Arguments shift {V}. Arguments fresh {V}. Arguments copy {V}. Arguments grow {V}.
Arguments insert_loop {V}. Arguments insert {V}. Arguments lookup {V}. Arguments step {V}. Arguments from_dense {V}. Arguments init {V}.
Arguments get {V}. Arguments add {V}. Arguments act {V}. Arguments after {V}. Arguments small {V}. Arguments amap : clear implicits. Arguments amap _%type_scope.

Section P.
  Variable V : Type.
  Notation table := (table V).
  Notation entry := (entry V).
  Notation slot := (slot V).

  Definition mine (n b : nat) (k : N) : Prop := b = fst (id_pair n k) \/ b = snd (id_pair n k).
  Definition shape (t : table) : Prop := Forall (fun b => length b = kLen) t.
  Definition placed (t : table) : Prop := forall b i e, at_ t b i = Some e -> mine (length t) b (fst e).
  Definition keys (t : table) : list N := map fst (entries t).
  Definition good (t : table) : Prop := 2 <= length t /\ shape t /\ placed t.

  Lemma pair_lt n k : 2 <= n -> fst (id_pair n k) < n /\ snd (id_pair n k) < n /\ fst (id_pair n k) <> snd (id_pair n k).
  Proof.
    intros H. unfold id_pair, hash. cbn [fst snd].
    pose proof (N.mod_lt (N.lxor kMask1 k) (N.of_nat n) ltac:(lia)).
    pose proof (N.mod_lt (N.lxor kMask2 k) (N.of_nat n) ltac:(lia)).
    set (x := (N.lxor kMask1 k mod N.of_nat n)%N) in *. set (y := (N.lxor kMask2 k mod N.of_nat n)%N) in *. clearbody x y.
    assert (N.to_nat y < n) by lia. assert (N.to_nat x < n) by lia.
    destruct (Nat.eqb_spec (N.to_nat y) (N.to_nat x)) as [E|E].
    - split; [lia|]. split; [apply Nat.mod_upper_bound; lia|]. intros E2. rewrite E in E2.
      destruct (Nat.eq_dec (N.to_nat x + 1) n) as [E3|E3].
      + rewrite E3, Nat.mod_same in E2 by lia. lia.
      + rewrite Nat.mod_small in E2 by lia. lia.
    - lia.
  Qed.
  Lemma mine_lt n b k : 2 <= n -> mine n b k -> b < n.
  Proof. intros H [->| ->]; pose proof (pair_lt n k H); tauto. Qed.
  Lemma other_mine n b k : mine n (other n b k) k.
  Proof. unfold mine, other. destruct (id_pair n k). cbn [fst snd]. destruct (b =? n0); auto. Qed.

  Lemma at_nth (t : table) b i e : at_ t b i = Some e <-> exists bk, nth_error t b = Some bk /\ nth_error bk i = Some (Some e).
  Proof.
    unfold at_, bucket. split.
    - intros H. destruct (nth_error t b) eqn:E.
      + exists l. split; auto. rewrite (nth_error_nth _ _ _ E) in H.
        destruct (nth_error l i) eqn:E2. { now rewrite (nth_error_nth _ _ _ E2) in H; subst. }
        apply nth_error_None in E2. now rewrite nth_overflow in H by lia.
      + apply nth_error_None in E. rewrite (nth_overflow t) in H by lia. now destruct i.
    - intros (bk & E & E2). rewrite (nth_error_nth _ _ _ E). now apply nth_error_nth.
  Qed.
  Lemma somes_app (a b : list slot) : somes (a ++ b) = somes a ++ somes b.
  Proof. unfold somes. now rewrite flat_map_app. Qed.
  Definition one (s : slot) : list entry := match s with Some e => [e] | None => [] end.
  Lemma somes_cons s (l : list slot) : somes (s :: l) = one s ++ somes l. Proof. now destruct s. Qed.
  Lemma set_mid {A} (a b : list A) x y : set (length a) y (a ++ x :: b) = a ++ y :: b.
  Proof. induction a; cbn [set length app]; f_equal; auto. Qed.
  (** The entries around a slot. *)
  Lemma entries_split (t : table) b i bk s : nth_error t b = Some bk -> nth_error bk i = Some s ->
    exists A B, entries t = A ++ one s ++ B /\ forall e, entries (put t b i e) = A ++ [e] ++ B.
  Proof.
    intros E1 E2. destruct (nth_error_split _ _ E1) as (t1 & t2 & -> & <-). destruct (nth_error_split _ _ E2) as (b1 & b2 & -> & <-).
    exists (somes (concat t1) ++ somes b1), (somes b2 ++ somes (concat t2)). split.
    - unfold entries. rewrite concat_app. cbn [concat]. rewrite !somes_app, !somes_cons, <- !app_assoc. reflexivity.
    - intros e. unfold put, bucket. rewrite app_nth2, Nat.sub_diag by lia. cbn [nth]. rewrite !set_mid.
      unfold entries. rewrite concat_app. cbn [concat]. rewrite !somes_app, !somes_cons, <- !app_assoc. reflexivity.
  Qed.
  Lemma in_entries (t : table) e : In e (entries t) <-> exists b i, at_ t b i = Some e.
  Proof.
    unfold entries, somes. rewrite in_flat_map. split.
    - intros (s & H & H2). destruct s; [|easy]. destruct H2 as [->|[]]. apply in_concat in H as (bk & H & H2).
      apply In_nth_error in H as [b E]. apply In_nth_error in H2 as [i E2]. exists b, i. apply at_nth. eauto.
    - intros (b & i & H). apply at_nth in H as (bk & E & E2). exists (Some e). split; [|now left].
      apply in_concat. exists bk. split; eapply nth_error_In; eauto.
  Qed.

  Lemma put_length (t : table) b i e : length (put t b i e) = length t. Proof. apply set_length. Qed.
  Lemma at_put (t : table) b i e b' i' : b < length t -> i < length (bucket t b) ->
    at_ (put t b i e) b' i' = if (b' =? b) && (i' =? i) then Some e else at_ t b' i'.
  Proof.
    intros Hb Hi. unfold at_, put, bucket in *. destruct (Nat.eqb_spec b' b) as [->|N1]; cbn [andb].
    - rewrite set_nth_eq by auto. destruct (Nat.eqb_spec i' i) as [->|N2].
      + now apply set_nth_eq.
      + apply set_nth_neq; auto.
    - rewrite set_nth_neq by auto. reflexivity.
  Qed.
  Lemma bucket_len (t : table) b : shape t -> b < length t -> length (bucket t b) = kLen.
  Proof. intros H Hb. unfold shape in H. rewrite Forall_forall in H. apply H. now apply nth_In. Qed.
  Lemma put_good t b i e : good t -> mine (length t) b (fst e) -> i < kLen -> good (put t b i e).
  Proof.
    intros (H1 & H2 & H3) H4 H5. pose proof (mine_lt _ _ _ H1 H4). pose proof (bucket_len t b H2 H).
    split; [rewrite put_length; auto|]. split.
    - unfold shape, put in *. rewrite Forall_forall in *. intros bk Hin. apply In_nth_error in Hin as [j E].
      destruct (Nat.eq_dec j b) as [->|N].
      + rewrite set_nth_error_eq in E by auto. injection E as <-. now rewrite set_length.
      + rewrite set_nth_error_neq in E by auto. apply H2. eapply nth_error_In; eauto.
    - intros b' i' e' E. rewrite put_length. rewrite at_put in E by lia.
      destruct ((b' =? b) && (i' =? i)) eqn:E2; [|eauto]. injection E as <-. now replace b' with b by lia.
  Qed.
  Lemma put_entries (t : table) b i e : shape t -> b < length t -> i < kLen ->
    Permutation (one (at_ t b i) ++ entries (put t b i e)) (e :: entries t).
  Proof.
    intros H Hb Hi. pose proof (bucket_len t b H Hb) as L.
    destruct (nth_error t b) as [bk|] eqn:E1; [|apply nth_error_None in E1; lia].
    unfold bucket in L. rewrite (nth_error_nth _ _ _ E1) in L.
    destruct (nth_error bk i) as [s|] eqn:E2; [|apply nth_error_None in E2; lia].
    assert (A : at_ t b i = s). { unfold at_, bucket. rewrite (nth_error_nth _ _ _ E1). now apply nth_error_nth. }
    rewrite A. destruct (entries_split t b i bk s E1 E2) as (X & Y & -> & ->).
    rewrite app_assoc. rewrite (Permutation_app_comm (one s) X). rewrite <- app_assoc.
    cbn [app]. rewrite (Permutation_app_comm (one s)). cbn [app]. rewrite <- Permutation_middle. constructor.
    rewrite (Permutation_app_comm Y). reflexivity.
  Qed.
  Lemma first_empty_some (l : list slot) i : first_empty l = Some i -> nth i l None = None /\ i < length l.
  Proof.
    revert i; induction l as [|[e|] l IH]; cbn [first_empty]; intros i H; try easy.
    - destruct (first_empty l) eqn:E; [|easy]. injection H as <-. destruct (IH n eq_refl). cbn. split; auto. lia.
    - injection H as <-. cbn. split; auto. lia.
  Qed.
  Lemma first_empty_none (l : list slot) i : first_empty l = None -> i < length l -> exists e, nth i l None = Some e.
  Proof.
    revert i; induction l as [|[e|] l IH]; cbn [first_empty length]; intros i H Hi; try easy.
    destruct (first_empty l) eqn:E; [easy|]. destruct i; cbn; [eauto|]. apply IH; auto. lia.
  Qed.

  (** ** Displacement *)
  Definition roll_ok (n : nat) (all : list entry) (e : entry) (r : rolled V) : Prop :=
    match r with
    | Placed t _ p => good t /\ length t = n /\ Permutation (entries t) all /\ fst p < n /\ snd p < kLen /\ at_ t (fst p) (snd p) = Some e
    | Left t _ e' => good t /\ length t = n /\ Permutation (e' :: entries t) all
    | Bad => False
    end.
  Lemma put_empty t b i e : good t -> mine (length t) b (fst e) -> first_empty (bucket t b) = Some i ->
    good (put t b i e) /\ Permutation (entries (put t b i e)) (e :: entries t) /\ i < kLen /\ b < length t /\
    forall b' i', at_ (put t b i e) b' i' = if (b' =? b) && (i' =? i) then Some e else at_ t b' i'.
  Proof.
    intros G M E. destruct (first_empty_some _ _ E) as [E1 E2]. pose proof G as (G1 & G2 & G3).
    pose proof (mine_lt _ _ _ G1 M) as L. pose proof (bucket_len t b G2 L) as L2.
    split. { apply put_good; auto. lia. }
    split. { pose proof (put_entries t b i e G2 L ltac:(lia)) as X. unfold at_ in X. rewrite E1 in X. exact X. }
    split; [lia|]. split; [exact L|]. intros. apply at_put; auto.
  Qed.
  Lemma shift_ok limit : forall t r e cur idx start sidx all e0,
    good t -> Permutation (e :: entries t) all -> mine (length t) cur (fst e) -> idx < kLen -> first_empty (bucket t cur) = None ->
    start < length t -> sidx < kLen ->
    ((cur, idx) = (start, sidx) /\ e = e0 \/ (cur, idx) <> (start, sidx) /\ at_ t start sidx = Some e0) ->
    roll_ok (length t) all e0 (shift limit t r e cur idx start sidx).
  Proof.
    induction limit as [|limit IH]; intros t r e cur idx start sidx all e0 G P M Hi F Hs Hsi J.
    { cbn [shift roll_ok]. auto. }
    pose proof G as (G1 & G2 & G3). pose proof (mine_lt _ _ _ G1 M) as Hc. pose proof (bucket_len t cur G2 Hc) as L.
    destruct (first_empty_none (bucket t cur) idx F ltac:(lia)) as [e1 E1]. cbn [shift]. unfold at_ at 1. rewrite E1.
    assert (G' : good (put t cur idx e)) by (apply put_good; auto).
    pose proof (put_entries t cur idx e G2 Hc Hi) as P'. unfold at_ in P'. rewrite E1 in P'. cbn [one app] in P'.
    assert (A' : forall b i, at_ (put t cur idx e) b i = if (b =? cur) && (i =? idx) then Some e else at_ t b i)
      by (intros; apply at_put; lia).
    pose proof (put_length t cur idx e) as L'. set (t' := put t cur idx e) in *. clearbody t'.
    assert (Q : at_ t' start sidx = Some e0).
    { rewrite A'. destruct ((start =? cur) && (sidx =? idx)) eqn:E.
      - destruct J as [[J ->]|[J _]]; auto. destruct J. f_equal; lia.
      - destruct J as [[J _]|[_ J]]; auto. injection J as -> ->. lia. }
    pose proof (other_mine (length t') cur (fst e1)) as M1. set (next := other (length t') cur (fst e1)) in *. clearbody next.
    destruct (first_empty (bucket t' next)) as [i|] eqn:F1.
    - destruct (put_empty t' next i e1 G' M1 F1) as (Q1 & Q2 & Q3 & Q4 & Q5). cbn [roll_ok fst snd].
      split; auto. rewrite put_length. split; [auto|]. split; [rewrite Q2, P'; auto|]. split; [lia|]. split; [auto|].
      rewrite Q5. destruct ((start =? next) && (sidx =? i)) eqn:E; auto.
      assert (start = next) by lia. assert (sidx = i) by lia. subst.
      destruct (first_empty_some _ _ F1) as [X _]. unfold at_ in Q. rewrite X in Q. discriminate.
    - rewrite <- L'. apply IH with (e0 := e0); auto; try lia.
      + rewrite P'. auto.
      + destruct ((next =? start) && (N.to_nat (r mod 4) =? sidx)). { apply Nat.mod_upper_bound. discriminate. }
        pose proof (N.mod_lt r 4 ltac:(lia)). unfold kLen. lia.
      + right. split; auto. intros X. injection X as X1 X2. destruct ((next =? start) && (N.to_nat (r mod 4) =? sidx)) eqn:E; [|lia].
        assert (N.to_nat (r mod 4) = sidx) as R by lia. rewrite R in X2. unfold kLen in *. clear - X2 Hsi.
        destruct sidx as [|[|[|[|]]]]; cbn in X2; lia.
  Qed.
  Lemma roll_good limit t r e : good t -> roll_ok (length t) (e :: entries t) e (roll limit t r e).
  Proof.
    intros G. unfold roll. destruct (id_pair (length t) (fst e)) as [a b] eqn:E.
    assert (Ma : mine (length t) a (fst e)) by (left; now rewrite E). assert (Mb : mine (length t) b (fst e)) by (right; now rewrite E).
    destruct (first_empty (bucket t a)) as [i|] eqn:Fa.
    { destruct (put_empty t a i e G Ma Fa) as (Q1 & Q2 & Q3 & Q4 & Q5). cbn [roll_ok fst snd]. rewrite put_length, Q5, !Nat.eqb_refl. repeat split; auto; try apply Q1. }
    destruct (first_empty (bucket t b)) as [i|] eqn:Fb.
    { destruct (put_empty t b i e G Mb Fb) as (Q1 & Q2 & Q3 & Q4 & Q5). cbn [roll_ok fst snd]. rewrite put_length, Q5, !Nat.eqb_refl. repeat split; auto; try apply Q1. }
    assert (Hs : N.to_nat ((r + 1) mod 4) < kLen). { pose proof (N.mod_lt (r + 1) 4 ltac:(lia)). unfold kLen. lia. }
    assert (M : mine (length t) (if (r mod 2 =? 0)%N then a else b) (fst e)) by (destruct (r mod 2 =? 0)%N; auto).
    apply shift_ok; auto.
    - destruct (r mod 2 =? 0)%N; auto.
    - destruct G as (G1 & _). eapply mine_lt; eauto.
  Qed.

  (** ** Growth *)
  Lemma somes_none n : somes (repeat (None : slot) n) = []. Proof. induction n; auto. Qed.
  Lemma fresh_entries n : entries (fresh n : table) = [].
  Proof. unfold entries, fresh. induction n; cbn [repeat concat]; auto. Qed.
  Lemma fresh_good n : 2 <= n -> good (fresh n : table).
  Proof.
    intros H. split; [unfold fresh; now rewrite repeat_length|]. split.
    - unfold shape, fresh. apply Forall_forall. intros b Hb. now rewrite (repeat_spec _ _ _ Hb).
    - intros b i e E. assert (X : In e (entries (fresh n : table))) by (apply in_entries; eauto). rewrite fresh_entries in X. easy.
  Qed.
  Lemma copy_ok limit es : forall t r, good t ->
    match copy limit t r es with
    | Copied t' _ => good t' /\ length t' = length t /\ Permutation (entries t') (es ++ entries t)
    | Failed _ => True
    | CBad => False
    end.
  Proof.
    induction es as [|e es IH]; intros t r G; cbn [copy]; auto.
    pose proof (roll_good limit t r e G) as H. destruct (roll limit t r e) as [t' r' p|t' r' e'|]; cbn [roll_ok] in H; auto.
    destruct H as (G' & L' & P' & _). specialize (IH t' r' G'). destruct (copy limit t' r' es); auto.
    destruct IH as (H1 & H2 & H3). split; auto. split; [congruence|]. rewrite H3, P'. cbn [app]. now rewrite Permutation_middle.
  Qed.
  Lemma grow_ok old ns : forall n r, 2 <= n ->
    match grow old n r ns with
    | Next (t, _, ns') => good t /\ n < length t /\ In (length t) ns /\ incl ns' ns /\ length ns' < length ns /\ Permutation (entries t) old
    | Ub => False
    | Stuck => True
    end.
  Proof.
    induction ns as [|m ns IH]; intros n r Hn; cbn [grow]; auto. destruct (Nat.ltb_spec n m); auto.
    assert (Gm : good (fresh m : table)) by (apply fresh_good; lia).
    pose proof (copy_ok (shifts_limit m * 2) old (fresh m) r Gm) as H1.
    assert (Lm : length (fresh m : table) = m) by apply repeat_length.
    destruct (copy (shifts_limit m * 2) (fresh m) r old) as [t r'|r'|]; auto.
    - destruct H1 as (H1 & H2 & H3). rewrite fresh_entries, app_nil_r in H3. split; auto. split; [congruence|]. split; [left; congruence|].
      split; [intros x; now right|]. split; [cbn; lia|]. auto.
    - specialize (IH m r' ltac:(lia)). destruct (grow old m r' ns) as [| |[[t r2] ns2]]; auto.
      destruct IH as (I1 & I2 & I3 & I4 & I5 & I6). split; auto. split; [lia|]. split; [now right|]. split; [intros x Hx; right; auto|].
      split; [cbn; lia|]. auto.
  Qed.
  Lemma insert_loop_ok fuel : forall t r e ns first, good t ->
    match insert_loop fuel t r e ns first with
    | Next (t', _, p) => good t' /\ (length t' = length t \/ In (length t') ns) /\ Permutation (entries t') (e :: entries t) /\
        match p with Some q => first = true /\ fst q < length t' /\ snd q < kLen /\ at_ t' (fst q) (snd q) = Some e | None => True end
    | Ub => False
    | Stuck => True
    end.
  Proof.
    induction fuel as [|fuel IH]; intros t r e ns first G; cbn [insert_loop]; auto.
    pose proof (roll_good (shifts_limit (length t)) t r e G) as H.
    destruct (roll (shifts_limit (length t)) t r e) as [t' r' p|t' r' e'|]; cbn [roll_ok] in H; auto.
    - destruct H as (H1 & H2 & H3 & H4 & H5 & H6). split; auto. split; auto. split; auto. destruct first; auto. rewrite H2. auto.
    - destruct H as (H1 & H2 & H3). pose proof (grow_ok (entries t') ns (length t') r' (proj1 H1)) as H4.
      destruct (grow (entries t') (length t') r' ns) as [| |[[t2 r2] ns2]]; auto. destruct H4 as (K1 & K2 & K3 & K4 & K5 & K6).
      specialize (IH t2 r2 e' ns2 false K1). destruct (insert_loop fuel t2 r2 e' ns2 false) as [| |[[t3 r3] p]]; auto.
      destruct IH as (I1 & I2 & I3 & I4). split; auto. split.
      { destruct I2 as [I2|I2]; right; [congruence|auto]. }
      split. { rewrite I3, K6. auto. }
      destruct p as [q|]; auto. destruct I4. discriminate.
  Qed.

  (** ** Finding *)
  Lemma index_some k (l : list slot) i : index k l = Some i -> i < length l /\ exists v, nth i l None = Some (k, v).
  Proof.
    revert i; induction l as [|[[k' v]|] l IH]; cbn [index]; intros i H; try easy.
    - destruct (N.eqb_spec k' k) as [->|].
      + injection H as <-. split; [cbn; lia|]. now exists v.
      + destruct (index k l) eqn:E; [|easy]. injection H as <-. destruct (IH n0 eq_refl). cbn. split; auto. lia.
    - destruct (index k l) eqn:E; [|easy]. injection H as <-. destruct (IH n eq_refl). cbn. split; auto. lia.
  Qed.
  Lemma index_none k (l : list slot) i v : index k l = None -> nth i l None <> Some (k, v).
  Proof.
    revert i; induction l as [|[[k' v']|] l IH]; cbn [index]; intros i H; destruct i; try easy.
    - destruct (N.eqb_spec k' k) as [->|]; [easy|]. cbn. congruence.
    - destruct (k' =? k)%N; [easy|]. destruct (index k l); [easy|]. now apply IH.
    - destruct (index k l); [easy|]. now apply IH.
  Qed.
  Lemma find_some t k b i : good t -> find t k = Some (b, i) -> b < length t /\ i < kLen /\ exists v, at_ t b i = Some (k, v).
  Proof.
    intros (G1 & G2 & G3) H. unfold find in H. pose proof (pair_lt (length t) k G1) as (L1 & L2 & L3).
    destruct (id_pair (length t) k) as [a c]. cbn [fst snd] in *.
    pose proof (bucket_len t a G2 L1). pose proof (bucket_len t c G2 L2).
    destruct (index k (bucket t a)) eqn:E.
    - injection H as <- <-. destruct (index_some _ _ _ E). split; auto. split; [lia|auto].
    - destruct (index k (bucket t c)) eqn:E2; [|easy]. injection H as <- <-. destruct (index_some _ _ _ E2). split; auto. split; [lia|auto].
  Qed.
  Lemma find_none t k v : good t -> find t k = None -> ~ In (k, v) (entries t).
  Proof.
    intros (G1 & G2 & G3) H Hin. apply in_entries in Hin as (b & i & Hat). pose proof (G3 _ _ _ Hat) as M. unfold find in H. unfold mine in M. cbn [fst] in M.
    destruct (id_pair (length t) k) as [a c]. cbn [fst snd] in *.
    destruct (index k (bucket t a)) eqn:E; [easy|]. destruct (index k (bucket t c)) eqn:E2; [easy|].
    unfold at_ in Hat. destruct M as [-> | ->]; [exact (index_none _ _ _ _ E Hat) | exact (index_none _ _ _ _ E2 Hat)].
  Qed.
  Lemma dense_ok (t : table) b i : fits (length t) -> b < length t -> i < kLen -> from_dense t (to_dense (b, i)) = at_ t b i.
  Proof.
    intros F Hb Hi. unfold fits in F. unfold from_dense, to_dense. cbn [fst snd]. unfold kLen in Hi.
    assert (E : ((N.of_nat b * 4 + N.of_nat i) mod two32 = N.of_nat b * 4 + N.of_nat i)%N).
    { apply N.mod_small. change two32 with 4294967296%N. change (2 ^ 30)%N with 1073741824%N in F. lia. }
    rewrite E. f_equal; lia.
  Qed.

  (** ** The map *)
  Definition rep (s : cmap V) (m : amap V) : Prop :=
    good (tab s) /\ fits (length (tab s)) /\ Permutation (entries (tab s)) m /\ NoDup (map fst m) /\ size s = length m.
  Lemma get_in (m : amap V) k v : NoDup (map fst m) -> get m k = Some v <-> In (k, v) m.
  Proof.
    induction m as [|[k' v'] m IH]; cbn [get map In]; intros H; [easy|]. inversion H as [|? ? H1 H2]; subst. cbn [fst] in H1.
    destruct (N.eqb_spec k' k) as [->|N].
    - split.
      + intros X. injection X as ->. auto.
      + intros [X|X]; [now injection X as ->|]. destruct H1. apply in_map_iff. now exists (k, v).
    - rewrite IH by auto. split; auto. intros [X|X]; auto. injection X as -> ->. easy.
  Qed.
  Lemma get_none (m : amap V) k : get m k = None <-> ~ In k (map fst m).
  Proof.
    induction m as [|[k' v'] m IH]; cbn [get map In fst]; [tauto|]. destruct (N.eqb_spec k' k) as [->|N].
    - split; [discriminate|]. intros X. destruct X. auto.
    - rewrite IH. intuition.
  Qed.
  Lemma rep_find s m k b i : rep s m -> find (tab s) k = Some (b, i) ->
    exists v, at_ (tab s) b i = Some (k, v) /\ get m k = Some v /\ from_dense (tab s) (to_dense (b, i)) = Some (k, v).
  Proof.
    intros (R1 & R2 & R3 & R4 & R5) E. destruct (find_some _ _ _ _ R1 E) as (H1 & H2 & v & H3). exists v. split; auto. split.
    - apply get_in; auto. eapply Permutation_in; [exact R3|]. apply in_entries. eauto.
    - now rewrite dense_ok.
  Qed.
  Lemma rep_find_none s m k : rep s m -> find (tab s) k = None -> get m k = None.
  Proof.
    intros (R1 & R2 & R3 & R4 & R5) E. destruct (get m k) as [v|] eqn:G; auto. apply get_in in G; auto.
    eapply Permutation_in in G; [|symmetry; exact R3]. now apply find_none in G.
  Qed.
  Lemma rep_lookup s m k : rep s m -> lookup s k = get m k.
  Proof.
    intros R. unfold lookup. destruct (find (tab s) k) as [[b i]|] eqn:E.
    - destruct (rep_find s m k b i R E) as (v & _ & H & ->). now rewrite H.
    - now rewrite (rep_find_none s m k R E).
  Qed.
  Lemma in_fits ns n : Forall fits ns -> In n ns -> fits n. Proof. rewrite Forall_forall. auto. Qed.
  Lemma insert_ok s m k v ns : rep s m -> Forall fits ns ->
    match insert s k v ns with
    | Next (s', (d, new)) => rep s' (add m k v) /\ new = (match get m k with None => true | Some _ => false end) /\
        exists p v', d = Some p /\ from_dense (tab s') p = Some (k, v') /\ get (add m k v) k = Some v'
    | Ub => False
    | Stuck => True
    end.
  Proof.
    intros R F. unfold insert. destruct (find (tab s) k) as [[b i]|] eqn:E.
    - destruct (rep_find s m k b i R E) as (w & H1 & H2 & H3). unfold add. rewrite H2. split; auto. split; auto. exists (to_dense (b, i)), w. auto.
    - pose proof (rep_find_none s m k R E) as G. pose proof R as (R1 & R2 & R3 & R4 & R5).
      pose proof (insert_loop_ok (S (length ns)) (tab s) (rnd s) (k, v) ns true R1) as H.
      destruct (insert_loop (S (length ns)) (tab s) (rnd s) (k, v) ns true) as [| |[[t r] p]]; auto.
      destruct H as (H1 & H2 & H3 & H4).
      assert (R' : rep (Map t (S (size s)) r) (add m k v)).
      { unfold add. rewrite G. split; [exact H1|]. split. { cbn [tab]. destruct H2 as [-> |H2]; auto. eapply in_fits; eauto. }
        split; [cbn [tab]; now rewrite H3, R3|]. split; [|cbn; lia]. cbn [map fst]. constructor; auto. now apply get_none. }
      assert (G' : get (add m k v) k = Some v) by (unfold add; rewrite G; cbn [get]; now rewrite N.eqb_refl).
      destruct p as [[b i]|].
      + cbn [fst snd] in H4. destruct H4 as (_ & H4 & H5 & H6). split; auto. rewrite G. split; auto. exists (to_dense (b, i)), v. split; auto. split; auto. cbn [tab].
        destruct R' as (_ & R' & _). now rewrite dense_ok.
      + split; auto. rewrite G. split; auto. destruct (find t k) as [[b i]|] eqn:E2.
        * destruct (rep_find (Map t (S (size s)) r) _ k b i R' E2) as (w & K1 & K2 & K3). exists (to_dense (b, i)), w. auto.
        * pose proof (rep_find_none (Map t (S (size s)) r) _ k R' E2). congruence.
  Qed.
  Lemma step_ok s m l : rep s m -> small l -> match step s l with Next s' => rep s' (act m l) | Ub => False | Stuck => True end.
  Proof.
    intros R F. destruct l as [k v ns|c ns|]; cbn [step act small] in *.
    - pose proof (insert_ok s m k v ns R F) as H. destruct (insert s k v ns) as [| |[s' [d new]]]; auto. now destruct H.
    - destruct (c <=? length (tab s) * kLen) eqn:C; auto. pose proof R as (R1 & R2 & R3 & R4 & R5). destruct (Nat.eqb_spec (size s) 0) as [Z|Z].
      + destruct ns as [|n ns]; auto. destruct (c / kLen <=? n) eqn:E; auto.
        assert (m = []) as -> by (destruct m; cbn in R5; auto; lia).
        assert (2 <= n). { destruct R1 as (R1 & _). unfold kLen in *. apply Nat.leb_le in E. apply Nat.leb_gt in C.
          assert (length (tab s) <= c / 4) by (apply Nat.div_le_lower_bound; lia). lia. }
        split; [now apply fresh_good|]. cbn [tab size]. split; [inversion F; subst; unfold fresh; now rewrite repeat_length|]. rewrite fresh_entries. repeat split; auto using (NoDup_nil N); try constructor; auto.
      + pose proof (grow_ok (entries (tab s)) ns (length (tab s)) (rnd s) (proj1 R1)) as H.
        destruct (grow (entries (tab s)) (length (tab s)) (rnd s) ns) as [| |[[t r] ns']]; auto.
        destruct H as (H1 & H2 & H3 & H4 & H5 & H6). split; auto. cbn [tab size]. split; [eapply in_fits; eauto|]. split; auto. now rewrite H6.
    - destruct R as (R1 & R2 & R3 & R4 & R5). split; [apply fresh_good; apply R1|]. cbn [tab size]. split; [unfold fresh; now rewrite repeat_length|].
      rewrite fresh_entries. repeat split; auto using (NoDup_nil N); try constructor; auto.
  Qed.
  Lemma exec_ok n ls : 2 <= n -> fits n -> Forall small ls -> match exec step (init n) ls with Next s => rep s (after ls) | Ub => False | Stuck => True end.
  Proof.
    intros Hn Hf. assert (R : rep (init n : cmap V) []).
    { split; [now apply fresh_good|]. cbn [tab init size]. split; [unfold fresh; now rewrite repeat_length|]. rewrite fresh_entries. repeat split; auto using (NoDup_nil N); try constructor; auto. }
    unfold after. revert R. generalize (init n : cmap V) as s. generalize (@nil (N * V)) as m. induction ls as [|l ls IH]; intros m s R F; cbn [exec fold_left]; auto.
    inversion F as [|? ? F1 F2]; subst. pose proof (step_ok s m l R F1) as H. destruct (step s l); [exact I|easy|]. exact (IH _ _ H F2).
  Qed.
End P.

Section Q.
  Variable V : Type.
  Lemma cuckoo_map_pf n (ls : list (lab V)) s : 2 <= n -> fits n -> Forall small ls -> exec step (init n) ls = Next s ->
    (forall k, lookup s k = get (after ls) k) /\ size s = length (after ls) /\ NoDup (map fst (after ls)).
  Proof.
    intros Hn Hf F E. pose proof (exec_ok V n ls Hn Hf F) as H. rewrite E in H. split; [intros; now apply rep_lookup|].
    destruct H as (_ & _ & _ & H1 & H2). auto.
  Qed.
  Lemma cuckoo_defined_pf n (ls : list (lab V)) : 2 <= n -> fits n -> Forall small ls -> exec step (init n) ls <> Ub.
  Proof. intros Hn Hf F E. pose proof (exec_ok V n ls Hn Hf F) as H. now rewrite E in H. Qed.
  Lemma cuckoo_insert_pf n (ls : list (lab V)) s k v ns s' d new : 2 <= n -> fits n -> Forall small ls -> exec step (init n) ls = Next s -> Forall fits ns ->
    insert s k v ns = Next (s', (d, new)) ->
    new = (match get (after ls) k with None => true | Some _ => false end) /\
    exists p v', d = Some p /\ from_dense (tab s') p = Some (k, v') /\ v' = match get (after ls) k with Some w => w | None => v end.
  Proof.
    intros Hn Hf F E Fn I. pose proof (exec_ok V n ls Hn Hf F) as H. rewrite E in H. pose proof (insert_ok V s _ k v ns H Fn) as J. rewrite I in J.
    destruct J as (_ & J1 & p & w & J2 & J3 & J4). split; auto. exists p, w. split; auto. split; auto. unfold add in J4.
    destruct (get (after ls) k) eqn:G; [congruence|]. cbn [get] in J4. rewrite N.eqb_refl in J4. congruence.
  Qed.
  (** Every slot that is not empty is an entry: iteration by dense ids *)
  Lemma cuckoo_iter_pf n (ls : list (lab V)) s : 2 <= n -> fits n -> Forall small ls -> exec step (init n) ls = Next s ->
    forall k v, get (after ls) k = Some v <-> exists d, (d < N.of_nat (4 * length (tab s)))%N /\ from_dense (tab s) d = Some (k, v).
  Proof.
    intros Hn Hf F E k v. pose proof (exec_ok V n ls Hn Hf F) as H. rewrite E in H. pose proof H as (H1 & H2 & H3 & H4 & H5). split.
    - intros G. destruct (find (tab s) k) as [[b i]|] eqn:Fi.
      + destruct (rep_find V s _ k b i H Fi) as (w & K1 & K2 & K3). exists (to_dense (b, i)). split; [|congruence].
        destruct (find_some V _ _ _ _ H1 Fi) as (L1 & L2 & _). unfold to_dense. cbn [fst snd]. unfold kLen in L2.
        pose proof (N.mod_le (N.of_nat b * 4 + N.of_nat i) two32 ltac:(discriminate)). lia.
      + pose proof (rep_find_none V s _ k H Fi). congruence.
    - intros (d & _ & D). apply get_in; auto. eapply Permutation_in; [exact H3|]. apply in_entries. unfold from_dense in D. eauto.
  Qed.
  Lemma nat_of (x : N) : exists b, N.of_nat b = x. Proof. exists (N.to_nat x). apply N2Nat.id. Qed.
  Lemma cuckoo_dense_refuted_pf : exists b i, ~ fits (S b) /\ to_dense (b, i) = to_dense (0, 0) /\ b <> 0.
  Proof.
    destruct (nat_of (2 ^ 30)) as [b E]. exists b, 0. unfold fits, to_dense. cbn [fst snd]. rewrite E. split; [|split].
    - rewrite Nat2N.inj_succ, E. intros X. now apply X.
    - reflexivity.
    - intros ->. discriminate.
  Qed.
End Q.
