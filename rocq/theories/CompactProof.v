From Verif Require Import Util Conc CuckooModel CuckooSpec CuckooProof CompactModel CompactSpec.
From Coq Require Import Permutation.
Arguments find {V}. Arguments at_ {V}. Arguments bucket {V}. Arguments put {V}. Arguments entries {V}. Arguments somes {V}.
Arguments first_empty {V}. Arguments index {V}. Arguments roll {V}. Arguments shift {V}. Arguments fresh {V}.
Arguments lookup {V}. Arguments step {V}. Arguments init {V}.
Arguments get {V}. Arguments add {V}. Arguments act {V}. Arguments small {V}. Arguments amap : clear implicits. Arguments amap _%type_scope.
Arguments good {V}. Arguments shape {V}. Arguments placed {V}. Arguments rep {V}.
Arguments explore {V}. Arguments advance {V}. Arguments pass {V}. Arguments unmark {V}. Arguments unwind {V}. Arguments cleanup {V}.
Arguments passes {V}. Arguments shift_exhaustive {V}. Arguments problematic {V}. Arguments fill {V}. Arguments tries {V}. Arguments compact {V}.
Arguments cstep {V}. Arguments cact {V}. Arguments cafter {V}. Arguments csmall {V}. Arguments yes {V}.

(** ** States of buckets *)
Lemma mod_length f b g : length (mod_ f b g) = length f. Proof. apply set_length. Qed.
Lemma st_mod f b g x : b < length f -> st (mod_ f b g) x = if x =? b then g (st f x) else st f x.
Proof.
  intros H. unfold mod_, st. destruct (Nat.eqb_spec x b) as [->|E].
  - now rewrite set_nth_eq.
  - now rewrite set_nth_neq by auto.
Qed.
Definition clean (b : bstate) : Prop := visited b = false /\ ch b = [].
Lemma reset_clean b : clean (reset b). Proof. unfold reset. destruct (unshiftable b); split; auto. Qed.
Lemma bs0_clean : clean bs0. Proof. split; auto. Qed.
Lemma has_in k l : has k l = true <-> In k l.
Proof.
  unfold has. rewrite existsb_exists. split.
  - intros (x & H & E). apply Nat.eqb_eq in E. now subst.
  - intros H. exists k. now rewrite Nat.eqb_refl.
Qed.
Definition unexplored (f : info) : nat := length (filter (fun b => negb (explored b)) f).
Lemma filter_set {A} (p : A -> bool) (l : list A) i x d : i < length l -> 
  length (filter p (set i x l)) + (if p (nth i l d) then 1 else 0) = length (filter p l) + (if p x then 1 else 0).
Proof.
  revert i; induction l as [|a l IH]; cbn [length]; intros i H; [lia|]. destruct i; cbn [set nth filter].
  - destruct (p a), (p x); cbn [length]; lia.
  - specialize (IH i ltac:(lia)). destruct (p a); cbn [length]; lia.
Qed.
Lemma unexplored_mod f b g : b < length f -> unexplored (mod_ f b g) + (if explored (st f b) then 0 else 1) = unexplored f + (if explored (g (st f b)) then 0 else 1).
Proof.
  intros H. unfold unexplored, mod_. pose proof (filter_set (fun b => negb (explored b)) f b (g (st f b)) bs0 H) as E. unfold st in *.
  destruct (explored (nth b f bs0)), (explored (g (nth b f bs0))); cbn [negb] in E; lia.
Qed.
Lemma filter_le {A} (p : A -> bool) (l : list A) : length (filter p l) <= length l.
Proof. induction l as [|a l IH]; cbn; auto. destruct (p a); cbn; lia. Qed.
Lemma nodup_hd (l : list nat) c l' : l = c :: l' -> NoDup l -> filter (fun j => negb (j =? c)) l = l'.
Proof.
  intros -> H. inversion H as [|? ? H1 H2]; subst. cbn [filter]. rewrite Nat.eqb_refl. cbn [negb]. clear H H2.
  induction l' as [|a l IH]; cbn [filter]; auto. destruct (Nat.eqb_spec a c) as [->|E]; cbn [negb].
  - destruct H1. now left.
  - f_equal. apply IH. intros X. apply H1. now right.
Qed.
Lemma nodup_perm {A} (a b c : list A) : Permutation a b -> NoDup (a ++ c) -> NoDup (b ++ c).
Proof. intros P H. eapply Permutation_NoDup; [|exact H]. now apply Permutation_app_tail. Qed.

Section P.
  Variable V : Type.
  Notation table := (table V).
  Notation entry := (entry V).

  Definition isfull (t : table) (b : nat) : Prop := first_empty (bucket t b) = None.
  Lemma isfull_at t b : good t -> b < length t -> isfull t b <-> forall i, i < kLen -> exists e, at_ t b i = Some e.
  Proof.
    intros (G1 & G2 & G3) Hb. pose proof (bucket_len V t b G2 Hb) as L. unfold isfull. split.
    - intros H i Hi. eapply first_empty_none; eauto. lia.
    - intros H. destruct (first_empty (bucket t b)) as [i|] eqn:E; auto. destruct (first_empty_some _ _ _ E) as [E1 E2].
      destruct (H i ltac:(lia)) as [e X]. unfold at_ in X. rewrite E1 in X. discriminate.
  Qed.
  Lemma at_put' (t : table) b i e b' i' : good t -> b < length t -> i < kLen -> at_ (put t b i e) b' i' = if (b' =? b) && (i' =? i) then Some e else at_ t b' i'.
  Proof. intros (G1 & G2 & G3) Hb Hi. apply at_put; auto. rewrite bucket_len; auto. Qed.
  Lemma put_full (t : table) b i (e : entry) x : good t -> mine (length t) b (fst e) -> i < kLen -> isfull t x -> x < length t -> isfull (put t b i e) x.
  Proof.
    intros G M Hi F Hx. pose proof (mine_lt _ _ _ (proj1 G) M) as Hb.
    apply isfull_at; [now apply put_good|now rewrite put_length|]. intros j Hj. rewrite at_put' by auto.
    destruct ((x =? b) && (j =? i)); eauto. exact (proj1 (isfull_at t x G Hx) F j Hj).
  Qed.
  (** Swapping the pending entry with a slot *)
  Lemma swap (t : table) b i (e e' : entry) : good t -> mine (length t) b (fst e) -> i < kLen -> at_ t b i = Some e' ->
    good (put t b i e) /\ Permutation (e' :: entries (put t b i e)) (e :: entries t) /\ mine (length t) b (fst e').
  Proof.
    intros G M Hi E. pose proof (mine_lt _ _ _ (proj1 G) M) as Hb. split; [now apply put_good|]. split; [|now apply (proj2 (proj2 G)) in E].
    pose proof (put_entries V t b i e (proj1 (proj2 G)) Hb Hi) as P. rewrite E in P. exact P.
  Qed.
  Lemma other_other n b b' k : 2 <= n -> mine n b k -> mine n b' k -> b <> b' -> other n b k = b'.
  Proof.
    intros Hn M M' N. pose proof (pair_lt n k Hn) as (_ & _ & P). unfold other, mine in *. destruct (id_pair n k) as [x y]. cbn [fst snd] in *.
    destruct (Nat.eqb_spec b x); lia.
  Qed.
  Lemma other_neq n b k : 2 <= n -> mine n b k -> other n b k <> b.
  Proof.
    intros Hn M. pose proof (pair_lt n k Hn) as (_ & _ & P). unfold other, mine in *. destruct (id_pair n k) as [x y]. cbn [fst snd] in *.
    destruct (Nat.eqb_spec b x); lia.
  Qed.

  (** ** The search *)
  Section S.
  Variables (n bid : nat) (start : N).
  Hypothesis Hn : 2 <= n.

  Definition target (t : table) (p : nat * nat) : nat := match at_ t (fst p) (snd p) with Some e => other n (fst p) (fst e) | None => n end.
  Definition own (f : info) (b : nat) : list (nat * nat) := map (pair b) (ch (st f b)).
  Definition adv (f : info) (b : nat) : list (nat * nat) := map (pair b) (tl (ch (st f b))).
  (** The children that were not entered yet. [ret]: the first child of the top was entered and left. *)
  Definition lives (ret : bool) (f : info) (stk : list nat) : list (nat * nat) :=
    match stk with [] => [] | b :: rest => (if ret then adv f b else own f b) ++ flat_map (adv f) rest end.
  (** [e] was pending when the top was entered *)
  Fixpoint chain (t : table) (f : info) (stk : list nat) (e : entry) : Prop :=
    match stk with
    | [] => False
    | b :: rest => mine n b (fst e) /\
        match rest with
        | [] => b = bid /\ fst e = start
        | b' :: _ => exists c p, hd_error (ch (st f b')) = Some c /\ at_ t b' c = Some p /\ mine n b' (fst e) /\ b <> b' /\ chain t f rest p
        end
    end.
  Record inv (ret : bool) (t : table) (f : info) (e : entry) (b : nat) (rest : list nat) : Prop := Inv {
    i_good : good t;
    i_keys : NoDup (map fst (e :: entries t));
    i_t : length t = n;
    i_f : length f = n;
    i_chain : if ret then exists c p, hd_error (ch (st f b)) = Some c /\ at_ t b c = Some p /\ chain t f (b :: rest) p /\ mine n b (fst e)
              else chain t f (b :: rest) e;
    i_nd : NoDup (map (target t) (lives ret f (b :: rest)) ++ b :: rest);
    i_tgt : forall x, In x (map (target t) (lives ret f (b :: rest))) -> visited (st f x) = true /\ explored (st f x) = false;
    i_stk : forall x, In x (b :: rest) -> x < n /\ visited (st f x) = true;
    i_below : forall x, In x rest -> explored (st f x) = true;
    i_top : ret = true -> explored (st f b) = true;
    i_ch : forall x, NoDup (ch (st f x)) /\ forall k, In k (ch (st f x)) -> k < kLen;
    w_ch : forall x, visited (st f x) = false \/ explored (st f x) = false -> ch (st f x) = [];
    w_vis : forall x, visited (st f x) = true -> In x (map (target t) (lives ret f (b :: rest)) ++ b :: rest);
    w_full : forall x, visited (st f x) = true \/ full (st f x) = true \/ explored (st f x) = true -> isfull t x }.

  Lemma st_lt f x : length f = n -> visited (st f x) = true \/ full (st f x) = true \/ explored (st f x) = true -> x < n.
  Proof. intros L H. destruct (Nat.lt_ge_cases x n); auto. unfold st in H. rewrite nth_overflow in H by lia. cbn in H. destruct H as [|[|]]; discriminate. Qed.
  Lemma chain_cons t f b b' r e : chain t f (b :: b' :: r) e <-> mine n b (fst e) /\
    exists c p, hd_error (ch (st f b')) = Some c /\ at_ t b' c = Some p /\ mine n b' (fst e) /\ b <> b' /\ chain t f (b' :: r) p.
  Proof. reflexivity. Qed.
  Lemma chain_mine t f stk e b rest : stk = b :: rest -> chain t f stk e -> mine n b (fst e).
  Proof. intros ->. cbn [chain]. tauto. Qed.
  Lemma chain_ext t f t' f' stk : forall e, (forall b, In b (tl stk) -> hd_error (ch (st f' b)) = hd_error (ch (st f b)) /\ forall i, at_ t' b i = at_ t b i) ->
    chain t f stk e -> chain t' f' stk e.
  Proof.
    induction stk as [|b rest IH]; intros e H C; cbn [chain] in *; auto. destruct C as [M C]. split; auto. destruct rest as [|b' rest]; auto.
    destruct C as (c & p & C1 & C2 & C3 & C4 & C5). exists c, p. destruct (H b') as [H1 H2]; [now left|]. rewrite H1, H2. do 4 (split; auto).
    apply IH; auto. intros x Hx. apply H. cbn [tl] in *. now right.
  Qed.
  Lemma lives_ext ret f f' stk : (forall b, In b stk -> ch (st f' b) = ch (st f b)) -> lives ret f' stk = lives ret f stk.
  Proof.
    intros H. unfold lives. destruct stk as [|b rest]; auto. f_equal.
    - unfold adv, own. now rewrite H by now left.
    - assert (Hr : forall b, In b rest -> ch (st f' b) = ch (st f b)) by (intros; apply H; now right). clear H.
      induction rest as [|x rest IH]; cbn [flat_map]; auto. rewrite IH by (intros; apply Hr; now right). f_equal. unfold adv. now rewrite Hr by now left.
  Qed.
  Lemma in_adv f b x k : In (x, k) (adv f b) -> x = b /\ In k (tl (ch (st f b))).
  Proof. unfold adv. rewrite in_map_iff. intros (y & E & H). injection E as <- <-. auto. Qed.
  Lemma in_advs f stk x k : In (x, k) (flat_map (adv f) stk) <-> In x stk /\ In k (tl (ch (st f x))).
  Proof.
    rewrite in_flat_map. split.
    - intros (b & H & H2). apply in_adv in H2 as [-> H2]. auto.
    - intros [H H2]. exists x. split; auto. unfold adv. apply in_map_iff. eauto.
  Qed.
  Lemma tl_in {A} (l : list A) x : In x (tl l) -> In x l. Proof. destruct l; cbn; auto. Qed.
  Lemma in_lives ret f stk x k : In (x, k) (lives ret f stk) -> In x stk /\ In k (ch (st f x)).
  Proof.
    unfold lives. destruct stk as [|b rest]; [easy|]. rewrite in_app_iff, in_advs. intros [H|[H1 H2]].
    - destruct ret.
      + apply in_adv in H as [-> H]. split; [now left|now apply tl_in].
      + unfold own in H. apply in_map_iff in H as (y & E & H). injection E as <- <-. split; [now left|auto].
    - split; [now right|now apply tl_in].
  Qed.
  Lemma targets_ext t t' l : (forall x k, In (x, k) l -> at_ t' x k = at_ t x k) -> map (target t') l = map (target t) l.
  Proof. intros H. apply map_ext_in. intros [x k] Hx. unfold target. cbn [fst snd]. now rewrite H. Qed.

  Definition phi (ret : bool) (f : info) (stk : list nat) : nat :=
    16 * unexplored f + 3 * length (lives ret f stk) + 2 * length (tl stk) + (if ret then 1 else 0).
  Lemma chain_bid t f stk : forall e b rest, stk = b :: rest -> NoDup stk -> b = bid -> chain t f stk e -> rest = [].
  Proof.
    assert (A : forall stk e, chain t f stk e -> In bid stk).
    { clear. induction stk as [|b rest IH]; intros e C; cbn [chain] in *; auto. destruct C as [_ C]. destruct rest as [|b' rest].
      - destruct C as [-> _]. now left.
      - destruct C as (c & p & _ & _ & _ & _ & C). right. eauto. }
    intros e b rest -> N -> C. destruct rest as [|b' rest]; auto. exfalso. inversion N as [|? ? N1 N2]; subst. apply N1. cbn [chain] in C.
    destruct C as [_ (c & p & _ & _ & _ & _ & C)]. exact (A (b' :: rest) p C).
  Qed.
  Lemma keys_swap (t : table) b i (e e' : entry) : Permutation (e' :: entries (put t b i e)) (e :: entries t) -> NoDup (map fst (e :: entries t)) -> NoDup (map fst (e' :: entries (put t b i e))).
  Proof. intros P H. eapply Permutation_NoDup; [|exact H]. apply Permutation_map. now symmetry. Qed.
  Lemma nd_stk ret t f e b rest : inv ret t f e b rest -> NoDup (b :: rest).
  Proof. intros I. pose proof (i_nd _ _ _ _ _ _ I) as H. revert H. generalize (map (target t) (lives ret f (b :: rest))) as l. induction l; cbn [app]; auto. intros H; inversion H; auto. Qed.
  Lemma nd_tgt ret t f e b rest x : inv ret t f e b rest -> In x (map (target t) (lives ret f (b :: rest))) -> ~ In x (b :: rest).
  Proof.
    intros I. pose proof (i_nd _ _ _ _ _ _ I) as H. revert H. generalize (map (target t) (lives ret f (b :: rest))) as l.
    induction l as [|a l IH]; cbn [app]; [easy|]. intros H [->|Hx]; inversion H as [|? ? H1 H2]; subst; auto.
    intros X. apply H1. apply in_or_app. auto.
  Qed.

  Definition next_ok (ret : bool) (s : dfs V) (r : dres V) : Prop :=
    match r with
    | More s' => Permutation (de s' :: entries (dt s')) (de s :: entries (dt s)) /\ good (dt s') /\ length (dt s') = n /\
        (forall x, x < n -> isfull (dt s) x -> isfull (dt s') x) /\
        match stack s' with
        | [] => True
        | b :: rest => exists ret', inv ret' (dt s') (df s') (de s') b rest /\ phi ret' (df s') (stack s') < phi ret (df s) (stack s)
        end
    | _ => False
    end.
  Lemma advance_ok ret s b rest : stack s = b :: rest -> inv ret (dt s) (df s) (de s) b rest -> explored (st (df s) b) = true ->
    next_ok ret s (advance bid start s b rest).
  Proof.
    destruct s as [t f e stk cnt]. cbn [stack dt df de count]. intros -> I Ex. pose proof (nd_stk _ _ _ _ _ _ I) as N0. pose proof (fun x => nd_tgt ret t f e b rest x) as NT.
    pose proof I as [G K Lt Lf C ND T S B Tp CH W1 W2 W3]. destruct (S b (or_introl eq_refl)) as [Hb Vb].
    pose proof (CH b) as [CHn CHl]. unfold advance. cbn [dt df de stack count].
    destruct (ch (st f b)) as [|c cs] eqn:Ec.
    - (* nothing left to try *)
      destruct ret. { destruct C as (c & p & X & _). discriminate. }
      rewrite Vb. assert (Lb : b < length f) by lia. unfold unshiftable. rewrite st_mod by auto. rewrite Nat.eqb_refl. unfold clear_visited at 1 2 3. cbn [explored visited ch].
      rewrite Ex, Ec. cbn [andb negb next_ok dt df de stack]. split; auto. split; auto. split; auto. split; auto.
      destruct rest as [|b' rest]; auto. exists true.
      set (f' := mod_ f b clear_visited).
      assert (Sf : forall x, x <> b -> st f' x = st f x). { intros x E. unfold f'. rewrite st_mod by auto. now destruct (Nat.eqb_spec x b). }
      assert (Sb : st f' b = clear_visited (st f b)). { unfold f'. rewrite st_mod by auto. now rewrite Nat.eqb_refl. }
      assert (Lv : lives true f' (b' :: rest) = lives false f (b :: b' :: rest)).
      { unfold lives. cbn [flat_map]. unfold own. rewrite Ec. cbn [map app]. change (adv f' b' ++ flat_map (adv f') rest) with (lives true f' (b' :: rest)).
        change (adv f b' ++ flat_map (adv f) rest) with (lives true f (b' :: rest)). apply lives_ext. intros x Hx. f_equal. apply Sf. inversion N0; subst. congruence. }
      assert (Nb : forall x, In x (b' :: rest) -> x <> b) by (intros x Hx ->; inversion N0; auto).
      split.
      + split; auto.
        * unfold f'. now rewrite mod_length.
        * apply chain_cons in C as [_ (c & p & C1 & C2 & C3 & C4 & C5)]. exists c, p. rewrite Sf by (apply Nb; now left). split; auto. split; auto. split; auto.
          eapply chain_ext; [|exact C5]. intros x Hx. rewrite Sf; auto. apply Nb. now apply tl_in.
        * rewrite Lv. now apply NoDup_remove_1 in ND.
        * rewrite Lv. intros x Hx. rewrite Sf; [auto|]. intros ->. apply (NT b I Hx). now left.
        * intros x Hx. rewrite Sf by auto. apply S. now right.
        * intros x Hx. rewrite Sf by (apply Nb; now right). apply B. now right.
        * intros _. rewrite Sf by (apply Nb; now left). apply B. now left.
        * intros x. destruct (Nat.eq_dec x b) as [->|E]; [rewrite Sb|rewrite Sf; auto]. cbn. rewrite Ec. split; [constructor|easy].
        * intros x. destruct (Nat.eq_dec x b) as [->|E]; [rewrite Sb|rewrite Sf; auto]. cbn. auto.
        * intros x. rewrite Lv. destruct (Nat.eq_dec x b) as [->|E]; [rewrite Sb; discriminate|]. rewrite Sf by auto. intros X. apply W2 in X.
          rewrite in_app_iff in *. destruct X as [X|[X|X]]; auto. congruence.
        * intros x. destruct (Nat.eq_dec x b) as [->|E]; [rewrite Sb|rewrite Sf; auto]. intros _. apply W3. auto.
      + unfold phi. cbn [tl length]. rewrite <- Lv. pose proof (unexplored_mod f b clear_visited Lb) as U. fold f' in U. change (explored (clear_visited (st f b))) with (explored (st f b)) in U. lia.
    - (* a child *)
      pose proof (W3 b (or_introl Vb)) as Fb. pose proof (CHl c (or_introl eq_refl)) as Hc.
      destruct (proj1 (isfull_at t b G ltac:(lia)) Fb c Hc) as [e' E']. rewrite E'.
      assert (M : mine n b (fst e)). { destruct ret; [destruct C as (? & ? & _ & _ & _ & ?); auto|]. eapply chain_mine; eauto. }
      rewrite <- Lt in M. destruct (swap t b c e e' G M Hc E') as (G' & P' & M'). pose proof (keys_swap _ _ _ _ _ P' K) as K'.
      assert (A' : forall x k, at_ (put t b c e) x k = if (x =? b) && (k =? c) then Some e else at_ t x k) by (intros; apply at_put'; auto; lia).
      assert (F' : forall x, x < n -> isfull t x -> isfull (put t b c e) x) by (intros; apply put_full; auto; lia).
      pose proof (put_length V t b c e) as Lt'. rewrite Lt in *. rewrite Lt'. clear M. set (t' := put t b c e) in *. clearbody t'.
      assert (Lb : b < length f) by lia. inversion CHn as [|? ? CHc CHs]; subst.
      assert (Nb : forall x, In x rest -> x <> b) by (intros x Hx ->; inversion N0; auto).
      assert (Ar : forall x i, In x rest -> at_ t' x i = at_ t x i). { intros x i Hx. rewrite A'. destruct (Nat.eqb_spec x b); auto. now apply Nb in Hx. }
      set (f' := mod_ f b (remove_child c)).
      assert (Sf : forall x, x <> b -> st f' x = st f x). { intros x E. unfold f'. rewrite st_mod by auto. now destruct (Nat.eqb_spec x b). }
      assert (Sb : st f' b = BS true true (full (st f b)) cs).
      { unfold f'. rewrite st_mod by auto. rewrite Nat.eqb_refl. unfold remove_child. rewrite Ex, Vb. rewrite (nodup_hd (ch (st f b)) c cs Ec); [reflexivity|]. now rewrite Ec. }
      assert (Lv : lives false f' (b :: rest) = lives true f (b :: rest)).
      { unfold lives. f_equal. { unfold own, adv. now rewrite Sb, Ec. }
        clear - Sf Nb. induction rest as [|x r IH]; cbn [flat_map]; auto. rewrite IH by (intros; apply Nb; now right). f_equal. unfold adv. rewrite Sf; auto. apply Nb. now left. }
      assert (Tv : map (target t') (lives true f (b :: rest)) = map (target t) (lives true f (b :: rest))).
      { apply targets_ext. intros x k Hx. unfold lives in Hx. rewrite in_app_iff, in_advs in Hx. destruct Hx as [Hx|[Hx _]]; [|now apply Ar].
        apply in_adv in Hx as [-> Hx]. rewrite Ec in Hx. cbn [tl] in Hx. rewrite A'. destruct (Nat.eqb_spec k c) as [->|]; [easy|]. now rewrite andb_false_r. }
      assert (back : ret = true -> chain t f (b :: rest) e' -> 
        next_ok ret (Dfs t f e (b :: rest) cnt) (More (Dfs t' f' e' (b :: rest) cnt))).
      { intros -> C'. cbn [next_ok de dt df stack]. split; auto. split; auto. split; [lia|]. split; auto. exists false. split.
        - split; auto; rewrite ?Lv, ?Tv; auto.
          + unfold f'. now rewrite mod_length.
          + eapply chain_ext; [|exact C']. cbn [tl]. intros x Hx. rewrite Sf by auto. auto.
          + intros x Hx. rewrite Sf; [auto|]. intros ->. apply (NT b I Hx). now left.
          + intros x Hx. split; [now apply S|]. destruct (Nat.eq_dec x b) as [->|E]; [now rewrite Sb|rewrite Sf by auto; now apply S].
          + intros x Hx. rewrite Sf by auto. auto.
          + discriminate.
          + intros x. destruct (Nat.eq_dec x b) as [->|E]; [rewrite Sb|rewrite Sf; auto]. cbn. split; auto. intros k Hk. apply CHl. now right.
          + intros x. destruct (Nat.eq_dec x b) as [->|E]; [rewrite Sb|rewrite Sf; auto]. cbn. intros [X|X]; discriminate.
          + intros x. intros X. apply W2. destruct (Nat.eq_dec x b) as [->|E]; auto. now rewrite Sf in X.
          + intros x X. assert (x < n). { eapply st_lt; [|exact X]. unfold f'. now rewrite mod_length. } apply F'; auto. apply W3. destruct (Nat.eq_dec x b) as [->|E]; auto. now rewrite Sf in X.
        - unfold phi. rewrite Lv. pose proof (unexplored_mod f b (remove_child c) Lb) as U. fold f' in U.
          change (explored (remove_child c (st f b))) with (explored (st f b)) in U. lia. }
      destruct ret.
      + (* coming back *)
        destruct C as (c0 & p & C1 & C2 & C3 & C4). cbn [hd_error] in C1. injection C1 as <-. rewrite E' in C2. injection C2 as <-.
        specialize (back eq_refl C3). fold f'. destruct ((b =? bid) && (fst e' =? start)%N) eqn:Bs; [exact back|].
        cbn [chain] in C3. destruct C3 as [C3 C5]. destruct rest as [|b' rest].
        { destruct C5 as [-> C5]. rewrite Nat.eqb_refl, C5, N.eqb_refl in Bs. discriminate. }
        destruct C5 as (c1 & p & _ & _ & C5 & C6 & _). rewrite (other_other n b b'); auto. rewrite B by now left. exact back.
      + (* entering *)
        fold f'. destruct ((b =? bid) && (fst e' =? start)%N) eqn:Bs.
        { exfalso. apply andb_true_iff in Bs as [B1 B2]. apply Nat.eqb_eq in B1. apply N.eqb_eq in B2.
          pose proof (chain_bid t f (b :: rest) e b rest eq_refl N0 B1 C). subst rest. cbn [chain] in C. destruct C as (_ & _ & C).
          cbn [map] in K. inversion K as [|? ? K1 K2]; subst. apply K1. rewrite C, <- B2. apply in_map. apply in_entries. eauto. }
        set (next := other n b (fst e')).
        assert (Hl : lives false f (b :: rest) = (b, c) :: lives true f (b :: rest)) by (unfold lives, own, adv; rewrite Ec; reflexivity).
        rewrite Hl in ND, T, W2, NT. cbn [map] in ND, T, W2, NT.
        assert (Ht : target t (b, c) = next) by (unfold target; cbn [fst snd]; now rewrite E'). rewrite Ht in *.
        destruct (T next (or_introl eq_refl)) as [T1 T2]. rewrite T2. cbn [next_ok de dt df stack]. split; auto. split; auto. split; [lia|]. split; auto. exists false.
        assert (Hx : next < n) by (eapply st_lt; eauto).
        assert (Ch : ch (st f next) = []) by auto.
        assert (Lv' : lives false f (next :: b :: rest) = lives true f (b :: rest)). { unfold lives. unfold own. now rewrite Ch. }
        split.
        * split; auto; rewrite ?Lv', ?Tv; auto.
          -- apply chain_cons. split; [apply other_mine|]. exists c, e. rewrite Ec. split; auto. split. { rewrite A', !Nat.eqb_refl. auto. } split; auto. split; [now apply other_neq|].
             eapply chain_ext; [|exact C]. cbn [tl]. auto.
          -- eapply Permutation_NoDup; [|exact ND]. cbn [app]. apply Permutation_middle.
          -- intros x X. apply T. now right.
          -- intros x [<-|X]; auto.
          -- intros x [<-|X]; auto.
          -- discriminate.
          -- intros x X. apply W2 in X. cbn [app] in X. eapply Permutation_in; [|exact X]. apply Permutation_middle.
          -- intros x X. apply F'; auto. eapply st_lt; eauto.
        * unfold phi. rewrite Lv', Hl. cbn [tl length]. lia.
  Qed.

  (** ** Cleaning up *)
  Record cinv (ret : bool) (t : table) (f : info) (b : nat) (rest : list nat) : Prop := CInv {
    c_f : length f = n;
    c_lt : forall x, In x (b :: rest) -> x < n;
    c_at : forall x k, In x (b :: rest) -> In k (ch (st f x)) -> exists e, at_ t x k = Some e /\ mine n x (fst e);
    c_chain : if ret then exists c p, hd_error (ch (st f b)) = Some c /\ at_ t b c = Some p /\ chain t f (b :: rest) p
              else exists e, chain t f (b :: rest) e;
    c_nd : NoDup (map (target t) (lives ret f (b :: rest)) ++ b :: rest);
    c_out : forall x, clean (st f x) \/ In x (map (target t) (lives ret f (b :: rest)) ++ b :: rest) }.
  Definition fe (b : bstate) : Prop := full b = true \/ explored b = true.
  Lemma reset_fe b : fe (reset b) -> fe b.
  Proof. unfold reset, unshiftable, fe. destruct (explored b); auto. Qed.
  Lemma remove_fe k b : fe (remove_child k b) -> fe b. Proof. auto. Qed.
  Lemma unmark_spec t id below cs : forall f, length t = n -> length f = n -> id < n ->
    (forall k, In k cs -> exists e, at_ t id k = Some e /\ mine n id (fst e)) ->
    let f' := unmark t f id below cs in
    length f' = n /\ clean (st f' id) /\ (forall x, x <> id -> st f' x = st f x \/ clean (st f' x)) /\
    (forall c, In c cs -> hd_error below <> Some (target t (id, c)) -> clean (st f' (target t (id, c)))) /\
    (forall x, x <> id -> (forall c, In c cs -> target t (id, c) = x -> hd_error below = Some x) -> st f' x = st f x) /\
    (forall x, fe (st f' x) -> fe (st f x)).
  Proof.
    induction cs as [|c cs IH]; intros f Lt Lf Hi A; cbn [unmark]; cbv zeta.
    - split; [now rewrite mod_length|]. split; [rewrite st_mod by lia; rewrite Nat.eqb_refl; apply reset_clean|].
      split. { intros x Hx. rewrite st_mod by lia. destruct (Nat.eqb_spec x id); [easy|auto]. }
      split; [easy|]. split. { intros x Hx _. rewrite st_mod by lia. now destruct (Nat.eqb_spec x id). }
      intros x Hx. rewrite st_mod in Hx by lia. destruct (x =? id); auto. now apply reset_fe.
    - destruct (A c (or_introl eq_refl)) as (e & E & M). assert (T : target t (id, c) = other n id (fst e)) by (unfold target; cbn [fst snd]; now rewrite E).
      rewrite E, Lt. rewrite <- T. set (nx := target t (id, c)) in *.
      assert (Ne : nx <> id) by (rewrite T; now apply other_neq). assert (Hx : nx < n) by (rewrite T; eapply mine_lt; [exact Hn|apply other_mine]).
      assert (A' : forall k, In k cs -> exists e, at_ t id k = Some e /\ mine n id (fst e)) by (intros k Hk; apply A; now right).
      set (f1 := mod_ f id (remove_child c)). assert (L1 : length f1 = n) by (unfold f1; now rewrite mod_length).
      assert (S1 : forall x, x <> id -> st f1 x = st f x). { intros x Hy. unfold f1. rewrite st_mod by lia. now destruct (Nat.eqb_spec x id). }
      assert (F1 : forall x, fe (st f1 x) -> fe (st f x)). { intros x. unfold f1. rewrite st_mod by lia. destruct (x =? id); auto. }
      destruct (match below with [] => false | b :: _ => nx =? b end) eqn:Sk.
      + assert (Sk' : hd_error below = Some nx). { destruct below as [|b' r]; [easy|]. apply Nat.eqb_eq in Sk. now subst. }
        destruct (IH f1 Lt L1 Hi A') as (I1 & I2 & I3 & I4 & I5 & I6). split; auto. split; auto. split. { intros x Hy. rewrite <- S1 by auto. auto. }
        split. { intros c' [<-|Hc] Hs; [easy|auto]. }
        split; [|auto]. intros x Hy Hs. rewrite <- S1 by auto. apply I5; auto. intros c' Hc. apply Hs. now right.
      + assert (Sk' : hd_error below <> Some nx). { destruct below as [|b' r]; [easy|]. apply Nat.eqb_neq in Sk. cbn. congruence. }
        set (f2 := mod_ f1 nx reset). assert (L2 : length f2 = n) by (unfold f2; now rewrite mod_length).
        assert (S2 : forall x, x <> nx -> st f2 x = st f1 x). { intros x Hy. unfold f2. rewrite st_mod by lia. now destruct (Nat.eqb_spec x nx). }
        assert (S2' : clean (st f2 nx)). { unfold f2. rewrite st_mod by lia. rewrite Nat.eqb_refl. apply reset_clean. }
        destruct (IH f2 Lt L2 Hi A') as (I1 & I2 & I3 & I4 & I5 & I6). split; auto. split; auto. split.
        { intros x Hy. destruct (I3 x Hy) as [->|]; auto. destruct (Nat.eq_dec x nx) as [->|]; auto. left. rewrite S2 by auto. auto. }
        split. { intros c' [<-|Hc] Hs; [|auto]. fold nx. destruct (I3 nx Ne) as [->|]; auto. }
        split. { intros x Hy Hs. destruct (Nat.eq_dec x nx) as [->|]. { destruct Sk'. apply (Hs c); auto. now left. }
          rewrite I5; auto. { rewrite S2 by auto. auto. } intros c' Hc. apply Hs. now right. }
        intros x Hy. apply F1. apply I6 in Hy. destruct (Nat.eq_dec x nx) as [->|]; [|now rewrite <- S2].
        unfold f2 in Hy. rewrite st_mod in Hy by lia. rewrite Nat.eqb_refl in Hy. now apply reset_fe.
  Qed.
  Lemma nodup_app {A} (a b : list A) x : NoDup (a ++ b) -> In x a -> ~ In x b.
  Proof.
    induction a as [|y a IH]; cbn [app]; [easy|]. intros H [->|Hx]; inversion H as [|? ? H1 H2]; subst; auto.
    intros X. apply H1. apply in_or_app. auto.
  Qed.
  Lemma nodup_app_r {A} (a b : list A) : NoDup (a ++ b) -> NoDup b.
  Proof. induction a; cbn [app]; auto. intros H; inversion H; auto. Qed.
  Lemma unwind_ok t stk : forall ret f b rest, stk = b :: rest -> length t = n -> cinv ret t f b rest ->
    length (unwind t f stk) = n /\ (forall x, clean (st (unwind t f stk) x)) /\ (forall x, fe (st (unwind t f stk) x) -> fe (st f x)).
  Proof.
    induction stk as [|b stk IH]; intros ret f b0 rest E Lt I; [discriminate|]. injection E as <- <-. destruct I as [Lf CL A C ND O].
    cbn [unwind]. assert (Hb : b < n) by (apply CL; now left).
    destruct (unmark_spec t b stk (ch (st f b)) f Lt Lf Hb) as (U1 & U2 & U3 & U4 & U5 & U6).
    { intros k Hk. apply A; auto. now left. }
    cbv zeta in *. set (f' := unmark t f b stk (ch (st f b))) in *. clearbody f'.
    pose proof (nodup_app_r _ _ ND) as Ns. inversion Ns as [|? ? Nb Nr]; subst.
    assert (Dead : forall c, In (b, c) (lives ret f (b :: stk)) -> clean (st f' (target t (b, c))) /\ forall x, In x stk -> target t (b, c) <> x).
    { intros c Hc. pose proof (nodup_app _ _ (target t (b, c)) ND (in_map _ _ _ Hc)) as X.
      assert (Y : forall x, In x stk -> target t (b, c) <> x) by (intros x Hx Ex; apply X; rewrite Ex; now right). split; [|exact Y].
      apply U4; [apply in_lives in Hc; tauto|].
      destruct stk as [|b' r]; [easy|]; cbn; intros Z; injection Z as Z; apply (Y b'); auto; now left. }
    assert (Below : forall x, In x stk -> st f' x = st f x).
    { intros x Hx. apply U5. { intros ->. easy. } intros c Hc Tx. destruct ret.
      - destruct C as (c0 & p & C1 & C2 & C3). destruct (ch (st f b)) as [|c1 cs] eqn:Ec; [easy|]. cbn [hd_error] in C1. injection C1 as ->. destruct Hc as [<-|Hc].
        + destruct stk as [|b' r]; [easy|]. apply chain_cons in C3 as (C3 & (? & ? & _ & _ & C4 & C5 & _)). unfold target in Tx. cbn [fst snd] in Tx. rewrite C2 in Tx.
          rewrite (other_other n b b') in Tx; auto. now subst.
        + exfalso. apply (proj2 (Dead c ltac:(unfold lives, adv; rewrite Ec; cbn [tl]; apply in_or_app; left; now apply in_map)) x Hx Tx).
      - exfalso. apply (proj2 (Dead c ltac:(unfold lives, own; apply in_or_app; left; now apply in_map)) x Hx Tx). }
    assert (Lv : flat_map (adv f') stk = flat_map (adv f) stk).
    { clear - Below. induction stk as [|x r IH]; cbn [flat_map]; auto. rewrite IH by (intros; apply Below; now right). f_equal. unfold adv. now rewrite Below by now left. }
    assert (Out : forall x, clean (st f' x) \/ In x (map (target t) (flat_map (adv f') stk) ++ stk)).
    { intros x. rewrite Lv. destruct (Nat.eq_dec x b) as [->|Nx]; auto. destruct (O x) as [H|H].
      - left. destruct (U3 x Nx) as [->|]; auto.
      - rewrite in_app_iff in H. destruct H as [H|[H|H]]; [|congruence|rewrite in_app_iff; auto]. apply in_map_iff in H as ([y k] & <- & H).
        pose proof (in_lives _ _ _ _ _ H) as [H1 H2]. destruct H1 as [<-|H1].
        + left. now apply Dead.
        + right. apply in_or_app. left. unfold lives in H. rewrite in_app_iff in H. destruct H as [H|H]; [|now apply in_map].
          exfalso. apply Nb. assert (y = b) as <-; auto. destruct ret; [now apply in_adv in H|]. unfold own in H. apply in_map_iff in H as (? & Y & _). congruence. }
    destruct stk as [|b' r].
    { cbn [unwind]. split; auto. split; [|auto]. intros x. destruct (Out x) as [H|H]; auto. easy. }
    destruct (IH true f' b' r eq_refl Lt) as (I1 & I2 & I3).
    - split; auto.
      + intros x Hx. apply CL. now right.
      + intros x k Hx Hk. rewrite Below in Hk by auto. apply A; auto. now right.
      + assert (Ce : exists e, chain t f (b :: b' :: r) e) by (destruct ret; [destruct C as (? & e & _ & _ & ?)|destruct C as (e & ?)]; eauto).
        destruct Ce as (e & Ce). apply chain_cons in Ce as (_ & c & p & C1 & C2 & C3 & C4 & C5). exists c, p. rewrite Below by now left. split; auto. split; auto.
        eapply chain_ext; [|exact C5]. cbn [tl]. intros x Hx. rewrite Below by now right. auto.
      + cbn [lives]. change (adv f' b' ++ flat_map (adv f') r) with (flat_map (adv f') (b' :: r)). rewrite Lv. unfold lives in ND. rewrite map_app, <- app_assoc in ND. apply nodup_app_r in ND.
        now apply NoDup_remove_1 in ND.
    - split; auto.
  Qed.

  (** ** Exploring a bucket *)
  Record einv (t : table) (f0 : info) (b : nat) (rest : list nat) (f : info) (mask : list nat) : Prop := EInv {
    e_f : length f = n;
    e_ch : forall x, ch (st f x) = ch (st f0 x);
    e_ex : forall x, explored (st f x) = explored (st f0 x);
    e_nd : NoDup (map (target t) (map (pair b) mask ++ flat_map (adv f0) rest) ++ b :: rest);
    e_tgt : forall x, In x (map (target t) (map (pair b) mask ++ flat_map (adv f0) rest)) -> visited (st f x) = true /\ explored (st f x) = false;
    e_mono : forall x, visited (st f0 x) = true -> visited (st f x) = true;
    e_vis : forall x, visited (st f x) = true -> In x (map (target t) (map (pair b) mask ++ flat_map (adv f0) rest) ++ b :: rest);
    e_full : forall x, visited (st f x) = true \/ full (st f x) = true \/ explored (st f x) = true -> isfull t x;
    e_un : unexplored f = unexplored f0 }.
  Definition mask_ch (mask : list nat) : list nat := filter (fun k => has k [] || has k mask) (seq 0 kLen).
  Lemma mask_perm mask : NoDup mask -> (forall k, In k mask -> k < kLen) -> Permutation mask (mask_ch mask).
  Proof.
    intros N L. apply NoDup_Permutation; auto.
    - apply NoDup_filter, seq_NoDup.
    - intros k. unfold mask_ch. rewrite filter_In, in_seq. cbn [has existsb orb]. fold (has k mask). rewrite has_in. split; [|tauto]. intros H. split; auto. apply L in H. lia.
  Qed.
  Lemma bucket_put (t : table) b i e x : x <> b -> bucket (put t b i e) x = bucket t x.
  Proof. intros H. unfold bucket, put. apply set_nth_neq. auto. Qed.
  Definition explore_ok (t : table) (f0 : info) (e : entry) (b : nat) (rest : list nat) (r : explore_res V) : Prop :=
    match r with
    | Hit t' f' => good t' /\ length t' = n /\ Permutation (entries t') (e :: entries t) /\ (forall x, x < n -> isfull t x -> isfull t' x) /\
        cinv false t' f' b rest /\ (forall x, fe (st f' x) -> isfull t' x)
    | Miss f' => inv false t f' e b rest /\ explored (st f' b) = true /\ phi false f' (b :: rest) < phi false f0 (b :: rest)
    | EBad => False
    end.
  Lemma nodup_map {A B} (g : A -> B) l : NoDup (map g l) -> NoDup l. Proof. apply NoDup_map_inv. Qed.
  Lemma nodup_app_l {A} (a b : list A) : NoDup (a ++ b) -> NoDup a.
  Proof. induction a; cbn [app]; [constructor|]. intros H; inversion H as [|? ? H1 H2]; subst. constructor; auto. intros X. apply H1. apply in_or_app. auto. Qed.
  Lemma explore_step t f0 e b rest : inv false t f0 e b rest -> explored (st f0 b) = false -> forall ks f mask,
    NoDup (mask ++ ks) -> (forall k, In k (mask ++ ks) -> k < kLen) -> einv t f0 b rest f mask -> explore_ok t f0 e b rest (explore ks t f e b mask).
  Proof.
    intros I Ex. pose proof (nd_stk _ _ _ _ _ _ I) as N0. destruct I as [G K Lt Lf C ND T S B Tp CH W1 W2 W3].
    assert (C0 : ch (st f0 b) = []) by auto. destruct (S b (or_introl eq_refl)) as [Hb Vb].
    assert (Nb : forall x, In x rest -> x <> b) by (intros x Hx ->; inversion N0; auto).
    assert (Mb : mine n b (fst e)) by (eapply chain_mine; eauto).
    induction ks as [|k ks IH]; intros f mask Nm Lm J.
    - (* no empty slot *)
      rewrite app_nil_r in *. cbn [explore explore_ok]. destruct J as [J1 J2 J3 J4 J5 J6 J7 J8 J9]. set (f' := mod_ f b (set_explored mask)).
      assert (Lb : b < length f) by lia.
      assert (Sf : forall x, x <> b -> st f' x = st f x). { intros x E. unfold f'. rewrite st_mod by auto. now destruct (Nat.eqb_spec x b). }
      assert (Sb : st f' b = BS true true (full (st f b)) (mask_ch mask)).
      { unfold f'. rewrite st_mod by auto. rewrite Nat.eqb_refl. unfold set_explored. rewrite J2, C0, J6 by auto. reflexivity. }
      pose proof (mask_perm mask Nm Lm) as Pm.
      assert (Pl : Permutation (map (target t) (map (pair b) mask ++ flat_map (adv f0) rest)) (map (target t) (lives false f' (b :: rest)))).
      { apply Permutation_map. unfold lives. apply Permutation_app. { unfold own. rewrite Sb. cbn [ch]. now apply Permutation_map. }
        assert (X : flat_map (adv f') rest = flat_map (adv f0) rest); [|now rewrite X]. clear - Sf Nb J2. induction rest as [|x r IH]; cbn [flat_map]; auto. rewrite IH by (intros; apply Nb; now right). f_equal. unfold adv. rewrite Sf, J2; auto. apply Nb. now left. }
      split; [|split].
      + split; auto.
        * unfold f'. now rewrite mod_length.
        * eapply chain_ext; [|exact C]. cbn [tl]. intros x Hx. rewrite Sf, J2 by auto. auto.
        * eapply nodup_perm; [exact Pl|exact J4].
        * intros x Hx. apply (Permutation_in _ (Permutation_sym Pl)) in Hx. rewrite Sf; [now apply J5|]. intros ->. apply (nodup_app _ _ _ J4 Hx). now left.
        * intros x Hx. split; [now apply S|]. destruct (Nat.eq_dec x b) as [->|E]; [now rewrite Sb|]. rewrite Sf by auto. apply J6. now apply S.
        * intros x Hx. rewrite Sf, J3 by auto. auto.
        * discriminate.
        * intros x. destruct (Nat.eq_dec x b) as [->|E]; [rewrite Sb|rewrite Sf, J2 by auto; auto]. cbn [ch]. split; [apply NoDup_filter, seq_NoDup|].
          intros k Hk. apply (Permutation_in _ (Permutation_sym Pm)) in Hk. auto.
        * intros x. destruct (Nat.eq_dec x b) as [->|E]; [rewrite Sb; intros [X|X]; discriminate|]. rewrite Sf, J2, J3 by auto. intros X. apply W1. destruct X; auto.
          left. destruct (visited (st f0 x)) eqn:Y; auto. apply J6 in Y. congruence.
        * intros x X. assert (Y : visited (st f x) = true). { destruct (Nat.eq_dec x b) as [->|E]; auto. now rewrite Sf in X. }
          apply J7 in Y. rewrite in_app_iff in *. destruct Y as [Y|Y]; auto. left. eapply Permutation_in; eauto.
        * intros x X. apply J8. destruct (Nat.eq_dec x b) as [->|E]; auto. now rewrite Sf in X.
      + now rewrite Sb.
      + unfold phi. cbn [tl]. pose proof (unexplored_mod f b (set_explored mask) Lb) as U. fold f' in U. rewrite J3, Ex, J9 in U. cbn [set_explored explored] in U.
        apply Permutation_length in Pl. rewrite !map_length in Pl. rewrite <- Pl. unfold lives, own. rewrite C0. cbn [map app]. rewrite app_length, map_length.
        assert (length mask <= 4). { apply Permutation_length in Pm. rewrite Pm. unfold mask_ch. etransitivity; [apply filter_le|]. now rewrite seq_length. }
        lia.
    - cbn [explore]. pose proof J as [J1 J2 J3 J4 J5 J6 J7 J8 J9].
      assert (Hk : k < kLen) by (apply Lm; apply in_or_app; right; now left).
      destruct (proj1 (isfull_at t b G ltac:(lia)) (J8 b (or_introl (J6 b Vb))) k Hk) as [e' E']. rewrite E'. rewrite Lt. pose proof E' as M'. apply (proj2 (proj2 G)) in M'. rewrite Lt in M'.
      assert (Ht : target t (b, k) = other n b (fst e')) by (unfold target; cbn [fst snd]; now rewrite E').
      set (nx := other n b (fst e')) in *. assert (Ne : nx <> b) by now apply other_neq. assert (Hx : nx < n) by (eapply mine_lt; [exact Hn|apply other_mine]).
      destruct (visited (st f nx) || unshiftable (st f nx)) eqn:Vn.
      { apply IH; auto. - apply NoDup_remove_1 in Nm. auto. - intros j Hj. apply Lm. rewrite in_app_iff in *. cbn [In]. tauto. }
      apply orb_false_iff in Vn as [V1 V2].
      assert (V3 : explored (st f nx) = false). { unfold unshiftable in V2. rewrite V1, J2 in V2. rewrite W1 in V2. { now rewrite !andb_true_r in V2. } left.
        destruct (visited (st f0 nx)) eqn:Y; auto. apply J6 in Y. congruence. }
      assert (Nx : ~ In nx (map (target t) (map (pair b) mask ++ flat_map (adv f0) rest) ++ b :: rest)).
      { rewrite in_app_iff. intros [X|X]. - apply J5 in X as [X _]. congruence. - apply S in X as [_ X]. apply J6 in X. congruence. }
      assert (add : forall g, (forall x, ch (g x) = ch x /\ explored (g x) = explored x /\ visited (g x) = true) -> isfull t nx -> explore_ok t f0 e b rest (explore ks t (mod_ f nx g) e b (mask ++ [k]))).
      { intros g Hg Fn. apply IH; [now rewrite <- app_assoc|intros j Hj; apply Lm; now rewrite <- app_assoc in Hj|].
        assert (Sg : forall x, st (mod_ f nx g) x = if x =? nx then g (st f x) else st f x) by (intros; apply st_mod; lia).
        assert (Pt : Permutation (nx :: map (target t) (map (pair b) mask ++ flat_map (adv f0) rest)) (map (target t) (map (pair b) (mask ++ [k]) ++ flat_map (adv f0) rest))).
        { rewrite (map_app (pair b)). cbn [map]. rewrite <- app_assoc. cbn [app]. rewrite !map_app. cbn [map]. rewrite Ht. apply Permutation_middle. }
        split.
        - now rewrite mod_length.
        - intros x. rewrite Sg. destruct (x =? nx); auto. rewrite (proj1 (Hg _)). auto.
        - intros x. rewrite Sg. destruct (x =? nx); auto. rewrite (proj1 (proj2 (Hg _))). auto.
        - eapply nodup_perm; [exact Pt|]. cbn [app]. constructor; auto.
        - intros x X. apply (Permutation_in _ (Permutation_sym Pt)) in X. rewrite Sg. destruct (Nat.eqb_spec x nx) as [->|E].
          + destruct (Hg (st f nx)) as (Y1 & Y2 & Y3). rewrite Y2. auto.
          + destruct X as [X|X]; [congruence|auto].
        - intros x X. rewrite Sg. destruct (x =? nx); auto. apply Hg.
        - intros x X. rewrite Sg in X. assert (Y : In x ((nx :: map (target t) (map (pair b) mask ++ flat_map (adv f0) rest)) ++ b :: rest)).
          { destruct (Nat.eqb_spec x nx) as [E|E]; [left; now symmetry|]. right. auto. }
          rewrite in_app_iff in *. destruct Y as [Y|Y]; auto. left. eapply Permutation_in; eauto.
        - intros x X. rewrite Sg in X. destruct (Nat.eqb_spec x nx) as [E|E]; [rewrite E; exact Fn|auto].
        - pose proof (unexplored_mod f nx g ltac:(lia)) as U. rewrite (proj1 (proj2 (Hg _))) in U. lia. }
      destruct (full (st f nx)) eqn:Fn.
      { apply add; auto. }
      destruct (first_empty (bucket t nx)) as [i|] eqn:Fe; [|apply add; auto]. clear add IH.
      (* an empty slot *)
      cbn [explore_ok]. rewrite <- Lt in Mb. destruct (swap t b k e e' G Mb Hk E') as (G1 & P1 & M1).
      assert (A1 : forall x j, at_ (put t b k e) x j = if (x =? b) && (j =? k) then Some e else at_ t x j) by (intros; apply at_put'; auto; lia).
      assert (F1 : forall x, x < n -> isfull t x -> isfull (put t b k e) x) by (intros; apply put_full; auto; lia).
      assert (Fe1 : first_empty (bucket (put t b k e) nx) = Some i) by now rewrite bucket_put.
      pose proof (put_length V t b k e) as L1. set (t1 := put t b k e) in *. clearbody t1.
      assert (M2 : mine (length t1) nx (fst e')) by (rewrite L1, Lt; apply other_mine).
      destruct (put_empty V t1 nx i e' G1 M2 Fe1) as (G2 & P2 & Hi & _ & A2).
      assert (F2 : forall x, x < n -> isfull t x -> isfull (put t1 nx i e') x). { intros x X Y. apply put_full; auto. lia. }
      pose proof (put_length V t1 nx i e') as L2. set (t2 := put t1 nx i e') in *. clearbody t2.
      split; auto. split; [lia|]. split; [now rewrite P2, P1|]. split; auto.
      set (f' := match mask with [] => f | _ => mod_ f b (set_explored mask) end).
      apply NoDup_remove_2 in Nm as Nk. apply NoDup_remove_1 in Nm as Nm'. apply nodup_app_l in Nm'.
      assert (Lm' : forall j, In j mask -> j < kLen) by (intros j Hj; apply Lm; apply in_or_app; auto).
      assert (Nkm : ~ In k mask) by (intros X; apply Nk, in_or_app; auto).
      assert (Lb : b < length f) by lia. pose proof (mask_perm mask Nm' Lm') as Pm.
      assert (L' : length f' = n). { unfold f'. destruct mask; auto. now rewrite mod_length. }
      assert (Sf : forall x, x <> b -> st f' x = st f x). { intros x E. unfold f'. destruct mask; auto. rewrite st_mod by auto. now destruct (Nat.eqb_spec x b). }
      assert (Sb : Permutation mask (ch (st f' b))).
      { unfold f'. destruct mask as [|m0 mask']; [now rewrite J2, C0|]. rewrite st_mod by auto. rewrite Nat.eqb_refl. unfold set_explored. rewrite J2, C0. exact Pm. }
      assert (Sv : forall x, visited (st f' x) = visited (st f x) /\ full (st f' x) = full (st f x)).
      { intros x. unfold f'. destruct mask; auto. rewrite st_mod by auto. destruct (x =? b); auto. }
      clearbody f'.
      assert (At : forall x j, In x (b :: rest) -> (x, j) <> (b, k) -> at_ t2 x j = at_ t x j).
      { intros x j X Y. rewrite A2, A1. destruct (Nat.eqb_spec x nx) as [->|]. { destruct Nx. apply in_or_app. auto. }
        cbn [andb]. destruct (Nat.eqb_spec x b) as [->|]; auto. destruct (Nat.eqb_spec j k) as [->|]; [easy|auto]. }
      assert (Lv : flat_map (adv f') rest = flat_map (adv f0) rest).
      { clear - Sf Nb J2. induction rest as [|x r IH]; cbn [flat_map]; auto. rewrite IH by (intros; apply Nb; now right). f_equal. unfold adv. rewrite Sf, J2; auto. apply Nb. now left. }
      assert (Tv : map (target t2) (map (pair b) mask ++ flat_map (adv f0) rest) = map (target t) (map (pair b) mask ++ flat_map (adv f0) rest)).
      { apply targets_ext. intros x j X. rewrite in_app_iff, in_advs, in_map_iff in X. destruct X as [(y & X & Y)|[X _]].
        - injection X as <- <-. apply At; [now left|]. intros Z. injection Z as ->. easy.
        - apply At; [now right|]. intros Z. injection Z as -> _. now apply (Nb b). }
      assert (Pl : Permutation (map (target t) (map (pair b) mask ++ flat_map (adv f0) rest)) (map (target t2) (lives false f' (b :: rest)))).
      { rewrite <- Tv. apply Permutation_map. unfold lives. apply Permutation_app; [|now rewrite Lv]. unfold own. now apply Permutation_map. }
      split.
      + split; auto.
        * intros x X. now apply S.
        * intros x j X Y. assert (j < kLen). { destruct X as [<-|X]. - apply (Permutation_in _ (Permutation_sym Sb)) in Y. auto. - rewrite Sf, J2 in Y by auto. now apply CH in Y. }
          destruct (S x X) as [X1 X2].
          destruct (proj1 (isfull_at t2 x G2 ltac:(lia)) (F2 x X1 (W3 x (or_introl X2))) j H) as [e2 Y2]. exists e2. split; auto.
          apply (proj2 (proj2 G2)) in Y2. congruence.
        * exists e. eapply chain_ext; [|exact C]. cbn [tl]. intros x X. rewrite Sf, J2 by auto. split; auto. intros j. apply At; [now right|]. intros Z. injection Z as -> _. now apply (Nb b).
        * eapply nodup_perm; [exact Pl|exact J4].
        * intros x. destruct (visited (st f x)) eqn:Vx.
          -- right. apply J7 in Vx. rewrite in_app_iff in *. destruct Vx as [Y|Y]; auto. left. eapply Permutation_in; eauto.
          -- left. split; [now rewrite (proj1 (Sv x))|]. rewrite Sf, J2.
             ++ apply W1. left. destruct (visited (st f0 x)) eqn:Y; auto. apply J6 in Y. congruence.
             ++ intros ->. rewrite (J6 b Vb) in Vx. discriminate.
      + intros x X. assert (Y : isfull t x).
        { apply J8. destruct (Nat.eq_dec x b) as [->|E]; [left; now apply J6|]. destruct X as [X|X]; [right; left; now rewrite <- (proj2 (Sv x))|right; right; now rewrite <- Sf]. }
        apply F2; auto. eapply st_lt; [exact L'|]. right. exact X.
  Qed.
  Lemma explore_all t f0 e b rest : inv false t f0 e b rest -> explored (st f0 b) = false -> explore_ok t f0 e b rest (explore (seq 0 kLen) t f0 e b []).
  Proof.
    intros I Ex. apply explore_step; auto.
    - apply seq_NoDup.
    - cbn [app]. intros k Hk. apply in_seq in Hk. lia.
    - destruct I as [G K Lt Lf C ND T S B Tp CH W1 W2 W3]. assert (C0 : ch (st f0 b) = []) by auto. unfold lives, own in *. rewrite C0 in *. cbn [map app] in *. split; auto.
  Qed.

  (** ** ShiftExhaustive *)
  Definition ready (t : table) (f : info) : Prop := length f = n /\ forall x, clean (st f x) /\ (fe (st f x) -> isfull t x).
  Lemma pass_ok ret s b rest : stack s = b :: rest -> inv ret (dt s) (df s) (de s) b rest ->
    match pass bid start s with
    | More s' => next_ok ret s (More s')
    | Found s' => good (dt s') /\ length (dt s') = n /\ Permutation (entries (dt s')) (de s :: entries (dt s)) /\
        (forall x, x < n -> isfull (dt s) x -> isfull (dt s') x) /\ ready (dt s') (cleanup s')
    | DBad => False
    end.
  Proof.
    intros E I. unfold pass. rewrite E. destruct (explored (st (df s) b)) eqn:Ex.
    - pose proof (advance_ok ret s b rest E I Ex) as H. destruct (advance bid start s b rest) as [s'|s'|]; [exact H|destruct H|exact H].
    - destruct ret. { pose proof (i_top _ _ _ _ _ _ I eq_refl). congruence. }
      pose proof (explore_all _ _ _ _ _ I Ex) as H. destruct (explore (seq 0 kLen) (dt s) (df s) (de s) b []) as [t f|f|]; cbn [explore_ok] in H; auto.
      + destruct H as (H1 & H2 & H3 & H4 & H5 & H6). cbn [dt df stack de]. split; auto. split; auto. split; auto. split; auto.
        unfold ready, cleanup. cbn [dt df stack count]. destruct (count s <? length f / 6).
        * destruct (unwind_ok t (b :: rest) false f b rest eq_refl H2 H5) as (U1 & U2 & U3). split; auto.
        * split; [rewrite map_length; apply H5|]. intros x. unfold st. change bs0 with (reset bs0). rewrite map_nth. split; [apply reset_clean|].
          intros X. apply H6. now apply reset_fe.
      + destruct H as (H1 & H2 & H3). set (s1 := Dfs (dt s) f (de s) (b :: rest) (count s + length (ch (st f b)))).
        pose proof (advance_ok false s1 b rest eq_refl H1 H2) as H. destruct (advance bid start s1 b rest) as [s'|s'|]; [|destruct H|exact H].
        cbn [next_ok] in *. cbn [s1 dt df de stack] in H. destruct H as (K1 & K2 & K3 & K4 & K5). split; auto. split; auto. split; auto. split; auto.
        destruct (stack s') as [|b' r]; auto. destruct K5 as (ret' & K5 & K6). exists ret'. split; auto. rewrite ?E. eapply Nat.lt_trans; [exact K6|exact H3].
  Qed.
  Definition shift_ok' (t : table) (e : entry) (r : shift_res V) : Prop :=
    match r with
    | Shifted t' f' => good t' /\ length t' = n /\ Permutation (entries t') (e :: entries t) /\ (forall x, x < n -> isfull t x -> isfull t' x) /\ ready t' f'
    | NoPath t' => good t' /\ length t' = n /\ exists e', Permutation (e' :: entries t') (e :: entries t)
    | SBad | Endless => False
    end.
  Lemma passes_ok fuel : forall ret s b rest, stack s = b :: rest -> inv ret (dt s) (df s) (de s) b rest -> phi ret (df s) (stack s) < fuel ->
    shift_ok' (dt s) (de s) (passes fuel bid start s).
  Proof.
    induction fuel as [|fuel IH]; intros ret s b rest E I Hp; [lia|]. cbn [passes]. rewrite E. pose proof (pass_ok ret s b rest E I) as H.
    destruct (pass bid start s) as [s'|s'|]; auto. cbn [next_ok] in H. destruct H as (H1 & H2 & H3 & H4 & H5). destruct (stack s') as [|b' r] eqn:E'.
    - assert (X : passes fuel bid start s' = NoPath (dt s')) by (destruct fuel; cbn [passes]; now rewrite E'). rewrite X. cbn [shift_ok']. split; auto. split; auto. eauto.
    - destruct H5 as (ret' & H5 & H6). specialize (IH ret' s' b' r E' H5 ltac:(rewrite E'; lia)).
      destruct (passes fuel bid start s') as [t' f'|t'| |]; cbn [shift_ok'] in *; auto.
      + destruct IH as (I1 & I2 & I3 & I4 & I5). split; auto. split; auto. split; [now rewrite I3|]. split; auto.
      + destruct IH as (I1 & I2 & e' & I3). split; auto. split; auto. exists e'. now rewrite I3.
  Qed.
End S.

  Lemma unexplored_le f : unexplored f <= length f. Proof. apply filter_le. Qed.
  Lemma shift_exhaustive_ok t f e : good t -> ready (length t) t f -> NoDup (map fst (e :: entries t)) -> isfull t (fst (id_pair (length t) (fst e))) ->
    shift_ok' (length t) t e (shift_exhaustive t f e (fst (id_pair (length t) (fst e)))).
  Proof.
    intros G (R1 & R2) K F. set (n := length t) in *. set (b := fst (id_pair n (fst e))) in *. pose proof (proj1 G) as Hn. fold n in Hn.
    assert (M : mine n b (fst e)) by (now left). pose proof (mine_lt _ _ _ Hn M) as Hb. unfold shift_exhaustive. fold n.
    set (f' := mod_ f b set_visited).
    assert (Sf : forall x, x <> b -> st f' x = st f x). { intros x E. unfold f'. rewrite st_mod by lia. now destruct (Nat.eqb_spec x b). }
    assert (Sb : st f' b = set_visited (st f b)). { unfold f'. rewrite st_mod by lia. now rewrite Nat.eqb_refl. }
    assert (C0 : forall x, ch (st f' x) = []). { intros x. destruct (Nat.eq_dec x b) as [->|E]; [rewrite Sb|rewrite Sf by auto]; cbn; apply R2. }
    assert (Lf : length f' = n) by (unfold f'; now rewrite mod_length).
    assert (Lv : lives false f' [b] = []). { unfold lives, own. now rewrite C0. }
    apply (passes_ok n b (fst e) Hn _ false (Dfs t f' e [b] 1) b []); auto.
    - cbn [dt df de]. split; auto; rewrite ?Lv; cbn [map app].
      + cbn [chain]. auto.
      + repeat constructor. easy.
      + intros x [].
      + intros x [<-|[]]. rewrite Sb. auto.
      + discriminate.
      + intros x. rewrite C0. split; [constructor|easy].
      + intros x X. destruct (Nat.eq_dec x b) as [->|E]; [now left|]. rewrite Sf in X by auto. destruct (proj1 (R2 x)) as [Y _]. congruence.
      + intros x X. destruct (Nat.eq_dec x b) as [->|E]; auto. rewrite Sf in X by auto. destruct X as [X|X]; [|now apply R2]. destruct (proj1 (R2 x)) as [Y _]. congruence.
    - unfold phi. cbn [df stack]. rewrite Lv. cbn [length tl]. pose proof (unexplored_le f'). lia.
  Qed.

  (** ** Compact *)
  Lemma shift_left limit : forall t r e cur idx a sidx t' r' e', good t -> mine (length t) cur (fst e) -> idx < kLen ->
    (forall b, mine (length t) b (fst e) -> isfull t b) -> shift limit t r e cur idx a sidx = Left t' r' e' ->
    length t' = length t /\ (forall b, mine (length t') b (fst e') -> isfull t' b) /\ forall x, x < length t -> isfull t x -> isfull t' x.
  Proof.
    induction limit as [|limit IH]; intros t r e cur idx a sidx t' r' e' G M Hi F E; cbn [shift] in E.
    { injection E as <- <- <-. auto. }
    destruct (at_ t cur idx) as [e1|] eqn:E1; [|discriminate]. destruct (swap t cur idx e e1 G M Hi E1) as (G1 & _ & M1).
    assert (F1 : forall x, x < length t -> isfull t x -> isfull (put t cur idx e) x) by (intros; apply put_full; auto).
    pose proof (put_length V t cur idx e) as L1. pose proof (mine_lt _ _ _ (proj1 G) M) as Hc. pose proof (F1 cur Hc (F cur M)) as Fc. set (t1 := put t cur idx e) in *. clearbody t1.
    pose proof (other_mine (length t1) cur (fst e1)) as M2. pose proof (other_neq (length t1) cur (fst e1) (proj1 G1)) as Ne. set (nx := other (length t1) cur (fst e1)) in *.
    destruct (first_empty (bucket t1 nx)) eqn:Fe; [discriminate|]. rewrite <- L1 in M1. specialize (Ne M1).
    apply IH in E; auto.
    - destruct E as (I1 & I2 & I3). split; [lia|]. split; auto. intros x Hx X. apply I3; [lia|auto].
    - destruct ((nx =? a) && (N.to_nat (r mod 4) =? sidx)). { apply Nat.mod_upper_bound. discriminate. } pose proof (N.mod_lt r 4 ltac:(lia)). unfold kLen. lia.
    - intros b Mb. destruct (Nat.eq_dec b cur) as [->|]; auto. rewrite <- (other_other (length t1) cur b (fst e1)); auto. exact (proj1 G1).
  Qed.
  Lemma roll_left limit t r e t' r' e' : good t -> roll limit t r e = Left t' r' e' ->
    length t' = length t /\ (forall b, mine (length t') b (fst e') -> isfull t' b) /\ forall x, x < length t -> isfull t x -> isfull t' x.
  Proof.
    intros G E. unfold roll in E. destruct (id_pair (length t) (fst e)) as [a b] eqn:Ep.
    destruct (first_empty (bucket t a)) eqn:Fa; [discriminate|]. destruct (first_empty (bucket t b)) eqn:Fb; [discriminate|].
    assert (Ma : mine (length t) a (fst e)) by (left; now rewrite Ep). assert (Mb : mine (length t) b (fst e)) by (right; now rewrite Ep).
    eapply shift_left; [exact G| | | |exact E].
    - destruct (r mod 2 =? 0)%N; auto.
    - pose proof (N.mod_lt (r + 1) 4 ltac:(lia)). unfold kLen. lia.
    - intros x [->| ->]; rewrite Ep; auto.
  Qed.
  Lemma roll_placed limit t r e t' r' p : good t -> roll limit t r e = Placed t' r' p -> forall x, x < length t -> isfull t x -> isfull t' x.
  Proof.
    intros G E. unfold roll in E. destruct (id_pair (length t) (fst e)) as [a b] eqn:Ep.
    assert (Ma : mine (length t) a (fst e)) by (left; now rewrite Ep). assert (Mb : mine (length t) b (fst e)) by (right; now rewrite Ep).
    destruct (first_empty (bucket t a)) eqn:Fa.
    { injection E as <- <- <-. destruct (put_empty V t a n e G Ma Fa) as (_ & _ & H & _). intros. now apply put_full. }
    destruct (first_empty (bucket t b)) eqn:Fb.
    { injection E as <- <- <-. destruct (put_empty V t b n e G Mb Fb) as (_ & _ & H & _). intros. now apply put_full. }
    assert (Hs : N.to_nat ((r + 1) mod 4) < kLen). { pose proof (N.mod_lt (r + 1) 4 ltac:(lia)). unfold kLen. lia. }
    assert (M : mine (length t) (if (r mod 2 =? 0)%N then a else b) (fst e)) by (destruct (r mod 2 =? 0)%N; auto).
    revert E. generalize (r + 2)%N as r2. revert Hs M. generalize (if (r mod 2 =? 0)%N then a else b) as cur. generalize (N.to_nat ((r + 1) mod 4)) as idx.
    intros idx cur Hi M r2. generalize cur at 2 as st0, idx at 2 as si. revert G idx cur Hi M r2. clear. revert t r' t' p e.
    induction limit as [|limit IH]; intros t r' t' p e G idx cur Hi M r2 a sidx E x Hx F; cbn [shift] in E; [discriminate|].
    destruct (at_ t cur idx) as [e1|] eqn:E1; [|discriminate]. destruct (swap t cur idx e e1 G M Hi E1) as (G1 & _ & M1).
    pose proof (put_full t cur idx e x G M Hi F Hx) as F1. pose proof (put_length V t cur idx e) as L1. set (t1 := put t cur idx e) in *. clearbody t1.
    pose proof (other_mine (length t1) cur (fst e1)) as M2. set (nx := other (length t1) cur (fst e1)) in *.
    destruct (first_empty (bucket t1 nx)) eqn:Fe.
    - injection E as <- <- <-. destruct (put_empty V t1 nx n e1 G1 M2 Fe) as (_ & _ & H & _). apply put_full; auto. lia.
    - eapply IH; [exact G1| |exact M2|exact E|lia|exact F1].
      destruct ((nx =? a) && (N.to_nat (r2 mod 4) =? sidx)). { apply Nat.mod_upper_bound. discriminate. } pose proof (N.mod_lt r2 4 ltac:(lia)). unfold kLen. lia.
  Qed.
  Definition stuck (t : table) (e : entry) : Prop := isfull t (fst (id_pair (length t) (fst e))).
  Lemma fill_ok limit es : forall t r bad, good t -> Forall (stuck t) bad ->
    match fill limit t r es bad with
    | Filled t' _ bad' => good t' /\ length t' = length t /\ Permutation (bad' ++ entries t') (es ++ bad ++ entries t) /\ Forall (stuck t') bad'
    | FBad => False
    end.
  Proof.
    induction es as [|e es IH]; intros t r bad G F; cbn [fill app]; auto.
    pose proof (roll_good V limit t r e G) as H. destruct (roll limit t r e) as [t' r' p|t' r' e'|] eqn:E; cbn [roll_ok] in H; auto.
    - destruct H as (H1 & H2 & H3 & _). pose proof (roll_placed _ _ _ _ _ _ _ G E) as H4. specialize (IH t' r' bad H1).
      destruct (fill limit t' r' es bad) as [t2 r2 bad2|]; [|apply IH].
      + destruct IH as (I1 & I2 & I3 & I4).
        { eapply Forall_impl; [|exact F]. intros x. unfold stuck. rewrite H2. apply H4. apply pair_lt, G. }
        split; auto. split; [lia|]. split; auto. rewrite I3, H3. rewrite (Permutation_middle es). apply Permutation_app_head. symmetry. apply Permutation_middle.
      + eapply Forall_impl; [|exact F]. intros x. unfold stuck. rewrite H2. apply H4. apply pair_lt, G.
    - destruct H as (H1 & H2 & H3). destruct (roll_left _ _ _ _ _ _ _ G E) as (_ & H4 & H5). specialize (IH t' r' (bad ++ [e']) H1).
      assert (F' : Forall (stuck t') (bad ++ [e'])).
      { apply Forall_app. split.
        - eapply Forall_impl; [|exact F]. intros x. unfold stuck. rewrite H2. apply H5. apply pair_lt, G.
        - constructor; auto. apply H4. now left. }
      specialize (IH F'). destruct (fill limit t' r' es (bad ++ [e'])) as [t2 r2 bad2|]; auto.
      destruct IH as (I1 & I2 & I3 & I4). split; auto. split; [lia|]. split; auto. rewrite I3, <- app_assoc. cbn [app]. rewrite H3.
      rewrite (Permutation_middle es). apply Permutation_app_head. symmetry. apply Permutation_middle.
  Qed.
  Lemma problematic_ok es : forall t f, good t -> ready (length t) t f -> NoDup (map fst (es ++ entries t)) -> Forall (stuck t) es ->
    match problematic t f es with
    | Solved t' => good t' /\ length t' = length t /\ Permutation (entries t') (es ++ entries t)
    | Unsolved t' => good t' /\ length t' = length t
    | _ => False
    end.
  Proof.
    induction es as [|e es IH]; intros t f G R K F; cbn [problematic app]; auto.
    inversion F as [|? ? F1 F2]; subst. cbn [map app] in K.
    assert (K1 : NoDup (map fst (e :: entries t))).
    { cbn [map]. inversion K as [|? ? X Y]; subst. rewrite map_app in *. constructor; [|now apply nodup_app_r in Y]. intros Z. apply X. apply in_or_app. auto. }
    pose proof (shift_exhaustive_ok t f e G R K1 F1) as H. destruct (shift_exhaustive t f e (fst (id_pair (length t) (fst e)))) as [t' f'|t'| |]; cbn [shift_ok'] in H; auto.
    - destruct H as (H1 & H2 & H3 & H4 & H5). assert (P : Permutation (e :: es ++ entries t) (es ++ entries t')).
      { rewrite (Permutation_middle es). now apply Permutation_app_head. }
      specialize (IH t' f' H1). rewrite H2 in IH. specialize (IH H5).
      assert (K' : NoDup (map fst (es ++ entries t'))). { eapply Permutation_NoDup; [|exact K]. change (fst e :: map fst (es ++ entries t)) with (map fst (e :: es ++ entries t)). now apply Permutation_map. }
      specialize (IH K'). assert (F' : Forall (stuck t') es). { eapply Forall_impl; [|exact F2]. intros x. unfold stuck. rewrite H2. apply H4. apply pair_lt, G. }
      specialize (IH F'). destruct (problematic t' f' es) as [t2|t2| |]; auto. destruct IH as (I1 & I2 & I3). split; auto. split; auto. now rewrite I3, P.
    - destruct H as (H1 & H2 & _). auto.
  Qed.
  Lemma ready_0 t : ready (length t) t (repeat bs0 (length t)).
  Proof.
    split; [apply repeat_length|]. intros x. assert (X : st (repeat bs0 (length t)) x = bs0) by (unfold st; now rewrite nth_repeat). rewrite X.
    split; [apply bs0_clean|]. intros [Y|Y]; discriminate.
  Qed.
  Lemma tries_ok old ns : forall (s : cmap V), NoDup (map fst old) -> Forall (fun n => fits n /\ 2 <= n) ns ->
    match tries old s ns with
    | Next (s', true) => good (tab s') /\ In (length (tab s')) ns /\ Permutation (entries (tab s')) old /\ size s' = size s
    | Next (s', false) => size s' = size s
    | _ => False
    end.
  Proof.
    induction ns as [|m ns IH]; intros s K F; cbn [tries]; auto. inversion F as [|? ? [F1 F2] F3]; subst.
    pose proof (fresh_good V m F2) as G. assert (L : length (fresh m : table) = m) by apply repeat_length.
    pose proof (fill_ok (shifts_limit m * 2) old (fresh m) (rnd s) [] G (Forall_nil _)) as H.
    destruct (fill (shifts_limit m * 2) (fresh m) (rnd s) old []) as [t r bad|]; auto. destruct H as (H1 & H2 & H3 & H4).
    rewrite fresh_entries in H3. cbn [app] in H3. rewrite app_nil_r in H3. rewrite L in H2.
    assert (K' : NoDup (map fst (bad ++ entries t))). { eapply Permutation_NoDup; [|exact K]. apply Permutation_map. now symmetry. }
    pose proof (problematic_ok bad t (repeat bs0 (length t)) H1 (ready_0 t) K' H4) as P. rewrite H2 in P.
    destruct (problematic t (repeat bs0 m) bad) as [t'|t'| |]; auto.
    - destruct P as (P1 & P2 & P3). cbn [tab size]. rewrite P2. split; auto. split; [now left|]. split; auto. now rewrite P3.
    - specialize (IH (Map t' (size s) r) K F3). destruct (tries old (Map t' (size s) r) ns) as [| |[s' [|]]]; auto.
      destruct IH as (I1 & I2 & I3 & I4). split; auto. split; [now right|]. auto.
  Qed.
  Lemma compact_ok (s : cmap V) m ns : rep s m -> Forall (fun n => fits n /\ 2 <= n) ns ->
    match compact s ns with
    | Next (s', true) => rep s' m /\ (if length (tab s) <? 128 then s' = s else In (length (tab s')) ns)
    | Next (s', false) => size s' = size s
    | Ub => False
    | Stuck => length ns <> kTries
    end.
  Proof.
    intros R F. unfold compact. destruct (length (tab s) <? 128); auto. destruct (Nat.eqb_spec (length ns) kTries) as [E|E]; auto.
    pose proof R as (R1 & R2 & R3 & R4 & R5). assert (K : NoDup (map fst (entries (tab s)))). { eapply Permutation_NoDup; [|exact R4]. apply Permutation_map. now symmetry. }
    pose proof (tries_ok (entries (tab s)) ns s K F) as H. destruct (tries (entries (tab s)) s ns) as [| |[s' [|]]]; auto; try easy.
    destruct H as (H1 & H2 & H3 & H4). split; auto. split; auto. split. { rewrite Forall_forall in F. now apply F. } split; [now rewrite H3|]. split; auto. congruence.
  Qed.
  Lemma cstep_ok (s : cmap V) m l : rep s m -> csmall l -> yes l -> match cstep s l with Next s' => rep s' (cact m l) | Ub => False | Stuck => True end.
  Proof.
    intros R C Y. destruct l as [l|ns res]; cbn [cstep cact csmall yes] in *.
    - now apply step_ok.
    - subst res. pose proof (compact_ok s m ns R C) as H. destruct (compact s ns) as [| |[s' [|]]]; cbn [Bool.eqb]; auto. now destruct H.
  Qed.
  Lemma rep_init k : 2 <= k -> fits k -> rep (init k : cmap V) [].
  Proof.
    intros Hk Hf. split; [now apply fresh_good|]. cbn [tab init size]. split; [unfold fresh; now rewrite repeat_length|]. rewrite fresh_entries.
    repeat split; auto; constructor.
  Qed.
  Lemma cexec_ok k (ls : list (clab V)) : 2 <= k -> fits k -> Forall csmall ls -> Forall yes ls -> match exec cstep (init k) ls with Next s => rep s (cafter ls) | Ub => False | Stuck => True end.
  Proof.
    intros Hk Hf. unfold cafter. generalize (rep_init k Hk Hf). generalize (init k : cmap V) as s. generalize (@nil (N * V)) as m.
    induction ls as [|l ls IH]; intros m s R F Y; cbn [exec fold_left]; auto.
    inversion F as [|? ? F1 F2]; subst. inversion Y as [|? ? Y1 Y2]; subst. pose proof (cstep_ok s m l R F1 Y1) as H. destruct (cstep s l); auto. apply IH; auto.
  Qed.
End P.

Section Q.
  Variable V : Type.
  Lemma compact_map_partial_pf k (ls : list (clab V)) s : 2 <= k -> fits k -> Forall csmall ls -> Forall yes ls -> exec cstep (init k) ls = Next s ->
    (forall k, lookup s k = get (cafter ls) k) /\ size s = length (cafter ls) /\ NoDup (map fst (cafter ls)).
  Proof.
    intros Hk Hf F Y E. pose proof (cexec_ok V k ls Hk Hf F Y) as H. rewrite E in H. split; [intros; now apply rep_lookup|].
    destruct H as (_ & _ & _ & H1 & H2). auto.
  Qed.
  Lemma compact_returns_pf k (ls : list (clab V)) s ns : 2 <= k -> fits k -> Forall csmall ls -> Forall yes ls -> exec cstep (init k) ls = Next s ->
    length ns = 10 -> Forall (fun n => fits n /\ 2 <= n) ns ->
    exists s' res, compact s ns = Next (s', res) /\ size s' = length (cafter ls) /\
      (res = true -> (forall k, lookup s' k = get (cafter ls) k) /\ (length (tab s) < 128 /\ s' = s \/ In (length (tab s')) ns)).
  Proof.
    intros Hk Hf F Y E L Fn. pose proof (cexec_ok V k ls Hk Hf F Y) as H. rewrite E in H. pose proof (compact_ok V s _ ns H Fn) as K.
    destruct (compact s ns) as [| |[s' [|]]]; [easy|easy| |].
    - destruct K as [K1 K2]. exists s', true. split; auto. split; [apply K1|]. intros _. split; [intros; now apply rep_lookup|].
      destruct (Nat.ltb_spec (length (tab s)) 128); auto.
    - exists s', false. split; auto. split; [|discriminate]. rewrite K. apply H.
  Qed.
End Q.

Fixpoint nodupb (l : list N) : bool := match l with [] => true | k :: l => negb (existsb (N.eqb k) l) && nodupb l end.
Lemma existsb_in k l : existsb (N.eqb k) l = true <-> In k l.
Proof. rewrite existsb_exists. split; [intros (x & H & E); apply N.eqb_eq in E; now subst|intros H; exists k; now rewrite N.eqb_refl]. Qed.
Lemma nodupb_ok l : nodupb l = true -> NoDup l.
Proof.
  induction l as [|k l IH]; cbn [nodupb]; intros H; constructor; apply andb_true_iff in H as [H1 H2]; auto. rewrite <- existsb_in. now destruct (existsb (N.eqb k) l).
Qed.
Definition sameb (a b : list N) : bool := forallb (fun k => existsb (N.eqb k) b) a && forallb (fun k => existsb (N.eqb k) a) b.
Lemma sameb_ok a b : sameb a b = true -> forall k, In k a <-> In k b.
Proof.
  unfold sameb. rewrite andb_true_iff, !forallb_forall. intros [H1 H2] k. split; intros H; apply existsb_in; auto.
Qed.

(** ** What goes wrong *)
Definition ins (k : N) : lab N := Insert k k [].
(** The primes from 17 on *)
Definition primes : list nat := [17; 19; 23; 29; 31; 37; 41; 43; 47; 53].
Definition keys45 : list N := ([780; 7081; 22856; 35150; 51688; 56079; 84911; 105416; 132628; 7760; 14920; 21649; 28809; 38134; 45294; 50225; 57385; 66582; 169; 2287; 8633; 10751; 23051; 31515; 32812; 41276; 53832; 5204; 12628; 23568; 30992; 35986; 43410; 72855; 80279; 83158; 2328; 10491; 21468; 29375; 47195; 50137; 58044; 70143; 75864])%N.
Definition keys58 : list N := ([135; 368; 96; 437; 338; 512; 165; 407; 66; 7760; 14920; 21649; 28809; 38134; 45294; 50225; 57385; 66582; 169; 2287; 8633; 10751; 23051; 31515; 32812; 41276; 53832; 5204; 12628; 23568; 30992; 35986; 43410; 72855; 80279; 83158; 2328; 10491; 21468; 29375; 47195; 50137; 58044; 70143; 75864; 90025; 272005; 2791; 116967; 129128; 45802; 86117; 81953; 10319; 270838; 9442; 132248; 273275])%N.
Definition keys58' : list N := ([2791; 116967; 129128; 45802; 86117; 81953; 273275] ++ [135; 368; 96; 437; 338; 512; 165; 407; 66; 7760; 14920; 21649; 28809; 38134; 45294; 50225; 57385; 66582; 169; 2287; 8633; 10751; 23051; 31515; 32812; 41276; 53832; 5204; 12628; 23568; 30992; 35986; 43410; 72855; 80279; 83158; 2328; 10491; 21468; 29375; 47195; 50137; 58044; 70143; 75864; 90025; 272005; 10319; 270838; 9442; 132248])%N.
Definition some {A} (o : option A) : bool := match o with Some _ => true | None => false end.
Definition check45 : bool :=
  match exec step (init 131) (map ins keys45) with
  | Next s => match compact s primes with
              | Next (s', false) => forallb (fun k => some (lookup s k)) keys45 && existsb (fun k => negb (some (lookup s' k))) keys45 && (size s' =? 45)
              | _ => false
              end
  | _ => false
  end.
Lemma check45_ok : check45 = true. Proof. vm_cast_no_check (eq_refl true). Qed.
Lemma compact_refuted_pf : exists (ls : list (lab N)) s s' k v, exec step (init 131) ls = Next s /\ length ls = 45 /\ compact s primes = Next (s', false) /\
  lookup s k = Some v /\ lookup s' k = None /\ size s' = 45.
Proof.
  pose proof check45_ok as X. unfold check45 in X. destruct (exec step (init 131) (map ins keys45)) as [| |s] eqn:E; try discriminate X.
  destruct (compact s primes) as [| |[s' [|]]] eqn:C; try discriminate X. apply andb_true_iff in X as [X Z]. apply andb_true_iff in X as [W Y]. apply Nat.eqb_eq in Z.
  apply existsb_exists in Y as (k & Hk & Y). rewrite forallb_forall in W. specialize (W k Hk). destruct (lookup s k) as [v|] eqn:Lk; [|discriminate].
  exists (map ins keys45), s, s', k, v. split; auto. split; [reflexivity|]. split; auto. split; auto. split; auto. destruct (lookup s' k); auto. discriminate.
Qed.
Definition check58 : bool :=
  match exec step (init 131) (map ins keys58) with Next s => match compact s primes with Next (_, false) => true | _ => false end | _ => false end.
Lemma check58_ok : check58 = true. Proof. vm_cast_no_check (eq_refl true). Qed.
Definition check58' : bool := match exec step (init 53) (map ins keys58') with Next s => length (tab s) =? 53 | _ => false end.
Lemma check58'_ok : check58' = true. Proof. vm_cast_no_check (eq_refl true). Qed.
Lemma compact_search_refuted_pf : exists ks ks' s s' s1, Permutation ks ks' /\ exec step (init 131) (map ins ks) = Next s /\ compact s primes = Next (s', false) /\
  exec step (init 53) (map ins ks') = Next s1 /\ length (tab s1) = 53.
Proof.
  pose proof check58_ok as X. unfold check58 in X. destruct (exec step (init 131) (map ins keys58)) as [| |s] eqn:E; try discriminate X.
  destruct (compact s primes) as [| |[s' [|]]] eqn:C; try discriminate X. clear X.
  pose proof check58'_ok as X. unfold check58' in X. destruct (exec step (init 53) (map ins keys58')) as [| |s1] eqn:E1; try discriminate X. apply Nat.eqb_eq in X.
  exists keys58, keys58', s, s', s1. split; auto. apply NoDup_Permutation.
  - apply nodupb_ok. vm_cast_no_check (eq_refl true).
  - apply nodupb_ok. vm_cast_no_check (eq_refl true).
  - apply sameb_ok. vm_cast_no_check (eq_refl true).
Qed.
