From Verif Require Import Util Conc MpmcModel MpmcSpec.

Section P.
Context {T : Type}.
Implicit Types (s : state T) (v : T).

Lemma cap_pos k : 0 < cap k. Proof. unfold cap. induction k; simpl; lia. Qed.
Lemma cap_ge2 k : 1 <= k -> 2 <= cap k.
Proof. unfold cap. intros. destruct k; [lia|]. simpl. pose proof (cap_pos k). unfold cap in *. lia. Qed.
Lemma cell_mod k p : cell k p = p mod cap k.
Proof.
  unfold cell. replace (cap k - 1) with (Nat.ones k). apply Nat.land_ones.
  rewrite Nat.ones_equiv. unfold cap. lia.
Qed.
Lemma cell_lt k p : cell k p < cap k.
Proof. rewrite cell_mod. apply Nat.mod_upper_bound. pose proof (cap_pos k). lia. Qed.
Lemma cell_small k p : p < cap k -> cell k p = p.
Proof. rewrite cell_mod. apply Nat.mod_small. Qed.
Lemma cell_close k p p' : cell k p = cell k p' -> p' <= p -> p < p' + cap k -> p = p'.
Proof.
  rewrite !cell_mod. intros E H1 H2. pose proof (cap_pos k) as Hc. revert E H1 H2 Hc.
  generalize (cap k). intros c E H1 H2 Hc.
  assert (Hd : (p - p') mod c = 0).
  { pose proof (Nat.div_mod p c ltac:(lia)). pose proof (Nat.div_mod p' c ltac:(lia)).
    replace (p - p') with ((p / c - p' / c) * c).
    apply Nat.mod_mul; lia. rewrite Nat.mul_sub_distr_r. nia. }
  rewrite Nat.mod_small in Hd by lia. lia.
Qed.
Lemma cell_plus k p : cell k (p + cap k) = cell k p.
Proof.
  rewrite !cell_mod. pose proof (cap_pos k). replace (p + cap k) with (p + 1 * cap k) by lia.
  apply Nat.mod_add. lia.
Qed.
Lemma cell_succ k p p' : 1 <= k -> cell k p = cell k p' -> p = p' + 1 -> False.
Proof. intros Hk E ->. pose proof (cap_ge2 k Hk). apply cell_close in E; lia. Qed.
(** the only multiple strictly below within one lap *)
Lemma cell_prev k p p' : cell k p = cell k p' -> p' < p -> p <= p' + cap k -> p = p' + cap k.
Proof.
  intros E H1 H2. destruct (Nat.eq_dec p (p' + cap k)); auto.
  apply cell_close in E; lia.
Qed.

Definition own_e (p : pcs T) : option nat := match p with ECons _ pos | EStore _ pos => Some pos | _ => None end.
Definition own_d (p : pcs T) : option nat :=
  match p with DMove pos | DDestroy _ pos | DStore _ pos | SStore _ pos => Some pos | _ => None end.
Definition own_c (p : pcs T) : option nat := match p with SMove pos | SDestroy _ pos | SStorePos _ pos => Some pos | _ => None end.
Definition at_sp (p : pcs T) : option nat := match p with SStorePos _ pos => Some pos | _ => None end.
Definition is_cons (p : pcs T) : bool :=
  match p with
  | DLoadPos | DLoadSeq _ | DCas _ | DMove _ | DDestroy _ _ | DStore _ _
  | SLoadPos | SLoadSeq _ | SMove _ | SDestroy _ _ | SStorePos _ _ | SStore _ _ => true
  | _ => false
  end.
Definition is_s (p : pcs T) : bool :=
  match p with SLoadPos | SLoadSeq _ | SMove _ | SDestroy _ _ | SStorePos _ _ | SStore _ _ => true | _ => false end.

Definition tinv s (p : pcs T) : Prop :=
  let c pos := cell (lg s) pos in
  match p with
  | ELoadSeq _ pos => pos <= enq s
  | ECas _ pos => pos <= enq s /\ (enq s = pos -> seq s (c pos) = pos)
  | ECons v pos => pos < enq s /\ deq s <= pos /\ seq s (c pos) = pos /\ data s (c pos) = None /\ nth_error (vals s) pos = Some v
  | EStore v pos => pos < enq s /\ deq s <= pos /\ seq s (c pos) = pos /\ data s (c pos) = Some v /\ nth_error (vals s) pos = Some v
  | DLoadSeq pos => pos <= deq s
  | DCas pos => pos <= deq s /\ (deq s = pos -> seq s (c pos) = pos + 1)
  | DMove pos => pos < deq s /\ seq s (c pos) = pos + 1 /\ data s (c pos) = nth_error (vals s) pos
  | DDestroy v pos => pos < deq s /\ seq s (c pos) = pos + 1 /\ data s (c pos) = Some v /\ nth_error (vals s) pos = Some v
  | DStore v pos | SStore v pos => pos < deq s /\ seq s (c pos) = pos + 1 /\ data s (c pos) = None /\ nth_error (vals s) pos = Some v
  | SLoadSeq pos => pos = deq s
  | SMove pos => pos = deq s /\ pos < enq s /\ seq s (c pos) = pos + 1 /\ data s (c pos) = nth_error (vals s) pos
  | SDestroy v pos => pos = deq s /\ pos < enq s /\ seq s (c pos) = pos + 1 /\ data s (c pos) = Some v /\ nth_error (vals s) pos = Some v
  | SStorePos v pos => pos = deq s /\ pos < enq s /\ seq s (c pos) = pos + 1 /\ data s (c pos) = None /\ nth_error (vals s) pos = Some v
  | _ => True
  end.

Definition cellst s (p : nat) : Prop :=
  let i := cell (lg s) p in
  enq s <= p + cap (lg s) /\ p < deq s + cap (lg s) /\
  ((seq s i = p /\ ((enq s <= p /\ data s i = None) \/ (p < enq s /\ exists t, own_e (pc s t) = Some p)))
   \/ (seq s i = p + 1 /\ p < enq s /\
       ((deq s <= p /\ (data s i = nth_error (vals s) p \/ exists t, at_sp (pc s t) = Some p))
        \/ (p < deq s /\ exists t, own_d (pc s t) = Some p)))).

Definition tst_ok s (p : pcs T) (m : tst (op T) (res T)) : Prop :=
  match p with
  | Idle => m = TIdle
  | ELoadPos v | ELoadSeq v _ | ECas v _ => m = TCalled (Enq v)
  | ECons v _ | EStore v _ => m = TDecided (Enq v) (RBool true)
  | DLoadPos | DLoadSeq _ | DCas _ => m = TCalled Deq
  | DMove pos => m = TDecided Deq (ROpt (nth_error (vals s) pos))
  | DDestroy v _ | DStore v _ => m = TDecided Deq (ROpt (Some v))
  | SLoadPos | SLoadSeq _ | SMove _ | SDestroy _ _ | SStorePos _ _ => m = TCalled DeqSC
  | SStore v _ => m = TDecided DeqSC (ROpt (Some v))
  | PRet o r => m = TDecided o r
  end.

Definition content s : list T := skipn (deq s) (vals s).

Record inv (k : nat) s : Prop := {
  i_k : 1 <= k;
  i_lg : lg s = k;
  i_len : length (vals s) = enq s;
  i_le : deq s <= enq s;
  i_cap : enq s <= deq s + cap k;
  i_t : forall t, tinv s (pc s t);
  i_ue : forall t t' p, own_e (pc s t) = Some p -> own_e (pc s t') = Some p -> t = t';
  i_ud : forall t t' p, own_d (pc s t) = Some p -> own_d (pc s t') = Some p -> t = t';
  i_sole : forall c t, sole s = Some c -> is_cons (pc s t) = true -> t = c;
  i_s : forall t, is_s (pc s t) = true -> sole s = Some t;
  i_cells : forall i, i < cap k -> exists p, cell k p = i /\ cellst s p;
  i_m : exists m, wf (fun _ => TIdle) (tr s) m /\ forall t, tst_ok s (pc s t) (m t);
  i_legal : legal (wfifo (cap k)) [] (effects (tr s)) (content s)
}.

(** cells *)
Lemma cellst_of k s p : inv k s -> exists p', cell k p' = cell k p /\ cellst s p'.
Proof. intros I. apply (i_cells k s I). apply cell_lt. Qed.

Lemma own_e_inv s t p : tinv s (pc s t) -> own_e (pc s t) = Some p ->
  p < enq s /\ deq s <= p /\ seq s (cell (lg s) p) = p.
Proof. destruct (pc s t); simpl; try discriminate; intros ? [= ->]; tauto. Qed.
Lemma own_d_inv s t p : tinv s (pc s t) -> own_d (pc s t) = Some p ->
  p < deq s /\ seq s (cell (lg s) p) = p + 1.
Proof. destruct (pc s t); simpl; try discriminate; intros ? [= ->]; tauto. Qed.
Lemma own_c_inv s t p : tinv s (pc s t) -> own_c (pc s t) = Some p ->
  p = deq s /\ seq s (cell (lg s) p) = p + 1 /\ is_s (pc s t) = true.
Proof. destruct (pc s t); simpl; try discriminate; intros ? [= ->]; tauto. Qed.

Definition owns (q : pcs T) p := own_e q = Some p \/ own_d q = Some p \/ own_c q = Some p.

Lemma frame k s s' t c0 :
  inv k s -> lg s' = lg s -> (forall t', t' <> t -> pc s' t' = pc s t') ->
  enq s <= enq s' ->
  (deq s' = deq s \/ (deq s' = deq s + 1 /\ seq s (cell k (deq s)) = deq s + 1 /\ is_cons (pc s t) = true)) ->
  (exists e, vals s' = vals s ++ e) ->
  (forall i, i <> c0 -> seq s' i = seq s i /\ data s' i = data s i) ->
  ((seq s' c0 = seq s c0 /\ data s' c0 = data s c0) \/ exists p, cell k p = c0 /\ owns (pc s t) p) ->
  forall t', t' <> t -> tinv s' (pc s' t').
Proof.
  intros I El Ep He Hd [e Ev] Hne Hc t' Ht. rewrite (Ep t' Ht).
  pose proof (i_t k s I t') as H'. pose proof (i_t k s I t) as H. pose proof (i_lg k s I) as Hk.
  pose proof (i_k k s I) as Hk1.
  assert (Hnth : forall n x, nth_error (vals s) n = Some x -> nth_error (vals s') n = Some x).
  { intros n x Hn. rewrite Ev, nth_error_app1; auto. apply nth_error_Some. congruence. }
  assert (Hnth2 : forall n, n < enq s -> nth_error (vals s') n = nth_error (vals s) n).
  { intros n Hn. rewrite Ev, nth_error_app1; auto. rewrite (i_len k s I). lia. }
  pose proof (i_le k s I) as Hle.
  (* memory of a cell t' depends on *)
  assert (Hmem : forall p', owns (pc s t') p' ->
      seq s' (cell k p') = seq s (cell k p') /\ data s' (cell k p') = data s (cell k p')).
  { intros p' Ho. destruct (Nat.eq_dec (cell k p') c0) as [E|E]; [|apply Hne; auto].
    rewrite E. destruct Hc as [Hc|(p & Ec & Hp)]; auto. exfalso.
    destruct Hp as [Hp|[Hp|Hp]].
    - pose proof (own_e_inv s t p H Hp) as (A1 & A2 & A3). rewrite Hk, Ec in A3.
      destruct Ho as [Ho|[Ho|Ho]].
      + pose proof (own_e_inv s t' p' H' Ho) as (B1 & B2 & B3). rewrite Hk, E in B3.
        assert (p = p') by lia. apply Ht. apply (i_ue k s I t' t p'); congruence.
      + pose proof (own_d_inv s t' p' H' Ho) as (B1 & B3). rewrite Hk, E in B3.
        apply (cell_succ k p p'); congruence || lia.
      + pose proof (own_c_inv s t' p' H' Ho) as (B1 & B3 & _). rewrite Hk, E in B3.
        apply (cell_succ k p p'); congruence || lia.
    - pose proof (own_d_inv s t p H Hp) as (A1 & A3). rewrite Hk, Ec in A3.
      destruct Ho as [Ho|[Ho|Ho]].
      + pose proof (own_e_inv s t' p' H' Ho) as (B1 & B2 & B3). rewrite Hk, E in B3.
        apply (cell_succ k p' p); congruence || lia.
      + pose proof (own_d_inv s t' p' H' Ho) as (B1 & B3). rewrite Hk, E in B3.
        assert (p = p') by lia. apply Ht. apply (i_ud k s I t' t p'); congruence.
      + pose proof (own_c_inv s t' p' H' Ho) as (B1 & B3 & _). rewrite Hk, E in B3. lia.
    - pose proof (own_c_inv s t p H Hp) as (A1 & A3 & A4). rewrite Hk, Ec in A3.
      destruct Ho as [Ho|[Ho|Ho]].
      + pose proof (own_e_inv s t' p' H' Ho) as (B1 & B2 & B3). rewrite Hk, E in B3.
        apply (cell_succ k p' p); congruence || lia.
      + pose proof (own_d_inv s t' p' H' Ho) as (B1 & B3). rewrite Hk, E in B3. lia.
      + pose proof (own_c_inv s t' p' H' Ho) as (B1 & B3 & B4).
        apply (i_s k s I) in A4. apply (i_s k s I) in B4. congruence. }
  assert (Hs : is_s (pc s t') = true -> deq s' = deq s).
  { intros B. destruct Hd as [|(_ & _ & D)]; auto. apply (i_s k s I) in B.
    pose proof (i_sole k s I t' t B D). congruence. }
  assert (Hfree : forall pos, seq s (cell k pos) = pos -> enq s = pos -> seq s' (cell k pos) = pos).
  { intros pos S1 S2. destruct (Nat.eq_dec (cell k pos) c0) as [E|E].
    2:{ destruct (Hne _ E) as [-> _]. auto. }
    destruct Hc as [[Hc _]|(p & Ec & Hp)]; [rewrite E, Hc, <- E; auto|exfalso].
    destruct Hp as [Hp|[Hp|Hp]].
    - pose proof (own_e_inv s t p H Hp) as (A1 & A2 & A3). rewrite Hk, Ec in A3. rewrite E in S1. lia.
    - pose proof (own_d_inv s t p H Hp) as (A1 & A3). rewrite Hk, Ec in A3. rewrite E in S1.
      apply (cell_succ k pos p); congruence || lia.
    - pose proof (own_c_inv s t p H Hp) as (A1 & A3 & A4). rewrite Hk, Ec in A3. rewrite E in S1.
      apply (cell_succ k pos p); congruence || lia. }
  assert (Hpub : forall pos, seq s (cell k pos) = pos + 1 -> deq s = pos -> is_cons (pc s t') = true -> seq s' (cell k pos) = pos + 1).
  { intros pos S1 S2 Hcn. destruct (Nat.eq_dec (cell k pos) c0) as [E|E].
    2:{ destruct (Hne _ E) as [-> _]. auto. }
    destruct Hc as [[Hc _]|(p & Ec & Hp)]; [rewrite E, Hc, <- E; auto|exfalso].
    destruct Hp as [Hp|[Hp|Hp]].
    - pose proof (own_e_inv s t p H Hp) as (A1 & A2 & A3). rewrite Hk, Ec in A3. rewrite E in S1.
      apply (cell_succ k p pos); congruence || lia.
    - pose proof (own_d_inv s t p H Hp) as (A1 & A3). rewrite Hk, Ec in A3. rewrite E in S1. lia.
    - pose proof (own_c_inv s t p H Hp) as (A1 & A3 & A4). apply (i_s k s I) in A4.
      pose proof (i_sole k s I t t' A4 Hcn). congruence. }
  assert (Hde : forall p, seq s (cell k p) = p -> deq s <= p -> deq s' <= p).
  { intros p S1 S2. destruct Hd as [|(D1 & D2 & _)]; [lia|].
    destruct (Nat.eq_dec p (deq s)); [|lia]. subst p. lia. }
  unfold owns in Hmem.
  destruct (pc s t') eqn:Epc; simpl in H', Hmem, Hs |- *; auto; rewrite ?El, ?Hk in *;
    try (specialize (Hs eq_refl)); try (destruct (Hmem pos) as [M1 M2]; [tauto|]; rewrite ?M1, ?M2);
    try lia.
  - destruct H' as [A1 A2]. split; [lia|]. intros E. assert (enq s = pos) by lia. apply Hfree; auto.
  - destruct H' as (A1 & A2 & A3 & A4 & A5). split; [lia|]. split; [apply Hde; auto|]. auto.
  - destruct H' as (A1 & A2 & A3 & A4 & A5). split; [lia|]. split; [apply Hde; auto|]. auto.
  - destruct H' as (A1 & A2). split; [lia|]. intros E. assert (deq s = pos) by lia. apply Hpub; auto.
  - destruct H' as (A1 & A2 & A3). split; [lia|]. split; auto. rewrite Hnth2 by lia. auto.
  - destruct H' as (A1 & A2 & A3 & A4). split; [lia|]. auto.
  - destruct H' as (A1 & A2 & A3 & A4). split; [lia|]. auto.
  - destruct H' as (A1 & A2 & A3 & A4). split; [lia|]. split; [lia|]. split; auto. rewrite Hnth2 by lia. auto.
  - destruct H' as (A1 & A2 & A3 & A4 & A5). split; [lia|]. split; [lia|]. auto.
  - destruct H' as (A1 & A2 & A3 & A4 & A5). split; [lia|]. split; [lia|]. auto.
  - destruct H' as (A1 & A2 & A3 & A4). split; [lia|]. auto.
Qed.

(** Cells other than [c0] keep their state. *)
Lemma frame_cell k s s' t c0 p :
  inv k s -> lg s' = lg s -> (forall t', t' <> t -> pc s' t' = pc s t') ->
  (enq s' = enq s \/ (enq s' = enq s + 1 /\ cell k (enq s) = c0)) ->
  (deq s' = deq s \/ (deq s' = deq s + 1 /\ cell k (deq s) = c0)) ->
  (exists e, vals s' = vals s ++ e) ->
  seq s' (cell k p) = seq s (cell k p) -> data s' (cell k p) = data s (cell k p) ->
  (forall q, owns (pc s t) q -> cell k q = c0) ->
  cell k p <> c0 -> cellst s p -> cellst s' p.
Proof.
  intros I El Ep He Hd [e Ev] E1 E2 Hown Hc (C0 & C1 & C2). unfold cellst. rewrite El.
  pose proof (i_lg k s I) as Hk. rewrite Hk in *. rewrite E1, E2.
  assert (Hnth2 : forall n, n < enq s -> nth_error (vals s') n = nth_error (vals s) n).
  { intros n Hn. rewrite Ev, nth_error_app1; auto. rewrite (i_len k s I). lia. }
  pose proof (i_le k s I) as Hle.
  assert (p <> deq s \/ deq s' = deq s) by (destruct Hd as [|[? D]]; auto; left; intros ->; congruence).
  assert (p <> enq s \/ enq s' = enq s) by (destruct He as [|[? D]]; auto; left; intros ->; congruence).
  assert (p + cap k <> enq s \/ enq s' = enq s).
  { destruct He as [|[? D]]; auto; left. intros X. apply Hc. rewrite <- D, <- X. now rewrite cell_plus. }
  assert (Hot : forall t0, owns (pc s t0) p -> pc s' t0 = pc s t0).
  { intros t0 Ho. destruct (Nat.eq_dec t0 t) as [->|N]; auto; destruct (Hc (Hown p Ho)). }
  split; [lia|]. split; [lia|]. unfold owns in Hot.
  destruct C2 as [(S1 & [[A1 A2]|[A1 [t0 A2]]])|(S1 & A0 & [[A1 A2]|[A1 [t0 A2]]])].
  - left. split; auto. left. split; [lia|auto].
  - left. split; auto. right. split; [lia|]. exists t0. rewrite Hot; auto.
  - right. split; auto. split; [lia|]. left. split; [lia|].
    destruct A2 as [A2|[t0 A2]]; [left; rewrite Hnth2 by lia; auto|right; exists t0].
    rewrite Hot; auto. right. right. destruct (pc s t0); simpl in A2 |- *; congruence.
  - right. split; auto. split; [lia|]. right. split; [lia|]. exists t0. rewrite Hot; auto.
Qed.

(** The same when the stepping thread keeps its ownership and nothing else changes. *)
Lemma cellst_same s s' t p :
  lg s' = lg s -> enq s' = enq s -> deq s' = deq s -> vals s' = vals s ->
  (forall i, seq s' i = seq s i) -> (forall i, data s' i = data s i) ->
  (forall t', t' <> t -> pc s' t' = pc s t') ->
  own_e (pc s' t) = own_e (pc s t) -> own_d (pc s' t) = own_d (pc s t) -> at_sp (pc s' t) = at_sp (pc s t) ->
  cellst s p -> cellst s' p.
Proof.
  intros E1 E2 E3 E4 E5 E6 E7 O1 O2 O3. unfold cellst. rewrite E1, E2, E3, E4, E5, E6.
  assert (X : forall t0, own_e (pc s' t0) = own_e (pc s t0) /\ own_d (pc s' t0) = own_d (pc s t0) /\ at_sp (pc s' t0) = at_sp (pc s t0)).
  { intros t0. destruct (Nat.eq_dec t0 t) as [->|N]; auto. now rewrite (E7 _ N). }
  intros (C0 & C1 & C2). split; auto. split; auto.
  destruct C2 as [(S1 & [[A1 A2]|[A1 [t0 A2]]])|(S1 & A0 & [[A1 A2]|[A1 [t0 A2]]])]; destruct (X t0) as (X1 & X2 & X3) || idtac.
  - left. split; auto.
  - left. split; auto. right. split; auto. exists t0. congruence.
  - right. split; auto. split; auto. left. split; auto. destruct A2 as [A2|[t0 A2]]; auto. right. exists t0.
    destruct (X t0) as (X1 & X2 & X3). congruence.
  - right. split; auto. split; auto. right. split; auto. exists t0. congruence.
Qed.

(** Facts about the state of a cell seen by a load. *)
Lemma seq_low_enq k s pos : inv k s -> pos <= enq s -> seq s (cell k pos) < pos ->
  pos = enq s /\ (enq s = deq s + cap k \/ exists t, own_d (pc s t) <> None).
Proof.
  intros I Hp Hs. destruct (cellst_of k s pos I) as (p & Ec & C0 & C1 & C2).
  rewrite (i_lg k s I), Ec in *. pose proof (i_le k s I). pose proof (i_cap k s I).
  assert (p < pos) by (destruct C2 as [[A _]|[A _]]; lia).
  assert (pos = p + cap k) by (apply cell_prev; congruence || lia).
  assert (pos = enq s) by lia. split; auto.
  destruct C2 as [(S1 & [[A1 A2]|[A1 [t0 A2]]])|(S1 & A0 & [[A1 A2]|[A1 [t0 A2]]])].
  - pose proof (cap_pos k). lia.
  - left. apply (own_e_inv s t0 p (i_t k s I t0)) in A2. lia.
  - left. lia.
  - right. exists t0. congruence.
Qed.
Lemma seq_low_deq k s pos : inv k s -> pos <= deq s -> seq s (cell k pos) < pos + 1 ->
  pos = deq s /\ (enq s = deq s \/ exists t, own_e (pc s t) <> None).
Proof.
  intros I Hp Hs. destruct (cellst_of k s pos I) as (p & Ec & C0 & C1 & C2).
  rewrite (i_lg k s I), Ec in *. pose proof (i_le k s I). pose proof (i_cap k s I).
  destruct (Nat.lt_ge_cases p pos) as [L|L].
  - assert (pos = p + cap k) by (apply cell_prev; congruence || lia). split; [lia|]. left. lia.
  - assert (p = pos) by (destruct C2 as [[A _]|[A _]]; lia). subst p.
    destruct C2 as [(S1 & [[A1 A2]|[A1 [t0 A2]]])|(S1 & A0 & A1)]; [| |lia].
    + split; lia.
    + pose proof (own_e_inv s t0 pos (i_t k s I t0) A2). split; [lia|]. right. exists t0. congruence.
Qed.
Lemma seq_high_deq k s : inv k s -> deq s + 1 <= seq s (cell k (deq s)) ->
  deq s < enq s /\ seq s (cell k (deq s)) = deq s + 1 /\
  (data s (cell k (deq s)) = nth_error (vals s) (deq s) \/ exists t, at_sp (pc s t) = Some (deq s)).
Proof.
  intros I Hs. destruct (cellst_of k s (deq s) I) as (p & Ec & C0 & C1 & C2).
  rewrite (i_lg k s I), Ec in *. pose proof (i_le k s I). pose proof (i_cap k s I).
  assert (deq s <= p) by (destruct C2 as [[A _]|[A _]]; lia).
  assert (p = deq s) by (apply (cell_close k); congruence || lia). subst p.
  destruct C2 as [(S1 & A1)|(S1 & A0 & [[A1 A2]|[A1 _]])]; try lia. auto.
Qed.
(** An enqueuer that can win: the cell is free. *)
Lemma seq_eq_enq k s : inv k s -> seq s (cell k (enq s)) = enq s ->
  enq s < deq s + cap k /\ data s (cell k (enq s)) = None.
Proof.
  intros I Hs. destruct (cellst_of k s (enq s) I) as (p & Ec & C0 & C1 & C2).
  rewrite (i_lg k s I), Ec in *.
  destruct C2 as [(S1 & A)|(S1 & _)].
  - assert (p = enq s) by lia. subst p. destruct A as [[A1 A2]|[A1 _]]; [split; [lia|auto]|lia].
  - exfalso. apply (cell_succ k (enq s) p (i_k k s I)); congruence || lia.
Qed.

(** A step that changes only the pc and the trace. *)
Lemma inv_goto k s t p e :
  inv k s -> tinv s p ->
  own_e p = own_e (pc s t) -> own_d p = own_d (pc s t) -> at_sp p = at_sp (pc s t) ->
  (is_cons p = true -> sole s = None \/ sole s = Some t) ->
  (is_s p = true -> sole s = Some t) ->
  (forall x, tst_ok s (pc s t) x ->
     (e = [] /\ tst_ok s p x) \/ exists ev y, e = [ev] /\ ev_thread ev = t /\ tnext x ev y /\ tst_ok s p y) ->
  legal (wfifo (cap k)) (content s) (effects e) (content s) ->
  inv k (goto s t p e).
Proof.
  intros I Ht O1 O2 O3 Hc Hs Htst Hleg. destruct I as [Ik Il In Ile Ic It Iue Iud Iso Is Icell Im Ileg].
  assert (Hpc : forall t0, pc (goto s t p e) t0 = upd (pc s) t p t0) by reflexivity.
  constructor; auto.
  - intros t0. rewrite Hpc. unfold upd. destruct (Nat.eqb_spec t0 t); [exact Ht|exact (It t0)].
  - intros t1 t2 q. rewrite !Hpc. unfold upd.
    destruct (Nat.eqb_spec t1 t), (Nat.eqb_spec t2 t); subst; rewrite ?O1; apply Iue.
  - intros t1 t2 q. rewrite !Hpc. unfold upd.
    destruct (Nat.eqb_spec t1 t), (Nat.eqb_spec t2 t); subst; rewrite ?O2; apply Iud.
  - intros c t1 E. rewrite Hpc. unfold upd. destruct (Nat.eqb_spec t1 t); [|now apply Iso].
    intros B. subst. destruct (Hc B) as [X|X]; cbn [sole goto] in E; congruence.
  - intros t1. rewrite Hpc. unfold upd. destruct (Nat.eqb_spec t1 t); [subst; auto|apply Is].
  - intros i Hi. destruct (Icell i Hi) as (q & E & C). exists q. split; auto.
    eapply (cellst_same s _ t); eauto; try reflexivity; rewrite ?Hpc; rewrite ?upd_eq; auto.
    intros t' N. rewrite Hpc. now rewrite upd_neq.
  - destruct Im as (m & W & Hm). destruct (Htst (m t) (Hm t)) as [[-> X]|(v & y & -> & Ev & N & X)].
    + exists m. split. { cbn [tr goto]. now rewrite app_nil_r. }
      intros t0. rewrite Hpc. unfold upd. destruct (Nat.eqb_spec t0 t) as [->|]; [exact X|exact (Hm t0)].
    + exists (upd m t y). split. { cbn [tr goto]. rewrite <- Ev. apply wf_snoc; auto. now rewrite Ev. }
      intros t0. rewrite Hpc. unfold upd. destruct (Nat.eqb_spec t0 t) as [->|]; [exact X|exact (Hm t0)].
  - cbn [tr goto]. rewrite effects_app. eapply legal_app; eauto.
Qed.

(** A step of thread [t] that changes cell [c0] (or claims its ticket). *)
Lemma inv_mem k s s' t c0 :
  inv k s -> lg s' = lg s -> sole s' = sole s -> (forall t', t' <> t -> pc s' t' = pc s t') ->
  (enq s' = enq s \/ (enq s' = enq s + 1 /\ cell k (enq s) = c0)) ->
  (deq s' = deq s \/ (deq s' = deq s + 1 /\ cell k (deq s) = c0 /\ seq s c0 = deq s + 1 /\ is_cons (pc s t) = true)) ->
  (exists e, vals s' = vals s ++ e) -> length (vals s') = enq s' ->
  deq s' <= enq s' -> enq s' <= deq s' + cap k ->
  (forall i, i <> c0 -> seq s' i = seq s i /\ data s' i = data s i) ->
  ((seq s' c0 = seq s c0 /\ data s' c0 = data s c0) \/ exists p, cell k p = c0 /\ owns (pc s t) p) ->
  (forall q, owns (pc s t) q -> cell k q = c0) ->
  tinv s' (pc s' t) ->
  (forall p, own_e (pc s' t) = Some p -> own_e (pc s t) = Some p \/ (p = enq s)) ->
  (forall p, own_d (pc s' t) = Some p -> own_d (pc s t) = Some p \/ (p = deq s)) ->
  (is_cons (pc s' t) = true -> is_cons (pc s t) = true) ->
  (is_s (pc s' t) = true -> is_s (pc s t) = true) ->
  (exists p, cell k p = c0 /\ cellst s' p) ->
  (forall x, tst_ok s (pc s t) x ->
     exists e, tr s' = tr s ++ e /\
     ((e = [] /\ tst_ok s' (pc s' t) x) \/ exists ev y, e = [ev] /\ ev_thread ev = t /\ tnext x ev y /\ tst_ok s' (pc s' t) y) /\
     legal (wfifo (cap k)) (content s) (effects e) (content s')) ->
  inv k s'.
Proof.
  intros I El Eso Ep He Hd Hv Hlen Hle Hcap Hne Hc Hown Ht Oe Od Hcn Hsn Hc0 Htst.
  constructor; auto.
  - apply (i_k k s I).
  - rewrite El. apply (i_lg k s I).
  - intros t0. destruct (Nat.eq_dec t0 t) as [->|N]; auto.
    apply (frame k s s' t c0); auto; try lia. destruct Hd as [|(A & <- & B & C)]; auto.
  - assert (X : forall t1 p, t1 <> t -> own_e (pc s' t) = Some p -> own_e (pc s' t1) = Some p -> False).
    { intros t1 p N A B. rewrite Ep in B by auto. pose proof (own_e_inv s t1 p (i_t k s I t1) B).
      destruct (Oe p A) as [C|C]; [|lia]. apply N. eapply (i_ue k s I); eauto. }
    intros t1 t2 p A B. destruct (Nat.eq_dec t1 t) as [->|N1], (Nat.eq_dec t2 t) as [->|N2]; auto;
      try (exfalso; eapply X; eauto; fail).
    rewrite Ep in A, B by auto. eapply (i_ue k s I); eauto.
  - assert (X : forall t1 p, t1 <> t -> own_d (pc s' t) = Some p -> own_d (pc s' t1) = Some p -> False).
    { intros t1 p N A B. rewrite Ep in B by auto. pose proof (own_d_inv s t1 p (i_t k s I t1) B).
      destruct (Od p A) as [C|C]; [|lia]. apply N. eapply (i_ud k s I); eauto. }
    intros t1 t2 p A B. destruct (Nat.eq_dec t1 t) as [->|N1], (Nat.eq_dec t2 t) as [->|N2]; auto;
      try (exfalso; eapply X; eauto; fail).
    rewrite Ep in A, B by auto. eapply (i_ud k s I); eauto.
  - intros c t0 E B. rewrite Eso in E. apply (i_sole k s I c t0 E).
    destruct (Nat.eq_dec t0 t) as [->|N]; auto. rewrite <- Ep; auto.
  - intros t0 B. rewrite Eso. apply (i_s k s I t0).
    destruct (Nat.eq_dec t0 t) as [->|N]; auto. rewrite <- Ep; auto.
  - intros i Hi. destruct (Nat.eq_dec i c0) as [->|N]; auto.
    destruct (i_cells k s I i Hi) as (p & E & C). exists p. split; auto.
    destruct (Hne i N) as [M1 M2]. rewrite <- E in M1, M2, N.
    apply (frame_cell k s s' t c0 p); auto. destruct Hd as [|(A & B & _)]; auto.
  - destruct (i_m k s I) as (m & W & Hm). destruct (Htst (m t) (Hm t)) as (e & Etr & He' & _).
    assert (Hoth : forall t0, t0 <> t -> tst_ok s' (pc s' t0) (m t0)).
    { intros t0 N. rewrite Ep by auto. pose proof (Hm t0) as X. pose proof (i_t k s I t0) as Y.
      destruct (pc s t0); simpl in X, Y |- *; auto.
      destruct Hv as [z ->]. rewrite nth_error_app1; auto. rewrite (i_len k s I). pose proof (i_le k s I). lia. }
    destruct He' as [[-> X]|(v & y & -> & Ev & N & X)].
    + exists m. split. { now rewrite Etr, app_nil_r. }
      intros t0. destruct (Nat.eq_dec t0 t) as [->|]; auto.
    + exists (upd m t y). split. { rewrite Etr, <- Ev. apply wf_snoc; auto. now rewrite Ev. }
      intros t0. unfold upd. destruct (Nat.eqb_spec t0 t) as [->|]; auto.
  - destruct (i_m k s I) as (m & W & Hm). destruct (Htst (m t) (Hm t)) as (e & Etr & _ & L).
    rewrite Etr, effects_app. eapply legal_app; eauto. apply (i_legal k s I).
Qed.

Lemma skipn_nth (l : list T) n x : nth_error l n = Some x -> skipn n l = x :: skipn (n + 1) l.
Proof.
  revert n. induction l as [|a l IH]; intros [|n] H; simpl in *; try discriminate.
  - congruence.
  - now apply IH.
Qed.

Lemma inv_init k c : 1 <= k -> inv k (init k c : state T).
Proof.
  intros Hk. pose proof (cap_pos k). constructor; simpl; auto; try discriminate; try lia.
  - intros i Hi. exists i. split. now apply cell_small. unfold cellst; simpl. rewrite cell_small by auto.
    split; [lia|]. split; [lia|]. left. split; auto. left. split; [lia|auto].
  - exists (fun _ => TIdle). split; auto. constructor; auto.
  - constructor.
Qed.

Lemma inv_call k s t o : inv k s -> match call s t o with Next s' => inv k s' | Ub => False | Stuck => True end.
Proof.
  intros I. unfold call. destruct (pc s t) eqn:E; auto. destruct (may_call s t o) eqn:M; auto.
  assert (Hm : match o with Enq _ => True | Deq => sole s = None \/ sole s = Some t | DeqSC => sole s = Some t end).
  { unfold may_call in M. destruct o, (sole s); auto; try discriminate; apply Nat.eqb_eq in M; subst; auto. }
  apply inv_goto; auto; rewrite ?E; destruct o; simpl; auto; try discriminate;
    try (intros x ->; right; eexists _, _; split; [reflexivity|]; split; [reflexivity|]; split; [constructor|reflexivity]);
    constructor.
Qed.

Ltac tst_same := intros ? ->; left; split; reflexivity.
Ltac tst_ev := intros ? ->; right; eexists _, _; split; [reflexivity|]; split; [reflexivity|]; split; [constructor|reflexivity].

Ltac gt E := apply inv_goto; auto; rewrite ?E; simpl; auto; try discriminate; try tst_same; try tst_ev; try apply legal_nil.

Lemma inv_thread k s t w : inv k s -> match thread_step s t w with Next s' => inv k s' | Ub => False | Stuck => True end.
Proof.
  intros I. unfold thread_step. cbv zeta. pose proof (i_lg k s I) as Hk. rewrite Hk.
  pose proof (i_t k s I t) as Ht. pose proof (i_le k s I) as Hle. pose proof (i_cap k s I) as Hcap.
  pose proof (i_len k s I) as Hlen.
  pose proof (cap_ge2 k (i_k k s I)) as Hc2.
  assert (Hcons : is_cons (pc s t) = true -> sole s = None \/ sole s = Some t).
  { intros B. destruct (sole s) as [c|] eqn:Es; auto. right. f_equal. symmetry. apply (i_sole k s I c t Es B). }
  pose proof (i_s k s I t) as HS.
  destruct (pc s t) eqn:E; auto; simpl in Ht, Hcons, HS; try specialize (Hcons eq_refl); try specialize (HS eq_refl); rewrite ?Hk in Ht.
  - (* ELoadPos *) gt E.
  - (* ELoadSeq *)
    destruct (Nat.eqb_spec (seq s (cell k pos)) pos) as [Q|Q]; [gt E; rewrite ?Hk; auto|].
    destruct (Nat.ltb_spec (seq s (cell k pos)) pos) as [Q2|Q2]; gt E.
    simpl. econstructor; [simpl; auto|constructor].
  - (* ECas *)
    destruct (negb w && Nat.eqb (enq s) pos) eqn:B; [|gt E].
    apply andb_true_iff in B. destruct B as [_ B]. apply Nat.eqb_eq in B. destruct Ht as [H1 H2].
    specialize (H2 B). subst pos. destruct (seq_eq_enq k s I H2) as [F1 F2].
    assert (Hv : nth_error (vals s ++ [v]) (enq s) = Some v).
    { rewrite nth_error_app2 by lia. now replace (enq s - length (vals s)) with 0 by lia. }
    apply (inv_mem k s _ t (cell k (enq s)) I); cbn [lg sole pc enq deq seq data vals tr]; rewrite ?upd_eq; auto.
    all: try lia.
    + intros. now rewrite upd_neq.
    + exists [v]; auto.
    + rewrite app_length. simpl. lia.
    + rewrite E. intros q [X|[X|X]]; discriminate.
    + simpl. rewrite ?Hk. repeat (split; [lia || auto|]). auto.
    + simpl. intros p [= <-]. auto.
    + discriminate.
    + discriminate.
    + discriminate.
    + exists (enq s). split; auto. unfold cellst; cbn [lg sole pc enq deq seq data vals tr]. rewrite ?Hk.
      split; [lia|]. split; [lia|]. left. split; auto. right. split; [lia|]. exists t. now rewrite upd_eq.
    + rewrite E. intros x ->. exists [Lin t (Enq v) (RBool true)]. split; auto. split.
      * right. eexists _, _. split; [reflexivity|]. split; [reflexivity|]. split; [constructor|reflexivity].
      * simpl. econstructor; [|constructor]. simpl. unfold content; cbn [deq vals]. split.
        rewrite skipn_length. lia.
        rewrite skipn_app. replace (deq s - length (vals s)) with 0 by lia. reflexivity.
  - (* ECons *)
    destruct Ht as (H1 & H2 & H3 & H4 & H5). rewrite H4.
    apply (inv_mem k s _ t (cell k pos) I); cbn [lg sole pc enq deq seq data vals tr]; rewrite ?upd_eq; auto; rewrite ?E; auto.
    + intros. now rewrite upd_neq.
    + exists []. now rewrite app_nil_r.
    + intros i N. now rewrite upd_neq.
    + right. exists pos. split; auto. left. auto.
    + intros q [X|[X|X]]; simpl in X; congruence.
    + simpl. rewrite ?Hk, ?upd_eq. auto 6.
    + exists pos. split; auto. unfold cellst; cbn [lg sole pc enq deq seq data vals tr]. rewrite ?Hk.
      split; [lia|]. split; [lia|]. left. split; auto. right. split; [lia|]. exists t. now rewrite upd_eq.
    + intros x ->. exists []. split; [now rewrite app_nil_r|]. split; [left; split; reflexivity|].
      simpl. unfold content; simpl. constructor.
  - (* EStore *)
    destruct Ht as (H1 & H2 & H3 & H4 & H5).
    apply (inv_mem k s _ t (cell k pos) I); cbn [lg sole pc enq deq seq data vals tr]; rewrite ?upd_eq; auto; rewrite ?E; auto; try discriminate.
    + intros. now rewrite upd_neq.
    + exists []. now rewrite app_nil_r.
    + intros i N. now rewrite upd_neq.
    + right. exists pos. split; auto. left. auto.
    + intros q [X|[X|X]]; simpl in X; congruence.
    + simpl. auto.
    + exists pos. split; auto. unfold cellst; cbn [lg sole pc enq deq seq data vals tr]. rewrite ?Hk, ?upd_eq.
      split; [lia|]. split; [lia|]. right. split; auto. split; [lia|]. left. split; [lia|]. left. congruence.
    + intros x ->. exists []. split; [now rewrite app_nil_r|]. split; [left; split; reflexivity|].
      simpl. unfold content; simpl. constructor.
  - (* DLoadPos *) gt E.
  - (* DLoadSeq *)
    destruct (Nat.eqb_spec (seq s (cell k pos)) (pos + 1)) as [Q|Q]; [gt E; rewrite ?Hk; auto|].
    destruct (Nat.ltb_spec (seq s (cell k pos)) (pos + 1)) as [Q2|Q2]; gt E.
    simpl. econstructor; [simpl; auto|constructor].
  - (* DCas *)
    destruct (negb w && Nat.eqb (deq s) pos) eqn:B; [|gt E].
    apply andb_true_iff in B. destruct B as [_ B]. apply Nat.eqb_eq in B. destruct Ht as [H1 H2].
    specialize (H2 B). subst pos. destruct (seq_high_deq k s I) as (F1 & _ & F2); [lia|].
    assert (F3 : data s (cell k (deq s)) = nth_error (vals s) (deq s)).
    { destruct F2 as [F2|[t0 F2]]; auto. exfalso.
      assert (Y : is_s (pc s t0) = true) by (destruct (pc s t0); simpl in *; congruence).
      apply (i_s k s I) in Y. assert (t = t0) by (apply (i_sole k s I t0 t Y); rewrite E; auto). subst t0.
      rewrite E in F2. discriminate. }
    destruct (nth_error (vals s) (deq s)) as [x|] eqn:Ex.
    2:{ apply nth_error_None in Ex. lia. }
    apply (inv_mem k s _ t (cell k (deq s)) I); cbn [lg sole pc enq deq seq data vals tr]; rewrite ?upd_eq; auto; rewrite ?E; auto; try discriminate.
    all: try lia.
    + intros. now rewrite upd_neq.
    + exists []. now rewrite app_nil_r.
    + intros q [X|[X|X]]; discriminate.
    + simpl. rewrite ?Hk, ?Ex. split; [lia|]. auto.
    + intros p [= <-]. auto.
    + exists (deq s). split; auto. unfold cellst; cbn [lg sole pc enq deq seq data vals tr]. rewrite ?Hk.
      split; [lia|]. split; [lia|]. right. split; auto. split; [lia|]. right. split; [lia|]. exists t. now rewrite upd_eq.
    + intros y ->. exists [Lin t Deq (ROpt (Some x))]. split; auto. split.
      * right. eexists _, _. split; [reflexivity|]. split; [reflexivity|]. split; [constructor|]. simpl. now rewrite Ex.
      * simpl. econstructor; [|constructor]. simpl. unfold content; cbn [deq vals]. now apply skipn_nth.
  - (* DMove *)
    destruct Ht as (H1 & H2 & H3).
    destruct (data s (cell k pos)) as [x|] eqn:Ex.
    2:{ symmetry in H3. apply nth_error_None in H3. lia. }
    gt E; rewrite ?Hk; auto.
    intros y ->. left. split; auto. simpl. congruence.
  - (* DDestroy *)
    destruct Ht as (H1 & H2 & H3 & H4). rewrite H3.
    apply (inv_mem k s _ t (cell k pos) I); cbn [lg sole pc enq deq seq data vals tr]; rewrite ?upd_eq; auto; rewrite ?E; auto; try discriminate.
    + intros. now rewrite upd_neq.
    + exists []. now rewrite app_nil_r.
    + intros i N. now rewrite upd_neq.
    + right. exists pos. split; auto. right; left. auto.
    + intros q [X|[X|X]]; simpl in X; congruence.
    + simpl. rewrite ?Hk, ?upd_eq. auto 6.
    + exists pos. split; auto. destruct (cellst_of k s pos I) as (p & Ep & C0 & C1 & C2).
      rewrite Hk, Ep in *.
      assert (p = pos).
      { destruct C2 as [(S1 & _)|(S1 & _)]; [|lia]. exfalso. apply (cell_succ k p pos (i_k k s I)); auto; lia. }
      subst p. unfold cellst; cbn [lg sole pc enq deq seq data vals tr]. rewrite ?Hk.
      split; [lia|]. split; [lia|]. right. split; auto. split; [lia|]. right. split; [lia|]. exists t. now rewrite upd_eq.
    + intros x ->. exists []. split; [now rewrite app_nil_r|]. split; [left; split; reflexivity|].
      simpl. unfold content; simpl. constructor.
  - (* DStore *)
    destruct Ht as (H1 & H2 & H3 & H4).
    apply (inv_mem k s _ t (cell k pos) I); cbn [lg sole pc enq deq seq data vals tr]; rewrite ?upd_eq; auto; rewrite ?E; auto; try discriminate.
    + intros. now rewrite upd_neq.
    + exists []. now rewrite app_nil_r.
    + intros i N. now rewrite upd_neq.
    + right. exists pos. split; auto. right; left. auto.
    + intros q [X|[X|X]]; simpl in X; congruence.
    + simpl. auto.
    + exists (pos + cap k). split; [apply cell_plus|]. destruct (cellst_of k s pos I) as (p & Ep & C0 & C1 & C2).
      rewrite Hk, Ep in *.
      assert (p = pos).
      { destruct C2 as [(S1 & _)|(S1 & _)]; [|lia]. exfalso. apply (cell_succ k p pos (i_k k s I)); auto; lia. }
      subst p. unfold cellst; cbn [lg sole pc enq deq seq data vals tr]. rewrite ?Hk, cell_plus, ?upd_eq.
      split; [lia|]. split; [lia|]. left. split; [lia|]. left. split; [lia|auto].
    + intros x ->. exists []. split; [now rewrite app_nil_r|]. split; [left; split; reflexivity|].
      simpl. unfold content; simpl. constructor.
  - (* SLoadPos *) gt E.
  - (* SLoadSeq *)
    subst pos. destruct (Nat.ltb_spec (seq s (cell k (deq s))) (deq s + 1)) as [Q|Q].
    + gt E. simpl. econstructor; [simpl; auto|constructor].
    + destruct (seq_high_deq k s I Q) as (F1 & F2 & F3).
      assert (F4 : data s (cell k (deq s)) = nth_error (vals s) (deq s)).
      { destruct F3 as [F3|[t0 F3]]; auto. exfalso.
        assert (Y : is_s (pc s t0) = true) by (destruct (pc s t0); simpl in *; congruence).
        apply (i_s k s I) in Y. assert (t = t0) by congruence. subst t0.
        rewrite E in F3. discriminate. }
      gt E; rewrite ?Hk; auto.
  - (* SMove *)
    destruct Ht as (H0 & H1 & H2 & H3).
    destruct (data s (cell k pos)) as [x|] eqn:Ex.
    2:{ symmetry in H3. apply nth_error_None in H3. lia. }
    gt E; rewrite ?Hk; auto 6.
  - (* SDestroy *)
    destruct Ht as (H0 & H1 & H2 & H3 & H4). rewrite H3.
    apply (inv_mem k s _ t (cell k pos) I); cbn [lg sole pc enq deq seq data vals tr]; rewrite ?upd_eq; auto; rewrite ?E; auto; try discriminate.
    + intros. now rewrite upd_neq.
    + exists []. now rewrite app_nil_r.
    + intros i N. now rewrite upd_neq.
    + right. exists pos. split; auto. right; right. auto.
    + intros q [X|[X|X]]; simpl in X; congruence.
    + simpl. rewrite ?Hk, ?upd_eq. auto 6.
    + exists pos. split; auto. unfold cellst; cbn [lg sole pc enq deq seq data vals tr]. rewrite ?Hk.
      split; [lia|]. split; [lia|]. right. split; auto. split; [lia|]. left. split; [lia|]. right. exists t. now rewrite upd_eq.
    + intros x ->. exists []. split; [now rewrite app_nil_r|]. split; [left; split; reflexivity|].
      simpl. unfold content; simpl. constructor.
  - (* SStorePos *)
    destruct Ht as (H0 & H1 & H2 & H3 & H4). subst pos.
    apply (inv_mem k s _ t (cell k (deq s)) I); cbn [lg sole pc enq deq seq data vals tr]; rewrite ?upd_eq; auto; rewrite ?E; auto; try discriminate.
    all: try lia.
    + intros. now rewrite upd_neq.
    + exists []. now rewrite app_nil_r.
    + intros q [X|[X|X]]; simpl in X; congruence.
    + simpl. rewrite ?Hk. split; [lia|]. auto.
    + intros p [= <-]. auto.
    + exists (deq s). split; auto. unfold cellst; cbn [lg sole pc enq deq seq data vals tr]. rewrite ?Hk.
      split; [lia|]. split; [lia|]. right. split; auto. split; [lia|]. right. split; [lia|]. exists t. now rewrite upd_eq.
    + intros y ->. eexists. split; [reflexivity|]. split.
      * right. eexists _, _. split; [reflexivity|]. split; [reflexivity|]. split; [constructor|]. reflexivity.
      * simpl. econstructor; [|constructor]. simpl. unfold content; cbn [deq vals]. now apply skipn_nth.
  - (* SStore *)
    destruct Ht as (H1 & H2 & H3 & H4).
    apply (inv_mem k s _ t (cell k pos) I); cbn [lg sole pc enq deq seq data vals tr]; rewrite ?upd_eq; auto; rewrite ?E; auto; try discriminate.
    + intros. now rewrite upd_neq.
    + exists []. now rewrite app_nil_r.
    + intros i N. now rewrite upd_neq.
    + right. exists pos. split; auto. right; left. auto.
    + intros q [X|[X|X]]; simpl in X; congruence.
    + simpl. auto.
    + exists (pos + cap k). split; [apply cell_plus|]. destruct (cellst_of k s pos I) as (p & Ep & C0 & C1 & C2).
      rewrite Hk, Ep in *.
      assert (p = pos).
      { destruct C2 as [(S1 & _)|(S1 & _)]; [|lia]. exfalso. apply (cell_succ k p pos (i_k k s I)); auto; lia. }
      subst p. unfold cellst; cbn [lg sole pc enq deq seq data vals tr]. rewrite ?Hk, cell_plus, ?upd_eq.
      split; [lia|]. split; [lia|]. left. split; [lia|]. left. split; [lia|auto].
    + intros x ->. exists []. split; [now rewrite app_nil_r|]. split; [left; split; reflexivity|].
      simpl. unfold content; simpl. constructor.
  - (* PRet *) gt E.
Qed.

Lemma inv_step k s l : inv k s -> match step s l with Next s' => inv k s' | Ub => False | Stuck => True end.
Proof. destruct l; simpl. apply inv_call. apply inv_thread. Qed.

Lemma reach k c : 1 <= k -> safe step (init k c : state T) /\ forall s, reachable step (init k c) s -> inv k s.
Proof. intros Hk. apply (reach_inv step (inv k)). intros; now apply inv_step. now apply inv_init. Qed.

Lemma mpmc_safe_pf k c : 1 <= k -> safe step (init k c : state T).
Proof. intros Hk. apply (reach k c Hk). Qed.

Lemma mpmc_linearizable_pf k c s : 1 <= k -> reachable step (init k c : state T) s ->
  linearizable (wfifo (cap k)) [] (erase (tr s)).
Proof.
  intros Hk R. pose proof (proj2 (reach k c Hk) s R) as I. destruct (i_m k s I) as (m & W & _).
  exists (tr s), m, (content s). split; auto. split; auto. apply (i_legal k s I).
Qed.

Lemma own_d_dequeueing (q : pcs T) : own_d q <> None -> dequeueing q.
Proof. destruct q; simpl; try congruence; auto. Qed.
Lemma own_e_enqueueing (q : pcs T) : own_e q <> None -> enqueueing q.
Proof. destruct q; simpl; try congruence; auto. Qed.

Lemma app_last_inv {A} (l : list A) a e : l ++ e = l ++ [a] -> e = [a].
Proof. apply app_inv_head. Qed.

Lemma mpmc_enqueue_false_pf k c s l s' t v : 1 <= k -> reachable step (init k c : state T) s ->
  step s l = Next s' -> tr s' = tr s ++ [Lin t (Enq v) (RBool false)] ->
  exists q, legal (wfifo (cap k)) [] (effects (tr s)) q /\ length q <= cap k /\
    (length q = cap k \/ exists t', dequeueing (pc s t')).
Proof.
  intros Hk R Hst Htr. pose proof (proj2 (reach k c Hk) s R) as I.
  exists (content s). split; [apply (i_legal k s I)|].
  assert (L : length (content s) = enq s - deq s) by (unfold content; rewrite skipn_length; rewrite (i_len k s I); auto).
  pose proof (i_le k s I). pose proof (i_cap k s I). split; [lia|].
  destruct l as [t0 o|t0 w]; simpl in Hst.
  - unfold call in Hst. destruct (pc s t0); try discriminate. destruct (may_call s t0 o); try discriminate.
    injection Hst as <-. cbn [tr goto] in Htr. apply app_last_inv in Htr. discriminate.
  - unfold thread_step in Hst. pose proof (i_t k s I t0) as Ht. pose proof (i_lg k s I) as Hlg.
    assert (Hnil : forall A (l : list A) a, l <> l ++ [a]).
    { intros A l a X. apply (f_equal (@length A)) in X. rewrite app_length in X. simpl in X. lia. }
    destruct (pc s t0) eqn:E; try discriminate; cbv zeta in Hst;
      repeat match type of Hst with context [if ?b then _ else _] => destruct b eqn:?B end;
      repeat match type of Hst with context [match ?b with None => _ | Some _ => _ end] => destruct b eqn:?D end;
      try discriminate; injection Hst as <-; cbn [tr goto] in Htr;
      try (apply app_last_inv in Htr; discriminate); try (exfalso; eapply Hnil; exact Htr).
    simpl in Ht. rewrite Hlg in *. apply Nat.ltb_lt in B0.
    destruct (seq_low_enq k s pos I Ht B0) as (_ & [X|[t1 X]]); [left; lia|right].
    exists t1. now apply own_d_dequeueing.
Qed.

Lemma mpmc_dequeue_false_pf k c s l s' t o : 1 <= k -> reachable step (init k c : state T) s ->
  step s l = Next s' -> tr s' = tr s ++ [Lin t o (ROpt None)] ->
  exists q, legal (wfifo (cap k)) [] (effects (tr s)) q /\
    (q = [] \/ exists t', enqueueing (pc s t')).
Proof.
  intros Hk R Hst Htr. pose proof (proj2 (reach k c Hk) s R) as I.
  exists (content s). split; [apply (i_legal k s I)|].
  assert (L : length (content s) = enq s - deq s) by (unfold content; rewrite skipn_length; rewrite (i_len k s I); auto).
  pose proof (i_le k s I). pose proof (i_cap k s I).
  destruct l as [t0 o'|t0 w]; simpl in Hst.
  - unfold call in Hst. destruct (pc s t0); try discriminate. destruct (may_call s t0 o'); try discriminate.
    injection Hst as <-. cbn [tr goto] in Htr. apply app_last_inv in Htr. discriminate.
  - unfold thread_step in Hst. pose proof (i_t k s I t0) as Ht. pose proof (i_lg k s I) as Hlg.
    assert (Hnil : forall A (l : list A) a, l <> l ++ [a]).
    { intros A l a X. apply (f_equal (@length A)) in X. rewrite app_length in X. simpl in X. lia. }
    destruct (pc s t0) eqn:E; try discriminate; cbv zeta in Hst;
      repeat match type of Hst with context [if ?b then _ else _] => destruct b eqn:?B end;
      repeat match type of Hst with context [match data s ?b with None => _ | Some _ => _ end] => destruct (data s b) eqn:?D end;
      try discriminate; injection Hst as <-; cbn [tr goto] in Htr;
      try (apply app_last_inv in Htr; discriminate); try (exfalso; eapply Hnil; exact Htr);
      simpl in Ht; rewrite Hlg in *.
    + apply Nat.ltb_lt in B0.
      destruct (seq_low_deq k s pos I Ht B0) as (_ & [X|[t1 X]]).
      * left. destruct (content s); auto. simpl in L. lia.
      * right. exists t1. now apply own_e_enqueueing.
    + (* DCas cannot deliver nothing *)
      exfalso. apply app_last_inv in Htr. injection Htr as _ _ Hx. apply nth_error_None in Hx.
      apply andb_true_iff in B. destruct B as [_ B]. apply Nat.eqb_eq in B.
      destruct Ht as [_ Ht]. specialize (Ht B). subst pos.
      destruct (seq_high_deq k s I) as (F1 & _); [lia|]. rewrite (i_len k s I) in Hx. lia.
    + apply Nat.ltb_lt in B.
      destruct (seq_low_deq k s pos I) as (_ & [X|[t1 X]]); [lia|auto| |].
      * left. destruct (content s); auto. simpl in L. lia.
      * right. exists t1. now apply own_e_enqueueing.
Qed.

Lemma mpmc_no_race_pf k c s t t' p p' : 1 <= k -> reachable step (init k c : state T) s -> t <> t' ->
  accesses (pc s t) = Some p -> accesses (pc s t') = Some p' -> cell k p <> cell k p'.
Proof.
  intros Hk R N A A' Ec. pose proof (proj2 (reach k c Hk) s R) as I.
  pose proof (i_lg k s I) as Hlg.
  assert (O : owns (pc s t) p) by (unfold owns; destruct (pc s t); simpl in *; try discriminate; injection A as ->; auto).
  assert (O' : owns (pc s t') p') by (unfold owns; destruct (pc s t'); simpl in *; try discriminate; injection A' as ->; auto).
  pose proof (i_t k s I t) as H. pose proof (i_t k s I t') as H'.
  assert (X : forall a b q q', owns (pc s a) q -> owns (pc s b) q' -> cell k q = cell k q' -> a <> b ->
     tinv s (pc s a) -> tinv s (pc s b) ->
     (exists x, own_e (pc s a) = Some x) -> False).
  { clear - I Hlg Hk. intros a b q q' O O' E N H H' [x Ox].
    assert (Oq : own_e (pc s a) = Some q).
    { destruct O as [|[O|O]]; auto; destruct (pc s a); simpl in *; congruence. }
    pose proof (own_e_inv s a q H Oq) as (A1 & A2 & A3). rewrite Hlg, E in A3.
    destruct O' as [O'|[O'|O']].
    - pose proof (own_e_inv s b q' H' O') as (B1 & B2 & B3). rewrite Hlg in B3. assert (q = q') by lia.
      apply N. apply (i_ue k s I a b q'); congruence.
    - pose proof (own_d_inv s b q' H' O') as (B1 & B3). rewrite Hlg in B3. eapply (cell_succ k q q'); eauto. lia.
    - pose proof (own_c_inv s b q' H' O') as (B1 & B3 & _). rewrite Hlg in B3. eapply (cell_succ k q q'); eauto. lia. }
  destruct O as [O|[O|O]].
  - eapply (X t t' p p'); eauto. left; auto.
  - destruct O' as [O'|[O'|O']].
    + eapply (X t' t p' p); eauto. left; auto. right; auto.
    + pose proof (own_d_inv s t p H O) as (A1 & A3). pose proof (own_d_inv s t' p' H' O') as (B1 & B3).
      rewrite Hlg in A3, B3. rewrite Ec in A3. assert (p = p') by lia. apply N. apply (i_ud k s I t t' p'); congruence.
    + pose proof (own_d_inv s t p H O) as (A1 & A3). pose proof (own_c_inv s t' p' H' O') as (B1 & B3 & _).
      rewrite Hlg in A3, B3. rewrite Ec in A3. lia.
  - destruct O' as [O'|[O'|O']].
    + eapply (X t' t p' p); eauto. left; auto. right; auto.
    + pose proof (own_c_inv s t p H O) as (A1 & A3 & _). pose proof (own_d_inv s t' p' H' O') as (B1 & B3).
      rewrite Hlg in A3, B3. rewrite Ec in A3. lia.
    + pose proof (own_c_inv s t p H O) as (A1 & A3 & A4). pose proof (own_c_inv s t' p' H' O') as (B1 & B3 & B4).
      apply (i_s k s I) in A4. apply (i_s k s I) in B4. congruence.
Qed.

Lemma mpmc_empty_full_pf k c s : 1 <= k -> reachable step (init k c : state T) s ->
  exists q, legal (wfifo (cap k)) [] (effects (tr s)) q /\ length q <= cap k /\
    (q = [] -> empty s = true) /\ (length q = cap k -> is_full s = true) /\
    (empty s = true -> q = [] \/ exists t, enqueueing (pc s t)) /\
    (is_full s = true -> length q = cap k \/ exists t, dequeueing (pc s t)).
Proof.
  intros Hk R. pose proof (proj2 (reach k c Hk) s R) as I.
  exists (content s). split; [apply (i_legal k s I)|].
  assert (L : length (content s) = enq s - deq s) by (unfold content; rewrite skipn_length; rewrite (i_len k s I); auto).
  pose proof (i_le k s I). pose proof (i_cap k s I). split; [lia|].
  unfold empty, is_full. rewrite (i_lg k s I). pose proof (cap_ge2 k Hk).
  split; [|split; [|split]].
  - intros X. rewrite X in L. simpl in L. apply Nat.ltb_lt.
    destruct (Nat.lt_ge_cases (seq s (cell k (deq s))) (deq s + 1)) as [|G]; auto.
    destruct (seq_high_deq k s I) as (F & _); lia.
  - intros X. apply Nat.ltb_lt.
    destruct (cellst_of k s (enq s) I) as (p & Ec & C0 & C1 & C2). rewrite (i_lg k s I), Ec in *.
    assert (p < enq s) by lia.
    assert (enq s = p + cap k) by (apply cell_prev; congruence || lia).
    destruct C2 as [[A _]|[A _]]; lia.
  - intros X. apply Nat.ltb_lt in X. destruct (seq_low_deq k s (deq s) I) as (_ & [Y|[t Y]]); auto.
    + left. destruct (content s); auto. simpl in L. lia.
    + right. exists t. now apply own_e_enqueueing.
  - intros X. apply Nat.ltb_lt in X. destruct (seq_low_enq k s (enq s) I) as (_ & [Y|[t Y]]); auto.
    + left. lia.
    + right. exists t. now apply own_d_dequeueing.
Qed.

(** Destruction when no call is in progress. *)
Lemma destroy_loop_ok k s : inv k s -> (forall t, pc s t = Idle) ->
  forall n fuel pos d, deq s <= pos -> pos + n = enq s -> n < fuel ->
    (forall i, i < cap k -> (exists p, cell k p = i /\ pos <= p < enq s /\ d i = data s i) \/
        ((forall p, cell k p = i -> ~ (pos <= p < enq s)) /\ d i = None)) ->
    exists d', destroy_loop fuel k pos (seq s) d = Some d' /\ forall i, i < cap k -> d' i = None.
Proof.
  intros I Hid. pose proof (i_lg k s I) as Hlg. pose proof (i_cap k s I) as Hcap.
  assert (Hst : forall p, deq s <= p < enq s -> seq s (cell k p) = p + 1 /\ data s (cell k p) = nth_error (vals s) p).
  { intros p Hp. destruct (cellst_of k s p I) as (q & Ec & C0 & C1 & C2). rewrite Hlg, Ec in *.
    assert (p = q).
    { destruct (Nat.le_gt_cases q p). apply (cell_close k); congruence || lia.
      symmetry. apply (cell_close k); congruence || lia. }
    subst q. destruct C2 as [(S1 & [[A1 A2]|[A1 [t0 A2]]])|(S1 & A0 & [[A1 A2]|[A1 [t0 A2]]])]; try lia.
    - rewrite Hid in A2. discriminate.
    - split; auto. destruct A2 as [|[t A2]]; auto. rewrite Hid in A2. discriminate. }
  induction n; intros fuel pos d Hd Hn Hf Hm.
  - assert (pos = enq s) by lia. subst pos.
    assert (Hlow : seq s (cell k (enq s)) < enq s + 1).
    { destruct (cellst_of k s (enq s) I) as (q & Ec & C0 & C1 & C2). rewrite Hlg, Ec in *.
      pose proof (i_le k s I).
      destruct (Nat.eq_dec q (enq s)) as [->|N].
      - destruct C2 as [(S1 & _)|(S1 & A0 & _)]; lia.
      - assert (q < enq s).
        { destruct (Nat.lt_ge_cases q (enq s)); auto. exfalso. apply N. apply (cell_close k); congruence || lia. }
        destruct C2 as [(S1 & _)|(S1 & A0 & _)]; lia. }
    apply Nat.ltb_lt in Hlow. destruct fuel; simpl; rewrite Hlow; exists d; split; auto;
    intros i Hi; destruct (Hm i Hi) as [(p & _ & X & _)|[_ X]]; auto; lia.
  - destruct fuel as [|fuel]; [lia|]. simpl. destruct (Hst pos) as [S1 S2]; [lia|].
    assert (G : Nat.ltb (seq s (cell k pos)) (pos + 1) = false) by (apply Nat.ltb_ge; lia). rewrite G.
    assert (D : d (cell k pos) = nth_error (vals s) pos).
    { destruct (Hm (cell k pos) (cell_lt k pos)) as [(p & X1 & X2 & X3)|[X _]]; [congruence|].
      destruct (X pos eq_refl). lia. }
    rewrite D. destruct (nth_error (vals s) pos) eqn:Ev.
    2:{ apply nth_error_None in Ev. rewrite (i_len k s I) in Ev. lia. }
    apply IHn; [lia|lia|lia|]. intros i Hi. destruct (Nat.eq_dec i (cell k pos)) as [->|N].
    + right. rewrite upd_eq. split; auto. intros p Ep Hp. apply (cell_close k) in Ep; lia.
    + rewrite upd_neq by auto. destruct (Hm i Hi) as [(p & X1 & X2 & X3)|[X1 X2]].
      * left. exists p. split; auto. split; auto. assert (p <> pos) by congruence. lia.
      * right. split; auto. intros p Ep Hp. apply (X1 p Ep). lia.
Qed.

Lemma mpmc_destroy_pf k c s : 1 <= k -> reachable step (init k c : state T) s -> (forall t, pc s t = Idle) ->
  exists d, destroy s = Some d /\ forall i, i < cap k -> d i = None.
Proof.
  intros Hk R Hid. pose proof (proj2 (reach k c Hk) s R) as I. unfold destroy. rewrite (i_lg k s I).
  pose proof (i_le k s I). pose proof (i_cap k s I).
  apply (destroy_loop_ok k s I Hid (enq s - deq s)); try lia.
  intros i Hi. destruct (i_cells k s I i Hi) as (p & Ep & C0 & C1 & C2). rewrite (i_lg k s I), Ep in *.
  destruct C2 as [(S1 & [[A1 A2]|[A1 [t0 A2]]])|(S1 & A0 & [[A1 A2]|[A1 [t0 A2]]])].
  - right. split; auto. intros q Eq Hq. assert (p = q) by (apply (cell_close k); congruence || lia). lia.
  - rewrite Hid in A2. discriminate.
  - left. exists p. auto.
  - rewrite Hid in A2. discriminate.
Qed.
End P.
