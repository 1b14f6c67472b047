(** Proofs about TlsSocket. *)
From Verif Require Import Util Conc TlsModel TlsSpec.
Open Scope N_scope.

Arguments N.add : simpl never.
Arguments N.sub : simpl never.
Arguments N.min : simpl never.
Arguments N.max : simpl never.
Arguments N.eqb : simpl never.
Arguments N.ltb : simpl never.
Arguments N.leb : simpl never.
Global Opaque kBatch.

Lemma apps_app a b : apps (a ++ b) = apps a ++ apps b.
Proof. unfold apps. apply flat_map_app. Qed.
Lemma apps_A l : apps (List.map A l) = l.
Proof. induction l; cbn; [reflexivity | f_equal; exact IHl]. Qed.
Lemma apps_C n : apps (repeat C n) = [].
Proof. induction n; cbn; auto. Qed.
Lemma iapps_app a b : iapps (a ++ b) = iapps a ++ iapps b.
Proof. unfold iapps. apply flat_map_app. Qed.
Lemma take_add {X} a b (l : list X) : take (a + b) l = take a l ++ take b (drop a l).
Proof.
  rewrite <- (take_drop a (take (a + b) l)).
  rewrite take_take, drop_take. f_equal; f_equal; lia.
Qed.
Lemma len0 {X} : len (@nil X) = 0. Proof. reflexivity. Qed.
Lemma len_pos {X} (l : list X) : l <> [] -> 0 < len l.
Proof. destruct l; [congruence|]. rewrite len_cons. lia. Qed.
Lemma eqb0 {X} (l : list X) : (len l =? 0) = true <-> l = [].
Proof. rewrite N.eqb_eq. split; [apply len_zero | intros ->; reflexivity]. Qed.

(** ** The engine *)
Section Stream.
  Variable U : list N.

  (** [m] bytes of the stream went into the engine. *)
  Definition Wr (m : N) (wire : list tok) (e : eng) : Prop :=
    apps (wire ++ e_out e) = take m U /\ m <= len U /\ e_pend e = take (len (e_pend e)) (drop m U).

  Lemma Wr_emit m wire e n : Wr m wire e -> Wr m wire (emit (repeat C n) e).
  Proof.
    intros (H1 & H2 & H3). split; [|split]; cbn [emit e_out e_pend]; auto.
    rewrite app_assoc, apps_app, apps_C, app_nil_r. exact H1.
  Qed.
  Lemma Wr_kill m wire e : Wr m wire e -> Wr m wire (kill e).
  Proof. intros H; exact H. Qed.
  Lemma Wr_in m wire e l : Wr m wire e -> Wr m wire (set_in l e).
  Proof. intros H; exact H. Qed.
  Lemma Wr_consume m wire e k : Wr m wire e -> Wr m (wire ++ take k (e_out e)) (consume k e).
  Proof.
    intros (H1 & H2 & H3). split; [|split]; cbn [consume e_out e_pend]; auto.
    rewrite <- app_assoc, take_drop. exact H1.
  Qed.

  (** What an engine operation may do besides. *)
  Definition grows (e e' : eng) (bytes : list N) : Prop :=
    exists l, e_out e' = e_out e ++ l /\ apps l = bytes.
  Lemma grows_refl e : grows e e [].
  Proof. exists []. rewrite app_nil_r. auto. Qed.
  Lemma grows_trans e1 e2 e3 a b : grows e1 e2 a -> grows e2 e3 b -> grows e1 e3 (a ++ b).
  Proof.
    intros (l1 & H1 & A1) (l2 & H2 & A2). exists (l1 ++ l2). rewrite H2, H1, app_assoc, apps_app, A1, A2. auto.
  Qed.
  Lemma grows_C e n : grows e (emit (repeat C n) e) [].
  Proof. exists (repeat C n). split; [reflexivity | apply apps_C]. Qed.
  Lemma grows_len e e' b : grows e e' b -> len (e_out e) <= len (e_out e').
  Proof. intros (l & H & _). rewrite H, len_app. lia. Qed.
  Lemma grows_apps e e' b : grows e e' b -> apps (e_out e') = apps (e_out e) ++ b.
  Proof. intros (l & H & E). rewrite H, apps_app, E. reflexivity. Qed.

  Lemma Wr_grows m wire e e' b : Wr m wire e -> grows e e' b ->
    b = take (len b) (drop m U) -> e_pend e' = take (len (e_pend e')) (drop (m + len b) U) -> Wr (m + len b) wire e'.
  Proof.
    intros (H1 & H2 & H3) (l & G1 & G2) Hb Hp.
    assert (L : len b <= len U - m).
    { rewrite Hb at 1. rewrite len_take, len_drop. lia. }
    split; [|split]; [| lia | exact Hp].
    rewrite G1, app_assoc, apps_app, H1, G2, take_add, <- Hb. reflexivity.
  Qed.

  Lemma eng_write_ok m wire buf ch e : Wr m wire e -> buf = take (len buf) (drop m U) -> 0 < len buf ->
    let '(r, e') := eng_write buf ch e in
    e_in e' = e_in e /\
    match r with
    | Got k => 1 <= k <= len buf /\ grows e e' (take k buf) /\ Wr (m + k) wire e'
    | Op _ => grows e e' [] /\ Wr m wire e'
    end.
  Proof.
    intros H Hb Hl. unfold eng_write.
    pose proof (Wr_emit _ _ _ (w_ctl ch) H) as H1. pose proof (grows_C e (w_ctl ch)) as G1.
    set (e1 := emit (repeat C (w_ctl ch)) e) in *.
    assert (Hi : e_in e1 = e_in e) by reflexivity.
    destruct (e_dead e1); [auto|].
    destruct (negb (len (e_pend e1) =? 0) && (len buf <? len (e_pend e1))) eqn:Es; [auto|].
    assert (SAME : forall o, e_in e1 = e_in e /\ match Op o with
        | Got k => 1 <= k <= len buf /\ grows e e1 (take k buf) /\ Wr (m + k) wire e1
        | Op _ => grows e e1 [] /\ Wr m wire e1 end) by auto.
    set (want := match w_dec ch with WAccept _ => false | _ => negb (len (e_out e1) =? 0) end).
    set (k := match w_dec ch with WAccept k | WWant k => clamp k (len buf) | _ => len buf end).
    set (p := if len (e_pend e1) =? 0 then take k buf else e_pend e1).
    assert (Hk : 1 <= k <= len buf) by (unfold k, clamp; destruct (w_dec ch); lia).
    assert (Hp : p = take (len p) buf /\ 1 <= len p <= len buf).
    { unfold p. destruct (N.eqb_spec (len (e_pend e1)) 0) as [E|E].
      - rewrite len_take, N.min_l by lia. auto.
      - cbn [negb andb] in Es. apply N.ltb_ge in Es. split; [|lia].
        destruct H1 as (_ & _ & H1). rewrite H1 at 1. rewrite Hb, take_take. f_equal. lia. }
    assert (BODY : let '(r, e') := if want then (Op NeedW, set_pend p e1)
                     else (Got (len p), set_pend [] (emit (List.map A p) e1)) in
       e_in e' = e_in e /\ match r with
        | Got k => 1 <= k <= len buf /\ grows e e' (take k buf) /\ Wr (m + k) wire e'
        | Op _ => grows e e' [] /\ Wr m wire e' end).
    { destruct Hp as [Hp Hlp]. destruct want.
      - split; [reflexivity|]. split; [exact G1|].
        destruct H1 as (Q1 & Q2 & _). split; [exact Q1|]. split; [exact Q2|]. cbn [set_pend e_pend].
        rewrite Hp at 1. rewrite Hb, take_take. f_equal. lia.
      - split; [reflexivity|]. split; [exact Hlp|].
        assert (G2 : grows e (set_pend [] (emit (List.map A p) e1)) (take (len p) buf)).
        { change (take (len p) buf) with ([] ++ take (len p) buf). eapply grows_trans; [exact G1|].
          exists (List.map A p). split; [reflexivity|]. rewrite apps_A. exact Hp. }
        split; [exact G2|].
        assert (El : len (take (len p) buf) = len p) by (rewrite len_take; lia).
        rewrite <- El. eapply Wr_grows; [exact H | exact G2 | | ].
        + rewrite El. rewrite Hb at 1. rewrite take_take. f_equal. lia.
        + reflexivity. }
    destruct (w_dec ch) as [k0|k0|[| | |]] eqn:Ed; try exact BODY; auto.
  Qed.

  Lemma gather_ok iov : forall acc, let '(buf, rest) := gather acc iov in
    acc ++ concat iov = buf ++ concat rest /\ (length rest <= length iov)%nat /\ len acc <= len buf
    /\ exists pre, iov = pre ++ rest.
  Proof.
    induction iov as [|b r IH]; intros acc; cbn [gather].
    - cbn. split; [reflexivity|]. split; [lia|]. split; [lia|]. exists []; reflexivity.
    - destruct (N.leb_spec (len acc + len b) kBatch).
      + specialize (IH (acc ++ b)). destruct (gather (acc ++ b) r) as [buf rest].
        destruct IH as (I1 & I2 & I3 & (pre & I4)). cbn [concat length]. rewrite app_assoc. rewrite len_app in I3.
        split; [exact I1|]. split; [lia|]. split; [lia|]. exists (b :: pre). rewrite I4; reflexivity.
      + split; [reflexivity|]. split; [lia|]. split; [lia|]. exists []; reflexivity.
  Qed.
  Lemma batch_ok b r : let '(buf, rest) := batch b r in
    b ++ concat r = buf ++ concat rest /\ (length rest <= length r)%nat /\ len b <= len buf
    /\ exists pre, r = pre ++ rest.
  Proof.
    unfold batch. destruct r as [|x r].
    - cbn. split; [reflexivity|]. split; [lia|]. split; [lia|]. exists []; reflexivity.
    - destruct (kBatch <=? len b).
      + split; [reflexivity|]. split; [lia|]. split; [lia|]. exists []; reflexivity.
      + apply gather_ok.
  Qed.

  Definition nonempty (iov : list (list N)) : Prop := Forall (fun b => 0 < len b) iov.

  Lemma push_loop_ok fuel : forall iov chs w e m wire, Wr m wire e ->
    concat iov = take (len (concat iov)) (drop m U) ->
    match push_loop fuel iov chs w e with
    | None => ~ nonempty iov
    | Some (w', o, e') => exists d, w' = w + d /\ d <= len (concat iov)
        /\ e_in e' = e_in e /\ grows e e' (take d (concat iov)) /\ Wr (m + d) wire e'
    end.
  Proof.
    induction fuel as [|f IH]; intros iov chs w e m wire H Hc; cbn [push_loop].
    { exists 0. rewrite take_0, !N.add_0_r. repeat (split; [solve [auto | lia]|]).
      split; [apply grows_refl | exact H]. }
    destruct iov as [|b r].
    { exists 0. rewrite take_0, !N.add_0_r. repeat (split; [solve [auto | lia]|]).
      split; [apply grows_refl | exact H]. }
    pose proof (batch_ok b r) as B. destruct (batch b r) as [buf rest].
    destruct B as (B1 & B2 & B3 & (pre & B4)).
    destruct (N.eqb_spec (len buf) 0) as [E0|E0].
    { intros Hn. inversion_clear Hn. lia. }
    cbn [concat] in Hc |- *. rewrite B1 in Hc |- *. rewrite len_app in Hc.
    assert (Hb : buf = take (len buf) (drop m U)).
    { pose proof (f_equal (take (len buf)) Hc) as X. rewrite take_take, N.min_l in X by lia.
      rewrite take_app_eq in X by reflexivity. exact X. }
    set (cc := match chs with [] => _ | c :: t => (c, t) end). destruct cc as [c0 chs'].
    pose proof (eng_write_ok m wire buf c0 e H Hb ltac:(lia)) as P.
    destruct (eng_write buf c0 e) as [[k|o] e1]; destruct P as (P0 & P).
    2:{ exists 0. rewrite take_0, !N.add_0_r. destruct P as [P1 P2].
        split; [reflexivity|]. split; [lia|]. split; [exact P0|]. split; [exact P1 | exact P2]. }
    destruct P as (P1 & P2 & P3).
    destruct (N.eqb_spec k (len buf)) as [Ek|Ek].
    - subst k. rewrite take_all in P2 by lia.
      assert (Hr : concat rest = take (len (concat rest)) (drop (m + len buf) U)).
      { pose proof (f_equal (drop (len buf)) Hc) as X. rewrite drop_app_eq in X by reflexivity.
        rewrite drop_take, drop_drop in X. rewrite X at 1. f_equal. lia. }
      specialize (IH rest chs' (w + len buf) e1 (m + len buf) wire P3 Hr).
      destruct (push_loop f rest chs' (w + len buf) e1) as [[[w' o'] e']|].
      + destruct IH as (d & D1 & D2 & D3 & D4 & D5). exists (len buf + d).
        split; [lia|]. split; [rewrite len_app; lia|]. split; [congruence|]. split.
        * rewrite take_add, take_app_eq, drop_app_eq by reflexivity. eapply grows_trans; eauto.
        * rewrite N.add_assoc. exact D5.
      + intros Hn. apply IH. inversion_clear Hn. unfold nonempty in *. rewrite B4 in H1.
        apply Forall_app in H1. apply H1.
    - exists k. split; [reflexivity|]. split; [rewrite len_app; lia|]. split; [exact P0|].
      split; [|exact P3]. rewrite take_app_le by lia. exact P2.
  Qed.

  Lemma push_ok iov chs e m wire : Wr m wire e ->
    concat iov = take (len (concat iov)) (drop m U) ->
    match push iov chs e with
    | None => ~ nonempty iov
    | Some (w, o, e') => w <= len (concat iov)
        /\ e_in e' = e_in e /\ grows e e' (take w (concat iov)) /\ Wr (m + w) wire e'
    end.
  Proof.
    intros H Hc. unfold push. pose proof (push_loop_ok (length iov) iov chs 0 e m wire H Hc) as P.
    destruct (push_loop (length iov) iov chs 0 e) as [[[w o] e']|]; [|exact P].
    destruct P as (d & -> & P). rewrite N.add_0_l. exact P.
  Qed.
End Stream.

(** Input. *)
Lemma strip_ok l : exists pre, l = pre ++ strip l /\ iapps pre = [] /\ ~ In IZ pre.
Proof.
  induction l as [|t l (pre & I1 & I2 & I3)]; [exists []; auto|].
  destruct t; cbn [strip]; try (exists []; split; [reflexivity|]; split; [reflexivity | intros []]).
  exists (IC :: pre). split; [cbn; congruence|]. split; [exact I2|]. intros [X|X]; [discriminate | auto].
Qed.
Lemma run_ok l : exists tl, l = List.map IA (run_of l) ++ tl.
Proof.
  induction l as [|t l (tl & I)]; [exists []; reflexivity|].
  destruct t; try (eexists; reflexivity). cbn [run_of List.map]. exists tl. cbn. congruence.
Qed.
Lemma iapps_IA l : iapps (List.map IA l) = l.
Proof. induction l; cbn; [reflexivity | f_equal; exact IHl]. Qed.
Lemma IA_no_IZ l : ~ In IZ (List.map IA l).
Proof. intros I. apply in_map_iff in I as (x & E & _). discriminate. Qed.
Lemma run_drop k l : k <= len (run_of l) -> l = List.map IA (take k (run_of l)) ++ drop k l.
Proof.
  intros Hk. destruct (run_ok l) as (tl & E). rewrite <- (take_drop k l) at 1. f_equal.
  rewrite E at 1. rewrite take_app_le by (rewrite len_map; exact Hk). apply take_map.
Qed.

Lemma eng_read_ok n ch e : let '(r, b, e') := eng_read n ch e in
  grows e e' [] /\ e_pend e' = e_pend e /\
  (exists con, e_in e = con ++ e_in e' /\ iapps con = b /\ ~ In IZ con) /\
  match r with
  | Got k => (n = 0 /\ k = 0 /\ b = [] /\ e' = e) \/ (0 < k <= n /\ len b = k)
  | Op Graceful => b = [] /\ exists t, e_in e' = IZ :: t
  | Op _ => b = []
  end.
Proof.
  unfold eng_read. destruct (N.eqb_spec n 0) as [->|Hn].
  { split; [apply grows_refl|]. split; [reflexivity|]. split; [exists []; auto|]. left; auto. }
  pose proof (grows_C e (r_ctl ch)) as G. set (e1 := emit (repeat C (r_ctl ch)) e) in *.
  assert (Hi : e_in e1 = e_in e) by reflexivity. assert (Hp : e_pend e1 = e_pend e) by reflexivity.
  assert (NC : exists con, e_in e = con ++ e_in e1 /\ iapps con = [] /\ ~ In IZ con)
    by (exists []; rewrite Hi; auto).
  destruct (e_dead e1); [auto|]. destruct (r_bad ch); [auto|].
  destruct (r_want ch && negb (len (e_out e1) =? 0)); [auto|].
  rewrite Hi. destruct (strip_ok (e_in e)) as (pre & S1 & S2 & S3).
  set (l := strip (e_in e)) in *.
  assert (SC : exists con, e_in e = con ++ l /\ iapps con = [] /\ ~ In IZ con) by eauto.
  destruct l as [|t l'] eqn:El.
  { cbn [set_in e_in e_pend]. auto. }
  assert (BODY : let k := N.min (N.max 1 (r_k ch)) (N.min n (len (run_of l))) in
    t <> IZ -> t <> IC ->
    let e' := set_in (drop k l) e1 in
    grows e e' [] /\ e_pend e' = e_pend e /\
    (exists con, e_in e = con ++ e_in e' /\ iapps con = take k (run_of l) /\ ~ In IZ con)
    /\ 0 < k <= n /\ len (take k (run_of l)) = k).
  { intros k T1 T2 e'. destruct t as [b0| |]; [|congruence|congruence].
    assert (0 < len (run_of l)). { rewrite El. cbn [run_of]. rewrite len_cons. lia. }
    split; [exact G|]. split; [exact Hp|]. split.
    - exists (pre ++ List.map IA (take k (run_of l))). cbn [e' set_in e_in].
      rewrite <- app_assoc, <- run_drop by lia. rewrite El. split; [exact S1|].
      rewrite iapps_app, S2, iapps_IA. split; [reflexivity|].
      intros I. apply in_app_or in I as [I|I]; [auto | eapply IA_no_IZ; eauto].
    - split; [lia|]. rewrite len_take. lia. }
  destruct t as [b0| |].
  - specialize (BODY ltac:(discriminate) ltac:(discriminate)). cbv zeta in BODY.
    rewrite El in BODY. destruct BODY as (Y1 & Y2 & Y3 & Y4 & Y5).
    split; [exact Y1|]. split; [exact Y2|]. split; [exact Y3|]. right. split; [exact Y4 | exact Y5].
  - exfalso. clear -El. revert El. unfold l. induction (e_in e) as [|t0 l0 IH]; cbn [strip]; [discriminate|].
    destruct t0; try discriminate. exact IH.
  - cbn [set_in e_in e_pend]. split; [exact G|]. split; [exact Hp|]. split; [exact SC|]. split; [reflexivity|]. eauto.
Qed.

(** ** The invariant *)
Definition b2n (b : bool) : nat := if b then 1%nat else 0%nat.

Definition is_w (k : cont) : Prop := match k with KAfter _ _ | KRet _ => True | KUp k => (exists iov w, k = KAfter iov w) | _ => False end.
Fixpoint is_r (k : cont) : Prop := match k with KRead _ _ _ => True | KUp k => is_r k | _ => False end.
Fixpoint iov_ok (U : list N) (pos : N) (k : cont) : Prop :=
  match k with
  | KAfter iov w => concat iov = take (len (concat iov)) (drop pos U)
  | KUp k => iov_ok U pos k
  | _ => True
  end.
Fixpoint non_ok (k : cont) : Prop :=
  match k with KAfter iov _ => nonempty iov | KUp k => non_ok k | _ => True end.

Definition quiet (s : st) : Prop :=
  s_werr s = false /\
  match s_w s with Idle => s_owed s = false | Run (KRet _) | WaitW (KRet _) => True | _ => False end.


Section Inv.
  Variables (U : list N) (RX : list itok).

  Record Inv (s : st) : Prop := {
    i_wfl : (b2n (sending (s_w s)) + b2n (sending (s_r s)) + b2n (sending (s_d s)) = b2n (s_wfl s))%nat;
    i_rfl : (b2n (receiving (s_w s)) + b2n (receiving (s_r s)) = b2n (s_rfl s))%nat;
    i_n : forall t n k, pc_of t s = Send n k -> 0 < n <= len (out s);
    i_d : s_d s = Idle /\ s_drain s = false \/ exists n, s_d s = Send n KDrain;
    i_wk : forall k, p_cont (s_w s) = Some k -> is_w k /\ iov_ok U (s_pos s) k;
    i_rk : forall k, p_cont (s_r s) = Some k -> is_r k;
    i_we : s_werr s = true -> s_w s = Idle;
    i_wr : exists m, Wr U m (s_wire s) (s_e s) /\ s_pos s <= m /\ (s_werr s = false -> m = s_pos s + taken (s_w s));
    i_rd : exists con, RX = con ++ e_in (s_e s) ++ s_rx s /\ iapps con = s_dl s ++ got_of (s_r s) /\ ~ In IZ con;
    i_fl : quiet s -> s_fail s = true \/ s_wfl s = true \/ apps (out s) = [];
    i_eof : eof_seen (s_log s) -> (exists t, e_in (s_e s) = IZ :: t) /\ got_of (s_r s) = [] }.

  (** Thread [t] is about to go on at [k]. *)
  Definition at_k (t : th) (k : cont) (s : st) : Prop := Inv (with_pc t (WaitR k) s).

  Lemma init_inv : Inv (init RX).
  Proof.
    constructor; cbn; try discriminate; auto.
    - intros []; discriminate.
    - exists 0. split; [|split; [lia|auto]]. split; [|split]; [reflexivity | lia | reflexivity].
    - exists []. split; [reflexivity|]. split; [reflexivity | intros []].
    - intros [[]|(n & _ & [])].
  Qed.

  Lemma run_at t k s : Inv s -> pc_of t s = Run k \/ pc_of t s = WaitW k \/ pc_of t s = WaitR k -> t <> D -> at_k t k s.
  Proof.
    intros [H1 H2 H3 H4 H5 H6 H7 H8 H9 H10 H11] Hp Ht.
    destruct t; [| |congruence]; cbn [pc_of] in Hp;
      (assert (Ec : p_cont (WaitR k) = Some k) by reflexivity);
      constructor; cbn [with_pc s_e s_wfl s_rfl s_drain s_w s_r s_d s_wire s_rx s_pos s_werr s_dl s_fail s_owed s_log out sending receiving] in *;
      try assumption.
    - destruct Hp as [Hp|[Hp|Hp]]; rewrite Hp in H1; exact H1.
    - destruct Hp as [Hp|[Hp|Hp]]; rewrite Hp in H2; exact H2.
    - intros [] n k0 X; cbn in X; [discriminate| |].
      + apply (H3 R n k0 X).
      + apply (H3 D n k0 X).
    - intros k0 X. injection X as <-. apply H5. destruct Hp as [Hp|[Hp|Hp]]; rewrite Hp; reflexivity.
    - intros X. specialize (H7 X). destruct Hp as [Hp|[Hp|Hp]]; congruence.
    - destruct H8 as (m & M1 & M2 & M3). exists m. split; [exact M1|]. split; [exact M2|]. intros X. rewrite (M3 X).
      unfold taken. destruct Hp as [Hp|[Hp|Hp]]; rewrite Hp; reflexivity.
    - intros [X Y]. cbn in Y. contradiction.
    - destruct Hp as [Hp|[Hp|Hp]]; rewrite Hp in H1; exact H1.
    - destruct Hp as [Hp|[Hp|Hp]]; rewrite Hp in H2; exact H2.
    - intros [] n k0 X; cbn in X; [|discriminate|].
      + apply (H3 W n k0 X).
      + apply (H3 D n k0 X).
    - intros k0 X. injection X as <-. apply H6. destruct Hp as [Hp|[Hp|Hp]]; rewrite Hp; reflexivity.
    - destruct H9 as (con & M1 & M2 & M3). exists con. split; [exact M1|]. split; [|exact M3]. rewrite M2.
      unfold got_of. destruct Hp as [Hp|[Hp|Hp]]; rewrite Hp; reflexivity.
    - intros X. destruct (H11 X) as [Y1 Y2]. split; [exact Y1|]. rewrite <- Y2.
      unfold got_of. destruct Hp as [Hp|[Hp|Hp]]; rewrite Hp; reflexivity.
  Qed.

  Lemma at_pc t k s p a b : at_k t k s -> t <> D -> p_cont p = Some k ->
    (sending p = true /\ s_wfl s = false /\ a = true \/ sending p = false /\ a = s_wfl s) ->
    (receiving p = true /\ s_rfl s = false /\ b = true \/ receiving p = false /\ b = s_rfl s) ->
    (forall n k0, p = Send n k0 -> 0 < n <= len (out s)) ->
    (s_fail s = true \/ a = true \/ apps (out s) = [] \/ forall w, k <> KRet w) ->
    Inv (with_pc t p (with_wfl a (with_rfl b s))).
  Proof.
    intros [H1 H2 H3 H4 H5 H6 H7 H8 H9 H10 H11] Ht Hp Ha Hb Hn Hq.
    destruct t; [| |congruence];
      constructor; cbn [with_pc with_wfl with_rfl s_e s_wfl s_rfl s_drain s_w s_r s_d s_wire s_rx s_pos s_werr s_dl s_fail s_owed s_log out sending receiving b2n] in *;
      try assumption.
    - destruct Ha as [(-> & Ha & ->)|(-> & ->)]; cbn [b2n]; [rewrite Ha in H1; cbn [b2n] in H1|]; lia.
    - destruct Hb as [(-> & Hb & ->)|(-> & ->)]; cbn [b2n]; [rewrite Hb in H2; cbn [b2n] in H2|]; lia.
    - intros [] n k0 X; cbn [pc_of] in X; cbn [s_w s_r s_d] in X.
      + apply (Hn n k0 X).
      + apply (H3 R n k0 X).
      + apply (H3 D n k0 X).
    - intros k0 X. rewrite Hp in X. injection X as <-. apply H5. reflexivity.
    - intros X. specialize (H7 X). discriminate.
    - destruct H8 as (m & M1 & M2 & M3). exists m. split; [exact M1|]. split; [exact M2|]. intros X.
      rewrite (M3 X). unfold taken. rewrite Hp. reflexivity.
    - intros [X Y]. cbn [s_w s_werr s_owed] in X, Y.
      destruct Hq as [Q|[Q|[Q|Q]]]; auto. exfalso.
      destruct p as [|k0|k0|k0|n0 k0|k0]; cbn [p_cont] in Hp; try discriminate; try contradiction;
        injection Hp as ->; destruct k; try contradiction; eapply Q; reflexivity.
    - destruct Ha as [(-> & Ha & ->)|(-> & ->)]; cbn [b2n]; [rewrite Ha in H1; cbn [b2n] in H1|]; lia.
    - destruct Hb as [(-> & Hb & ->)|(-> & ->)]; cbn [b2n]; [rewrite Hb in H2; cbn [b2n] in H2|]; lia.
    - intros [] n k0 X; cbn [pc_of] in X; cbn [s_w s_r s_d] in X.
      + apply (H3 W n k0 X).
      + apply (Hn n k0 X).
      + apply (H3 D n k0 X).
    - intros k0 X. rewrite Hp in X. injection X as <-. apply H6. reflexivity.
    - destruct H9 as (con & M1 & M2 & M3). exists con. split; [exact M1|]. split; [|exact M3]. rewrite M2.
      unfold got_of. rewrite Hp. reflexivity.
    - intros X. destruct (H10 X) as [Y|[Y|Y]]; auto. right. left.
      destruct Ha as [(_ & _ & ->)|(_ & ->)]; auto.
    - intros X. destruct (H11 X) as [Y1 Y2]. split; [exact Y1|]. rewrite <- Y2.
      unfold got_of. rewrite Hp. reflexivity.
  Qed.

  Definition frame (s s' : st) : Prop :=
    s_wfl s' = s_wfl s /\ s_rfl s' = s_rfl s /\ s_drain s' = s_drain s /\ s_w s' = s_w s /\ s_r s' = s_r s
    /\ s_d s' = s_d s /\ s_pos s' = s_pos s /\ s_werr s' = s_werr s /\ s_dl s' = s_dl s /\ s_owed s' = s_owed s
    /\ s_log s' = s_log s.

  (** Changes of the engine and of the network, without new bytes in or out. *)
  Lemma inv_env s s' : Inv s -> frame s s' ->
    (s_wfl s = true -> len (out s) <= len (out s')) ->
    (forall m, Wr U m (s_wire s) (s_e s) -> Wr U m (s_wire s') (s_e s')) ->
    (exists con, e_in (s_e s) ++ s_rx s = con ++ e_in (s_e s') ++ s_rx s' /\ iapps con = [] /\ ~ In IZ con) ->
    (forall t, e_in (s_e s) = IZ :: t -> exists t', e_in (s_e s') = IZ :: t') ->
    (s_fail s = true -> s_fail s' = true) ->
    (apps (out s) = [] -> apps (out s') = []) ->
    Inv s'.
  Proof.
    intros [H1 H2 H3 H4 H5 H6 H7 H8 H9 H10 H11] (F1 & F2 & F3 & F4 & F5 & F6 & F7 & F8 & F9 & F10 & F11) C1 C2 C3 C4 C5 C6.
    constructor; try (rewrite ?F1, ?F2, ?F3, ?F4, ?F5, ?F6, ?F7, ?F8, ?F9, ?F10, ?F11; assumption).
    - intros t n k X. assert (Y : pc_of t s = Send n k) by (rewrite <- X; destruct t; cbn [pc_of]; congruence).
      pose proof (H3 _ _ _ Y) as Z. split; [lia|].
      assert (s_wfl s = true).
      { destruct (s_wfl s); [reflexivity|]. exfalso. cbn [b2n] in H1. destruct t; cbn [pc_of] in Y; rewrite Y in H1; cbn [sending b2n] in H1; lia. }
      specialize (C1 H). lia.
    - destruct H8 as (m & M1 & M2 & M3). exists m. rewrite F7, F8, F4. auto.
    - destruct H9 as (con & M1 & M2 & M3). destruct C3 as (con2 & N1 & N2 & N3). exists (con ++ con2).
      rewrite F9, F5, iapps_app, N2, app_nil_r. split; [|split; [exact M2|]].
      + rewrite <- app_assoc, <- N1. exact M1.
      + intros X. apply in_app_or in X as [X|X]; auto.
    - intros Q. assert (Q' : quiet s) by (unfold quiet in *; rewrite F8, F4, F10 in Q; exact Q).
      destruct (H10 Q') as [Y|[Y|Y]]; auto. right. left. rewrite F1. exact Y.
    - rewrite F11, F5. intros X. destruct (H11 X) as ((t & Y1) & Y2). split; [eapply C4; eauto | exact Y2].
  Qed.

  Lemma at_env t k s s' : at_k t k s -> frame s s' ->
    (s_wfl s = true -> len (out s) <= len (out s')) ->
    (forall m, Wr U m (s_wire s) (s_e s) -> Wr U m (s_wire s') (s_e s')) ->
    (exists con, e_in (s_e s) ++ s_rx s = con ++ e_in (s_e s') ++ s_rx s' /\ iapps con = [] /\ ~ In IZ con) ->
    (forall t, e_in (s_e s) = IZ :: t -> exists t', e_in (s_e s') = IZ :: t') ->
    (s_fail s = true -> s_fail s' = true) ->
    (apps (out s) = [] -> apps (out s') = []) ->
    at_k t k s'.
  Proof.
    intros H F C1 C2 C3 C4 C5 C6. unfold at_k in *. apply inv_env with (s := with_pc t (WaitR k) s); auto.
    destruct F as (F1 & F2 & F3 & F4 & F5 & F6 & F7 & F8 & F9 & F10 & F11).
    unfold frame; cbn [with_pc s_wfl s_rfl s_drain s_w s_r s_d s_pos s_werr s_dl s_owed s_log].
    rewrite F1, F2, F3, F4, F5, F6, F7, F8, F9, F10, F11. repeat split.
  Qed.

  Lemma same_in s s' : e_in (s_e s') = e_in (s_e s) -> s_rx s' = s_rx s ->
    (exists con, e_in (s_e s) ++ s_rx s = con ++ e_in (s_e s') ++ s_rx s' /\ iapps con = [] /\ ~ In IZ con)
    /\ (forall t, e_in (s_e s) = IZ :: t -> exists t', e_in (s_e s') = IZ :: t').
  Proof.
    intros E1 E2. split.
    - exists []. rewrite E1, E2. split; [reflexivity|]. split; [reflexivity | intros []].
    - intros t X. exists t. congruence.
  Qed.

  (** Input arrives. *)
  Definition commit (m : N) (s : st) : st :=
    with_rx (drop m (s_rx s)) (with_e (set_in (e_in (s_e s) ++ take m (s_rx s)) (s_e s)) s).
  Lemma at_commit t k s m : at_k t k s -> at_k t k (commit m s).
  Proof.
    intros H. eapply at_env; [exact H | repeat split | | | | | |]; auto.
    - intros _. apply N.le_refl.
    - exists []. cbn [app commit with_rx with_e s_e s_rx set_in e_in]. rewrite <- app_assoc, take_drop.
      split; [reflexivity|]. split; [reflexivity | intros []].
    - intros t0 X. cbn [commit with_rx with_e s_e set_in e_in]. rewrite X. eexists. reflexivity.
  Qed.

  (** Output leaves, while no write is in progress. *)
  Definition leave (m : N) (s : st) : st :=
    with_wire (s_wire s ++ take m (out s)) (with_e (consume m (s_e s)) s).
  Lemma apps_drop m l : apps l = [] -> apps (drop m l) = [].
  Proof.
    intros H. rewrite <- (take_drop m l), apps_app in H. apply app_eq_nil in H. apply H.
  Qed.
  Lemma at_leave t k s m : at_k t k s -> s_wfl s = false -> at_k t k (leave m s).
  Proof.
    intros H Hw. eapply at_env; [exact H | repeat split | | | | | |]; auto.
    - congruence.
    - intros m0 X. apply Wr_consume. exact X.
    - apply same_in; reflexivity.
    - apply same_in; reflexivity.
    - apply apps_drop.
  Qed.

  Lemma at_fail t k s : at_k t k s -> at_k t k (with_fail s).
  Proof.
    intros H. eapply at_env; [exact H | repeat split | | | | | |]; auto.
    - intros _. apply N.le_refl.
    - apply same_in; reflexivity.
    - intros t0 X. eauto.
  Qed.

  (** The engine takes bytes of the writer. *)
  Lemma at_push iov w s d e : at_k W (KAfter iov w) s ->
    (forall m, Wr U m (s_wire s) (s_e s) -> Wr U (m + d) (s_wire s) e) ->
    len (out s) <= len (e_out e) -> e_in e = e_in (s_e s) ->
    at_k W (KAfter iov (w + d)) (with_e e s).
  Proof.
    intros [H1 H2 H3 H4 H5 H6 H7 H8 H9 H10 H11] C1 C2 C3.
    constructor; cbn [with_pc with_e s_e s_wfl s_rfl s_drain s_w s_r s_d s_wire s_rx s_pos s_werr s_dl s_fail s_owed s_log out sending receiving b2n] in *;
      try assumption.
    - intros [] n k0 X; cbn [pc_of s_w s_r s_d] in X; [discriminate| |].
      + pose proof (H3 R n k0 X) as Y. change (0 < n <= len (out s)) in Y. unfold out in *; cbn [with_pc with_e s_e]; lia.
      + pose proof (H3 D n k0 X) as Y. change (0 < n <= len (out s)) in Y. unfold out in *; cbn [with_pc with_e s_e]; lia.
    - intros k X. injection X as <-. apply (H5 (KAfter iov w)). reflexivity.
    - intros X. specialize (H7 X). discriminate.
    - destruct H8 as (m & M1 & M2 & M3). exists (m + d). split; [apply C1; exact M1|]. split; [lia|].
      intros X. rewrite (M3 X). unfold taken; cbn [p_cont k_taken]. lia.
    - rewrite C3. exact H9.
    - intros [_ []].
    - rewrite C3. exact H11.
  Qed.

  (** The engine yields bytes to the reader. *)
  Lemma at_read n rest got n' rest' b e s : at_k R (KRead n rest got) s ->
    grows (s_e s) e [] -> e_pend e = e_pend (s_e s) ->
    (exists con, e_in (s_e s) = con ++ e_in e /\ iapps con = b /\ ~ In IZ con) ->
    at_k R (KRead n' rest' (got ++ b)) (with_e e s).
  Proof.
    intros [H1 H2 H3 H4 H5 H6 H7 H8 H9 H10 H11] G P (con & C1 & C2 & C3).
    constructor; cbn [with_pc with_e s_e s_wfl s_rfl s_drain s_w s_r s_d s_wire s_rx s_pos s_werr s_dl s_fail s_owed s_log out sending receiving b2n] in *;
      try assumption.
    - pose proof (grows_len _ _ _ G) as L.
      intros [] m k0 X; cbn [pc_of s_w s_r s_d] in X; [|discriminate|].
      + pose proof (H3 W m k0 X) as Y. change (0 < m <= len (out s)) in Y. unfold out in *; cbn [with_pc with_e s_e]; lia.
      + pose proof (H3 D m k0 X) as Y. change (0 < m <= len (out s)) in Y. unfold out in *; cbn [with_pc with_e s_e]; lia.
    - intros k X. injection X as <-. exact I.
    - destruct H8 as (m & M1 & M2 & M3). exists m. split; [|auto].
      rewrite <- (N.add_0_r m). change 0 with (len (@nil N)). eapply Wr_grows; eauto.
      change (len (@nil N)) with 0. rewrite N.add_0_r, P. apply M1.
    - destruct H9 as (con0 & M1 & M2 & M3). exists (con0 ++ con). unfold got_of in *; cbn [p_cont k_got] in *.
      split; [|split].
      + rewrite <- app_assoc. rewrite (app_assoc con), <- C1. exact M1.
      + rewrite iapps_app, M2, C2, <- app_assoc. reflexivity.
      + intros X. apply in_app_or in X as [X|X]; auto.
    - intros Q. destruct (H10 Q) as [Y|[Y|Y]]; auto. right. right.
      unfold out in *; cbn [with_pc with_e s_e] in *. rewrite (grows_apps _ _ _ G), Y. reflexivity.
    - intros X. destruct (H11 X) as ((t & Y1) & Y2). unfold got_of in *; cbn [p_cont k_got] in *. subst got.
      rewrite Y1 in C1. destruct con as [|c con].
      + cbn in C1, C2. subst b. split; [eauto | reflexivity].
      + injection C1 as <- _. exfalso. apply C3. left. reflexivity.
  Qed.

  (** The end of calls. *)
  Lemma ret_read_inv n rest got s : at_k R (KRead n rest got) s ->
    (got = [] -> exists t, e_in (s_e s) = IZ :: t) -> Inv (ret_read R got s).
  Proof.
    intros [H1 H2 H3 H4 H5 H6 H7 H8 H9 H10 H11] Hz. unfold ret_read.
    constructor; cbn [note with_pc with_dl s_e s_wfl s_rfl s_drain s_w s_r s_d s_wire s_rx s_pos s_werr s_dl s_fail s_owed s_log out sending receiving b2n] in *;
      try assumption.
    - intros [] m k0 X; cbn [pc_of s_w s_r s_d] in X; [|discriminate|].
      + apply (H3 W m k0 X).
      + apply (H3 D m k0 X).
    - discriminate.
    - destruct H9 as (con0 & M1 & M2 & M3). exists con0. unfold got_of in *; cbn [p_cont k_got] in *.
      rewrite app_nil_r. auto.
    - intros X. split; [|reflexivity].
      assert (X' : got = [] \/ eof_seen (s_log s)).
      { destruct X as [X|(m & X1 & X2)].
        - apply in_app_or in X as [X|[X|[]]]; [right; left; exact X|]. injection X as ->. auto.
        - apply in_app_or in X2 as [X|[X|[]]]; [right; right; eauto | discriminate]. }
      destruct X' as [X'|X']; [auto | apply (H11 X')].
  Qed.

  Lemma not_eof l r : eof_seen (l ++ [r]) -> r <> ReadOk [] -> (forall n, 0 < n -> r <> TryRead n []) -> eof_seen l.
  Proof.
    intros [X|(m & X1 & X2)] N1 N2.
    - apply in_app_or in X as [X|[X|[]]]; [left; exact X | congruence].
    - apply in_app_or in X2 as [X|[X|[]]]; [right; eauto|]. exfalso. apply (N2 m X1 X).
  Qed.

  Lemma read_err_inv n rest s : at_k R (KRead n rest []) s -> Inv (note ReadErr (with_pc R Idle s)).
  Proof.
    intros [H1 H2 H3 H4 H5 H6 H7 H8 H9 H10 H11].
    constructor; cbn [note with_pc with_dl s_e s_wfl s_rfl s_drain s_w s_r s_d s_wire s_rx s_pos s_werr s_dl s_fail s_owed s_log out sending receiving b2n] in *;
      try assumption.
    - intros [] m k0 X; cbn [pc_of s_w s_r s_d] in X; [|discriminate|].
      + apply (H3 W m k0 X).
      + apply (H3 D m k0 X).
    - discriminate.
    - intros X. apply H11. eapply not_eof; [exact X | discriminate | discriminate].
  Qed.

  (** The writer is idle again, [d] bytes later. *)
  Lemma ret_write_inv k s d owed r : at_k W k s -> k_taken k = d \/ s_werr s = true ->
    (owed = false -> s_fail s = true \/ s_wfl s = true \/ apps (out s) = []) ->
    r <> ReadOk [] -> (forall n, r <> TryRead n []) ->
    Inv (note r (with_pos (s_pos s + d) owed (with_pc W Idle s))).
  Proof.
    intros [H1 H2 H3 H4 H5 H6 H7 H8 H9 H10 H11] Hd Hq R1 R2.
    constructor; cbn [note with_pc with_pos s_e s_wfl s_rfl s_drain s_w s_r s_d s_wire s_rx s_pos s_werr s_dl s_fail s_owed s_log out sending receiving b2n] in *;
      try assumption.
    - intros [] m k0 X; cbn [pc_of s_w s_r s_d] in X; [discriminate| |].
      + apply (H3 R m k0 X).
      + apply (H3 D m k0 X).
    - discriminate.
    - reflexivity.
    - destruct (s_werr s) eqn:We; [specialize (H7 eq_refl); discriminate|].
      destruct H8 as (m & M1 & M2 & M3). exists m. split; [exact M1|].
      specialize (M3 eq_refl). unfold taken in *; cbn [p_cont] in *. destruct Hd as [Hd|Hd]; [|discriminate].
      split; [lia|]. intros _. lia.
    - intros [_ Q]. apply Hq. exact Q.
    - intros X. apply H11. eapply not_eof; [exact X | exact R1 | intros n _; apply R2].
  Qed.

  Lemma write_err_inv k s : at_k W k s -> Inv (note WroteErr (with_werr (with_pc W Idle s))).
  Proof.
    intros [H1 H2 H3 H4 H5 H6 H7 H8 H9 H10 H11].
    constructor; cbn [note with_pc with_werr s_e s_wfl s_rfl s_drain s_w s_r s_d s_wire s_rx s_pos s_werr s_dl s_fail s_owed s_log out sending receiving b2n] in *;
      try assumption.
    - intros [] m k0 X; cbn [pc_of s_w s_r s_d] in X; [discriminate| |].
      + apply (H3 R m k0 X).
      + apply (H3 D m k0 X).
    - discriminate.
    - reflexivity.
    - destruct H8 as (m & M1 & M2 & M3). exists m. split; [exact M1|]. split; [exact M2|]. discriminate.
    - intros [Q _]. discriminate Q.
    - intros X. apply H11. eapply not_eof; [exact X | discriminate | discriminate].
  Qed.

  Lemma at_kind t k s : at_k t k s -> match t with W => is_w k | R => is_r k | D => True end.
  Proof.
    intros H. destruct t; auto.
    - apply (i_wk _ H k). reflexivity.
    - apply (i_rk _ H k). reflexivity.
  Qed.
  Lemma at_up t k s : t <> D -> at_k t (KUp k) s -> at_k t k s.
  Proof.
    intros Ht [H1 H2 H3 H4 H5 H6 H7 H8 H9 H10 H11].
    destruct t; [| |congruence];
      constructor; cbn [with_pc s_e s_wfl s_rfl s_drain s_w s_r s_d s_wire s_rx s_pos s_werr s_dl s_fail s_owed s_log out sending receiving b2n] in *;
      try assumption.
    - intros [] n k0 X; cbn [pc_of s_w s_r s_d] in X; [discriminate| |]; [apply (H3 R n k0 X)|apply (H3 D n k0 X)].
    - intros k0 X. injection X as <-. destruct (H5 (KUp k) eq_refl) as [(iov & w & ->) Y]. split; [exact I | exact Y].
    - intros X. specialize (H7 X). discriminate.
    - intros [] n k0 X; cbn [pc_of s_w s_r s_d] in X; [|discriminate|]; [apply (H3 W n k0 X)|apply (H3 D n k0 X)].
    - intros k0 X. injection X as <-. apply (H6 (KUp k)). reflexivity.
  Qed.
  Lemma at_up_i t k s : t <> D -> at_k t k s -> match t with W => exists iov w, k = KAfter iov w | _ => True end ->
    at_k t (KUp k) s.
  Proof.
    intros Ht [H1 H2 H3 H4 H5 H6 H7 H8 H9 H10 H11] Hk.
    destruct t; [| |congruence];
      constructor; cbn [with_pc s_e s_wfl s_rfl s_drain s_w s_r s_d s_wire s_rx s_pos s_werr s_dl s_fail s_owed s_log out sending receiving b2n] in *;
      try assumption.
    - intros [] n k0 X; cbn [pc_of s_w s_r s_d] in X; [discriminate| |]; [apply (H3 R n k0 X)|apply (H3 D n k0 X)].
    - intros k0 X. injection X as <-. split; [exact Hk|]. apply (H5 k). reflexivity.
    - intros X. specialize (H7 X). discriminate.
    - intros [] n k0 X; cbn [pc_of s_w s_r s_d] in X; [|discriminate|]; [apply (H3 W n k0 X)|apply (H3 D n k0 X)].
    - intros k0 X. injection X as <-. apply (H6 k). reflexivity.
  Qed.

  Lemma fail_inv t k : t <> D -> forall s, at_k t k s -> Inv (fail t k s).
  Proof.
    intros Ht. induction k as [iov w|w|n rest got|k IH|]; intros s H; pose proof (at_kind _ _ _ H) as K; cbn [fail].
    - destruct t; [|contradiction|congruence]. eapply write_err_inv; eauto.
    - destruct t; [|contradiction|congruence]. eapply write_err_inv; eauto.
    - destruct t; [contradiction| |congruence].
      destruct (N.eqb_spec (len got) 0) as [E|E].
      + apply len_zero in E. subst got. eapply read_err_inv; eauto.
      + eapply ret_read_inv; eauto. intros ->. contradiction.
    - apply IH. apply at_up; auto.
    - destruct t; cbn in K; try contradiction; congruence.
  Qed.

  Lemma with_id s : with_wfl (s_wfl s) (with_rfl (s_rfl s) s) = s.
  Proof. destruct s; reflexivity. Qed.
  Lemma with_id1 s a : with_wfl a (with_rfl (s_rfl s) s) = with_wfl a s.
  Proof. destruct s; reflexivity. Qed.
  Lemma with_id2 s a : with_wfl (s_wfl s) (with_rfl a s) = with_rfl a s.
  Proof. destruct s; reflexivity. Qed.

  Lemma go_run t k s : t <> D -> at_k t k s ->
    s_fail s = true \/ s_wfl s = true \/ apps (out s) = [] \/ (forall w, k <> KRet w) ->
    Inv (with_pc t (Run k) s).
  Proof.
    intros Ht H Hq. rewrite <- (with_id s). apply at_pc with (k := k); auto.
    - discriminate.
  Qed.

  Lemma resume_inv t k s : t <> D -> at_k t k s ->
    s_fail s = true \/ s_wfl s = true \/ apps (out s) = [] -> Inv (resume t k s).
  Proof.
    intros Ht H Hq. pose proof (at_kind _ _ _ H) as K.
    destruct k; cbn [resume]; try (apply go_run; auto; tauto).
    destruct t; cbn in K; try contradiction; congruence.
  Qed.

  Lemma maybe_send_inv t k s : t <> D -> at_k t k s -> Inv (maybe_send t k s).
  Proof.
    intros Ht H. unfold maybe_send. destruct (N.eqb_spec (len (out s)) 0) as [E|E].
    - apply resume_inv; auto. right. right. apply len_zero in E. rewrite E. reflexivity.
    - destruct (s_wfl s) eqn:Ew.
      + rewrite <- (with_id s). apply at_pc with (k := k); auto. discriminate.
      + rewrite <- with_id1. apply at_pc with (k := k); auto.
        intros n k0 X. injection X as <- <-. lia.
  Qed.

  Lemma up_read2_inv t k s : t <> D -> at_k t k s -> (forall w, k <> KRet w) -> Inv (up_read2 t k s).
  Proof.
    intros Ht H Hk. unfold up_read2. destruct (s_rfl s) eqn:Er; [exact H|].
    rewrite <- with_id2. apply at_pc with (k := k); auto. discriminate.
  Qed.
  Lemma up_read_inv t k s : t <> D -> at_k t k s ->
    match t with W => exists iov w, k = KAfter iov w | _ => True end -> (forall w, k <> KRet w) -> Inv (up_read t k s).
  Proof.
    intros Ht H Hk Hk2. unfold up_read. destruct (negb (len (out s) =? 0) && negb (s_wfl s)).
    - apply maybe_send_inv; auto. apply at_up_i; auto.
    - apply up_read2_inv; auto.
  Qed.

  Ltac fields := cbn [leave commit note with_pc with_e with_wire with_rx with_dl with_pos with_werr with_fail with_wfl with_rfl with_drain s_e s_wfl s_rfl s_drain s_w s_r s_d s_wire s_rx s_pos s_werr s_dl s_fail s_owed s_log out sending receiving b2n] in *.

  Lemma pc_id t s p : pc_of t s = p -> with_pc t p s = s.
  Proof. intros <-. destruct t, s; reflexivity. Qed.

  (** A write of the upstream socket goes on. *)
  Lemma send_more t n k s m : Inv s -> pc_of t s = Send n k -> 0 < len (out (leave m s)) ->
    Inv (with_pc t (Send (len (out (leave m s))) k) (leave m s)).
  Proof.
    intros [H1 H2 H3 H4 H5 H6 H7 H8 H9 H10 H11] Hp Hl.
    assert (Ew : s_wfl s = true).
    { destruct (s_wfl s); [reflexivity|]. exfalso. cbn [b2n] in H1. destruct t; cbn [pc_of] in Hp; rewrite Hp in H1; cbn [sending b2n] in H1; lia. }
    assert (OTH : forall t' n' k', pc_of t' s = Send n' k' -> t' = t).
    { intros t' n' k' X. rewrite Ew in H1. destruct t, t'; cbn [pc_of] in *; auto; exfalso;
        rewrite Hp, X in H1; cbn [sending b2n] in H1; lia. }
    constructor.
    - destruct t; cbn [pc_of] in Hp; rewrite Hp in H1; exact H1.
    - destruct t; cbn [pc_of] in Hp; try rewrite Hp in H2; exact H2.
    - intros t' n' k' X. change (out (with_pc t (Send (len (out (leave m s))) k) (leave m s))) with (out (leave m s)).
      assert (t' = t).
      { destruct t, t'; auto; cbn in X; eapply OTH with (n' := n') (k' := k'); exact X. }
      subst t'. assert (n' = len (out (leave m s))) by (destruct t; injection X as <- _; reflexivity). lia.
    - destruct t; fields; auto. right. destruct H4 as [[H4 _]|[n0 H4]]; cbn [pc_of] in Hp; [congruence|].
      rewrite H4 in Hp. injection Hp as <- <-. eexists. reflexivity.
    - destruct t; fields; auto. intros k0 X. injection X as <-. apply H5. cbn [pc_of] in Hp. rewrite Hp. reflexivity.
    - destruct t; fields; auto. intros k0 X. injection X as <-. apply H6. cbn [pc_of] in Hp. rewrite Hp. reflexivity.
    - destruct t; fields; auto. intros X. cbn [pc_of] in Hp. rewrite (H7 X) in Hp. discriminate.
    - destruct H8 as (m0 & M1 & M2 & M3). exists m0. split; [apply Wr_consume, M1|]. split; [exact M2|].
      intros X. rewrite (M3 X). destruct t; try reflexivity. cbn [pc_of] in Hp. fields. rewrite Hp. reflexivity.
    - destruct H9 as (con & M1 & M2 & M3). exists con. split; [exact M1|]. split; [|exact M3]. rewrite M2.
      destruct t; try reflexivity. cbn [pc_of] in Hp. fields. rewrite Hp. reflexivity.
    - intros _. right. left. destruct t; exact Ew.
    - intros X. destruct (H11 ltac:(destruct t; exact X)) as [Y1 Y2]. split; [destruct t; exact Y1|]. rewrite <- Y2.
      destruct t; try reflexivity. cbn [pc_of] in Hp. fields. rewrite Hp. reflexivity.
  Qed.

  (** It ends: everything was sent or the socket has failed. *)
  Lemma send_done t n k s s1 : Inv s -> pc_of t s = Send n k -> t <> D -> frame s s1 ->
    (forall m, Wr U m (s_wire s) (s_e s) -> Wr U m (s_wire s1) (s_e s1)) ->
    e_in (s_e s1) = e_in (s_e s) -> s_rx s1 = s_rx s ->
    s_fail s1 = true \/ apps (out s1) = [] ->
    at_k t k (with_wfl false s1).
  Proof.
    intros [H1 H2 H3 H4 H5 H6 H7 H8 H9 H10 H11] Hp Ht (F1 & F2 & F3 & F4 & F5 & F6 & F7 & F8 & F9 & F10 & F11) C1 C2 C3 C4.
    assert (Ew : s_wfl s = true).
    { destruct (s_wfl s); [reflexivity|]. exfalso. cbn [b2n] in H1. destruct t; cbn [pc_of] in Hp; rewrite Hp in H1; cbn [sending b2n] in H1; lia. }
    assert (OTH : forall t' n' k', pc_of t' s = Send n' k' -> t' = t).
    { intros t' n' k' X. rewrite Ew in H1. destruct t, t'; cbn [pc_of] in *; auto; exfalso;
        rewrite Hp, X in H1; cbn [sending b2n] in H1; lia. }
    rewrite Ew in H1.
    constructor.
    - destruct t; [| |congruence]; fields; cbn [pc_of] in Hp; rewrite Hp in H1; cbn [sending b2n] in H1; rewrite ?F4, ?F5, ?F6; lia.
    - destruct t; [| |congruence]; fields; cbn [pc_of] in Hp; rewrite Hp in H2; cbn [receiving b2n] in H2; rewrite ?F4, ?F5, ?F2; lia.
    - intros t' n' k' X. exfalso. destruct t, t'; cbn in X; try discriminate; try congruence.
      + specialize (OTH R n' k'). cbn in OTH. rewrite <- F5 in OTH. specialize (OTH X). discriminate.
      + specialize (OTH D n' k'). cbn in OTH. rewrite <- F6 in OTH. specialize (OTH X). discriminate.
      + specialize (OTH W n' k'). cbn in OTH. rewrite <- F4 in OTH. specialize (OTH X). discriminate.
      + specialize (OTH D n' k'). cbn in OTH. rewrite <- F6 in OTH. specialize (OTH X). discriminate.
    - destruct t; [| |congruence]; fields; rewrite F6, F3; exact H4.
    - destruct t; [| |congruence]; fields; rewrite F7.
      + intros k0 X. injection X as <-. apply H5. cbn [pc_of] in Hp. rewrite Hp. reflexivity.
      + rewrite F4. exact H5.
    - destruct t; [| |congruence]; fields.
      + rewrite F5. exact H6.
      + intros k0 X. injection X as <-. apply H6. cbn [pc_of] in Hp. rewrite Hp. reflexivity.
    - destruct t; [| |congruence]; fields; rewrite F8.
      + intros X. cbn [pc_of] in Hp. rewrite (H7 X) in Hp. discriminate.
      + rewrite F4. exact H7.
    - destruct H8 as (m0 & M1 & M2 & M3). exists m0. split; [apply C1, M1|]. fields. rewrite F7, F8. split; [exact M2|].
      intros X. rewrite (M3 X). destruct t; [| |congruence]; [|rewrite F4; reflexivity].
      cbn [pc_of] in Hp. rewrite Hp. reflexivity.
    - destruct H9 as (con & M1 & M2 & M3). exists con. fields. rewrite C2, C3, F9. split; [exact M1|]. split; [|exact M3]. rewrite M2.
      destruct t; [| |congruence]; [rewrite F5; reflexivity|]. cbn [pc_of] in Hp. rewrite Hp. reflexivity.
    - intros _. destruct C4 as [C4|C4]; auto.
    - fields. rewrite F11, C2. intros X. destruct (H11 X) as [Y1 Y2]. split; [exact Y1|]. rewrite <- Y2.
      destruct t; [| |congruence]; [rewrite F5; reflexivity|]. cbn [pc_of] in Hp. rewrite Hp. reflexivity.
  Qed.

  Lemma note_inv r s : Inv s -> r <> ReadOk [] -> (forall n, 0 < n -> r <> TryRead n []) -> Inv (note r s).
  Proof.
    intros [H1 H2 H3 H4 H5 H6 H7 H8 H9 H10 H11] R1 R2. constructor; try assumption.
    intros X. apply H11. eapply not_eof; [exact X | exact R1 | exact R2].
  Qed.

  Lemma drain_done n k s s1 : Inv s -> s_d s = Send n k -> frame s s1 ->
    (forall m, Wr U m (s_wire s) (s_e s) -> Wr U m (s_wire s1) (s_e s1)) ->
    e_in (s_e s1) = e_in (s_e s) -> s_rx s1 = s_rx s ->
    s_fail s1 = true \/ apps (out s1) = [] ->
    Inv (with_drain false (with_pc D Idle (with_wfl false s1))).
  Proof.
    intros [H1 H2 H3 H4 H5 H6 H7 H8 H9 H10 H11] Hp (F1 & F2 & F3 & F4 & F5 & F6 & F7 & F8 & F9 & F10 & F11) C1 C2 C3 C4.
    assert (Ew : s_wfl s = true).
    { destruct (s_wfl s); [reflexivity|]. exfalso. cbn [b2n] in H1. rewrite Hp in H1; cbn [sending b2n] in H1; lia. }
    rewrite Ew, Hp in H1. cbn [sending b2n] in H1.
    constructor; fields; try (rewrite ?F1, ?F2, ?F3, ?F4, ?F5, ?F6, ?F7, ?F8, ?F9, ?F10, ?F11; assumption).
    - rewrite F4, F5. lia.
    - intros t' n' k' X. exfalso. destruct t'; cbn in X; try discriminate; rewrite ?F4, ?F5 in X; rewrite X in H1;
        cbn [sending b2n] in H1; lia.
    - auto.
    - destruct H8 as (m0 & M1 & M2 & M3). exists m0. split; [apply C1, M1|]. fields. rewrite F7, F8, F4. auto.
    - destruct H9 as (con & M1 & M2 & M3). exists con. fields. rewrite C2, C3, F9, F5. auto.
    - intros _. destruct C4 as [C4|C4]; auto.
    - rewrite F11, C2, F5. exact H11.
  Qed.

  Lemma end_drain_inv n k s s1 : Inv s -> s_d s = Send n k -> frame s s1 ->
    (forall m, Wr U m (s_wire s) (s_e s) -> Wr U m (s_wire s1) (s_e s1)) ->
    e_in (s_e s1) = e_in (s_e s) -> s_rx s1 = s_rx s ->
    s_fail s1 = true \/ apps (out s1) = [] ->
    Inv (end_drain (with_wfl false s1)).
  Proof.
    intros H Hp F C1 C2 C3 C4. pose proof (drain_done _ _ _ _ H Hp F C1 C2 C3 C4) as I.
    unfold end_drain. fields. destruct (s_drain s1) eqn:E.
    - apply note_inv; [exact I | discriminate | discriminate].
    - destruct s1; cbn in E. subst. exact I.
  Qed.

  (** A read of the upstream socket ends. *)
  Lemma recv_done t k s : Inv s -> pc_of t s = Recv k -> t <> D -> at_k t k (with_rfl false s).
  Proof.
    intros [H1 H2 H3 H4 H5 H6 H7 H8 H9 H10 H11] Hp Ht.
    assert (Er : s_rfl s = true).
    { destruct (s_rfl s); [reflexivity|]. exfalso. cbn [b2n] in H2. destruct t; [| |congruence]; cbn [pc_of] in Hp; rewrite Hp in H2; cbn [receiving b2n] in H2; lia. }
    rewrite Er in H2.
    destruct t; [| |congruence]; cbn [pc_of] in Hp; rewrite Hp in *; constructor; fields; try assumption.
    - lia.
    - intros [] m0 k0 X; cbn in X; [discriminate| |]; [apply (H3 R m0 k0 X) | apply (H3 D m0 k0 X)].
    - intros X. specialize (H7 X). discriminate.
    - intros [_ []].
    - lia.
    - intros [] m0 k0 X; cbn in X; [|discriminate|]; [apply (H3 W m0 k0 X) | apply (H3 D m0 k0 X)].
  Qed.

  (** A background write starts. *)
  Lemma at_drain t k wake s s' : at_k t k s -> t <> D -> s_wfl s = false -> 0 < len (out s) ->
    start_drain wake s = Next s' ->
    at_k t k s' /\ s_wfl s' = true /\ s_w s' = s_w s /\ s_r s' = s_r s /\ s_e s' = s_e s.
  Proof.
    intros [H1 H2 H3 H4 H5 H6 H7 H8 H9 H10 H11] Ht Hw Ho E. unfold start_drain in E.
    assert (Ed : s_d s = Idle) by (destruct (s_d s); try discriminate; reflexivity).
    rewrite Ed in E. injection E as <-. split; [|auto].
    destruct t; [| |congruence]; constructor; fields; try assumption.
    - rewrite Ed, Hw in H1. cbn [sending b2n] in *. lia.
    - intros [] m0 k0 X; cbn in X; [discriminate| |]; [apply (H3 R m0 k0 X) |].
      injection X as <- <-. change (0 < len (out s) <= len (out s)). lia.
    - right. eauto.
    - auto.
    - rewrite Ed, Hw in H1. cbn [sending b2n] in *. lia.
    - intros [] m0 k0 X; cbn in X; [|discriminate|]; [apply (H3 W m0 k0 X) |].
      injection X as <- <-. change (0 < len (out s) <= len (out s)). lia.
    - right. eauto.
    - auto.
  Qed.
  Lemma drain_safe t k wake s : at_k t k s -> t <> D -> s_wfl s = false -> start_drain wake s <> Ub.
  Proof.
    intros H Ht Hw. unfold start_drain. pose proof (i_wfl _ H) as H1. pose proof (i_d _ H) as H4.
    destruct t; [| |congruence]; fields; rewrite Hw in H1; destruct H4 as [[E _]|[n E]]; rewrite E in *; try discriminate;
      cbn [sending b2n] in H1; lia.
  Qed.

  Lemma at_w_err k s : at_k W k s -> s_werr s = false.
  Proof.
    intros H. destruct (s_werr s) eqn:E; [|reflexivity]. pose proof (i_we _ H E) as X. discriminate.
  Qed.
  Lemma at_w_m k s : at_k W k s -> Wr U (s_pos s + k_taken k) (s_wire s) (s_e s).
  Proof.
    intros H. pose proof (at_w_err _ _ H) as E. destruct (i_wr _ H) as (m & M1 & M2 & M3). fields.
    specialize (M3 E). unfold taken in M3; cbn [p_cont] in M3. subst m. exact M1.
  Qed.

  Lemma at_push_ok iov0 w0 iov chs s : at_k W (KAfter iov0 w0) s ->
    concat iov = take (len (concat iov)) (drop (s_pos s + w0) U) ->
    match push iov chs (s_e s) with
    | None => ~ nonempty iov
    | Some (w, o, e) => at_k W (KAfter iov0 (w0 + w)) (with_e e s) /\ w <= len (concat iov)
    end.
  Proof.
    intros H Hc. pose proof (at_w_m _ _ H) as M. cbn [k_taken] in M.
    pose proof (push_ok U iov chs (s_e s) _ _ M Hc) as P.
    pose proof (fun m wire M => push_ok U iov chs (s_e s) m wire M) as P2.
    destruct (push iov chs (s_e s)) as [[[w o] e]|]; [|exact P].
    destruct P as (P1 & P3 & P4 & P5). split; [|exact P1].
    apply at_push; auto.
    - intros m X.
      assert (m = s_pos s + w0).
      { destruct X as (X1 & X2 & _), M as (M1 & M2 & _). rewrite X1 in M1.
        pose proof (f_equal len M1) as Y. rewrite !len_take in Y. lia. }
      subst m. exact P5.
    - eapply grows_len; eauto.
  Qed.

  Lemma write_round_inv iov c s : at_k W (KAfter iov 0) s ->
    match write_round W iov c s with Next s' => Inv s' | Ub => ~ nonempty iov | Stuck => True end.
  Proof.
    intros H. unfold write_round.
    assert (Hc : concat iov = take (len (concat iov)) (drop (s_pos s + 0) U)).
    { rewrite N.add_0_r. apply (i_wk _ H (KAfter iov 0)). reflexivity. }
    pose proof (at_push_ok iov 0 iov (c_w c) s H Hc) as P.
    destruct (push iov (c_w c) (s_e s)) as [[[w o] e]|]; [|exact P].
    destruct P as [P _]. rewrite N.add_0_l in P.
    destruct o as [[]|].
    - apply up_read_inv; [discriminate | exact P | eauto | discriminate].
    - apply maybe_send_inv; [discriminate | exact P].
    - apply fail_inv; [discriminate | exact P].
    - apply fail_inv; [discriminate | exact P].
    - apply go_run; [discriminate | exact P |]. right; right; right. discriminate.
  Qed.

  Lemma at_eng_read n rest got ch s : at_k R (KRead n rest got) s ->
    let '(r, b, e) := eng_read n ch (s_e s) in
    (forall n' rest', at_k R (KRead n' rest' (got ++ b)) (with_e e s)) /\
    match r with
    | Got k => (n = 0 /\ k = 0 /\ b = [] /\ e = s_e s) \/ (0 < k <= n /\ len b = k)
    | Op Graceful => b = [] /\ exists t, e_in e = IZ :: t
    | Op _ => b = []
    end.
  Proof.
    intros H. pose proof (eng_read_ok n ch (s_e s)) as P. destruct (eng_read n ch (s_e s)) as [[r b] e].
    destruct P as (P1 & P2 & P3 & P4). split; [|exact P4].
    intros n' rest'. eapply at_read; eauto.
  Qed.

  Lemma read_round_inv n rest got c s : at_k R (KRead n rest got) s -> s_r s = Run (KRead n rest got) ->
    Inv (read_round R n rest got c s).
  Proof.
    intros H Hr. unfold read_round. pose proof (at_eng_read n rest got (c_r c) s H) as P.
    destruct (eng_read n (c_r c) (s_e s)) as [[r b] e]. destruct P as [P1 P2].
    destruct r as [k|[]].
    - destruct P2 as [(-> & -> & -> & ->)|[Hk Hb]].
      + cbn [N.eqb]. rewrite <- (pc_id R (with_e (s_e s) s) (Run (KRead 0 rest got)) Hr).
        apply go_run; [discriminate | | right; right; right; discriminate].
        destruct s; exact H.
      + destruct (N.eqb_spec k 0); [lia|]. destruct (N.ltb_spec k n).
        * apply go_run; [discriminate | apply P1 | right; right; right; discriminate].
        * destruct rest as [|m rest].
          -- eapply ret_read_inv with (n := 0) (rest := []); [apply P1|].
             intros X. apply app_eq_nil in X as [_ X]. subst b. change (len (@nil N)) with 0 in Hb. lia.
          -- apply go_run; [discriminate | apply P1 | right; right; right; discriminate].
    - subst b. specialize (P1 n rest). rewrite app_nil_r in P1.
      destruct (N.eqb_spec (len got) 0) as [E|E]; cbn [negb].
      + apply up_read_inv; [discriminate | exact P1 | exact I | discriminate].
      + eapply ret_read_inv; [exact P1|]. intros ->. contradiction.
    - subst b. specialize (P1 n rest). rewrite app_nil_r in P1. apply maybe_send_inv; [discriminate | exact P1].
    - destruct P2 as [-> P2]. specialize (P1 n rest). rewrite app_nil_r in P1.
      eapply ret_read_inv; [exact P1|]. intros _. exact P2.
    - subst b. specialize (P1 n rest). rewrite app_nil_r in P1. apply fail_inv; [discriminate | exact P1].
  Qed.

  Lemma leave_frame m s : frame s (leave m s).
  Proof. repeat split. Qed.

  Definition non_w (s : st) : Prop := forall k, p_cont (s_w s) = Some k -> non_ok k.

  (** A writer that has its result does not read. *)
  Definition Inv2 (s : st) : Prop := forall w, s_w s <> WaitR (KRet w) /\ s_w s <> Recv (KRet w).

  Lemma not_ret t k s : at_k t k s -> Inv2 s -> t <> D -> pc_of t s = WaitR k \/ pc_of t s = Recv k ->
    forall w, k <> KRet w.
  Proof.
    intros H H2 Ht Hp w ->. pose proof (at_kind _ _ _ H) as K. destruct t; [|contradiction|congruence].
    cbn [pc_of] in Hp. destruct (H2 w). tauto.
  Qed.

  Lemma advance_inv t c s : Inv s -> Inv2 s ->
    match advance t c s with Next s' => Inv s' | Ub => ~ non_w s | Stuck => True end.
  Proof.
    intros H HI2. unfold advance. destruct (pc_of t s) as [|k|k|k|n k|k] eqn:Ep.
    - exact I.
    - assert (Ht : t <> D).
      { intros ->. cbn [pc_of] in Ep. destruct (i_d _ H) as [[X _]|[n X]]; congruence. }
      assert (Ha : at_k t k s) by (apply run_at; auto).
      pose proof (at_kind _ _ _ Ha) as K.
      destruct k as [iov w|w|n rest got|k|].
      + destruct t; [|contradiction|congruence].
        destruct (N.ltb_spec 0 w).
        * apply maybe_send_inv; [exact Ht|].
          (* KAfter iov w -> KRet w *)
          destruct Ha as [H1 H2 H3 H4 H5 H6 H7 H8 H9 H10 H11]. constructor; fields; try assumption.
          -- intros [] m0 k0 X; cbn in X; [discriminate| |]; [apply (H3 R m0 k0 X) | apply (H3 D m0 k0 X)].
          -- intros k0 X. injection X as <-. split; exact I.
          -- intros X. specialize (H7 X). discriminate.
        * assert (w = 0) by lia. subst w. pose proof (write_round_inv iov c s Ha) as P.
          destruct (write_round W iov c s); [exact I | | exact P].
          intros X. apply P. apply (X (KAfter iov 0)). cbn [pc_of] in Ep. rewrite Ep. reflexivity.
      + destruct t; [|contradiction|congruence]. eapply ret_write_inv with (k := KRet w); eauto.
        * intros _. apply (i_fl _ H). split.
          -- destruct (s_werr s) eqn:E; [|reflexivity]. pose proof (i_we _ H E). cbn [pc_of] in Ep. congruence.
          -- cbn [pc_of] in Ep. rewrite Ep. exact I.
        * discriminate.
        * discriminate.
      + destruct t; [contradiction| |congruence]. apply read_round_inv; auto.
      + apply up_read2_inv; [exact Ht | apply at_up; auto |].
        intros w ->. destruct t; cbn in K; try contradiction.
        destruct K as (iov & w0 & K). discriminate.
      + destruct t; cbn in K; try contradiction; congruence.
    - assert (Ht : t <> D).
      { intros ->. cbn [pc_of] in Ep. destruct (i_d _ H) as [[X _]|[n X]]; congruence. }
      destruct (s_wfl s) eqn:Ew; [exact I|]. apply go_run; [exact Ht | apply run_at; auto |].
      destruct t; [| |congruence].
      + destruct k as [iov w|w|n rest got|k|]; try (right; right; right; discriminate).
        assert (Q : quiet s).
        { split; [|cbn [pc_of] in Ep; rewrite Ep; exact I].
          destruct (s_werr s) eqn:E; [|reflexivity]. pose proof (i_we _ H E). cbn [pc_of] in Ep. congruence. }
        pose proof (i_fl _ H Q). tauto.
      + right; right; right. intros w ->. cbn [pc_of] in Ep. pose proof (i_rk _ H (KRet w)) as X. rewrite Ep in X. apply X. reflexivity.
    - assert (Ht : t <> D).
      { intros ->. cbn [pc_of] in Ep. destruct (i_d _ H) as [[X _]|[n X]]; congruence. }
      destruct (s_rfl s) eqn:Ew; [exact I|]. apply go_run; [exact Ht | apply run_at; auto |].
      right; right; right. eapply not_ret; eauto. apply run_at; auto.
    - destruct (c_n c) as [k0| | |]; try exact I.
      + pose proof (i_n _ H t n k Ep) as Hn.
        assert (Hm : 0 < clamp k0 n <= n) by (unfold clamp; lia).
        set (m := clamp k0 n) in *. destruct (N.ltb_spec (len (out s)) m); [lia|].
        change (with_wire (s_wire s ++ take m (out s)) (with_e (consume m (s_e s)) s)) with (leave m s).
        destruct (N.eqb_spec (len (out (leave m s))) 0) as [E|E].
        * apply len_zero in E. destruct t.
          -- apply resume_inv; [discriminate | | right; right; fields; unfold out in *; fields; rewrite E; reflexivity].
             eapply send_done; eauto using leave_frame; [discriminate | intros; apply Wr_consume; auto | right; rewrite E; reflexivity].
          -- apply resume_inv; [discriminate | | right; right; fields; unfold out in *; fields; rewrite E; reflexivity].
             eapply send_done; eauto using leave_frame; [discriminate | intros; apply Wr_consume; auto | right; rewrite E; reflexivity].
          -- cbn [pc_of] in Ep. assert (k = KDrain) by (destruct (i_d _ H) as [[X _]|[n0 X]]; congruence). subst k.
             cbn [resume]. eapply end_drain_inv; eauto using leave_frame; [intros; apply Wr_consume; auto | right; rewrite E; reflexivity].
        * eapply send_more; eauto. lia.
      + destruct t.
        * apply fail_inv; [discriminate|].
          change (at_k W k (with_wfl false (with_fail s))).
          eapply send_done; eauto; [discriminate | repeat split].
        * apply fail_inv; [discriminate|].
          change (at_k R k (with_wfl false (with_fail s))).
          eapply send_done; eauto; [discriminate | repeat split].
        * cbn [pc_of] in Ep. assert (k = KDrain) by (destruct (i_d _ H) as [[X _]|[n0 X]]; congruence). subst k.
          cbn [fail]. change (Inv (end_drain (with_wfl false (with_fail s)))).
          eapply end_drain_inv; eauto. repeat split.
    - assert (Ht : t <> D).
      { intros ->. cbn [pc_of] in Ep. destruct (i_d _ H) as [[X _]|[n X]]; congruence. }
      pose proof (recv_done t k s H Ep Ht) as Ha.
      destruct (c_n c) as [k0| | |]; try exact I.
      + set (m := clamp k0 (len (s_rx s))). destruct (m =? 0); [exact I|].
        apply go_run; [exact Ht | apply (at_commit t k (with_rfl false s) m Ha) |].
        right; right; right. destruct t; [| |congruence].
        * intros w ->. destruct (HI2 w). cbn [pc_of] in Ep. contradiction.
        * intros w ->. apply (at_kind _ _ _ Ha).
      + apply fail_inv; auto.
      + apply fail_inv; auto.
  Qed.

  (** *** The buffers of a call *)
  Lemma split_ok lens : forall l, total lens <= len l ->
    concat (split lens l) = take (total lens) l /\ (Forall (fun n => 0 < n) lens -> nonempty (split lens l)).
  Proof.
    induction lens as [|n r IH]; intros l Hl; cbn [split total concat] in *.
    - rewrite take_0. split; [reflexivity | constructor].
    - destruct (IH (drop n l)) as [I1 I2]; [rewrite len_drop; lia|]. split.
      + rewrite I1, take_add. reflexivity.
      + intros X. inversion_clear X. constructor; [rewrite len_take; lia | apply I2; auto].
  Qed.
  Lemma adv_ok : forall iov w, w <= len (concat iov) ->
    concat (adv w iov) = drop w (concat iov) /\ (nonempty iov -> nonempty (adv w iov)).
  Proof.
    induction iov as [|b r IH]; intros w Hw; cbn [adv concat] in *.
    - change (len (@nil N)) with 0 in Hw. assert (w = 0) by lia. subst w. rewrite drop_0. auto.
    - rewrite len_app in Hw. destruct (N.eqb_spec w 0) as [->|Hz]; [rewrite drop_0; auto|].
      destruct (N.leb_spec (len b) w).
      + destruct (IH (w - len b)) as [I1 I2]; [lia|]. split.
        * rewrite I1. replace (drop w (b ++ concat r)) with (drop (w - len b) (drop (len b) (b ++ concat r)));
            [rewrite drop_app_eq by reflexivity; reflexivity | rewrite drop_drop; f_equal; lia].
        * intros X. inversion_clear X. auto.
      + cbn [concat]. split.
        * symmetry. apply drop_app_le. lia.
        * intros X. inversion_clear X. constructor; [rewrite len_drop; lia | assumption].
  Qed.
  Lemma skip_ok iov : concat (skip_empty iov) = concat iov /\ (nonempty iov -> nonempty (skip_empty iov)).
  Proof.
    induction iov as [|b r [I1 I2]]; cbn [skip_empty concat]; [auto|].
    destruct (N.eqb_spec (len b) 0) as [E|E]; [|auto]. apply len_zero in E. subst b. split; [exact I1|].
    intros X. inversion_clear X. auto.
  Qed.

  (** *** TrySend *)
  Lemma try_send_end_inv iov0 total sent status s : at_k W (KAfter iov0 sent) s -> s_w s = Idle -> s_wfl s = false ->
    match try_send_end total sent status s with Next s' => Inv s' /\ s_w s' = Idle | Ub => False | Stuck => True end.
  Proof.
    intros H Hi Hw. unfold try_send_end. destruct (N.ltb_spec 0 sent) as [Hs|Hs].
    - destruct (N.eqb_spec sent total) as [E|E]; cbn [andb negb].
      + destruct (N.eqb_spec (len (out s)) 0) as [Eo|Eo]; cbn [negb].
        * rewrite <- (pc_id W s Idle Hi). split; [|reflexivity].
          apply (ret_write_inv (KAfter iov0 sent) s sent false (TrySent total sent)); auto; try discriminate.
          intros _. right. right. apply len_zero in Eo. rewrite Eo. reflexivity.
        * set (s1 := note (TrySent total sent) (with_pos (s_pos s + sent) false s)).
          destruct (start_drain false s) as [| |s2] eqn:Ed.
          -- exfalso. unfold start_drain in Ed. destruct (s_d s); discriminate.
          -- exfalso. eapply drain_safe; [exact H | discriminate | exact Hw | exact Ed].
          -- destruct (at_drain _ _ _ _ _ H ltac:(discriminate) Hw ltac:(lia) Ed) as (A1 & A2 & A3 & A4 & _).
             assert (E1 : start_drain false s1 = Next (note (TrySent total sent) (with_pos (s_pos s2 + sent) false (with_pc W Idle s2)))).
             { rewrite (pc_id W s2 Idle) by (cbn [pc_of]; congruence).
               unfold start_drain in *. change (s_d s1) with (s_d s). destruct (s_d s); try discriminate.
               injection Ed as <-. reflexivity. }
             rewrite E1. split; [|reflexivity].
             apply (ret_write_inv (KAfter iov0 sent)); auto; discriminate.
      + rewrite <- (pc_id W s Idle Hi). split; [|reflexivity].
        apply (ret_write_inv (KAfter iov0 sent) s sent true (TrySent total sent)); auto; discriminate.
    - assert (sent = 0) by lia. subst sent.
      assert (P : forall r, r <> ReadOk [] -> (forall n, r <> TryRead n []) ->
        Inv (note r (with_pos (s_pos s) true s))).
      { intros r R1 R2. rewrite <- (pc_id W s Idle Hi).
        pose proof (ret_write_inv (KAfter iov0 0) s 0 true r H (or_introl eq_refl) ltac:(discriminate) R1 R2) as X.
        rewrite N.add_0_r in X. exact X. }
      destruct status; (split; [apply P; discriminate | exact Hi]).
  Qed.

  Lemma try_send_inv iov0 total its : forall iov sent s, at_k W (KAfter iov0 sent) s -> s_w s = Idle -> s_wfl s = false ->
    concat iov = take (len (concat iov)) (drop (s_pos s + sent) U) ->
    match try_send its iov total sent s with
    | Next s' => Inv s' /\ s_w s' = Idle | Ub => ~ nonempty iov | Stuck => True
    end.
  Proof.
    induction its as [|it its IH]; intros iov sent s H Hi Hw Hc; cbn [try_send]; [exact I|].
    assert (END : forall st sent s', at_k W (KAfter iov0 sent) s' -> s_w s' = Idle -> s_wfl s' = false ->
      match try_send_end total sent st s' with Next s' => Inv s' /\ s_w s' = Idle | Ub => ~ nonempty iov | Stuck => True end).
    { intros st0 sent0 s' A1 A2 A3. pose proof (try_send_end_inv iov0 total sent0 st0 s' A1 A2 A3) as X.
      destruct (try_send_end total sent0 st0 s'); [exact I | destruct X | exact X]. }
    destruct (match iov with [] => len (out s) =? 0 | _ => false end); [apply END; auto|].
    assert (FL : forall s1 status, flush (t_send it) s = (s1, status) ->
      at_k W (KAfter iov0 sent) s1 /\ s_w s1 = Idle /\ s_wfl s1 = false /\ s_pos s1 = s_pos s).
    { intros s1 status. unfold flush. destruct (len (out s) =? 0); [intros X; injection X as <- <-; auto|].
      destruct (t_send it) as [k0| | |]; intros X; injection X as <- <-; auto.
      - split; [|auto]. apply (at_leave W _ s); auto.
      - split; [|auto]. apply at_fail; auto.
      - split; [|auto]. apply at_fail; auto. }
    destruct (flush (t_send it) s) as [s1 status]. destruct (FL s1 status eq_refl) as (A1 & A2 & A3 & A4).
    destruct status as [er|]; [apply END; auto|].
    destruct (skip_ok iov) as [K1 K2]. set (iov1 := skip_empty iov) in *.
    assert (Hc1 : concat iov1 = take (len (concat iov1)) (drop (s_pos s1 + sent) U)) by (rewrite K1, A4; exact Hc).
    destruct iov1 as [|b r] eqn:Ei; [apply END; auto|]. rewrite <- Ei in *. clearbody iov1.
    pose proof (at_push_ok iov0 sent iov1 (t_w it) s1 A1 Hc1) as P.
    destruct (push iov1 (t_w it) (s_e s1)) as [[[w o] e]|]; [|auto].
    destruct P as [P1 P2]. destruct (adv_ok iov1 w P2) as [V1 V2].
    assert (Hc2 : concat (adv w iov1) = take (len (concat (adv w iov1))) (drop (s_pos s1 + (sent + w)) U)).
    { rewrite V1. rewrite len_drop. rewrite Hc1 at 1. rewrite drop_take, drop_drop. f_equal. f_equal. lia. }
    assert (NEXT : forall s2, at_k W (KAfter iov0 (sent + w)) s2 -> s_w s2 = Idle -> s_wfl s2 = false -> s_pos s2 = s_pos s1 ->
      match try_send its (adv w iov1) total (sent + w) s2 with
      | Next s' => Inv s' /\ s_w s' = Idle | Ub => ~ nonempty iov | Stuck => True end).
    { intros s2 B1 B2 B3 B4. specialize (IH (adv w iov1) (sent + w) s2 B1 B2 B3). rewrite B4 in IH. specialize (IH Hc2).
      destruct (try_send its (adv w iov1) total (sent + w) s2); auto. }
    destruct o as [[]|]; [| apply NEXT; auto | apply END; auto | apply END; auto | apply NEXT; auto].
    destruct (s_rfl s); [apply END; auto|].
    destruct (t_recv it) as [k0| | |]; [| apply END; auto | apply END; auto | apply END; auto].
    fields. set (m := clamp k0 (len (s_rx s1))). destruct (m =? 0); [exact I|].
    apply NEXT; auto. apply (at_commit W _ _ m P1).
  Qed.

  (** *** TryRecv *)
  Lemma try_ret_inv n rest got n0 s : at_k R (KRead n rest got) s -> s_r s = Idle ->
    (got = [] -> n0 = 0 \/ exists t, e_in (s_e s) = IZ :: t) ->
    Inv (note (TryRead n0 got) (with_dl (s_dl s ++ got) s)).
  Proof.
    intros [H1 H2 H3 H4 H5 H6 H7 H8 H9 H10 H11] Hi Hz.
    constructor; fields; rewrite ?Hi; try assumption.
    - intros [] m k0 X; cbn [pc_of s_w s_r s_d] in X.
      + apply (H3 W m k0 X).
      + cbn in X. congruence.
      + apply (H3 D m k0 X).
    - discriminate.
    - destruct H9 as (con0 & M1 & M2 & M3). exists con0. unfold got_of in *; cbn [p_cont k_got] in *.
      rewrite app_nil_r. auto.
    - intros X. split; [|reflexivity].
      assert (X' : (got = [] /\ 0 < n0) \/ eof_seen (s_log s)).
      { destruct X as [X|(m & X1 & X2)].
        - apply in_app_or in X as [X|[X|[]]]; [right; left; exact X | discriminate].
        - apply in_app_or in X2 as [X|[X|[]]]; [right; right; eauto|]. injection X as -> ->. auto. }
      destruct X' as [[X' Y]|X']; [|apply (H11 X')]. destruct (Hz X') as [Z|Z]; [lia | exact Z].
  Qed.
  Lemma idle_read n rest s : at_k R (KRead n rest []) s -> s_r s = Idle -> Inv s.
  Proof.
    intros [H1 H2 H3 H4 H5 H6 H7 H8 H9 H10 H11] Hi.
    constructor; fields; rewrite ?Hi; try assumption.
    - intros [] m k0 X; cbn [pc_of s_w s_r s_d] in X.
      + apply (H3 W m k0 X).
      + cbn in X. congruence.
      + apply (H3 D m k0 X).
    - discriminate.
  Qed.
  Lemma read_idle n rest s : Inv s -> s_r s = Idle -> at_k R (KRead n rest []) s.
  Proof.
    intros [H1 H2 H3 H4 H5 H6 H7 H8 H9 H10 H11] Hi. rewrite Hi in *.
    constructor; fields; rewrite ?Hi; try assumption.
    - intros [] m k0 X; cbn [pc_of s_w s_r s_d] in X.
      + apply (H3 W m k0 X).
      + discriminate.
      + apply (H3 D m k0 X).
    - intros k X. injection X as <-. exact I.
  Qed.
  Lemma write_idle iov s : Inv s -> s_w s = Idle -> s_werr s = false ->
    concat iov = take (len (concat iov)) (drop (s_pos s) U) -> at_k W (KAfter iov 0) s.
  Proof.
    intros [H1 H2 H3 H4 H5 H6 H7 H8 H9 H10 H11] Hi He Hc. rewrite Hi in *.
    constructor; fields; rewrite ?Hi; try assumption.
    - intros [] m k0 X; cbn [pc_of s_w s_r s_d] in X.
      + discriminate.
      + apply (H3 R m k0 X).
      + apply (H3 D m k0 X).
    - intros k X. injection X as <-. split; [exact I | exact Hc].
    - congruence.
    - intros [_ []].
  Qed.

  Lemma try_recv_end_inv n rest n0 got status s : at_k R (KRead n rest got) s -> s_r s = Idle ->
    (got = [] -> status = None -> n0 = 0 \/ exists t, e_in (s_e s) = IZ :: t) ->
    match try_recv_end n0 got status s with Next s' => Inv s' /\ s_w s' = s_w s | Ub => False | Stuck => True end.
  Proof.
    intros H Hi Hz. unfold try_recv_end. destruct (N.eqb_spec (len got) 0) as [E|E]; cbn [negb].
    - apply len_zero in E. subst got. destruct status.
      + split; [|reflexivity]. apply note_inv; [eapply idle_read; eauto | discriminate | discriminate].
      + split; [|reflexivity]. pose proof (try_ret_inv n rest [] n0 s H Hi ltac:(auto)) as X.
        rewrite app_nil_r in X. destruct s; exact X.
    - split; [|reflexivity]. eapply try_ret_inv; eauto. intros ->. contradiction.
  Qed.

  Lemma try_recv_drain_inv n rest n0 got s : at_k R (KRead n rest got) s -> s_r s = Idle -> s_wfl s = false -> 0 < len (out s) ->
    match try_recv_drain n0 got s with Next s' => Inv s' /\ s_w s' = s_w s | Ub => False | Stuck => True end.
  Proof.
    intros H Hi Hw Ho. unfold try_recv_drain. destruct (start_drain true s) as [| |s1] eqn:E; [exact I| |].
    - eapply drain_safe; [exact H | discriminate | exact Hw | exact E].
    - destruct (at_drain _ _ _ _ _ H ltac:(discriminate) Hw Ho E) as (A1 & A2 & A3 & A4 & _).
      rewrite <- A3. eapply try_recv_end_inv; eauto; [congruence | discriminate].
  Qed.

  Lemma try_recv_inv n0 its : forall n got s, at_k R (KRead n [] got) s -> s_r s = Idle -> n + len got = n0 ->
    match try_recv its n0 n got s with Next s' => Inv s' /\ s_w s' = s_w s | Ub => False | Stuck => True end.
  Proof.
    induction its as [|it its IH]; intros n got s H Hi Hn; cbn [try_recv]; [exact I|].
    destruct (N.eqb_spec n 0) as [->|Hz].
    { eapply try_recv_end_inv; eauto. intros -> _. left. change (len (@nil N)) with 0 in Hn. lia. }
    pose proof (at_eng_read n [] got (t_r it) s H) as P. destruct (eng_read n (t_r it) (s_e s)) as [[r b] e].
    destruct P as [P1 P2]. set (s1 := with_e e s) in *.
    assert (FILL : forall s2, at_k R (KRead n [] got) s2 -> s_r s2 = Idle -> s_w s2 = s_w s ->
      match
        match try_fill (t_recv it) s2 with
        | None => Stuck
        | Some (s3, None) => try_recv its n0 n got s3
        | Some (s3, status) => try_recv_end n0 got status s3
        end
      with Next s' => Inv s' /\ s_w s' = s_w s | Ub => False | Stuck => True end).
    { intros s2 B1 B2 B3. unfold try_fill. rewrite <- B3. destruct (s_rfl s2).
      - eapply try_recv_end_inv; eauto. discriminate.
      - destruct (t_recv it) as [k0| | |].
        + set (m := clamp k0 (len (s_rx s2))). destruct (m =? 0); [exact I|].
          apply (IH n got (commit m s2)); auto. apply at_commit; auto.
        + eapply try_recv_end_inv; eauto. discriminate.
        + eapply try_recv_end_inv; eauto. discriminate.
        + eapply try_recv_end_inv; eauto. discriminate. }
    assert (NEED : b = [] -> forall o, (o = NeedR \/ o = NeedW) ->
      match
        (if s_wfl s then try_recv_end n0 got (Some (if s_drain s then Again else Busy)) s1
         else if len (out s1) =? 0 then
           match try_fill (t_recv it) s1 with
           | None => Stuck
           | Some (s3, None) => try_recv its n0 n got s3
           | Some (s3, status) => try_recv_end n0 got status s3
           end
         else
           match t_send it with
           | NOk k0 =>
             let m := clamp k0 (len (out s1)) in
             let s2 := with_wire (s_wire s1 ++ take m (out s1)) (with_e (consume m (s_e s1)) s1) in
             if m <? len (out s1) then try_recv_drain n0 got s2
             else match o with
                  | NeedW => try_recv its n0 n got s2
                  | _ =>
                    match try_fill (t_recv it) s2 with
                    | None => Stuck
                    | Some (s3, None) => try_recv its n0 n got s3
                    | Some (s3, status) => try_recv_end n0 got status s3
                    end
                  end
           | NAgain => try_recv_drain n0 got s1
           | _ => try_recv_end n0 got (Some Broken) (with_fail s1)
           end)
      with Next s' => Inv s' /\ s_w s' = s_w s | Ub => False | Stuck => True end).
    { intros -> o Ho. specialize (P1 n []). rewrite app_nil_r in P1.
      change (s_w s) with (s_w s1). change (s_wfl s) with (s_wfl s1).
      destruct (s_wfl s1) eqn:Ew.
      { eapply try_recv_end_inv; eauto. discriminate. }
      destruct (N.eqb_spec (len (out s1)) 0) as [Eo|Eo]; [apply FILL; auto|].
      destruct (t_send it) as [k0| | |].
      - cbv zeta. set (m := clamp k0 (len (out s1))).
        change (with_wire (s_wire s1 ++ take m (out s1)) (with_e (consume m (s_e s1)) s1)) with (leave m s1).
        assert (A1 : at_k R (KRead n [] got) (leave m s1)) by (apply at_leave; auto).
        change (s_w s1) with (s_w (leave m s1)).
        destruct (N.ltb_spec m (len (out s1))).
        + eapply try_recv_drain_inv; eauto.
          change (0 < len (drop m (out s1))). rewrite len_drop. lia.
        + destruct Ho as [->| ->]; [apply FILL; auto | apply IH; auto].
      - eapply try_recv_drain_inv; eauto. lia.
      - change (s_w s1) with (s_w (with_fail s1)). eapply try_recv_end_inv; [apply at_fail; exact P1 | exact Hi | discriminate].
      - change (s_w s1) with (s_w (with_fail s1)). eapply try_recv_end_inv; [apply at_fail; exact P1 | exact Hi | discriminate]. }
    destruct r as [k|[]].
    - destruct P2 as [(-> & _)|[Hk Hb]]; [contradiction|].
      apply (IH (n - k) (got ++ b) s1); auto. rewrite len_app. lia.
    - exact (NEED P2 NeedR (or_introl eq_refl)).
    - exact (NEED P2 NeedW (or_intror eq_refl)).
    - destruct P2 as [-> P2]. specialize (P1 n []). rewrite app_nil_r in P1.
      apply (try_recv_end_inv n [] n0 got None s1); auto.
    - subst b. specialize (P1 n []). rewrite app_nil_r in P1.
      apply (try_recv_end_inv n [] n0 got (Some Broken) s1); auto. discriminate.
  Qed.

  (** *** The writer's program counter *)
  Definition okw (k : cont) (p : pc) : Prop :=
    p = Idle \/ exists k', p_cont p = Some k' /\ (non_ok k -> non_ok k')
      /\ forall w, k' = KRet w -> p <> WaitR k' /\ p <> Recv k'.

  Lemma okw_fail k0 k : forall s, okw k0 (s_w (fail W k s)) \/ k = KDrain \/ (exists k', k = KUp k').
  Proof.
    destruct k; intros s; eauto; left; left; cbn [fail]; [reflexivity|reflexivity|].
    destruct (len got =? 0); reflexivity.
  Qed.
  Lemma okw_fail2 k0 k s : is_w k -> okw k0 (s_w (fail W k s)).
  Proof.
    destruct k as [iov w|w|n rest got|k|]; cbn [is_w]; try contradiction; intros H; try (left; reflexivity).
    destruct H as (iov & w & ->). left. reflexivity.
  Qed.
  Lemma okw_send k0 k s : (non_ok k0 -> non_ok k) -> k <> KDrain -> okw k0 (s_w (maybe_send W k s)).
  Proof.
    intros H Hk. unfold maybe_send. destruct (len (out s) =? 0).
    - destruct k; try congruence; right; eexists; (split; [reflexivity|]; split; [exact H|]); split; discriminate.
    - destruct (s_wfl s); right; exists k; (split; [reflexivity|]; split; [exact H|]); split; discriminate.
  Qed.
  Lemma okw_read2 k0 k s : (non_ok k0 -> non_ok k) -> (forall w, k <> KRet w) -> okw k0 (s_w (up_read2 W k s)).
  Proof.
    intros H Hk. unfold up_read2. destruct (s_rfl s); right; exists k; (split; [reflexivity|]; split; [exact H|]);
      intros w ->; exfalso; eapply Hk; reflexivity.
  Qed.
  Lemma okw_read k0 k s : (non_ok k0 -> non_ok k) -> (forall w, k <> KRet w) -> okw k0 (s_w (up_read W k s)).
  Proof.
    intros H Hk. unfold up_read. destruct (_ && _); [apply okw_send; [exact H | discriminate] | apply okw_read2; auto].
  Qed.
  Lemma okw_run k0 k s : (non_ok k0 -> non_ok k) -> okw k0 (s_w (with_pc W (Run k) s)).
  Proof.
    intros H. right. exists k. split; [reflexivity|]. split; [exact H|]. split; discriminate.
  Qed.

  Lemma fail_w t k : forall s, t <> W -> s_w (fail t k s) = s_w s.
  Proof.
    induction k; intros s Ht; cbn [fail]; destruct t; try congruence; try reflexivity;
      try (destruct (len got =? 0); reflexivity); try (apply IHk; exact Ht);
      unfold end_drain; destruct (s_drain s); reflexivity.
  Qed.
  Lemma resume_w t k s : t <> W -> s_w (resume t k s) = s_w s.
  Proof.
    intros Ht. destruct k; cbn [resume]; destruct t; try congruence; try reflexivity;
      unfold end_drain; destruct (s_drain s); reflexivity.
  Qed.
  Lemma send_w t k s : t <> W -> s_w (maybe_send t k s) = s_w s.
  Proof.
    intros Ht. unfold maybe_send. destruct (len (out s) =? 0); [apply resume_w; exact Ht|].
    destruct (s_wfl s); destruct t; try congruence; reflexivity.
  Qed.
  Lemma read2_w t k s : t <> W -> s_w (up_read2 t k s) = s_w s.
  Proof. intros Ht. unfold up_read2. destruct (s_rfl s); destruct t; try congruence; reflexivity. Qed.
  Lemma read_w t k s : t <> W -> s_w (up_read t k s) = s_w s.
  Proof. intros Ht. unfold up_read. destruct (_ && _); [apply send_w | apply read2_w]; exact Ht. Qed.

  Lemma round_w n rest got c s : s_w (read_round R n rest got c s) = s_w s.
  Proof.
    unfold read_round. destruct (eng_read n (c_r c) (s_e s)) as [[r b] e]. destruct r as [k|[]].
    - destruct (k =? 0); [reflexivity|]. destruct (k <? n); [reflexivity|]. destruct rest; reflexivity.
    - destruct (len got =? 0); cbn [negb]; [rewrite read_w by discriminate|]; reflexivity.
    - rewrite send_w by discriminate. reflexivity.
    - reflexivity.
    - rewrite fail_w by discriminate. reflexivity.
  Qed.

  Lemma advance_other t c s s' : Inv s -> t <> W -> advance t c s = Next s' -> s_w s' = s_w s.
  Proof.
    intros H Ht E. unfold advance in E. destruct (pc_of t s) as [|k|k|k|n k|k] eqn:Ep; [discriminate| | | | |].
    - destruct k as [iov w|w|n rest got|k|].
      + exfalso. destruct t; [congruence| |]; cbn [pc_of] in Ep.
        * pose proof (i_rk _ H (KAfter iov w)) as X. rewrite Ep in X. apply X. reflexivity.
        * destruct (i_d _ H) as [[X _]|[n X]]; congruence.
      + exfalso. destruct t; [congruence| |]; cbn [pc_of] in Ep.
        * pose proof (i_rk _ H (KRet w)) as X. rewrite Ep in X. apply X. reflexivity.
        * destruct (i_d _ H) as [[X _]|[n X]]; congruence.
      + injection E as <-. destruct t; [congruence| |].
        * apply round_w.
        * cbn [pc_of] in Ep. destruct (i_d _ H) as [[X _]|[n0 X]]; congruence.
      + injection E as <-. apply read2_w; auto.
      + injection E as <-. unfold end_drain. destruct (s_drain s); reflexivity.
    - destruct (s_wfl s); [discriminate|]. injection E as <-. destruct t; try congruence; reflexivity.
    - destruct (s_rfl s); [discriminate|]. injection E as <-. destruct t; try congruence; reflexivity.
    - destruct (c_n c) as [k0| | |]; try discriminate.
      + destruct (_ <? _); [discriminate|]. destruct (_ =? _); injection E as <-.
        * rewrite resume_w by exact Ht. reflexivity.
        * destruct t; try congruence; reflexivity.
      + injection E as <-. rewrite fail_w by exact Ht. reflexivity.
    - destruct (c_n c) as [k0| | |]; try discriminate.
      + destruct (_ =? _); [discriminate|]. injection E as <-. destruct t; try congruence; reflexivity.
      + injection E as <-. rewrite fail_w by exact Ht. reflexivity.
      + injection E as <-. rewrite fail_w by exact Ht. reflexivity.
  Qed.

  Lemma advance_okw c s s' k : Inv s -> p_cont (s_w s) = Some k -> Inv2 s -> advance W c s = Next s' -> okw k (s_w s').
  Proof.
    intros H Hk HI2 E. pose proof (i_wk _ H _ Hk) as [K _].
    unfold advance in E. cbn [pc_of] in E. destruct (s_w s) as [|k1|k1|k1|n k1|k1] eqn:Ep; [discriminate| | | | |];
      injection Hk as ->.
    - destruct k as [iov w|w|n rest got|k|]; cbn [is_w] in K; try contradiction.
      + destruct (0 <? w); [injection E as <-; apply okw_send; [intros _; exact I | discriminate]|].
        unfold write_round in E. destruct (push iov (c_w c) (s_e s)) as [[[w' o] e]|]; [|discriminate].
        injection E as <-. destruct o as [[]|].
        * apply okw_read; [auto | discriminate].
        * apply okw_send; [auto | discriminate].
        * left. reflexivity.
        * left. reflexivity.
        * apply okw_run. auto.
      + injection E as <-. left. reflexivity.
      + injection E as <-. destruct K as (iov & w & ->). apply okw_read2; [auto | discriminate].
    - destruct (s_wfl s); [discriminate|]. injection E as <-. apply okw_run. auto.
    - destruct (s_rfl s); [discriminate|]. injection E as <-. apply okw_run. auto.
    - destruct (c_n c) as [k0| | |]; try discriminate.
      + destruct (_ <? _); [discriminate|]. destruct (_ =? _); injection E as <-.
        * destruct k; cbn [resume]; try (apply okw_run; auto). contradiction.
        * right. exists k. split; [reflexivity|]. split; [auto|]. split; discriminate.
      + injection E as <-. apply okw_fail2. exact K.
    - destruct (c_n c) as [k0| | |]; try discriminate.
      + destruct (_ =? _); [discriminate|]. injection E as <-. apply okw_run. auto.
      + injection E as <-. apply okw_fail2. exact K.
      + injection E as <-. apply okw_fail2. exact K.
  Qed.

  Lemma advance_w t c s s' : Inv s -> Inv2 s -> advance t c s = Next s' -> Inv2 s' /\ (non_w s -> non_w s').
  Proof.
    intros H HI2 E.
    assert (SAME : s_w s' = s_w s -> Inv2 s' /\ (non_w s -> non_w s')).
    { intros X. unfold Inv2, non_w in *. rewrite X. auto. }
    destruct t.
    2,3: apply SAME; eapply advance_other; eauto; discriminate.
    destruct (p_cont (s_w s)) as [k|] eqn:Ek.
    - pose proof (advance_okw c s s' k H Ek HI2 E) as O. destruct O as [O|(k' & O1 & O2 & O3)].
      + unfold Inv2, non_w. rewrite O. split; [intros w; split; discriminate | discriminate].
      + split.
        * intros w. split; intros X; rewrite X in O1; injection O1 as <-; destruct (O3 w eq_refl); congruence.
        * intros Hn k1 X. rewrite O1 in X. injection X as <-. apply O2, Hn, Ek.
    - exfalso. unfold advance in E. cbn [pc_of] in E. destruct (s_w s); cbn [p_cont] in Ek; discriminate.
  Qed.

  (** *** Every step *)
  Lemma step_ok s l : Inv s -> Inv2 s ->
    match step U s l with
    | Next s' => Inv s' /\ Inv2 s' /\ (non_w s -> good l -> non_w s')
    | Ub => ~ (non_w s /\ good l)
    | Stuck => True
    end.
  Proof.
    intros H HI2. destruct l as [lens|n rest|lens its|n its|t c]; cbn [step].
    - destruct (can_write U lens s) eqn:Ec; [|exact I]. unfold can_write in Ec.
      destruct (s_w s) eqn:Ew; try discriminate. apply andb_prop in Ec as [Ec E3]. apply andb_prop in Ec as [E1 E2].
      apply negb_true_iff in E1. apply N.leb_le in E2.
      destruct (split_ok lens (drop (s_pos s) U)) as [S1 S2]; [rewrite len_drop; lia|].
      split; [|split].
      + apply go_run; [discriminate | | right; right; right; discriminate]. apply write_idle; auto.
        rewrite S1 at 1. f_equal. rewrite S1, len_take, len_drop. lia.
      + intros w. split; discriminate.
      + intros _ G k X. injection X as <-. apply S2, G.
    - destruct (s_r s) eqn:Er; try exact I. split; [|auto].
      apply go_run; [discriminate | | right; right; right; discriminate]. apply read_idle; auto.
    - destruct (can_write U lens s) eqn:Ec; [|exact I]. unfold can_write in Ec.
      destruct (s_w s) eqn:Ew; try discriminate. apply andb_prop in Ec as [Ec E3]. apply andb_prop in Ec as [E1 E2].
      apply negb_true_iff in E1. apply N.leb_le in E2.
      destruct (split_ok lens (drop (s_pos s) U)) as [S1 S2]; [rewrite len_drop; lia|].
      assert (Ha : at_k W (KAfter (split lens (drop (s_pos s) U)) 0) s).
      { apply write_idle; auto. rewrite S1 at 1. f_equal. rewrite S1, len_take, len_drop. lia. }
      assert (IDLE : forall s', s_w s' = Idle -> Inv2 s' /\ (non_w s -> good (CallTrySend lens its) -> non_w s')).
      { intros s' X. unfold Inv2, non_w. rewrite X. split; [intros w; split; discriminate | discriminate]. }
      destruct (s_wfl s) eqn:Ewf.
      + split; [|apply IDLE; exact Ew].
        rewrite <- (pc_id W s Idle Ew).
        pose proof (ret_write_inv _ s 0 true (TrySentErr Again) Ha (or_introl eq_refl) ltac:(discriminate) ltac:(discriminate) ltac:(discriminate)) as X.
        rewrite N.add_0_r in X. exact X.
      + pose proof (try_send_inv (split lens (drop (s_pos s) U)) (total lens) its (split lens (drop (s_pos s) U)) 0 s Ha Ew Ewf) as P.
        rewrite N.add_0_r in P.
        specialize (P ltac:(rewrite S1 at 1; f_equal; rewrite S1, len_take, len_drop; lia)).
        destruct (try_send _ _ _ _ _) as [| |s']; [exact I | | ].
        * intros [_ G]. apply P, S2, G.
        * destruct P as [P1 P2]. split; [exact P1 | apply IDLE; exact P2].
    - destruct (s_r s) eqn:Er; try exact I.
      pose proof (try_recv_inv n its n [] s (read_idle n [] s H Er) Er ltac:(change (len (@nil N)) with 0; lia)) as P.
      destruct (try_recv its n n [] s) as [| |s']; [exact I | destruct P |].
      destruct P as [P1 P2]. unfold Inv2, non_w. rewrite P2. auto.
    - pose proof (advance_inv t c s H HI2) as P. destruct (advance t c s) as [| |s'] eqn:E; [exact I | intros [X _]; auto |].
      pose proof (advance_w t c s s' H HI2 E) as [Q1 Q2]. auto.
  Qed.
End Inv.

(** ** The results of the calls *)
Lemma wrote_app a b : wrote (a ++ b) = wrote a + wrote b.
Proof. induction a as [|x a IH]; cbn [app wrote]; [reflexivity | rewrite IH; lia]. Qed.
Lemma reads_app a b : reads (a ++ b) = reads a ++ reads b.
Proof. unfold reads. apply flat_map_app. Qed.
Lemma complete_snoc a r : complete (a ++ [r]) = complete1 (complete a) r.
Proof. unfold complete. rewrite fold_left_app. reflexivity. Qed.

Record Lg (s : st) : Prop := {
  l_pos : s_pos s = wrote (s_log s);
  l_dl : s_dl s = reads (s_log s);
  l_full : complete (s_log s) = negb (s_werr s || s_owed s);
  l_err : s_werr s = true -> In WroteErr (s_log s) }.

Definition keeps (s s' : st) : Prop :=
  s_pos s' = s_pos s /\ s_dl s' = s_dl s /\ s_log s' = s_log s /\ s_werr s' = s_werr s /\ s_owed s' = s_owed s.
Lemma keeps_refl s : keeps s s. Proof. repeat split. Qed.
Lemma lg_keeps s s' : Lg s -> keeps s s' -> Lg s'.
Proof. intros [H1 H2 H3 H4] (K1 & K2 & K3 & K4 & K5). constructor; rewrite ?K1, ?K2, ?K3, ?K4, ?K5; assumption. Qed.

Lemma lg_quiet r s : Lg s -> match r with Wake | ReadErr | TryReadErr _ => True | _ => False end -> Lg (note r s).
Proof.
  intros [H1 H2 H3 H4] Hr. constructor; cbn [note s_pos s_dl s_log s_werr s_owed].
  - rewrite wrote_app. destruct r; try contradiction; cbn; lia.
  - rewrite reads_app. destruct r; try contradiction; cbn; rewrite app_nil_r; exact H2.
  - rewrite complete_snoc. destruct r; try contradiction; exact H3.
  - intros X. apply in_or_app. auto.
Qed.
Lemma lg_read r got s : Lg s -> (r = ReadOk got \/ exists n, r = TryRead n got) -> Lg (note r (with_dl (s_dl s ++ got) s)).
Proof.
  intros [H1 H2 H3 H4] Hr. constructor; cbn [note with_dl s_pos s_dl s_log s_werr s_owed].
  - rewrite wrote_app. destruct Hr as [->|[n ->]]; cbn; lia.
  - rewrite reads_app. destruct Hr as [->|[n ->]]; cbn; rewrite app_nil_r, H2; reflexivity.
  - rewrite complete_snoc. destruct Hr as [->|[n ->]]; exact H3.
  - intros X. apply in_or_app. auto.
Qed.
Lemma lg_write r n owed s : Lg s -> s_werr s = false -> wrote1 r = n ->
  match r with Wrote _ | TrySent _ _ | TrySentErr _ => True | _ => False end ->
  complete1 (complete (s_log s)) r = negb owed -> Lg (note r (with_pos (s_pos s + n) owed s)).
Proof.
  intros [H1 H2 H3 H4] He Hn Hr Hc. constructor; cbn [note with_pos s_pos s_dl s_log s_werr s_owed].
  - rewrite wrote_app. cbn [wrote]. lia.
  - rewrite reads_app. destruct r; try contradiction; cbn; rewrite app_nil_r; exact H2.
  - rewrite complete_snoc, Hc, He. reflexivity.
  - intros X. apply in_or_app. auto.
Qed.
Lemma lg_werr s : Lg s -> Lg (note WroteErr (with_werr s)).
Proof.
  intros [H1 H2 H3 H4]. constructor; cbn [note with_werr s_pos s_dl s_log s_werr s_owed].
  - rewrite wrote_app. cbn. lia.
  - rewrite reads_app. cbn. rewrite app_nil_r. exact H2.
  - rewrite complete_snoc. reflexivity.
  - intros X. apply in_or_app. right. left. reflexivity.
Qed.

Ltac kp := (repeat split; reflexivity).
Lemma lg_end_drain s : Lg s -> Lg (end_drain s).
Proof.
  intros H. unfold end_drain. destruct (s_drain s).
  - apply lg_quiet; [|exact I]. eapply lg_keeps; [exact H | kp].
  - eapply lg_keeps; [exact H | kp].
Qed.
Lemma lg_ret_read t got s : Lg s -> Lg (ret_read t got s).
Proof.
  intros H. unfold ret_read. apply (lg_read (ReadOk got) got (with_pc t Idle s)); [|auto]. eapply lg_keeps; [exact H | kp].
Qed.
Lemma lg_fail t k : forall s, Lg s -> Lg (fail t k s).
Proof.
  induction k; intros s H; cbn [fail].
  - apply lg_werr. eapply lg_keeps; [exact H | kp].
  - apply lg_werr. eapply lg_keeps; [exact H | kp].
  - destruct (len got =? 0); [|apply lg_ret_read; exact H]. apply lg_quiet; [|exact I]. eapply lg_keeps; [exact H | kp].
  - apply IHk. exact H.
  - apply lg_end_drain. exact H.
Qed.
Lemma lg_resume t k s : Lg s -> Lg (resume t k s).
Proof. intros H. destruct k; cbn [resume]; try (eapply lg_keeps; [exact H | kp]). apply lg_end_drain. exact H. Qed.
Lemma lg_send t k s : Lg s -> Lg (maybe_send t k s).
Proof.
  intros H. unfold maybe_send. destruct (len (out s) =? 0); [apply lg_resume; exact H|].
  destruct (s_wfl s); (eapply lg_keeps; [exact H | kp]).
Qed.
Lemma lg_read2 t k s : Lg s -> Lg (up_read2 t k s).
Proof. intros H. unfold up_read2. destruct (s_rfl s); (eapply lg_keeps; [exact H | kp]). Qed.
Lemma lg_up t k s : Lg s -> Lg (up_read t k s).
Proof. intros H. unfold up_read. destruct (_ && _); [apply lg_send | apply lg_read2]; exact H. Qed.
Lemma lg_e e s : Lg s -> Lg (with_e e s).
Proof. intros H. eapply lg_keeps; [exact H | kp]. Qed.
Lemma lg_pc t p s : Lg s -> Lg (with_pc t p s).
Proof. intros H. eapply lg_keeps; [exact H | kp]. Qed.

Lemma lg_round t n rest got c s : Lg s -> Lg (read_round t n rest got c s).
Proof.
  intros H. unfold read_round. destruct (eng_read n (c_r c) (s_e s)) as [[r b] e].
  destruct r as [k|[]]; repeat match goal with |- context [if ?x then _ else _] => destruct x end;
    try (destruct rest); auto using lg_e, lg_pc, lg_ret_read, lg_up, lg_send, lg_fail.
Qed.

Lemma lg_advance t c s s' : Lg s -> (forall w, pc_of t s = Run (KRet w) -> s_werr s = false) -> advance t c s = Next s' -> Lg s'.
Proof.
  intros H Hw E. unfold advance in E. destruct (pc_of t s) as [|k|k|k|n k|k] eqn:Ep; [discriminate| | | | |].
  - destruct k as [iov w|w|n rest got|k|].
    + destruct (0 <? w); [injection E as <-; apply lg_send; exact H|].
      unfold write_round in E. destruct (push iov (c_w c) (s_e s)) as [[[w' o] e]|]; [|discriminate].
      injection E as <-. destruct o as [[]|]; auto using lg_e, lg_pc, lg_ret_read, lg_up, lg_send, lg_fail, lg_werr.
    + injection E as <-. apply (lg_write (Wrote w) w false (with_pc t Idle s)); auto using lg_pc.
      apply (Hw w eq_refl).
    + injection E as <-. apply lg_round; exact H.
    + injection E as <-. apply lg_read2; exact H.
    + injection E as <-. apply lg_end_drain; exact H.
  - destruct (s_wfl s); [discriminate|]. injection E as <-. apply lg_pc; exact H.
  - destruct (s_rfl s); [discriminate|]. injection E as <-. apply lg_pc; exact H.
  - destruct (c_n c) as [k0| | |]; try discriminate.
    + destruct (_ <? _); [discriminate|]. destruct (_ =? _); injection E as <-.
      * apply lg_resume. eapply lg_keeps; [exact H | kp].
      * eapply lg_keeps; [exact H | kp].
    + injection E as <-. apply lg_fail. eapply lg_keeps; [exact H | kp].
  - destruct (c_n c) as [k0| | |]; try discriminate.
    + destruct (_ =? _); [discriminate|]. injection E as <-. eapply lg_keeps; [exact H | kp].
    + injection E as <-. apply lg_fail. eapply lg_keeps; [exact H | kp].
    + injection E as <-. apply lg_fail. eapply lg_keeps; [exact H | kp].
Qed.

Lemma lg_start_drain b s s' : Lg s -> start_drain b s = Next s' -> Lg s' /\ s_werr s' = s_werr s.
Proof.
  intros H E. unfold start_drain in E. destruct (s_d s); try discriminate. injection E as <-.
  split; [eapply lg_keeps; [exact H | kp] | reflexivity].
Qed.
Lemma lg_try_send_end total sent status s s' : Lg s -> s_werr s = false -> (status = None -> sent = 0 -> total = 0 -> False) ->
  try_send_end total sent status s = Next s' -> Lg s'.
Proof.
  intros H He Ht E. unfold try_send_end in E. destruct (N.ltb_spec 0 sent).
  - assert (X : Lg (note (TrySent total sent) (with_pos (s_pos s + sent) (negb (sent =? total)) s))).
    { apply lg_write; auto. cbn [complete1]. rewrite negb_involutive. reflexivity. }
    destruct (_ && _); [eapply lg_start_drain; eauto | injection E as <-; exact X].
  - assert (P : forall r, wrote1 r = 0 -> match r with Wrote _ | TrySent _ _ | TrySentErr _ => True | _ => False end ->
      complete1 (complete (s_log s)) r = false -> Lg (note r (with_pos (s_pos s) true s))).
    { intros r R1 R2 R3. rewrite <- (N.add_0_r (s_pos s)). apply lg_write; auto. }
    destruct status; injection E as <-.
    + apply P; auto.
    + apply P; auto. cbn [complete1]. apply N.eqb_neq. intros X. apply Ht; [reflexivity | lia | lia].
Qed.
Lemma lg_flush n s s1 r : Lg s -> s_werr s = false -> flush n s = (s1, r) -> Lg s1 /\ s_werr s1 = false.
Proof.
  intros H He E. unfold flush in E. destruct (len (out s) =? 0); [injection E as <- <-; auto|].
  destruct n; injection E as <- <-; auto; (split; [eapply lg_keeps; [exact H | kp] | exact He]).
Qed.
Lemma lg_try_send total its : 0 < total -> forall iov sent s s', Lg s -> s_werr s = false ->
  try_send its iov total sent s = Next s' -> Lg s'.
Proof.
  intros Ht. induction its as [|it its IH]; intros iov sent s s' H He E; cbn [try_send] in E; [discriminate|].
  assert (END : forall st sent s1, Lg s1 -> s_werr s1 = false -> try_send_end total sent st s1 = Next s' -> Lg s').
  { intros st0 sent0 s1 A1 A2 A3. refine (lg_try_send_end total sent0 st0 s1 s' A1 A2 _ A3). intros _ _ X. lia. }
  destruct (match iov with [] => len (out s) =? 0 | _ => false end); [eauto|].
  destruct (flush (t_send it) s) as [s1 status] eqn:Ef. destruct (lg_flush _ _ _ _ H He Ef) as [A1 A2].
  destruct status; [eauto|]. destruct (skip_empty iov) as [|b r]; [eauto|]. set (iov1 := b :: r) in *.
  destruct (push iov1 (t_w it) (s_e s1)) as [[[w o] e]|]; [|discriminate].
  assert (B1 : Lg (with_e e s1)) by (apply lg_e; exact A1).
  destruct o as [[]|]; eauto.
  destruct (s_rfl s); [eauto|]. destruct (t_recv it); eauto.
  destruct (_ =? _); [discriminate|]. eapply IH; [| |exact E]; [eapply lg_keeps; [exact B1 | kp] | exact A2].
Qed.

Lemma lg_try_recv_end n got status s s' : Lg s -> try_recv_end n got status s = Next s' -> Lg s'.
Proof.
  intros H E. unfold try_recv_end in E. destruct (N.eqb_spec (len got) 0) as [Z|Z]; cbn [negb] in E.
  - destruct status; injection E as <-; [apply lg_quiet; auto|].
    pose proof (lg_read (TryRead n []) [] s H (or_intror (ex_intro _ n eq_refl))) as X. rewrite app_nil_r in X.
    destruct s; exact X.
  - injection E as <-. apply lg_read; eauto.
Qed.
Lemma lg_try_recv_drain n got s s' : Lg s -> try_recv_drain n got s = Next s' -> Lg s'.
Proof.
  intros H E. unfold try_recv_drain in E. destruct (start_drain true s) as [| |s1] eqn:Ed; try discriminate.
  eapply lg_try_recv_end; [|exact E]. eapply lg_start_drain; eauto.
Qed.
Lemma lg_fill n s s1 r : Lg s -> try_fill n s = Some (s1, r) -> Lg s1.
Proof.
  intros H E. unfold try_fill in E. destruct (s_rfl s); [injection E as <- <-; exact H|].
  destruct n; try (injection E as <- <-; exact H). destruct (_ =? _); [discriminate|]. injection E as <- <-.
  eapply lg_keeps; [exact H | kp].
Qed.
Lemma lg_try_recv n0 its : forall n got s s', Lg s -> try_recv its n0 n got s = Next s' -> Lg s'.
Proof.
  induction its as [|it its IH]; intros n got s s' H E; cbn [try_recv] in E; [discriminate|].
  destruct (n =? 0); [eapply lg_try_recv_end; eauto|].
  destruct (eng_read n (t_r it) (s_e s)) as [[r b] e].
  pose proof (lg_e e s H) as H1. set (s1 := with_e e s) in *.
  assert (FILL : forall s2, Lg s2 ->
    match try_fill (t_recv it) s2 with
    | None => Stuck
    | Some (s3, None) => try_recv its n0 n got s3
    | Some (s3, status) => try_recv_end n0 got status s3
    end = Next s' -> Lg s').
  { intros s2 A X. destruct (try_fill (t_recv it) s2) as [[s3 [er|]]|] eqn:Ef; [| |discriminate].
    - eapply lg_try_recv_end; [eapply lg_fill; eauto | exact X].
    - eapply IH; [eapply lg_fill; eauto | exact X]. }
  destruct r as [k|o]; [eapply IH; eauto|].
  destruct o; try (eapply lg_try_recv_end; eauto; fail);
    (destruct (s_wfl s); [eapply lg_try_recv_end; eauto|]; destruct (len (out s1) =? 0); [eauto|];
     destruct (t_send it); [| eapply lg_try_recv_drain; eauto
       | eapply lg_try_recv_end; [|exact E]; eapply lg_keeps; [exact H1 | kp]
       | eapply lg_try_recv_end; [|exact E]; eapply lg_keeps; [exact H1 | kp]];
     destruct (_ <? _); [eapply lg_try_recv_drain; [|exact E]; eapply lg_keeps; [exact H1 | kp]|]).
  - eapply FILL; [|exact E]. eapply lg_keeps; [exact H1 | kp].
  - eapply IH; [|exact E]. eapply lg_keeps; [exact H1 | kp].
Qed.

Lemma lg_step U RX s l s' : Lg s -> Inv U RX s -> step U s l = Next s' -> Lg s'.
Proof.
  intros H HI E. destruct l as [lens|n rest|lens its|n its|t c]; cbn [step] in E.
  - destruct (can_write U lens s); [|discriminate]. injection E as <-. apply lg_pc; exact H.
  - destruct (s_r s); try discriminate. injection E as <-. apply lg_pc; exact H.
  - destruct (can_write U lens s) eqn:Ec; [|discriminate]. unfold can_write in Ec.
    destruct (s_w s) eqn:Ew; try discriminate. apply andb_prop in Ec as [Ec E3]. apply andb_prop in Ec as [E1 E2].
    apply negb_true_iff in E1. apply N.ltb_lt in E3.
    destruct (s_wfl s).
    + injection E as <-. rewrite <- (N.add_0_r (s_pos s)). apply lg_write; auto.
    + eapply lg_try_send; eauto.
  - destruct (s_r s); try discriminate. eapply lg_try_recv; eauto.
  - eapply lg_advance; eauto. intros w Hp. destruct t; cbn [pc_of] in Hp.
    + destruct (s_werr s) eqn:Ee; [|reflexivity]. pose proof (i_we _ _ _ HI Ee). congruence.
    + exfalso. pose proof (i_rk _ _ _ HI (KRet w)) as X. rewrite Hp in X. apply X. reflexivity.
    + exfalso. destruct (i_d _ _ _ HI) as [[X _]|[n0 X]]; congruence.
Qed.

Definition All U RX s := Inv U RX s /\ Inv2 s /\ Lg s.
Lemma all_init U RX : All U RX (init RX).
Proof.
  split; [apply init_inv|]. split; [intros w; split; discriminate|]. constructor; try reflexivity. discriminate.
Qed.
Lemma all_step U RX s l s' : All U RX s -> step U s l = Next s' -> All U RX s'.
Proof.
  intros (H1 & H2 & H3) E. pose proof (step_ok U RX s l H1 H2) as P. rewrite E in P. destruct P as (P1 & P2 & _).
  split; [exact P1|]. split; [exact P2|]. eapply lg_step; eauto.
Qed.
Lemma all_exec U RX ls s : exec (step U) (init RX) ls = Next s -> All U RX s.
Proof.
  intros E. eapply (reach_step (step U) (All U RX)); [| apply all_init | exists ls; exact E].
  intros s0 l s1 A X. eapply all_step; eauto.
Qed.

(** ** The theorems *)
Theorem tls_write_stream_pf U rx ls s : exec (step U) (init rx) ls = Next s ->
  exists m, apps (s_wire s ++ out s) = take m U /\ wrote (s_log s) <= m <= len U
    /\ (~ In WroteErr (s_log s) -> m = wrote (s_log s) + taken (s_w s)).
Proof.
  intros E. destruct (all_exec _ _ _ _ E) as (H & _ & [L1 L2 L3 L4]).
  destruct (i_wr _ _ _ H) as (m & (M1 & M2 & M3) & M4 & M5). exists m. rewrite <- L1.
  split; [exact M1|]. split; [lia|]. intros X. apply M5.
  destruct (s_werr s); [|reflexivity]. exfalso. auto.
Qed.

Lemma wfl_sending U RX s : Inv U RX s -> s_wfl s = true -> exists t, sending (pc_of t s) = true.
Proof.
  intros H Hw. pose proof (i_wfl _ _ _ H) as H1. rewrite Hw in H1.
  destruct (sending (s_w s)) eqn:E1; [exists W; exact E1|]. destruct (sending (s_r s)) eqn:E2; [exists R; exact E2|].
  destruct (sending (s_d s)) eqn:E3; [exists D; exact E3|]. discriminate.
Qed.
Lemma rfl_receiving U RX s : Inv U RX s -> s_rfl s = true -> exists t, receiving (pc_of t s) = true.
Proof.
  intros H Hw. pose proof (i_rfl _ _ _ H) as H1. rewrite Hw in H1.
  destruct (receiving (s_w s)) eqn:E1; [exists W; exact E1|]. destruct (receiving (s_r s)) eqn:E2; [exists R; exact E2|].
  discriminate.
Qed.

Theorem tls_flushed_pf U rx ls s : exec (step U) (init rx) ls = Next s ->
  complete (s_log s) = true -> s_w s = Idle -> (forall t, sending (pc_of t s) = false) -> s_fail s = false ->
  apps (s_wire s) = take (wrote (s_log s)) U.
Proof.
  intros E Hc Hi Hs Hf. destruct (all_exec _ _ _ _ E) as (H & _ & [L1 L2 L3 L4]).
  rewrite Hc in L3. symmetry in L3. apply negb_true_iff, orb_false_iff in L3 as [L3 L5].
  destruct (i_wr _ _ _ H) as (m & (M1 & M2 & M3) & M4 & M5). rewrite (M5 L3), Hi in M1.
  unfold taken in M1. cbn [p_cont] in M1. rewrite N.add_0_r, L1 in M1.
  assert (Q : quiet s) by (split; [exact L3 | rewrite Hi; exact L5]).
  destruct (i_fl _ _ _ H Q) as [X|[X|X]]; [congruence| |].
  - destruct (wfl_sending _ _ _ H X) as [t Y]. rewrite Hs in Y. discriminate.
  - rewrite apps_app in M1. unfold out in X. rewrite X, app_nil_r in M1. exact M1.
Qed.

Theorem tls_read_stream_pf U rx ls s : exec (step U) (init rx) ls = Next s ->
  exists con, rx = con ++ e_in (s_e s) ++ s_rx s /\ iapps con = reads (s_log s) ++ got_of (s_r s) /\ ~ In IZ con.
Proof.
  intros E. destruct (all_exec _ _ _ _ E) as (H & _ & [L1 L2 L3 L4]). rewrite <- L2. apply (i_rd _ _ _ H).
Qed.

Theorem tls_no_truncation_pf U rx ls s : exec (step U) (init rx) ls = Next s -> eof_seen (s_log s) ->
  exists before after, rx = before ++ IZ :: after /\ ~ In IZ before /\ reads (s_log s) = iapps before.
Proof.
  intros E X. destruct (tls_read_stream_pf U rx ls s E) as (con & C1 & C2 & C3).
  destruct (all_exec _ _ _ _ E) as (H & _ & _). destruct (i_eof _ _ _ H X) as [[t Y1] Y2].
  rewrite Y2, app_nil_r in C2. rewrite Y1 in C1. exists con, (t ++ s_rx s). auto.
Qed.

Theorem tls_safe_pf U rx ls : Forall good ls -> exec (step U) (init rx) ls <> Ub.
Proof.
  intros G.
  assert (P : forall ls s, Forall good ls -> Inv U rx s -> Inv2 s -> non_w s -> exec (step U) s ls <> Ub).
  { clear. induction ls as [|l ls IH]; intros s G H1 H2 H3; cbn [exec]; [discriminate|].
    inversion_clear G. pose proof (step_ok U rx s l H1 H2) as P. destruct (step U s l) as [| |s'].
    - discriminate.
    - exfalso. apply P. auto.
    - destruct P as (P1 & P2 & P3). apply IH; auto. }
  apply P; auto.
  - apply init_inv.
  - intros w; split; discriminate.
  - discriminate.
Qed.

Theorem tls_no_deadlock_pf U rx ls s t : exec (step U) (init rx) ls = Next s -> pc_of t s <> Idle ->
  (exists c, step U s (Step t c) <> Stuck) \/
  exists t', t' <> t /\ busy (pc_of t' s) = true /\ exists c, step U s (Step t' c) <> Stuck.
Proof.
  intros E Hp. destruct (all_exec _ _ _ _ E) as (H & _ & _). cbn [step].
  set (c0 := mkCh [] (mkR 0 0 false false) NErr).
  assert (B : forall t', busy (pc_of t' s) = true -> exists c, advance t' c s <> Stuck).
  { intros t' X. exists c0. unfold advance, busy in *. destruct (pc_of t' s); try discriminate. }
  destruct (pc_of t s) as [|k|k|k|n k|k] eqn:Ep; [congruence| | | | |].
  - left. exists c0. unfold advance. rewrite Ep. destruct k; try discriminate.
    destruct (0 <? w); [discriminate|]. unfold write_round. destruct (push _ _ _) as [[[w' o] e]|]; discriminate.
  - destruct (s_wfl s) eqn:Ew.
    + right. destruct (wfl_sending _ _ _ H Ew) as [t' X]. exists t'. assert (Bt : busy (pc_of t' s) = true) by (unfold busy; rewrite X; reflexivity).
      split; [|auto]. intros ->. rewrite Ep in X. discriminate.
    + left. exists c0. unfold advance. rewrite Ep, Ew. discriminate.
  - destruct (s_rfl s) eqn:Ew.
    + right. destruct (rfl_receiving _ _ _ H Ew) as [t' X]. exists t'. assert (Bt : busy (pc_of t' s) = true) by (unfold busy; rewrite X; apply orb_true_r).
      split; [|auto]. intros ->. rewrite Ep in X. discriminate.
    + left. exists c0. unfold advance. rewrite Ep, Ew. discriminate.
  - left. apply B. rewrite Ep. reflexivity.
  - left. apply B. rewrite Ep. reflexivity.
Qed.

(** *** TryRecv *)
Lemma app_ne {X} (l : list X) a b : l ++ [a] = l ++ [b] -> a = b.
Proof. intros E. apply app_inv_head in E. congruence. Qed.
Lemma try_recv_end_log n got status s s' : try_recv_end n got status s = Next s' ->
  s_drain s' = s_drain s /\ s_rfl s' = s_rfl s /\ s_wfl s' = s_wfl s
  /\ exists r, s_log s' = s_log s ++ [r] /\ forall er, r = TryReadErr er -> status = Some er.
Proof.
  unfold try_recv_end. destruct (negb (len got =? 0)).
  - intros E. injection E as <-. repeat (split; [reflexivity|]). eexists. split; [reflexivity|]. discriminate.
  - destruct status; intros E; injection E as <-; repeat (split; [reflexivity|]); eexists; (split; [reflexivity|]).
    + intros er X. congruence.
    + discriminate.
Qed.
Definition why_again (its : list tch) (s' : st) : Prop :=
  s_drain s' = true \/ exists it, In it its /\ t_recv it = NAgain.
Lemma try_recv_again_ok n0 its : forall n got s s', try_recv its n0 n got s = Next s' ->
  s_log s' = s_log s ++ [TryReadErr Again] -> why_again its s'.
Proof.
  induction its as [|it its IH]; intros n got s s' E Hl; cbn [try_recv] in E; [discriminate|].
  assert (END : forall n got status s1, s_log s1 = s_log s -> try_recv_end n got status s1 = Next s' ->
    status = Some Again /\ s_drain s' = s_drain s1).
  { intros n1 got1 status s1 X Y. destruct (try_recv_end_log _ _ _ _ _ Y) as (Y1 & _ & _ & r & Y4 & Y5).
    rewrite X, Hl in Y4. apply app_ne in Y4. symmetry in Y4. auto. }
  assert (REC : forall n got s1, s_log s1 = s_log s -> try_recv its n0 n got s1 = Next s' -> why_again (it :: its) s').
  { intros n1 got1 s1 X Y. rewrite <- X in Hl. destruct (IH _ _ _ _ Y Hl) as [Z|(i & Z1 & Z2)].
    - left; exact Z. - right. exists i. split; [right; exact Z1 | exact Z2]. }
  assert (FILL : forall s2, s_log s2 = s_log s ->
    match try_fill (t_recv it) s2 with
    | None => Stuck
    | Some (s3, None) => try_recv its n0 n got s3
    | Some (s3, status) => try_recv_end n0 got status s3
    end = Next s' -> why_again (it :: its) s').
  { intros s2 X. unfold try_fill. destruct (s_rfl s2).
    - intros Y. destruct (END _ _ _ _ X Y). discriminate.
    - destruct (t_recv it) eqn:Et; intros Y.
      + destruct (clamp k (len (s_rx s2)) =? 0); [discriminate|]. eapply REC; [|exact Y]. exact X.
      + right. exists it. split; [left; reflexivity | exact Et].
      + destruct (END _ _ _ _ X Y). discriminate.
      + destruct (END _ _ _ _ X Y). discriminate. }
  assert (DR : forall s1, s_log s1 = s_log s -> try_recv_drain n0 got s1 = Next s' -> why_again (it :: its) s').
  { intros s1 X Y. unfold try_recv_drain, start_drain in Y. destruct (s_d s1); try discriminate.
    left. destruct (END n0 got (Some Again) (with_pc D (Send (len (out s1)) KDrain) (with_wfl true (with_drain true s1))) X Y) as [_ ->].
    reflexivity. }
  destruct (n =? 0).
  { destruct (END _ _ _ _ eq_refl E). discriminate. }
  destruct (eng_read n (t_r it) (s_e s)) as [[r b] e]. set (s1 := with_e e s) in *.
  assert (X1 : s_log s1 = s_log s) by reflexivity.
  destruct r as [k|o]; [eapply REC; [|exact E]; reflexivity|].
  destruct o; try (destruct (END _ _ _ _ X1 E); discriminate);
    (destruct (s_wfl s);
      [destruct (END _ _ _ _ X1 E) as [Z1 Z2]; left; rewrite Z2; change (s_drain s1) with (s_drain s); destruct (s_drain s); [reflexivity | discriminate]|];
     destruct (len (out s1) =? 0); [apply (FILL s1 X1 E)|];
     destruct (t_send it); [| apply (DR s1 X1 E) | destruct (END _ _ _ _ (eq_refl : s_log (with_fail s1) = s_log s) E); discriminate
                             | destruct (END _ _ _ _ (eq_refl : s_log (with_fail s1) = s_log s) E); discriminate];
     cbv zeta in E; destruct (_ <? _); [eapply DR; [|exact E]; reflexivity|]).
  - eapply FILL; [|exact E]. reflexivity.
  - eapply REC; [|exact E]. reflexivity.
Qed.
Theorem tls_try_recv_again_pf U n its s s' : step U s (CallTryRecv n its) = Next s' ->
  s_log s' = s_log s ++ [TryReadErr Again] ->
  s_drain s' = true \/ exists it, In it its /\ t_recv it = NAgain.
Proof.
  cbn [step]. destruct (s_r s); try discriminate. apply try_recv_again_ok.
Qed.

(** *** The receive callback *)
Lemma fail_dr t k : t <> D -> is_w k \/ is_r k -> forall s, s_drain (fail t k s) = s_drain s.
Proof.
  intros Ht. induction k; intros Hk s; cbn [fail]; try reflexivity.
  - destruct (len got =? 0); reflexivity.
  - destruct Hk as [(iov & w & ->)|Hk]; [reflexivity|]. apply IHk. right. exact Hk.
  - destruct Hk as [[]|[]].
Qed.
Lemma resume_dr t k s : is_w k \/ is_r k -> s_drain (resume t k s) = s_drain s.
Proof. intros H. destruct k; try reflexivity. destruct H as [[]|[]]. Qed.
Lemma send_dr t k s : is_w k \/ is_r k -> s_drain (maybe_send t k s) = s_drain s.
Proof.
  intros H. unfold maybe_send. destruct (len (out s) =? 0); [apply resume_dr; exact H|]. destruct (s_wfl s); reflexivity.
Qed.
Lemma read2_dr t k s : s_drain (up_read2 t k s) = s_drain s.
Proof. unfold up_read2. destruct (s_rfl s); reflexivity. Qed.
Lemma read_dr t k s : is_w (KUp k) \/ is_r (KUp k) -> s_drain (up_read t k s) = s_drain s.
Proof. intros H. unfold up_read. destruct (_ && _); [apply send_dr; exact H | apply read2_dr]. Qed.

Lemma advance_dr U RX t c s s' : Inv U RX s -> t <> D -> advance t c s = Next s' -> s_drain s' = s_drain s.
Proof.
  intros H Ht E.
  assert (K : forall k, p_cont (pc_of t s) = Some k -> is_w k \/ is_r k).
  { intros k X. destruct t; [| |congruence]; cbn [pc_of] in X.
    - left. apply (i_wk _ _ _ H k X). - right. apply (i_rk _ _ _ H k X). }
  unfold advance in E. destruct (pc_of t s) as [|k|k|k|n k|k] eqn:Ep; [discriminate| | | | |]; specialize (K k eq_refl).
  - destruct k as [iov w|w|n rest got|k|].
    + destruct (0 <? w); [injection E as <-; apply send_dr; left; exact I|].
      unfold write_round in E. destruct (push iov (c_w c) (s_e s)) as [[[w' o] e]|]; [|discriminate].
      injection E as <-. destruct o as [[]|]; try reflexivity.
      * rewrite read_dr; [reflexivity | left; cbn [is_w]; eauto].
      * rewrite send_dr; [reflexivity | left; exact I].
    + injection E as <-. reflexivity.
    + injection E as <-. unfold read_round. destruct (eng_read n (c_r c) (s_e s)) as [[r b] e]. destruct r as [k|[]].
      * destruct (k =? 0); [reflexivity|]. destruct (k <? n); [reflexivity|]. destruct rest; reflexivity.
      * destruct (len got =? 0); cbn [negb]; [rewrite read_dr by (right; exact I)|]; reflexivity.
      * rewrite send_dr by (right; exact I). reflexivity.
      * reflexivity.
      * rewrite fail_dr by (auto; right; exact I). reflexivity.
    + injection E as <-. apply read2_dr.
    + destruct K as [[]|[]].
  - destruct (s_wfl s); [discriminate|]. injection E as <-. reflexivity.
  - destruct (s_rfl s); [discriminate|]. injection E as <-. reflexivity.
  - destruct (c_n c) as [k0| | |]; try discriminate.
    + destruct (_ <? _); [discriminate|]. destruct (_ =? _); injection E as <-; [rewrite resume_dr by exact K|]; reflexivity.
    + injection E as <-. rewrite fail_dr by auto. reflexivity.
  - destruct (c_n c) as [k0| | |]; try discriminate.
    + destruct (_ =? _); [discriminate|]. injection E as <-. reflexivity.
    + injection E as <-. rewrite fail_dr by auto. reflexivity.
    + injection E as <-. rewrite fail_dr by auto. reflexivity.
Qed.

Lemma try_send_dr total its : forall iov sent s s', s_d s <> Idle -> try_send its iov total sent s = Next s' -> s_drain s' = s_drain s.
Proof.
  induction its as [|it its IH]; intros iov sent s s' Hd E; cbn [try_send] in E; [discriminate|].
  assert (END : forall st sent s1, s_drain s1 = s_drain s -> s_d s1 = s_d s -> try_send_end total sent st s1 = Next s' -> s_drain s' = s_drain s).
  { intros st0 sent0 s1 A1 A2 X. unfold try_send_end in X. destruct (0 <? sent0).
    - destruct (_ && _); [|injection X as <-; exact A1]. unfold start_drain in X. cbn [note with_pos s_d] in X.
      rewrite A2 in X. destruct (s_d s); try discriminate. congruence.
    - destruct st0; injection X as <-; exact A1. }
  assert (REC : forall iov sent s1, s_drain s1 = s_drain s -> s_d s1 = s_d s -> try_send its iov total sent s1 = Next s' -> s_drain s' = s_drain s).
  { intros iov0 sent0 s1 A1 A2 X. rewrite <- A1. eapply IH; [rewrite A2; exact Hd | exact X]. }
  destruct (match iov with [] => len (out s) =? 0 | _ => false end); [eauto|].
  destruct (flush (t_send it) s) as [s1 status] eqn:Ef.
  assert (F : s_drain s1 = s_drain s /\ s_d s1 = s_d s).
  { unfold flush in Ef. destruct (len (out s) =? 0); [injection Ef as <- <-; auto|].
    destruct (t_send it); injection Ef as <- <-; auto. }
  destruct F as [F1 F2].
  destruct status; [eauto|]. destruct (skip_empty iov) as [|b r]; [eauto|]. set (iov1 := b :: r) in *.
  destruct (push iov1 (t_w it) (s_e s1)) as [[[w o] e]|]; [|discriminate].
  assert (B1 : s_drain (with_e e s1) = s_drain s) by exact F1.
  assert (B2 : s_d (with_e e s1) = s_d s) by exact F2.
  destruct o as [[]|]; eauto.
  destruct (s_rfl s); [eauto|]. destruct (t_recv it); eauto.
  destruct (_ =? _); [discriminate|]. eapply REC; [| |exact E]; assumption.
Qed.

Lemma try_recv_dr n0 its : forall n got s s', s_d s <> Idle -> try_recv its n0 n got s = Next s' -> s_drain s' = s_drain s.
Proof.
  induction its as [|it its IH]; intros n got s s' Hd E; cbn [try_recv] in E; [discriminate|].
  assert (END : forall n got status s1, s_drain s1 = s_drain s -> try_recv_end n got status s1 = Next s' -> s_drain s' = s_drain s).
  { intros n1 got1 status s1 A1 X. destruct (try_recv_end_log _ _ _ _ _ X) as (Y & _). congruence. }
  assert (REC : forall n got s1, s_drain s1 = s_drain s -> s_d s1 = s_d s -> try_recv its n0 n got s1 = Next s' -> s_drain s' = s_drain s).
  { intros n1 got1 s1 A1 A2 X. rewrite <- A1. eapply IH; [rewrite A2; exact Hd | exact X]. }
  assert (DR : forall s1, s_d s1 = s_d s -> try_recv_drain n0 got s1 = Next s' -> s_drain s' = s_drain s).
  { intros s1 A X. unfold try_recv_drain, start_drain in X. rewrite A in X. destruct (s_d s); try discriminate. congruence. }
  assert (FILL : forall s2, s_drain s2 = s_drain s -> s_d s2 = s_d s ->
    match try_fill (t_recv it) s2 with
    | None => Stuck
    | Some (s3, None) => try_recv its n0 n got s3
    | Some (s3, status) => try_recv_end n0 got status s3
    end = Next s' -> s_drain s' = s_drain s).
  { intros s2 A1 A2. unfold try_fill. destruct (s_rfl s2); [intros Y; eauto|].
    destruct (t_recv it); intros Y; eauto.
    destruct (clamp k (len (s_rx s2)) =? 0); [discriminate|]. eapply REC; [| |exact Y]; assumption. }
  destruct (n =? 0); [eauto|].
  destruct (eng_read n (t_r it) (s_e s)) as [[r b] e]. set (s1 := with_e e s) in *.
  assert (A1 : s_drain s1 = s_drain s) by reflexivity. assert (A2 : s_d s1 = s_d s) by reflexivity.
  destruct r as [k|o]; [eauto|].
  destruct o; try (eapply END; [|exact E]; reflexivity);
    (destruct (s_wfl s); [eauto|];
     destruct (len (out s1) =? 0); [apply (FILL s1 A1 A2 E)|];
     destruct (t_send it); [| apply (DR s1 A2 E) | eapply END; [|exact E]; reflexivity | eapply END; [|exact E]; reflexivity];
     cbv zeta in E; destruct (_ <? _); [eapply DR; [|exact E]; reflexivity|]).
  - eapply FILL; [| |exact E]; reflexivity.
  - eapply REC; [| |exact E]; reflexivity.
Qed.

Theorem tls_wake_pf U rx ls s : exec (step U) (init rx) ls = Next s -> s_drain s = true ->
  sending (s_d s) = true /\
  forall l s', step U s l = Next s' -> s_drain s' = true \/ s_log s' = s_log s ++ [Wake].
Proof.
  intros E Hd. destruct (all_exec _ _ _ _ E) as (H & _ & _).
  destruct (i_d _ _ _ H) as [[_ X]|[n X]]; [congruence|]. split; [rewrite X; reflexivity|].
  assert (Xd : s_d s <> Idle) by congruence.
  intros l s' F. destruct l as [lens|n0 rest|lens its|n0 its|t c]; cbn [step] in F.
  - destruct (can_write U lens s); [|discriminate]. injection F as <-. left; exact Hd.
  - destruct (s_r s); try discriminate. injection F as <-. left; exact Hd.
  - destruct (can_write U lens s); [|discriminate]. left. rewrite <- Hd.
    destruct (s_wfl s); [injection F as <-; reflexivity|]. eapply try_send_dr; eauto.
  - destruct (s_r s); try discriminate. left. rewrite <- Hd. eapply try_recv_dr; eauto.
  - destruct t.
    + left. rewrite <- Hd. eapply advance_dr; eauto. discriminate.
    + left. rewrite <- Hd. eapply advance_dr; eauto. discriminate.
    + unfold advance in F. cbn [pc_of] in F. rewrite X in F. destruct (c_n c) as [k0| | |]; try discriminate.
      * destruct (_ <? _); [discriminate|]. destruct (_ =? _); injection F as <-.
        -- right. unfold resume, end_drain. cbn [with_wfl with_wire with_e s_drain]. rewrite Hd. reflexivity.
        -- left. exact Hd.
      * injection F as <-. right. unfold fail, end_drain. cbn [with_fail with_wfl s_drain]. rewrite Hd. reflexivity.
Qed.
