(** Proofs about the callback API of TLS sockets. *)
From Verif Require Import Util Conc TlsModel TlsSpec TlsProof TlsAsyncModel TlsAsyncSpec.
Open Scope N_scope.

Definition other (r : role) : role := match r with Reader => Writer | Writer => Reader end.
Definition is (r : role) (o : option role) : bool :=
  match o, r with Some Reader, Reader | Some Writer, Writer => true | _, _ => false end.
Definition own (o : option (role * N)) : option role := match o with Some (r, _) => Some r | None => None end.
Definition pres (r : role) (s : ast) : bool := match req_of r s with Some _ => true | None => false end.
Definition places (r : role) (s : ast) : nat :=
  (b2n (is r (own (a_uw s))) + b2n (is r (own (a_ur s))) + b2n (is r (a_blk s)))%nat.
Definition rok (r : role) (q : req) : Prop :=
  match r with Reader => 0 < q_n q | Writer => nonempty (q_iov q) /\ q_iov q <> [] end.

Record bounds (s : ast) : Prop := {
  b_uw : forall r n, a_uw s = Some (r, n) -> 0 < n <= len (aout s);
  b_rq : forall r q, req_of r s = Some q -> rok r q }.

Record G (s : ast) : Prop := {
  g_b : bounds s;
  g_p : forall r, places r s = b2n (pres r s);
  g_blk : forall r, a_blk s = Some r -> pres (other r) s = true }.

Record acting (r : role) (s : ast) : Prop := {
  c_b : bounds s; c_0 : places r s = 0%nat; c_blk : a_blk s = None }.

Record post (r : role) (s s' : ast) : Prop := {
  p_b : bounds s';
  p_p : places r s' = b2n (pres r s');
  p_req : req_of (other r) s' = req_of (other r) s;
  p_uw : is (other r) (own (a_uw s')) = is (other r) (own (a_uw s));
  p_ur : is (other r) (own (a_ur s')) = is (other r) (own (a_ur s));
  p_blk : a_blk s' = None \/ a_blk s' = Some r /\ (is (other r) (own (a_uw s)) || is (other r) (own (a_ur s)) = true) }.

Ltac flds := cbn [alog aw_req aw_blk aw_uw aw_ur aw_wire aw_commit aw_e
  a_e a_rd a_wr a_blk a_uw a_ur a_com a_wire a_rx a_pos a_werr a_bad a_log
  req_of pres places own is other aout set_in e_out e_in e_pend e_dead consume emit b2n q_iov q_n q_written q_read set_read set_written rok] in *.

Definition is_next (o : outcome ast) (P : ast -> Prop) : Prop := exists s', o = Next s' /\ P s'.

Lemma start_write_ok r s : acting r s -> pres r s = true -> aout s <> [] -> is_next (start_write r s) (post r s).
Proof.
  intros [B H0 Hb] Hp Ho. unfold start_write. destruct (a_uw s) as [[r' n]|] eqn:Eu; destruct B as [B1 B2].
  - unfold block. rewrite Hb. eexists. split; [reflexivity|]. unfold places in H0. rewrite Eu, Hb in H0.
    constructor; [constructor; [exact B1|intros r0 q; specialize (B2 r0 q); destruct r0; exact B2]| | | | |].
    + unfold pres, places in *. destruct r; flds; rewrite Eu; destruct (a_rd s), (a_wr s), r', (a_ur s) as [[[] ?]|]; flds; try discriminate; reflexivity || lia.
    + destruct r; reflexivity.
    + reflexivity.
    + reflexivity.
    + right. split; [reflexivity|]. destruct r, r'; flds; rewrite ?Eu; try reflexivity; flds; lia.
  - assert (El : (len (aout s) =? 0) = false).
    { destruct (N.eqb_spec (len (aout s)) 0) as [E|E]; [apply len_zero in E; contradiction | reflexivity]. }
    rewrite El. eexists. split; [reflexivity|]. unfold places in H0. rewrite Eu, Hb in H0.
    constructor; [constructor|..].
    + intros r0 n E. flds. injection E as <- <-. apply N.eqb_neq in El. unfold aout in *. flds. lia.
    + intros r0 q; specialize (B2 r0 q); destruct r0; exact B2.
    + unfold pres, places in *. destruct r; flds; rewrite Hb; destruct (a_rd s), (a_wr s), (a_ur s) as [[[] ?]|]; flds; try discriminate; reflexivity || lia.
    + destruct r; reflexivity.
    + rewrite Eu. destruct r; reflexivity.
    + reflexivity.
    + left. exact Hb.
Qed.

Lemma start_read_ok r s : acting r s -> pres r s = true -> is_next (start_read r s) (post r s).
Proof.
  intros [[B1 B2] H0 Hb] Hp. unfold start_read. pose proof Hp as Hp'. unfold pres in Hp'.
  destruct (req_of r s) as [q|] eqn:Eq; [clear Hp'|discriminate].
  assert (B' : bounds (aw_req r (Some (set_read false q)) s)).
  { constructor; [exact B1|]. intros r0 q0 E. specialize (B2 r0).
    destruct r, r0; flds; try (apply B2; exact E); injection E as <-; specialize (B2 q Eq); exact B2. }
  destruct B' as [B1' B2'].
  unfold places in H0. rewrite Hb in H0.
  destruct (a_ur s) as [[r' n]|] eqn:Eu.
  - unfold block. cbn [aw_req a_blk]. rewrite Hb. eexists. split; [reflexivity|].
    constructor; [constructor; [exact B1'|intros r0 q0; specialize (B2' r0 q0); destruct r0; exact B2']| | | | |].
    + unfold pres, places in *. destruct r; flds; rewrite Eu; destruct r', (a_uw s) as [[[] ?]|]; flds; try discriminate; reflexivity || lia.
    + destruct r; reflexivity.
    + destruct r; reflexivity.
    + destruct r; reflexivity.
    + right. split; [reflexivity|]. destruct r, r'; flds; rewrite ?Eu; flds; rewrite ?Bool.orb_true_r; try reflexivity; lia.
  - eexists. split; [reflexivity|].
    constructor; [constructor; [exact B1'|intros r0 q0; specialize (B2' r0 q0); destruct r0; exact B2']| | | | |].
    + unfold pres, places in *. destruct r; flds; rewrite Hb; destruct (a_uw s) as [[[] ?]|]; flds; try discriminate; reflexivity || lia.
    + destruct r; reflexivity.
    + destruct r; reflexivity.
    + rewrite Eu. destruct r; reflexivity.
    + left. destruct r; exact Hb.
Qed.

Lemma set_read_acting r b s q : acting r s -> req_of r s = Some q -> acting r (aw_req r (Some (set_read b q)) s).
Proof.
  intros [[B1 B2] H0 Hb] Eq. constructor; [constructor; [exact B1|]| exact H0 | exact Hb].
  intros r0 q0 E. specialize (B2 r0). destruct r, r0; flds; try (apply B2; exact E); injection E as <-; specialize (B2 q Eq); exact B2.
Qed.

Lemma post_pre r s0 s s' : req_of (other r) s = req_of (other r) s0 -> a_uw s = a_uw s0 -> a_ur s = a_ur s0 ->
  post r s s' -> post r s0 s'.
Proof. intros E1 E2 E3 [P1 P2 P3 P4 P5 P6]. constructor; congruence. Qed.

Lemma send_with_read_ok r s : acting r s -> pres r s = true -> is_next (send_with_read r s) (post r s).
Proof.
  intros A Hp. unfold send_with_read. destruct (N.eqb_spec (len (aout s)) 0) as [E|E]; cbn [negb].
  - apply start_read_ok; assumption.
  - pose proof Hp as Hp'. unfold pres in Hp'. destruct (req_of r s) as [q|] eqn:Eq; [|discriminate].
    destruct (start_write_ok r (aw_req r (Some (set_read true q)) s)) as (s' & E1 & P).
    + apply set_read_acting; assumption.
    + unfold pres. destruct r; reflexivity.
    + intros X. apply E. unfold aout in *. flds. rewrite X. reflexivity.
    + exists s'. split; [exact E1|]. eapply post_pre; [..|exact P]; destruct r; reflexivity.
Qed.

Lemma complete_ok r res s : acting r s -> pres r s = true -> is_next (complete_req r res s) (post r s).
Proof.
  intros [[B1 B2] H0 Hb] Hp. unfold complete_req. pose proof Hp as Hp'. unfold pres in Hp'.
  destruct (req_of r s) as [q|] eqn:Eq; [|discriminate]. eexists. split; [reflexivity|].
  constructor; [constructor|..].
  - exact B1.
  - intros r0 q0 E. specialize (B2 r0). destruct r, r0; flds; try discriminate; apply B2; exact E.
  - unfold pres. destruct r; flds; exact H0.
  - destruct r; reflexivity.
  - destruct r; reflexivity.
  - destruct r; reflexivity.
  - left. exact Hb.
Qed.

Lemma handle_op_ok r o s : acting r s -> pres r s = true -> (o = NeedW -> aout s <> []) ->
  is_next (handle_op r o s) (post r s).
Proof.
  intros A Hp Ho. destruct o; cbn [handle_op].
  - apply send_with_read_ok; assumption.
  - specialize (Ho eq_refl). unfold maybe_send_async. destruct (N.eqb_spec (len (aout s)) 0) as [E|E].
    + apply len_zero in E. contradiction.
    + apply start_write_ok; assumption.
  - apply complete_ok; assumption.
  - apply complete_ok; assumption.
Qed.

(** The engine. *)
Lemma map_A_nil p : List.map A p = [] -> p = [].
Proof. destruct p; [reflexivity | discriminate]. Qed.
Lemma eng_write_gen buf ch e : 0 < len buf ->
  let '(r, e') := eng_write buf ch e in
  e_in e' = e_in e /\ len (e_out e) <= len (e_out e') /\
  match r with
  | Got k => e_out e' <> []
  | Op NeedW => e_out e' <> []
  | Op NeedR => w_dec ch = WOp NeedR
  | _ => True
  end.
Proof.
  intros Hl. unfold eng_write.
  assert (L1 : len (e_out e) <= len (e_out (emit (repeat C (w_ctl ch)) e))) by (cbn [emit e_out]; rewrite len_app; lia).
  assert (I1 : e_in (emit (repeat C (w_ctl ch)) e) = e_in e) by reflexivity.
  set (e1 := emit (repeat C (w_ctl ch)) e) in *. clearbody e1.
  destruct (e_dead e1); [auto|].
  destruct (negb (len (e_pend e1) =? 0) && (len buf <? len (e_pend e1))) eqn:Es; [auto|].
  set (want := match w_dec ch with WAccept _ => false | _ => negb (len (e_out e1) =? 0) end).
  set (k := match w_dec ch with WAccept k | WWant k => clamp k (len buf) | _ => len buf end).
  set (p := if len (e_pend e1) =? 0 then take k buf else e_pend e1).
  assert (Hp : p <> []).
  { intros X. assert (len p = 0) by (rewrite X; reflexivity). unfold p in H.
    destruct (N.eqb_spec (len (e_pend e1)) 0); [|lia]. rewrite len_take in H.
    unfold k, clamp in H. destruct (w_dec ch); lia. }
  assert (BODY : let '(r, e') := if want then (Op NeedW, set_pend p e1) else (Got (len p), set_pend [] (emit (List.map A p) e1)) in
    e_in e' = e_in e /\ len (e_out e) <= len (e_out e') /\
    match r with Got k => e_out e' <> [] | Op NeedW => e_out e' <> [] | Op NeedR => w_dec ch = WOp NeedR | _ => True end).
  { unfold want. destruct (match w_dec ch with WAccept _ => false | _ => negb (len (e_out e1) =? 0) end) eqn:Ew.
    - cbn [set_pend e_in e_out]. split; [exact I1|]. split; [exact L1|]. intros X. rewrite X in Ew.
      destruct (w_dec ch); discriminate.
    - cbn [set_pend emit e_in e_out]. split; [exact I1|]. split; [rewrite len_app; lia|].
      intros X. apply app_eq_nil in X as [_ X]. apply map_A_nil in X. contradiction. }
  destruct (w_dec ch) as [k0|k0|[| | |]] eqn:Ed; try exact BODY; cbn [kill e_in e_out]; auto.
Qed.

Lemma push_loop_gen fuel : forall iov chs w e, nonempty iov -> (length iov <= fuel)%nat -> iov <> [] \/ e_out e <> [] ->
  exists w' o e', push_loop fuel iov chs w e = Some (w', o, e') /\ e_in e' = e_in e /\ len (e_out e) <= len (e_out e') /\
    (o = None -> e_out e' <> []) /\ (o = Some NeedW -> e_out e' <> []) /\ (Forall calm_w chs -> o <> Some NeedR).
Proof.
  induction fuel as [|f IH]; intros iov chs w e Hn Hf Ho; cbn [push_loop].
  { destruct iov; [|cbn in Hf; lia]. exists w, None, e. repeat (split; [solve [auto | lia]|]).
    destruct Ho as [?|?]; [congruence|]. split; [auto|]. split; [discriminate | discriminate]. }
  destruct iov as [|b r].
  { exists w, None, e. repeat (split; [solve [auto | lia]|]).
    destruct Ho as [?|?]; [congruence|]. split; [auto|]. split; discriminate. }
  pose proof (batch_ok b r) as B. destruct (batch b r) as [buf rest].
  destruct B as (B1 & B2 & B3 & (pre & B4)). inversion_clear Hn as [|? ? Hb Hr].
  destruct (N.eqb_spec (len buf) 0) as [E0|E0]; [lia|].
  set (cc := match chs with [] => _ | c :: t => (c, t) end).
  assert (Hc : Forall calm_w chs -> calm_w (fst cc) /\ Forall calm_w (snd cc)).
  { intros F. unfold cc. destruct chs; cbn [fst snd]; [split; [discriminate | constructor]|]. inversion F; auto. }
  destruct cc as [c0 chs']. cbn [fst snd] in Hc.
  pose proof (eng_write_gen buf c0 e ltac:(lia)) as P.
  destruct (eng_write buf c0 e) as [[k|o] e1]; destruct P as (P0 & P1 & P2).
  2:{ exists w, (Some o), e1. split; [reflexivity|]. split; [exact P0|]. split; [exact P1|]. split; [discriminate|].
      split; [intros X; injection X as ->; exact P2|]. intros F X. injection X as ->. destruct (Hc F) as [Y _]. apply Y. exact P2. }
  destruct (k =? len buf).
  - destruct (IH rest chs' (w + k) e1) as (w' & o & e' & I1 & I2 & I3 & I4 & I5 & I6).
    + unfold nonempty in *. rewrite B4 in Hr. apply Forall_app in Hr. apply Hr.
    + cbn [length] in Hf. lia.
    + right. exact P2.
    + exists w', o, e'. split; [exact I1|]. split; [congruence|]. split; [lia|]. split; [exact I4|]. split; [exact I5|].
      intros F. apply I6. apply Hc, F.
  - exists (w + k), None, e1. split; [reflexivity|]. split; [exact P0|]. split; [exact P1|]. split; [auto|].
    split; discriminate.
Qed.
Lemma push_gen iov chs e : nonempty iov -> iov <> [] ->
  exists w' o e', push iov chs e = Some (w', o, e') /\ e_in e' = e_in e /\ len (e_out e) <= len (e_out e') /\
    (o = None -> e_out e' <> []) /\ (o = Some NeedW -> e_out e' <> []) /\ (Forall calm_w chs -> o <> Some NeedR).
Proof. intros H1 H2. apply push_loop_gen; auto. Qed.

Lemma eng_read_gen n ch e : let '(r, b, e') := eng_read n ch e in
  len (e_out e) <= len (e_out e') /\ (r = Op NeedW -> e_out e' <> []) /\
  (calm_r ch -> e_out e' = e_out e /\ r <> Op NeedW) /\ (0 < n -> r <> Got 0).
Proof.
  pose proof (eng_read_ok n ch e) as P. destruct (eng_read n ch e) as [[r b] e'] eqn:E.
  destruct P as (P1 & P2 & P3 & P4). split; [apply (grows_len _ _ _ P1)|].
  assert (Q : r = Op NeedW -> e_out e' <> [] /\ r_want ch = true).
  { intros ->. unfold eng_read in E. destruct (n =? 0); [discriminate|].
    set (e1 := emit _ e) in *. destruct (e_dead e1); [discriminate|]. destruct (r_bad ch); [discriminate|].
    destruct (r_want ch); cbn [andb] in E.
    - destruct (N.eqb_spec (len (e_out e1)) 0) as [X|X]; cbn [negb] in E.
      + destruct (strip (e_in e1)) as [|[]]; discriminate.
      + injection E as _ <-. split; [|reflexivity]. intros Y. rewrite Y in X. apply X. reflexivity.
    - destruct (strip (e_in e1)) as [|[]]; discriminate. }
  split; [intros X; apply Q; exact X|]. split.
  - intros [C1 C2]. split; [|intros X; destruct (Q X); congruence].
    unfold eng_read in E. destruct (n =? 0); [injection E as _ _ <-; reflexivity|].
    rewrite C1 in E. cbn [repeat] in E. set (e1 := emit [] e) in *.
    assert (e_out e1 = e_out e) by (unfold e1; cbn [emit e_out]; apply app_nil_r).
    rewrite <- H. clearbody e1. clear -E.
    destruct (e_dead e1); [injection E as _ _ <-; reflexivity|]. destruct (r_bad ch); [injection E as _ _ <-; reflexivity|].
    destruct (r_want ch && _); [injection E as _ _ <-; reflexivity|].
    destruct (strip (e_in e1)) as [|[]]; injection E as _ _ <-; reflexivity.
  - intros Hn X. rewrite X in P4. destruct P4 as [(? & _)|[? _]]; lia.
Qed.

(** ** No check fails *)
Lemma acting_e r s e : acting r s -> len (aout s) <= len (e_out e) -> acting r (aw_e e s).
Proof.
  intros [[B1 B2] H0 Hb] Hl. constructor; [constructor | exact H0 | exact Hb].
  - intros r0 n E. specialize (B1 r0 n E). unfold aout in *. cbn [aw_e a_e]. lia.
  - intros r0 q E. apply B2. destruct r0; exact E.
Qed.
Lemma acting_req r q s : acting r s -> (forall q0, q = Some q0 -> rok r q0) -> acting r (aw_req r q s).
Proof.
  intros [[B1 B2] H0 Hb] Hq. constructor; [constructor; [exact B1|]| exact H0 | exact Hb].
  intros r0 q0 E. specialize (B2 r0). destruct r, r0; flds; try (apply B2; exact E); apply Hq; exact E.
Qed.

Lemma log_ok r res s : acting r s -> pres r s = false -> post r s (alog res s).
Proof.
  intros [[B1 B2] H0 Hb] Hp. constructor; [constructor|..].
  - exact B1.
  - intros r0 q E. apply B2. destruct r0; exact E.
  - transitivity (places r s); [reflexivity|]. rewrite H0. unfold pres in *. destruct r; cbn [req_of alog a_rd a_wr] in *; rewrite Hp; reflexivity.
  - destruct r; reflexivity.
  - reflexivity.
  - reflexivity.
  - left. exact Hb.
Qed.

Lemma async_read_ok n ch s : acting Reader s -> a_rd s = None -> 0 < n -> is_next (async_read n ch s) (post Reader s).
Proof.
  intros A Er Hn. unfold async_read. rewrite Er.
  pose proof (eng_read_gen n ch (a_e s)) as P. destruct (eng_read n ch (a_e s)) as [[r b] e].
  destruct P as (P1 & P2 & _ & P4). specialize (P4 Hn).
  assert (A1 : acting Reader (aw_e e s)) by (apply acting_e; assumption).
  assert (Hp : pres Reader (aw_e e s) = false) by (unfold pres; cbn [req_of aw_e a_rd]; rewrite Er; reflexivity).
  assert (L : forall res, is_next (Next (alog res (aw_e e s))) (post Reader s)).
  { intros res. eexists. split; [reflexivity|]. eapply post_pre; [..|apply log_ok; eassumption]; reflexivity. }
  assert (H : forall o, (o = NeedW -> e_out e <> []) ->
     is_next (handle_op Reader o (aw_req Reader (Some (mkQ [] n 0 false)) (aw_e e s))) (post Reader s)).
  { intros o Ho. destruct (handle_op_ok Reader o (aw_req Reader (Some (mkQ [] n 0 false)) (aw_e e s))) as (s' & E1 & Q).
    - apply acting_req; [exact A1|]. intros q0 X. injection X as <-. exact Hn.
    - reflexivity.
    - exact Ho.
    - exists s'. split; [exact E1|]. eapply post_pre; [..|exact Q]; reflexivity. }
  destruct r as [k|[| | |]].
  - destruct (N.eqb_spec k 0) as [->|_]; [congruence | apply L].
  - apply H. discriminate.
  - apply H. intros _. apply P2. reflexivity.
  - apply L.
  - apply L.
Qed.

Lemma push_act iov chs s q0 : acting Writer s -> nonempty iov -> iov <> [] -> (forall w, rok Writer (q0 w)) ->
  is_next (match push iov chs (a_e s) with
    | None => Ub
    | Some (w, o, e) =>
      let s1 := aw_req Writer (Some (q0 w)) (aw_e e s) in
      match o with
      | Some o => handle_op Writer o s1
      | None => start_write Writer s1
      end
    end) (post Writer s).
Proof.
  intros A H1 H2 Hq. destruct (push_gen iov chs (a_e s) H1 H2) as (w & o & e & -> & P1 & P2 & P3 & P4 & _).
  cbv zeta.
  assert (A1 : acting Writer (aw_req Writer (Some (q0 w)) (aw_e e s))).
  { apply acting_req; [apply acting_e; assumption|]. intros q X. injection X as <-. apply Hq. }
  assert (R : forall s', post Writer (aw_req Writer (Some (q0 w)) (aw_e e s)) s' -> post Writer s s').
  { intros s' Q. eapply post_pre; [..|exact Q]; reflexivity. }
  destruct o as [o|].
  - destruct (handle_op_ok Writer o _ A1) as (s' & E & Q); [reflexivity | intros ->; apply P4; reflexivity|].
    exists s'. auto.
  - destruct (start_write_ok Writer _ A1) as (s' & E & Q); [reflexivity | apply P3; reflexivity|].
    exists s'. auto.
Qed.

Lemma async_write_ok iov chs s : acting Writer s -> a_wr s = None -> nonempty iov -> iov <> [] ->
  is_next (async_write iov chs s) (post Writer s).
Proof.
  intros A Ew H1 H2. unfold async_write. rewrite Ew. apply (push_act iov chs s (fun w => mkQ iov 0 w false)); auto.
  intros w. split; assumption.
Qed.

Lemma role_action_ok r c s : acting r s -> pres r s = true -> is_next (role_action r c s) (post r s).
Proof.
  intros A Hp. unfold role_action. pose proof Hp as Hp'. unfold pres in Hp'.
  destruct (req_of r s) as [q|] eqn:Eq; [clear Hp'|discriminate].
  pose proof (b_rq _ (c_b _ _ A) _ _ Eq) as Hq.
  destruct r; cbn [rok] in Hq.
  - pose proof (eng_read_gen (q_n q) (x_r c) (a_e s)) as P. destruct (eng_read (q_n q) (x_r c) (a_e s)) as [[r b] e].
    destruct P as (P1 & P2 & _ & P4). specialize (P4 Hq).
    assert (A1 : acting Reader (aw_e e s)) by (apply acting_e; assumption).
    assert (R : forall s', post Reader (aw_e e s) s' -> post Reader s s').
    { intros s' Q. eapply post_pre; [..|exact Q]; reflexivity. }
    destruct r as [k|o].
    + destruct (N.eqb_spec k 0) as [->|_]; [congruence|].
      destruct (complete_ok Reader (AR (q_n q) b) _ A1 Hp) as (s' & E & Q). exists s'. auto.
    + destruct (handle_op_ok Reader o _ A1 Hp) as (s' & E & Q); [intros ->; apply P2; reflexivity|]. exists s'. auto.
  - destruct (0 <? q_written q); [apply complete_ok; assumption|].
    apply (push_act (q_iov q) (x_w c) s (fun w => set_written w q)); try apply Hq; auto.
Qed.

Lemma places_other r s : a_blk s = None ->
  places r s = (b2n (is r (own (a_uw s))) + b2n (is r (own (a_ur s))))%nat.
Proof. unfold places. intros ->. destruct r; cbn; lia. Qed.
Lemma is_other r : is (other r) (Some r) = false /\ is r (Some r) = true.
Proof. destruct r; auto. Qed.
Lemma other_other r : other (other r) = r.
Proof. destruct r; reflexivity. Qed.

Lemma run_pending_ok r c s : bounds s -> places r s = 0%nat -> pres r s = true ->
  places (other r) s = b2n (pres (other r) s) ->
  is_next (run_pending c s) (fun s' => acting r s' /\ pres r s' = true /\ places (other r) s' = b2n (pres (other r) s')).
Proof.
  intros B H0 Hp Ho. unfold run_pending. destruct (a_blk s) as [r'|] eqn:Eb.
  2:{ exists s. split; [reflexivity|]. split; [constructor; assumption|]. auto. }
  assert (r' = other r).
  { unfold places in H0. rewrite Eb in H0. destruct r, r'; cbn in *; try reflexivity; lia. }
  subst r'. assert (Po : pres (other r) s = true).
  { destruct (pres (other r) s); [reflexivity|]. unfold places in Ho. rewrite Eb in Ho. destruct r; cbn in Ho; lia. }
  assert (A1 : acting (other r) (aw_blk None s)).
  { constructor; [|rewrite places_other by reflexivity| reflexivity].
    - destruct B as [B1 B2]. constructor; [exact B1|]. intros r0 q E. apply B2. destruct r0; exact E.
    - cbn [aw_blk a_uw a_ur]. unfold places in Ho. rewrite Po, Eb in Ho. destruct r; cbn [other is b2n] in *; lia. }
  assert (Po1 : pres (other r) (aw_blk None s) = true) by (destruct r; exact Po).
  assert (FIN : forall s1, (s1 = aw_blk None s \/ s1 = aw_req (other r) None (aw_blk None s)) -> forall o, is_next o (post (other r) s1) ->
     is_next o (fun s' => acting r s' /\ pres r s' = true /\ places (other r) s' = b2n (pres (other r) s'))).
  { intros s1 Es o (s' & E & [P1 P2 P3 P4 P5 P6]). exists s'. split; [exact E|].
    rewrite other_other in *.
    assert (U1 : a_uw s1 = a_uw s /\ a_ur s1 = a_ur s /\ req_of r s1 = req_of r s)
      by (destruct Es as [->| ->]; destruct r; cbn; auto).
    destruct U1 as (U1 & U2 & U3). rewrite U1 in *. rewrite U2 in *. rewrite U3 in *.
    unfold places in H0.
    assert (Z1 : is r (own (a_uw s)) = false) by (destruct (is r (own (a_uw s))); [cbn in H0; lia | reflexivity]).
    assert (Z2 : is r (own (a_ur s)) = false) by (destruct (is r (own (a_ur s))); [cbn in H0; lia | reflexivity]).
    assert (Eb' : a_blk s' = None).
    { destruct P6 as [P6|[_ P6]]; [exact P6|]. rewrite Z1, Z2 in P6. discriminate. }
    split; [constructor; [exact P1| |exact Eb']|].
    - rewrite places_other by exact Eb'. rewrite P4, P5, Z1, Z2. reflexivity.
    - split; [|exact P2]. unfold pres in *. rewrite P3. exact Hp. }
  cbv zeta. pose proof Po1 as Po2. unfold pres in Po2.
  destruct (req_of (other r) (aw_blk None s)) as [q|] eqn:Eq; [clear Po2|discriminate].
  pose proof (b_rq _ (c_b _ _ A1) _ _ Eq) as Hq.
  destruct (q_read q); [apply (FIN (aw_blk None s)); [auto|]; apply start_read_ok; assumption|].
  assert (A2 : acting (other r) (aw_req (other r) None (aw_blk None s))).
  { apply acting_req; [exact A1 | discriminate]. }
  destruct r; cbn [other] in *.
  - apply (FIN (aw_req Writer None (aw_blk None s))); [auto|]. apply async_write_ok; auto; apply Hq.
  - apply (FIN (aw_req Reader None (aw_blk None s))); [auto|]. apply async_read_ok; auto.
Qed.

Lemma post_G r s s' : acting r s -> places (other r) s = b2n (pres (other r) s) -> post r s s' -> G s'.
Proof.
  intros [B H0 Hb] Ho [P1 P2 P3 P4 P5 P6].
  rewrite places_other in Ho by exact Hb.
  assert (Eo : pres (other r) s' = pres (other r) s) by (unfold pres; rewrite P3; reflexivity).
  assert (Eb : is (other r) (a_blk s') = false) by (destruct P6 as [->|[-> _]]; destruct r; reflexivity).
  constructor; [exact P1| |].
  - intros r0. assert (r0 = r \/ r0 = other r) as [->| ->] by (destruct r, r0; auto); [exact P2|].
    unfold places. rewrite P4, P5, Eb, Eo, <- Ho. cbn [b2n]. lia.
  - intros r0 E. rewrite E in *. assert (r0 = r) by (destruct r, r0; cbn in Eb; congruence). subst r0.
    rewrite Eo. destruct P6 as [P6|[_ P6]]; [discriminate|].
    destruct (pres (other r) s); [reflexivity|]. cbn [b2n] in Ho.
    destruct (is (other r) (own (a_uw s))), (is (other r) (own (a_ur s))); cbn in *; try lia; discriminate.
Qed.

Lemma G_acting r s : G s -> pres r s = false -> acting r s /\ places (other r) s = b2n (pres (other r) s).
Proof.
  intros [B P Q] Hp. split; [|apply P]. pose proof (P r) as Pr. rewrite Hp in Pr. cbn [b2n] in Pr.
  constructor; [exact B | exact Pr|].
  destruct (a_blk s) as [r'|] eqn:E; [|reflexivity]. exfalso. pose proof (Q r' eq_refl) as X.
  assert (r' = r \/ r' = other r) as [->| ->] by (destruct r, r'; auto).
  - unfold places in Pr. rewrite E in Pr. destruct r; cbn in Pr; lia.
  - rewrite other_other in X. congruence.
Qed.

(** A request that waits goes on waiting only while the other one writes. *)
Definition wk (s s' : ast) : Prop :=
  forall r, a_blk s = Some r -> a_blk s' = Some r -> exists n, a_uw s' = Some (other r, n).
Lemma write_cb_ok c s : G s -> match write_cb c s with Next s' => G s' /\ wk s s' | Ub => False | Stuck => True end.
Proof.
  intros Gs. pose proof Gs as [[B1 B2] P Q]. unfold write_cb. destruct (a_uw s) as [[r n]|] eqn:Eu; [|exact I].
  destruct (B1 r n eq_refl) as [N1 N2].
  assert (Pr : places r s = 1%nat).
  { rewrite P. specialize (P r). unfold places in P. rewrite Eu in P. cbn [own] in P. rewrite (proj2 (is_other r)) in P.
    cbn [b2n] in P. destruct (pres r s); cbn [b2n] in *; lia. }
  assert (Hp : pres r s = true) by (rewrite P in Pr; destruct (pres r s); [reflexivity | discriminate]).
  (* the write is over *)
  assert (END : forall e wire fl cc (k : ast -> outcome ast),
    let s1 := aw_uw None (if fl : bool then s else aw_wire wire (aw_e e s)) in
    (forall s2, acting r s2 -> pres r s2 = true -> is_next (k s2) (post r s2)) ->
    match bind (run_pending cc s1) k with Next s' => G s' /\ wk s s' | Ub => False | Stuck => True end).
  { intros e wire fl cc k s1 Hk.
    assert (F : req_of Reader s1 = req_of Reader s /\ req_of Writer s1 = req_of Writer s /\ a_uw s1 = None /\ a_ur s1 = a_ur s /\ a_blk s1 = a_blk s)
      by (unfold s1; destruct fl; auto).
    clearbody s1. destruct F as (F1 & F2 & F3 & F4 & F5).
    assert (F6 : forall r0, req_of r0 s1 = req_of r0 s) by (intros []; assumption).
    assert (F7 : forall r0, pres r0 s1 = pres r0 s) by (intros r0; unfold pres; rewrite F6; reflexivity).
    destruct (run_pending_ok r cc s1) as (s2 & -> & A2 & Hp2 & Ho2).
    - constructor; [rewrite F3; discriminate|]. intros r0 q. rewrite F6. apply B2.
    - unfold places in *. rewrite F3, F4, F5. rewrite Eu in Pr. cbn [own] in Pr. rewrite (proj2 (is_other r)) in Pr.
      cbn [own is b2n] in *. destruct r; cbn [b2n is] in *; lia.
    - rewrite F7. exact Hp.
    - rewrite F7, <- (P (other r)). unfold places. rewrite F3, F4, F5, Eu. cbn [own]. rewrite (proj1 (is_other r)).
      destruct r; reflexivity.
    - cbn [bind]. destruct (Hk s2 A2 Hp2) as (s3 & -> & P3). split; [eapply post_G; eassumption|].
      intros r0 E1 E2. exfalso. unfold places in Pr. rewrite Eu, E1 in Pr. cbn [own] in Pr. rewrite (proj2 (is_other r)) in Pr.
      destruct (p_blk _ _ _ P3) as [X|[X _]]; rewrite X in E2; [discriminate|]. injection E2 as <-.
      rewrite (proj2 (is_other r)) in Pr. cbn [b2n] in Pr. lia. }
  destruct (y_n c) as [k0| | |]; try exact I.
  - cbv zeta. set (m := clamp k0 n). assert (Hm : 1 <= m <= n) by (unfold m, clamp; lia).
    destruct (N.ltb_spec (len (aout s)) m) as [X|X]; [lia|].
    set (s1 := aw_wire (a_wire s ++ take m (aout s)) (aw_e (consume m (a_e s)) s)).
    destruct (N.eqb_spec (len (aout s1)) 0) as [E0|E0]; cbn [negb].
    + apply (END (consume m (a_e s)) (a_wire s ++ take m (aout s)) false (y_p c)).
      intros s2 A2 Hp2. pose proof Hp2 as X2. unfold pres in X2. destruct (req_of r s2) as [q|]; [|discriminate].
      destruct (q_read q); [apply start_read_ok | apply role_action_ok]; assumption.
    + split.
      2:{ intros r0 E1 E2. exists (len (aout s1)). cbn [aw_uw a_uw]. unfold places in Pr. rewrite Eu, E1 in Pr. cbn [own] in Pr.
          destruct r, r0; cbn in Pr |- *; try reflexivity; lia. }
      constructor; [constructor| |].
      * intros r0 n0 E. cbn [aw_uw a_uw] in E. injection E as <- <-. change (aout (aw_uw (Some (r, len (aout s1))) s1)) with (aout s1). lia.
      * intros r0 q E. apply B2. destruct r0; exact E.
      * intros r0. transitivity (places r0 s); [unfold places, s1; cbn [aw_uw aw_wire aw_e a_uw a_ur a_blk]; rewrite Eu; reflexivity|].
        rewrite P. destruct r0; reflexivity.
      * intros r0 E. specialize (Q r0 E). destruct r0; exact Q.
  - apply (END (a_e s) [] true (y_p c)). intros s2 A2 Hp2. apply complete_ok; assumption.
Qed.

Lemma read_cb_ok c s : G s -> match read_cb c s with Next s' => G s' /\ wk s s' | Ub => False | Stuck => True end.
Proof.
  intros Gs. pose proof Gs as [[B1 B2] P Q]. unfold read_cb. destruct (a_ur s) as [[r n]|] eqn:Eu; [|exact I].
  assert (Pr : places r s = 1%nat).
  { rewrite P. specialize (P r). unfold places in P. rewrite Eu in P. cbn [own] in P. rewrite (proj2 (is_other r)) in P.
    cbn [b2n] in P. destruct (pres r s); cbn [b2n] in *; lia. }
  assert (Hp : pres r s = true) by (rewrite P in Pr; destruct (pres r s); [reflexivity | discriminate]).
  assert (END : forall cc (k : ast -> outcome ast),
    (forall s2, acting r s2 -> pres r s2 = true -> is_next (k s2) (post r s2)) ->
    match bind (run_pending cc (aw_ur None s)) k with Next s' => G s' /\ wk s s' | Ub => False | Stuck => True end).
  { intros cc k Hk.
    assert (F6 : forall r0, req_of r0 (aw_ur None s) = req_of r0 s) by (intros []; reflexivity).
    assert (F7 : forall r0, pres r0 (aw_ur None s) = pres r0 s) by (intros []; reflexivity).
    destruct (run_pending_ok r cc (aw_ur None s)) as (s2 & -> & A2 & Hp2 & Ho2).
    - constructor; [exact B1|]. intros r0 q. rewrite F6. apply B2.
    - unfold places in *. cbn [aw_ur a_uw a_ur a_blk]. rewrite Eu in Pr. cbn [own] in Pr. rewrite (proj2 (is_other r)) in Pr.
      cbn [own is b2n] in *. destruct r; cbn [b2n is] in *; lia.
    - rewrite F7. exact Hp.
    - rewrite F7, <- (P (other r)). unfold places. cbn [aw_ur a_uw a_ur a_blk]. rewrite Eu. cbn [own]. rewrite (proj1 (is_other r)).
      destruct r; reflexivity.
    - cbn [bind]. destruct (Hk s2 A2 Hp2) as (s3 & -> & P3). split; [eapply post_G; eassumption|].
      intros r0 E1 E2. exfalso. unfold places in Pr. rewrite Eu, E1 in Pr. cbn [own] in Pr. rewrite (proj2 (is_other r)) in Pr.
      destruct (p_blk _ _ _ P3) as [X|[X _]]; rewrite X in E2; [discriminate|]. injection E2 as <-.
      rewrite (proj2 (is_other r)) in Pr. cbn [b2n] in Pr. lia. }
  assert (ERR : match bind (run_pending (y_p c) (aw_ur None s)) (complete_req r (err_of r)) with Next s' => G s' /\ wk s s' | Ub => False | Stuck => True end).
  { apply END. intros s2 A2 Hp2. apply complete_ok; assumption. }
  destruct (y_n c) as [k0| | |]; try exact I; try exact ERR.
  cbv zeta. set (m := clamp k0 (len (a_rx s))). destruct (m =? 0); [exact I|].
  apply END. intros s2 A2 Hp2.
  set (l := if n =? a_com s2 then _ else _). set (bad := negb _).
  assert (A3 : acting r (aw_commit l m bad s2)).
  { destruct A2 as [[C1 C2] C3 C4]. constructor; [constructor|exact C3|exact C4].
    - exact C1.
    - intros r0 q E. apply C2. destruct r0; exact E. }
  destruct (role_action_ok r (y_o c) _ A3) as (s3 & E3 & P3); [destruct r; exact Hp2|].
  exists s3. split; [exact E3|]. eapply post_pre; [..|exact P3]; destruct r; reflexivity.
Qed.

Lemma astep_G U s l : G s -> agood l -> match astep U s l with Next s' => G s' | Ub => False | Stuck => True end.
Proof.
  intros Gs Hl. destruct l as [lens chs|n ch|c|c]; cbn [astep agood] in *.
  - unfold acan_write. destruct (a_wr s) eqn:Ew; [exact I|].
    destruct (negb (a_werr s) && (a_pos s + total lens <=? len U) && (0 <? total lens)) eqn:Ec; [|exact I].
    apply andb_prop in Ec as [Ec E3]. apply andb_prop in Ec as [E1 E2]. apply N.leb_le in E2. apply N.ltb_lt in E3.
    destruct (G_acting Writer s Gs) as [A1 Ho]; [unfold pres; cbn [req_of]; rewrite Ew; reflexivity|].
    destruct (async_write_ok (split lens (drop (a_pos s) U)) chs s A1 Ew) as (s' & -> & P').
    + apply split_ok; [rewrite len_drop; lia | exact Hl].
    + destruct lens; [cbn [total] in E3; lia|]. discriminate.
    + eapply post_G; eassumption.
  - destruct (a_rd s) eqn:Er; [exact I|].
    destruct (G_acting Reader s Gs) as [A1 Ho]; [unfold pres; cbn [req_of]; rewrite Er; reflexivity|].
    destruct (async_read_ok n ch s A1 Er Hl) as (s' & -> & P'). eapply post_G; eassumption.
  - pose proof (write_cb_ok c s Gs) as X. destruct (write_cb c s); tauto.
  - pose proof (read_cb_ok c s Gs) as X. destruct (read_cb c s); tauto.
Qed.

Lemma init_G rx : G (ainit rx).
Proof.
  constructor; [constructor|..]; cbn; try discriminate.
  - intros [] q; discriminate.
  - intros []; reflexivity.
Qed.

Lemma exec_pred {S L} (step : S -> L -> outcome S) (I : S -> Prop) (Pl : L -> Prop) :
  (forall s l, I s -> Pl l -> match step s l with Next s' => I s' | Ub => False | Stuck => True end) ->
  forall ls s0, Forall Pl ls -> I s0 -> match exec step s0 ls with Next s => I s | Ub => False | Stuck => True end.
Proof.
  intros H ls. induction ls as [|l ls IH]; intros s0 F H0; cbn [exec]; auto. inversion_clear F.
  pose proof (H s0 l H0 H1) as X. destruct (step s0 l); [exact X | exact X | apply IH; assumption].
Qed.

Lemma async_safe_pf U rx ls : Forall agood ls -> exec (astep U) (ainit rx) ls <> Ub.
Proof.
  intros F E. pose proof (exec_pred (astep U) G agood (fun s l => astep_G U s l) ls _ F (init_G rx)) as X.
  rewrite E in X. exact X.
Qed.
Lemma reach_G U rx ls s : Forall agood ls -> exec (astep U) (ainit rx) ls = Next s -> G s.
Proof.
  intros F E. pose proof (exec_pred (astep U) G agood (fun s l => astep_G U s l) ls _ F (init_G rx)) as X.
  rewrite E in X. exact X.
Qed.

Lemma G_pres r s : G s -> (is r (own (a_uw s)) = true \/ is r (own (a_ur s)) = true \/ is r (a_blk s) = true) ->
  pres r s = true /\ places r s = 1%nat.
Proof.
  intros [_ P _] H. rewrite P. specialize (P r). unfold places in P.
  destruct (pres r s); [auto|]. cbn [b2n] in P. destruct H as [H|[H|H]]; rewrite H in P; cbn [b2n] in P; lia.
Qed.
Lemma uw_done s r n e wire : G s -> a_uw s = Some (r, n) -> let s1 := aw_uw None (aw_wire wire (aw_e e s)) in
  places r s1 = 0%nat /\ pres r s1 = true /\ places (other r) s1 = b2n (pres (other r) s1).
Proof.
  intros Gs Eu s1. destruct (G_pres r s Gs) as [Hp Pr]; [left; rewrite Eu; cbn [own]; apply is_other|].
  split; [|split].
  - unfold places in *. rewrite Eu in Pr. cbn [own] in Pr. rewrite (proj2 (is_other r)) in Pr.
    unfold s1. cbn [aw_uw aw_wire aw_e a_uw a_ur a_blk own]. cbn [b2n] in Pr. destruct r; cbn [is b2n] in *; lia.
  - destruct r; exact Hp.
  - transitivity (b2n (pres (other r) s)); [|destruct r; reflexivity]. rewrite <- (g_p _ Gs). unfold places, s1.
    cbn [aw_uw aw_wire aw_e a_uw a_ur a_blk]. rewrite Eu. cbn [own]. rewrite (proj1 (is_other r)). destruct r; reflexivity.
Qed.
Lemma ur_done s r n : G s -> a_ur s = Some (r, n) -> let s1 := aw_ur None s in
  bounds s1 /\ places r s1 = 0%nat /\ pres r s1 = true /\ places (other r) s1 = b2n (pres (other r) s1).
Proof.
  intros Gs Eu s1. destruct (G_pres r s Gs) as [Hp Pr]; [right; left; rewrite Eu; cbn [own]; apply is_other|].
  split; [|split; [|split]].
  - destruct Gs as [[B1 B2] _ _]. constructor; [exact B1|]. intros r0 q X. apply B2. destruct r0; exact X.
  - unfold places in *. rewrite Eu in Pr. cbn [own] in Pr. rewrite (proj2 (is_other r)) in Pr.
    unfold s1. cbn [aw_ur a_uw a_ur a_blk own]. cbn [b2n] in Pr. destruct r; cbn [is b2n] in *; lia.
  - destruct r; exact Hp.
  - transitivity (b2n (pres (other r) s)); [|destruct r; reflexivity]. rewrite <- (g_p _ Gs). unfold places, s1.
    cbn [aw_ur a_uw a_ur a_blk]. rewrite Eu. cbn [own]. rewrite (proj1 (is_other r)). destruct r; reflexivity.
Qed.

(** ** Reading *)
Lemma areads_snoc l r : areads (l ++ [r]) = areads l ++ match r with AR _ b => b | _ => [] end.
Proof. unfold areads. rewrite flat_map_app. cbn [flat_map]. rewrite app_nil_r. reflexivity. Qed.
Lemma aeof_snoc l r : aeof (l ++ [r]) -> aeof l \/ exists n, 0 < n /\ r = AR n [].
Proof.
  intros (n & Hn & I). apply in_app_or in I as [I|[I|[]]]; [left; exists n; auto | right; exists n; auto].
Qed.

Section Streams.
  Variables (U : list N) (RX : list itok).

  (** [b]: bytes that the engine has returned and the callback has not got yet. *)
  Record RI (b : list N) (s : ast) : Prop := {
    r_ok : a_bad s = false;
    r_ur : forall r n, a_ur s = Some (r, n) -> r = Reader /\ n = a_com s;
    r_q : forall q, a_wr s = Some q -> q_read q = false;
    r_rd : exists con, RX = con ++ e_in (a_e s) ++ a_rx s /\ iapps con = areads (a_log s) ++ b /\ ~ In IZ con;
    r_eof : aeof (a_log s) -> exists t, e_in (a_e s) = IZ :: t }.

  Lemma RI_frame b s s' : RI b s -> a_bad s' = a_bad s -> a_com s' = a_com s ->
    (a_ur s' = a_ur s \/ a_ur s' = Some (Reader, a_com s) \/ a_ur s' = None) ->
    (forall q, a_wr s' = Some q -> q_read q = false) -> e_in (a_e s') = e_in (a_e s) -> a_rx s' = a_rx s ->
    areads (a_log s') = areads (a_log s) -> (aeof (a_log s') -> aeof (a_log s)) -> RI b s'.
  Proof.
    intros [H1 H2 H3 H4 H5] E1 E2 E3 E4 E5 E6 E7 E8. constructor.
    - congruence.
    - intros r n E. rewrite E2. destruct E3 as [E3|[E3|E3]]; rewrite E3 in E; [apply H2, E | | discriminate].
      injection E as <- <-. auto.
    - exact E4.
    - rewrite E5, E6, E7. exact H4.
    - rewrite E5. auto.
  Qed.
  Lemma RI_log b s res : RI b s -> match res with AR _ _ => False | _ => True end -> RI b (alog res s).
  Proof.
    intros H Hr. eapply RI_frame; [exact H|..]; try reflexivity; auto; [apply (r_q _ _ H)| |].
    - cbn [alog a_log]. rewrite areads_snoc. destruct res; try contradiction; apply app_nil_r.
    - cbn [alog a_log]. intros X. apply aeof_snoc in X as [X|(n & _ & X)]; [exact X | subst; contradiction].
  Qed.
  Lemma RI_read b s n : RI b s -> (b = [] -> exists t, e_in (a_e s) = IZ :: t) -> RI [] (alog (AR n b) s).
  Proof.
    intros [H1 H2 H3 H4 H5] Hb. constructor; cbn [alog a_bad a_ur a_com a_wr a_e a_rx a_log]; auto.
    - rewrite areads_snoc, app_nil_r. exact H4.
    - intros X. apply aeof_snoc in X as [X|(k & _ & X)]; [auto|]. injection X as _ ->. auto.
  Qed.
  Lemma RI_eng n ch s : RI [] s -> let '(r, b, e) := eng_read n ch (a_e s) in
    RI b (aw_e e s) /\ match r with Op Graceful => b = [] /\ exists t, e_in e = IZ :: t
                       | Got k => (k <> 0 -> b <> []) /\ (k = 0 -> b = []) | Op _ => b = [] end.
  Proof.
    intros [H1 H2 H3 H4 H5]. pose proof (eng_read_ok n ch (a_e s)) as P.
    destruct (eng_read n ch (a_e s)) as [[r b] e]. destruct P as (_ & _ & (con & C1 & C2 & C3) & P).
    split.
    - constructor; cbn [aw_e a_bad a_ur a_com a_wr a_e a_rx a_log]; auto.
      + destruct H4 as (con0 & D1 & D2 & D3). exists (con0 ++ con). rewrite C1, <- app_assoc in D1.
        rewrite <- app_assoc. split; [exact D1|]. rewrite iapps_app, D2, C2, app_nil_r. split; [reflexivity|].
        intros I. apply in_app_or in I as [I|I]; auto.
      + intros X. destruct (H5 X) as (t & Et). rewrite Et in C1. destruct con as [|x con].
        * exists t. symmetry. exact C1.
        * exfalso. injection C1 as <- _. apply C3. left; reflexivity.
    - destruct r as [k|[| | |]]; auto. split.
      + intros Hk ->. destruct P as [(_ & -> & _)|[? E]]; [congruence|]. change (len (@nil N)) with 0 in E. lia.
      + intros ->. destruct P as [(_ & _ & -> & _)|[? E]]; [reflexivity | lia].
  Qed.

  Ltac done H := eapply RI_frame; [exact H|..]; try reflexivity; auto;
    try (intros q0 Q0; cbn [aw_blk aw_uw aw_ur aw_req a_wr] in Q0; try discriminate; try exact (r_q _ _ H _ Q0)).
  Lemma block_RI b r s s' : RI b s -> block r s = Next s' -> RI b s'.
  Proof. unfold block. intros H E. destruct (a_blk s); [discriminate|]. injection E as <-. done H. Qed.
  Lemma start_write_RI b r s s' : RI b s -> start_write r s = Next s' -> RI b s'.
  Proof.
    unfold start_write. intros H E. destruct (a_uw s); [eapply block_RI; eassumption|].
    destruct (_ =? 0); [discriminate|]. injection E as <-. done H.
  Qed.
  Lemma set_rd_RI b q s : RI b s -> RI b (aw_req Reader q s).
  Proof. intros H. done H. Qed.
  Lemma set_wr_RI b q s : RI b s -> (forall q0, q = Some q0 -> q_read q0 = false) -> RI b (aw_req Writer q s).
  Proof. intros H Hq. done H. Qed.
  Lemma start_read_RI b s s' : RI b s -> start_read Reader s = Next s' -> RI b s'.
  Proof.
    unfold start_read. intros H E. cbn [req_of] in E. destruct (a_rd s) as [q|]; [|discriminate].
    apply set_rd_RI with (q := Some (set_read false q)) in H.
    destruct (a_ur s).
    - eapply block_RI; eassumption.
    - injection E as <-. done H.
  Qed.
  Lemma complete_RI b r res s s' : RI b s -> complete_req r res s = Next s' ->
    match res with AR _ l => l = b /\ (b = [] -> exists t, e_in (a_e s) = IZ :: t) | _ => b = [] end -> RI [] s'.
  Proof.
    unfold complete_req. intros H E Hr. destruct (req_of r s); [|discriminate]. injection E as <-.
    assert (H' : RI b (aw_req r None s)).
    { destruct r; [apply set_rd_RI, H | apply set_wr_RI; [exact H | discriminate]]. }
    destruct res; try (subst b; apply RI_log; [exact H' | exact I]).
    destruct Hr as [-> Hr]. apply RI_read; [exact H'|]. intros X. destruct (Hr X) as (t & Et). exists t. exact Et.
  Qed.
  Lemma handle_op_RI r o s s' : RI [] s -> handle_op r o s = Next s' -> (r = Writer -> o <> NeedR) ->
    (r = Reader -> o = Graceful -> exists t, e_in (a_e s) = IZ :: t) -> RI [] s'.
  Proof.
    intros H E Hr Hg. destruct o; cbn [handle_op] in E.
    - destruct r; [|exfalso; apply Hr; reflexivity]. unfold send_with_read in E.
      destruct (negb _).
      + cbn [req_of] in E. destruct (a_rd s) as [q|]; [|discriminate]. eapply start_write_RI; [|exact E].
        apply set_rd_RI, H.
      + eapply start_read_RI; eassumption.
    - unfold maybe_send_async in E. destruct (_ =? 0); [injection E as <-; exact H|]. eapply start_write_RI; eassumption.
    - eapply complete_RI; [exact H | exact E|]. destruct r; auto.
    - eapply complete_RI; [exact H | exact E|]. destruct r; cbn [err_of]; auto.
  Qed.
  Lemma async_read_RI n ch s s' : RI [] s -> async_read n ch s = Next s' -> RI [] s'.
  Proof.
    unfold async_read. intros H E. destruct (a_rd s); [discriminate|].
    pose proof (RI_eng n ch s H) as P. destruct (eng_read n ch (a_e s)) as [[r b] e]. destruct P as [P1 P2].
    destruct r as [k|[| | |]].
    - destruct P2 as [P2 P3]. destruct (N.eqb_spec k 0) as [->|Hk].
      + injection E as <-. apply set_rd_RI. rewrite (P3 eq_refl) in P1. exact P1.
      + injection E as <-. apply RI_read; [exact P1|]. intros X. exfalso. apply P2; assumption.
    - subst b. eapply handle_op_RI; [| exact E| discriminate | discriminate]. apply set_rd_RI, P1.
    - subst b. eapply handle_op_RI; [| exact E| discriminate | discriminate]. apply set_rd_RI, P1.
    - injection E as <-. destruct P2 as [-> P2]. apply RI_read; [exact P1 | intros _; exact P2].
    - injection E as <-. subst b. apply RI_log; [exact P1 | exact I].
  Qed.

  Lemma push_RI iov chs s s' q0 : RI [] s -> Forall calm_w chs -> nonempty iov -> iov <> [] -> (forall w, q_read (q0 w) = false) ->
    match push iov chs (a_e s) with
    | None => Ub
    | Some (w, o, e) =>
      let s1 := aw_req Writer (Some (q0 w)) (aw_e e s) in
      match o with
      | Some o => handle_op Writer o s1
      | None => start_write Writer s1
      end
    end = Next s' -> RI [] s'.
  Proof.
    intros H Hc H1 H2 Hq. destruct (push_gen iov chs (a_e s) H1 H2) as (w & o & e & -> & P1 & P2 & P3 & P4 & P5).
    cbv zeta. specialize (P5 Hc). intros E.
    assert (H' : RI [] (aw_req Writer (Some (q0 w)) (aw_e e s))).
    { apply set_wr_RI; [|intros q X; injection X as <-; apply Hq].
      eapply RI_frame; [exact H|..]; try reflexivity; try exact P1; try apply (r_q _ _ H); auto. }
    destruct o as [o|].
    - eapply handle_op_RI; [exact H' | exact E | intros _ ->; apply P5; reflexivity | discriminate].
    - eapply start_write_RI; eassumption.
  Qed.
  Lemma async_write_RI iov chs s s' : RI [] s -> Forall calm_w chs -> nonempty iov -> iov <> [] ->
    async_write iov chs s = Next s' -> RI [] s'.
  Proof.
    unfold async_write. intros H Hc H1 H2 E. destruct (a_wr s); [discriminate|].
    eapply (push_RI iov chs s s' (fun w => mkQ iov 0 w false)); eauto.
  Qed.
  Lemma role_action_RI r c s s' : RI [] s -> bounds s -> Forall calm_w (x_w c) -> role_action r c s = Next s' -> RI [] s'.
  Proof.
    unfold role_action. intros H [_ B] Hc E. destruct (req_of r s) as [q|] eqn:Eq; [|discriminate].
    specialize (B _ _ Eq). destruct r.
    - pose proof (RI_eng (q_n q) (x_r c) s H) as P. destruct (eng_read (q_n q) (x_r c) (a_e s)) as [[r b] e].
      destruct P as [P1 P2]. destruct r as [k|o].
      + destruct P2 as [P2 P3]. destruct (N.eqb_spec k 0) as [->|Hk].
        * injection E as <-. rewrite (P3 eq_refl) in P1. exact P1.
        * eapply complete_RI; [exact P1 | exact E|]. split; [reflexivity|]. intros X. exfalso. apply P2; assumption.
      + assert (b = []) by (destruct o; tauto). subst b.
        eapply handle_op_RI; [exact P1 | exact E | discriminate | intros _ ->; apply P2].
    - destruct (0 <? q_written q); [eapply complete_RI; [exact H | exact E | reflexivity]|].
      eapply (push_RI (q_iov q) (x_w c) s s' (fun w => set_written w q)); try apply B; auto.
      intros w. apply (r_q _ _ H _ Eq).
  Qed.

  Lemma run_pending_RI c s s' : RI [] s -> bounds s -> Forall calm_w (x_w c) -> run_pending c s = Next s' -> RI [] s'.
  Proof.
    unfold run_pending. intros H B Hc E. destruct (a_blk s) as [r|]; [|injection E as <-; exact H].
    assert (H1 : RI [] (aw_blk None s)) by done H. cbv zeta in E.
    assert (E1 : req_of r (aw_blk None s) = req_of r s) by (destruct r; reflexivity). rewrite E1 in E.
    destruct (req_of r s) as [q|] eqn:Eq; [|discriminate]. pose proof (b_rq _ B _ _ Eq) as Bq.
    destruct (q_read q) eqn:Er.
    - destruct r; [eapply start_read_RI; eassumption|]. rewrite (r_q _ _ H _ Eq) in Er. discriminate.
    - destruct r.
      + eapply async_read_RI; [|exact E]. apply set_rd_RI, H1.
      + eapply async_write_RI; [| exact Hc | apply Bq | apply Bq | exact E]. apply set_wr_RI; [exact H1 | discriminate].
  Qed.

  (** What a writer leaves alone. *)
  Definition keeps_r (s s' : ast) : Prop := a_ur s' = a_ur s /\ a_com s' = a_com s.
  Lemma start_write_keeps r s s' : start_write r s = Next s' -> keeps_r s s'.
  Proof.
    unfold start_write, block. intros E. destruct (a_uw s); [destruct (a_blk s); [discriminate|] | destruct (_ =? 0); [discriminate|]];
      injection E as <-; split; reflexivity.
  Qed.
  Lemma handle_op_keeps o s s' : handle_op Writer o s = Next s' -> o <> NeedR -> keeps_r s s'.
  Proof.
    intros E Ho. destruct o; cbn [handle_op] in E; [congruence| | |].
    - unfold maybe_send_async in E. destruct (_ =? 0); [injection E as <-; split; reflexivity | eapply start_write_keeps, E].
    - unfold complete_req in E. destruct (req_of _ s); [|discriminate]. injection E as <-. split; reflexivity.
    - unfold complete_req in E. destruct (req_of _ s); [|discriminate]. injection E as <-. split; reflexivity.
  Qed.
  Lemma async_write_keeps iov chs s s' : Forall calm_w chs -> nonempty iov -> iov <> [] -> async_write iov chs s = Next s' -> keeps_r s s'.
  Proof.
    unfold async_write. intros Hc H1 H2 E. destruct (a_wr s); [discriminate|].
    destruct (push_gen iov chs (a_e s) H1 H2) as (w & o & e & P0 & P1 & P2 & P3 & P4 & P5). rewrite P0 in E. cbv zeta in E.
    destruct o as [o|].
    - apply handle_op_keeps in E; [exact E|]. intros ->. apply (P5 Hc). reflexivity.
    - apply start_write_keeps in E. exact E.
  Qed.
  Lemma run_pending_keeps c s s' : RI [] s -> bounds s -> Forall calm_w (x_w c) -> a_blk s <> Some Reader ->
    run_pending c s = Next s' -> keeps_r s s'.
  Proof.
    unfold run_pending. intros H B Hc Hb E. destruct (a_blk s) as [[]|]; [congruence| |injection E as <-; split; reflexivity].
    cbv zeta in E. cbn [req_of aw_blk a_wr] in E. destruct (a_wr s) as [q|] eqn:Eq; [|discriminate].
    rewrite (r_q _ _ H _ Eq) in E. pose proof (b_rq _ B Writer q Eq) as Bq.
    apply async_write_keeps in E; [exact E | exact Hc | apply Bq | apply Bq].
  Qed.

  Lemma write_cb_RI c s s' : RI [] s -> G s -> Forall calm_w (x_w (y_p c)) -> Forall calm_w (x_w (y_o c)) ->
    write_cb c s = Next s' -> RI [] s'.
  Proof.
    intros H Gs C1 C2 E. pose proof (write_cb_ok c s Gs) as _. pose proof Gs as [[B1 B2] P Q]. unfold write_cb in E.
    destruct (a_uw s) as [[r n]|] eqn:Eu; [|discriminate].
    destruct (y_n c) as [k0| | |]; try discriminate.
    - cbv zeta in E. set (m := clamp k0 n) in *. destruct (_ <? m); [discriminate|].
      set (s1 := aw_wire (a_wire s ++ take m (aout s)) (aw_e (consume m (a_e s)) s)) in *.
      assert (H1 : RI [] s1) by done H.
      destruct (negb _); [injection E as <-; done H1|].
      assert (H2 : RI [] (aw_uw None s1)) by done H1.
      assert (B' : bounds (aw_uw None s1)).
      { constructor; [discriminate|]. intros r0 q X. apply B2. destruct r0; exact X. }
      assert (PRr : places r (aw_uw None s1) = 0%nat /\ pres r (aw_uw None s1) = true
               /\ places (other r) (aw_uw None s1) = b2n (pres (other r) (aw_uw None s1))).
      { apply (uw_done s r n); assumption. }
      destruct PRr as (R1 & R2 & R3).
      destruct (run_pending_ok r (y_p c) _ B' R1 R2 R3) as (s2 & E2 & A2 & Hp2 & _).
      rewrite E2 in E. cbn [bind] in E. pose proof (run_pending_RI _ _ _ H2 B' C1 E2) as H3.
      destruct (req_of r s2) as [q|] eqn:Eq; [|discriminate].
      destruct (q_read q) eqn:Er.
      + destruct r; [eapply start_read_RI; eassumption|]. rewrite (r_q _ _ H3 _ Eq) in Er. discriminate.
      + eapply role_action_RI; [exact H3 | apply A2 | exact C2 | exact E].
    - assert (H2 : RI [] (aw_uw None s)) by done H.
      assert (B' : bounds (aw_uw None s)).
      { constructor; [discriminate|]. intros r0 q X. apply B2. destruct r0; exact X. }
      destruct (run_pending (y_p c) (aw_uw None s)) as [| |s2] eqn:E2; try discriminate. cbn [bind] in E.
      pose proof (run_pending_RI _ _ _ H2 B' C1 E2) as H3.
      eapply complete_RI; [exact H3 | exact E|]. destruct r; reflexivity.
  Qed.

  Lemma read_cb_RI c s s' : RI [] s -> G s -> Forall calm_w (x_w (y_p c)) -> Forall calm_w (x_w (y_o c)) ->
    read_cb c s = Next s' -> RI [] s'.
  Proof.
    intros H Gs C1 C2 E. pose proof Gs as [B P Q]. unfold read_cb in E.
    destruct (a_ur s) as [[r n]|] eqn:Eu; [|discriminate].
    destruct (r_ur _ _ H _ _ Eu) as [-> ->].
    assert (H2 : RI [] (aw_ur None s)) by done H.
    destruct (ur_done s Reader (a_com s) Gs Eu) as (B' & R1 & R2 & R3).
    assert (Hb : a_blk (aw_ur None s) <> Some Reader).
    { intros X. unfold places in R1. rewrite X in R1. cbn in R1. lia. }
    destruct (run_pending_ok Reader (y_p c) _ B' R1 R2 R3) as (s2 & E2 & A2 & Hp2 & _).
    rewrite E2 in E. cbn [bind] in E.
    pose proof (run_pending_RI _ _ _ H2 B' C1 E2) as H3.
    destruct (run_pending_keeps _ _ _ H2 B' C1 Hb E2) as [K1 K2]. cbn [aw_ur a_ur a_com] in K1, K2.
    assert (ERR : complete_req Reader (err_of Reader) s2 = Next s' -> RI [] s').
    { intros X. eapply complete_RI; [exact H3 | exact X | reflexivity]. }
    destruct (y_n c) as [k0| | |]; try discriminate; try (apply ERR, E).
    cbv zeta in E. set (m := clamp k0 (len (a_rx s))) in *. destruct (m =? 0); [discriminate|]. cbn [bind] in E.
    rewrite K2, N.eqb_refl in E. cbn [negb] in E.
    eapply role_action_RI; [| |exact C2|exact E].
    - destruct H3 as [I1 I2 I3 I4 I5]. constructor; cbn [aw_commit a_bad a_ur a_com a_wr a_e a_rx a_log set_in e_in].
      + rewrite I1. reflexivity.
      + rewrite K1. discriminate.
      + exact I3.
      + destruct I4 as (con & D1 & D2 & D3). exists con. rewrite <- app_assoc, take_drop. auto.
      + intros X. destruct (I5 X) as (t & ->). eexists. reflexivity.
    - destruct A2 as [[D1 D2] _ _]. constructor; [exact D1|]. intros r0 q X. apply D2. destruct r0; exact X.
  Qed.

  Lemma astep_RI s l s' : RI [] s -> G s -> agood l -> calm_writes l -> astep U s l = Next s' -> RI [] s'.
  Proof.
    intros H Gs Hl Hc E. destruct l as [lens chs|n ch|c|c]; cbn [astep agood calm_writes] in *.
    - unfold acan_write in E. destruct (a_wr s) eqn:Ew; [discriminate|].
      destruct (negb (a_werr s) && (a_pos s + total lens <=? len U) && (0 <? total lens)) eqn:Ec; [|discriminate].
      apply andb_prop in Ec as [Ec E3]. apply andb_prop in Ec as [E1 E2]. apply N.leb_le in E2. apply N.ltb_lt in E3.
      eapply async_write_RI; [exact H | exact Hc | | | exact E].
      + apply split_ok; [rewrite len_drop; lia | exact Hl].
      + destruct lens; [cbn [total] in E3; lia|]. discriminate.
    - destruct (a_rd s); [discriminate|]. eapply async_read_RI; eassumption.
    - eapply write_cb_RI; try eassumption; apply Hc.
    - eapply read_cb_RI; try eassumption; apply Hc.
  Qed.

  (** ** Writing *)
  Record WI (s : ast) : Prop := {
    w_blk : a_blk s <> Some Writer;
    w_q : forall q, a_wr s = Some q -> concat (q_iov q) = take (len (concat (q_iov q))) (drop (a_pos s) U);
    w_qe : a_werr s = true -> a_wr s = None;
    w_wr : exists m, Wr U m (a_wire s) (a_e s) /\ a_pos s <= m /\ (a_werr s = false -> m = a_pos s + ataken s);
    w_pos : a_pos s = awrote (a_log s);
    w_we : a_werr s = true <-> astopped (a_log s) }.
  Definition WU (s : ast) : Prop :=
    (forall n, a_uw s = Some (Reader, n) -> a_werr s = true) /\ (aout s <> [] -> a_uw s <> None \/ a_werr s = true).

  (** What a reader may do. *)
  Record rstep (s s' : ast) : Prop := {
    t_wr : a_wr s' = a_wr s; t_werr : a_werr s' = a_werr s; t_pos : a_pos s' = a_pos s; t_wire : a_wire s' = a_wire s;
    t_out : aout s' = aout s; t_pend : e_pend (a_e s') = e_pend (a_e s);
    t_blk : a_blk s <> Some Writer -> a_blk s' <> Some Writer;
    t_uw : a_uw s' = a_uw s \/ a_uw s = None /\ aout s <> [] /\ exists n, a_uw s' = Some (Reader, n);
    t_log : awrote (a_log s') = awrote (a_log s); t_stop : astopped (a_log s') <-> astopped (a_log s) }.
  Lemma rstep_refl s : rstep s s.
  Proof. constructor; auto; reflexivity. Qed.
  Lemma rstep_trans a b c : rstep a b -> rstep b c -> rstep a c.
  Proof.
    intros [A1 A2 A3 A4 A5 A6 A7 A8 A9 A10] [B1 B2 B3 B4 B5 B6 B7 B8 B9 B10]. constructor; try congruence; auto.
    - destruct B8 as [B8|(B8 & Bo & n & Bn)].
      + rewrite B8. exact A8.
      + destruct A8 as [A8|(A8 & Ao & n0 & An)]; [|congruence].
        right. split; [congruence|]. split; [congruence|]. eauto.
    - rewrite B10. exact A10.
  Qed.
  Lemma rstep_WI s s' : rstep s s' -> WI s -> WI s'.
  Proof.
    intros [A1 A2 A3 A4 A5 A6 A7 A8 A9 A10] [H1 H2 H3 H4 H5 H6]. unfold aout in *. constructor; auto.
    - intros q. rewrite A1, A3. apply H2.
    - rewrite A1, A2. exact H3.
    - destruct H4 as (m & (W1 & W2 & W3) & M1 & M2). exists m. unfold Wr, ataken. rewrite A1, A2, A3, A4, A5, A6. auto.
    - congruence.
    - rewrite A2, A10. exact H6.
  Qed.
  Lemma rstep_WU s s' : rstep s s' -> WU s -> WU s'.
  Proof.
    intros [A1 A2 A3 A4 A5 A6 A7 A8 A9 A10] [H1 H2]. unfold WU. rewrite A2, A5.
    destruct A8 as [A8|(A8 & Ao & n & An)].
    - rewrite A8. split; assumption.
    - split; [intros _ _|intros _; left; congruence]. destruct (H2 Ao); [congruence | assumption].
  Qed.

  Lemma awrote_snoc l r : awrote (l ++ [r]) = awrote l + awrote1 r.
  Proof. induction l as [|x l IH]; cbn [app awrote]; [lia|]. rewrite IH. lia. Qed.
  Lemma astopped_snoc l r : astopped (l ++ [r]) <-> astopped l \/ r = AWErr \/ r = AW 0.
  Proof.
    unfold astopped. rewrite !in_app_iff. cbn [In]. split; intros H; intuition (subst; auto).
  Qed.

  Ltac rst := constructor; cbn [alog aw_req aw_blk aw_uw aw_ur aw_e a_wr a_werr a_pos a_wire a_e a_blk a_uw a_log aout];
    auto; try reflexivity; try discriminate.
  Lemma rstep_req q s : rstep s (aw_req Reader q s).
  Proof. rst. Qed.
  Lemma rstep_log r s : (exists n b, r = AR n b) \/ r = ARErr -> rstep s (alog r s).
  Proof.
    intros H. assert (Hr : awrote1 r = 0 /\ r <> AWErr /\ r <> AW 0).
    { destruct H as [(n & b & ->)| ->]; (split; [reflexivity | split; discriminate]). }
    rst.
    - destruct H as [(n & b & ->)| ->]; reflexivity.
    - destruct H as [(n & b & ->)| ->]; reflexivity.
    - rewrite awrote_snoc. lia.
    - rewrite astopped_snoc. tauto.
  Qed.
  Lemma rstep_e e s : e_out e = aout s -> e_pend e = e_pend (a_e s) -> rstep s (aw_e e s).
  Proof. intros. rst. Qed.
  Lemma start_write_rs s s' : start_write Reader s = Next s' -> rstep s s'.
  Proof.
    unfold start_write, block. intros E. destruct (a_uw s) eqn:Eu.
    - destruct (a_blk s) eqn:Eb; [discriminate|]. injection E as <-. rst.
    - destruct (N.eqb_spec (len (aout s)) 0) as [X|X]; [discriminate|]. injection E as <-. rst.
      right. split; [exact Eu|]. split; [intros Y; rewrite Y in X; apply X; reflexivity | eauto].
  Qed.
  Lemma start_read_rs s s' : start_read Reader s = Next s' -> rstep s s'.
  Proof.
    unfold start_read, block. intros E. cbn [req_of] in E. destruct (a_rd s); [|discriminate].
    destruct (a_ur s).
    - cbn [aw_req a_blk] in E. destruct (a_blk s); [discriminate|]. injection E as <-. rst.
    - injection E as <-. rst.
  Qed.
  Lemma complete_rs res s s' : complete_req Reader res s = Next s' -> (exists n b, res = AR n b) \/ res = ARErr -> rstep s s'.
  Proof.
    unfold complete_req. intros E H. destruct (req_of Reader s); [|discriminate]. injection E as <-.
    eapply rstep_trans; [apply rstep_req|]. apply rstep_log, H.
  Qed.
  Lemma handle_op_rs o s s' : handle_op Reader o s = Next s' -> rstep s s'.
  Proof.
    intros E. destruct o; cbn [handle_op] in E.
    - unfold send_with_read in E. destruct (negb _); [|apply start_read_rs, E].
      destruct (req_of Reader s); [|discriminate]. eapply rstep_trans; [apply rstep_req | apply start_write_rs, E].
    - unfold maybe_send_async in E. destruct (_ =? 0); [injection E as <-; apply rstep_refl | apply start_write_rs, E].
    - eapply complete_rs; [exact E | left; eauto].
    - eapply complete_rs; [exact E | right; reflexivity].
  Qed.
  Lemma eng_rs n ch s : calm_r ch -> rstep s (aw_e (snd (eng_read n ch (a_e s))) s).
  Proof.
    intros Hc. pose proof (eng_read_gen n ch (a_e s)) as P. pose proof (eng_read_ok n ch (a_e s)) as Q.
    destruct (eng_read n ch (a_e s)) as [[r b] e]. cbn [snd]. apply rstep_e; [apply P, Hc | apply Q].
  Qed.
  Lemma async_read_rs n ch s s' : calm_r ch -> async_read n ch s = Next s' -> rstep s s'.
  Proof.
    unfold async_read. intros Hc E. destruct (a_rd s); [discriminate|].
    pose proof (eng_rs n ch s Hc) as P. destruct (eng_read n ch (a_e s)) as [[r b] e]. cbn [snd] in P.
    eapply rstep_trans; [exact P|].
    assert (Q : forall o, handle_op Reader o (aw_req Reader (Some (mkQ [] n 0 false)) (aw_e e s)) = Next s' -> rstep (aw_e e s) s').
    { intros o X. eapply rstep_trans; [apply rstep_req | eapply handle_op_rs, X]. }
    destruct r as [k|[| | |]]; try (eapply Q, E).
    - destruct (k =? 0); injection E as <-; [apply rstep_req | apply rstep_log; left; eauto].
    - injection E as <-. apply rstep_log. left; eauto.
    - injection E as <-. apply rstep_log. right; reflexivity.
  Qed.
  Lemma role_action_rs c s s' : calm_r (x_r c) -> role_action Reader c s = Next s' -> rstep s s'.
  Proof.
    unfold role_action. intros Hc E. destruct (req_of Reader s) as [q|]; [|discriminate].
    pose proof (eng_rs (q_n q) (x_r c) s Hc) as P. destruct (eng_read (q_n q) (x_r c) (a_e s)) as [[r b] e]. cbn [snd] in P.
    eapply rstep_trans; [exact P|]. destruct r as [k|o]; [|eapply handle_op_rs, E].
    destruct (k =? 0); [injection E as <-; apply rstep_refl|]. eapply complete_rs; [exact E | left; eauto].
  Qed.
  Lemma run_pending_rs c s s' : a_blk s <> Some Writer -> calm_r (x_r c) -> run_pending c s = Next s' -> rstep s s'.
  Proof.
    unfold run_pending. intros Hb Hc E. destruct (a_blk s) as [[]|] eqn:Eb; [|congruence|injection E as <-; apply rstep_refl].
    cbv zeta in E. assert (P : rstep s (aw_blk None s)) by rst. eapply rstep_trans; [exact P|].
    destruct (req_of Reader (aw_blk None s)) as [q|]; [|discriminate].
    destruct (q_read q); [apply start_read_rs, E|].
    eapply rstep_trans; [apply rstep_req | eapply async_read_rs; [exact Hc | exact E]].
  Qed.

  (** The writer. *)
  Lemma complete_WI res s s' w : WI s -> complete_req Writer res s = Next s' -> a_werr s = false ->
    res = AWErr \/ res = AW 0 \/ res = AW w /\ 0 < w /\ ataken s = w /\ aout s = [] /\ (forall n, a_uw s <> Some (Reader, n)) ->
    WI s' /\ WU s'.
  Proof.
    intros [H1 H2 H3 H4 H5 H6] E Hw Hr. unfold complete_req in E. cbn [req_of] in E.
    destruct (a_wr s) as [q|] eqn:Eq; [|discriminate]. injection E as <-.
    assert (ERR : forall r, r = AWErr \/ r = AW 0 -> WI (alog r (aw_req Writer None s)) /\ WU (alog r (aw_req Writer None s))).
    { intros r Hr'. assert (T : a_werr (alog r (aw_req Writer None s)) = true).
      { destruct Hr' as [->| ->]; cbn [alog a_werr aw_req]; [reflexivity|]. rewrite Hw. reflexivity. }
      assert (T2 : a_pos (alog r (aw_req Writer None s)) = a_pos s).
      { destruct Hr' as [->| ->]; cbn [alog a_pos aw_req]; [reflexivity | lia]. }
      split; [|split; intros; auto]. constructor; rewrite ?T, ?T2.
      - exact H1.
      - discriminate.
      - reflexivity.
      - destruct H4 as (m & M1 & M2 & _). exists m. split; [exact M1|]. split; [exact M2 | discriminate].
      - cbn [alog aw_req a_log]. rewrite awrote_snoc. destruct Hr' as [->| ->]; cbn [awrote1]; lia.
      - cbn [alog aw_req a_log]. rewrite astopped_snoc. tauto. }
    destruct Hr as [->|[->|(-> & Hp & Ht & Ho & Hn)]]; [apply ERR; auto | apply ERR; auto|].
    assert (T : a_werr (alog (AW w) (aw_req Writer None s)) = false).
    { cbn [alog a_werr aw_req]. rewrite Hw. apply N.eqb_neq. lia. }
    split.
    - constructor; rewrite ?T.
      + exact H1.
      + discriminate.
      + discriminate.
      + destruct H4 as (m & M1 & M2 & M3). exists m. split; [exact M1|]. cbn [alog aw_req a_pos]. rewrite (M3 Hw).
        change (ataken (alog (AW w) (aw_req Writer None s))) with 0. split; [lia | intros _; lia].
      + cbn [alog aw_req a_log a_pos]. rewrite awrote_snoc. cbn [awrote1]. lia.
      + cbn [alog aw_req a_log]. rewrite astopped_snoc, <- H6, Hw. split; [discriminate|].
        intros [X|[X|X]]; [discriminate | discriminate | injection X as X; lia].
    - split.
      + intros n X. exfalso. exact (Hn n X).
      + intros X. contradiction.
  Qed.

  Lemma push_WI iov chs s s' q0 : WI s -> a_werr s = false -> a_uw s = None -> ataken s = 0 ->
    Forall calm_w chs -> nonempty iov -> iov <> [] -> concat iov = take (len (concat iov)) (drop (a_pos s) U) ->
    (forall w, q_iov (q0 w) = iov /\ q_written (q0 w) = w) ->
    match push iov chs (a_e s) with
    | None => Ub
    | Some (w, o, e) =>
      let s1 := aw_req Writer (Some (q0 w)) (aw_e e s) in
      match o with
      | Some o => handle_op Writer o s1
      | None => start_write Writer s1
      end
    end = Next s' -> WI s' /\ WU s'.
  Proof.
    intros [H1 H2 H3 H4 H5 H6] Hw Hu Ht Hc N1 N2 Hi Hq.
    destruct H4 as (m & M1 & M2 & M3). specialize (M3 Hw). rewrite Ht, N.add_0_r in M3. subst m.
    pose proof (push_ok U iov chs (a_e s) (a_pos s) (a_wire s) M1 Hi) as PO.
    destruct (push_gen iov chs (a_e s) N1 N2) as (w & o & e & P0 & P1 & P2 & P3 & P4 & P5). rewrite P0 in *.
    destruct PO as (O1 & _ & _ & O2). cbv zeta. specialize (P5 Hc). intros E. destruct (Hq w) as [Q1 Q2].
    assert (S1 : WI (aw_req Writer (Some (q0 w)) (aw_e e s))).
    { constructor; cbn [aw_req aw_e a_blk a_wr a_werr a_pos a_wire a_e a_log]; auto.
      - intros q X. injection X as <-. rewrite Q1. exact Hi.
      - congruence.
      - exists (a_pos s + w). split; [exact O2|]. split; [lia|]. intros _. unfold ataken. cbn [aw_req a_wr]. rewrite Q2. reflexivity. }
    assert (SW : start_write Writer (aw_req Writer (Some (q0 w)) (aw_e e s)) = Next s' -> WI s' /\ WU s').
    { unfold start_write. cbn [aw_req aw_e a_uw]. rewrite Hu. intros X.
      destruct (_ =? 0); [discriminate|]. injection X as <-. split.
      - destruct S1 as [I1 I2 I3 I4 I5 I6]. constructor; assumption.
      - split; [intros n X; discriminate | intros _; left; discriminate]. }
    destruct o as [o|]; [|apply SW, E].
    destruct o; cbn [handle_op] in E; [congruence| | |].
    - unfold maybe_send_async in E. specialize (P4 eq_refl).
      destruct (N.eqb_spec (len (aout (aw_req Writer (Some (q0 w)) (aw_e e s)))) 0) as [X|X]; [|apply SW, E].
      apply len_zero in X. contradiction.
    - eapply complete_WI; [exact S1 | exact E | exact Hw |]. auto.
    - eapply complete_WI; [exact S1 | exact E | exact Hw |]. auto.
    Unshelve. all: exact 0.
  Qed.

  Lemma write_cb_WI c s s' : WI s -> WU s -> RI [] s -> G s ->
    Forall calm_w (x_w (y_o c)) -> calm_r (x_r (y_p c)) -> calm_r (x_r (y_o c)) ->
    Forall calm_w (x_w (y_p c)) -> write_cb c s = Next s' -> WI s' /\ WU s'.
  Proof.
    intros H HU HR Gs C1 C2 C3 C4 E. pose proof Gs as [[B1 B2] P Q]. unfold write_cb in E.
    destruct (a_uw s) as [[r n]|] eqn:Eu; [|discriminate].
    destruct (y_n c) as [k0| | |]; try discriminate.
    - cbv zeta in E. set (m := clamp k0 n) in *. destruct (_ <? m); [discriminate|].
      set (s1 := aw_wire (a_wire s ++ take m (aout s)) (aw_e (consume m (a_e s)) s)) in *.
      assert (H1 : WI s1).
      { destruct H as [I1 I2 I3 I4 I5 I6]. constructor; auto. destruct I4 as (m0 & M1 & M2).
        exists m0. split; [apply Wr_consume, M1 | exact M2]. }
      destruct (N.eqb_spec (len (aout s1)) 0) as [E0|E0]; cbn [negb] in E.
      2:{ injection E as <-. split; [destruct H1; constructor; assumption|].
          split; [|intros _; left; discriminate]. intros n0 X. injection X as -> _. eapply (proj1 HU). exact Eu. }
      assert (H2 : WI (aw_uw None s1)) by (destruct H1; constructor; assumption).
      assert (U2 : WU (aw_uw None s1)).
      { split; [discriminate|]. intros X. exfalso. apply X. apply len_zero in E0. exact E0. }
      assert (R2 : RI [] (aw_uw None s1)) by done HR.
      assert (B' : bounds (aw_uw None s1)).
      { constructor; [discriminate|]. intros r0 q X. apply B2. destruct r0; exact X. }
      destruct (uw_done s r n (consume m (a_e s)) (a_wire s ++ take m (aout s)) Gs Eu) as (D1 & D2 & D3).
      destruct (run_pending_ok r (y_p c) _ B' D1 D2 D3) as (s2 & E2 & A2 & Hp2 & Ho2).
      change (aw_uw None (aw_wire (a_wire s ++ take m (aout s)) (aw_e (consume m (a_e s)) s))) with (aw_uw None s1) in E2.
      rewrite E2 in E. cbn [bind] in E.
      pose proof (run_pending_rs _ _ _ (w_blk _ H2) C2 E2) as T.
      pose proof (rstep_WI _ _ T H2) as H3. pose proof (rstep_WU _ _ T U2) as U3.
      pose proof (run_pending_RI _ _ _ R2 B' C4 E2) as R3.
      destruct (req_of r s2) as [q|] eqn:Eq; [|discriminate].
      destruct r; cbn [req_of] in Eq.
      + assert (T2 : rstep s2 s').
        { destruct (q_read q); [apply start_read_rs, E | eapply role_action_rs; eassumption]. }
        split; [eapply rstep_WI | eapply rstep_WU]; eassumption.
      + rewrite (r_q _ _ R3 _ Eq) in E.
        assert (Ew : a_werr s2 = false).
        { destruct (a_werr s2) eqn:X; [|reflexivity]. rewrite (w_qe _ H3 X) in Eq. discriminate. }
        assert (Eu2 : a_uw s2 = None).
        { destruct (a_uw s2) as [[[] k]|] eqn:X; [| |reflexivity].
          - rewrite (proj1 U3 k X) in Ew. discriminate.
          - pose proof (c_0 _ _ A2) as Y. unfold places in Y. rewrite X in Y. cbn in Y. lia. }
        assert (Eo : aout s2 = []).
        { destruct (aout s2) eqn:X; [reflexivity|]. destruct (proj2 U3) as [Y|Y]; [rewrite X; discriminate | congruence | congruence]. }
        unfold role_action in E. cbn [req_of] in E. rewrite Eq in E.
        destruct (N.ltb_spec 0 (q_written q)) as [Hq|Hq].
        * eapply (complete_WI _ _ _ (q_written q)); [exact H3 | exact E | exact Ew|]. right; right.
          split; [reflexivity|]. split; [exact Hq|]. unfold ataken. rewrite Eq. split; [reflexivity|]. split; [exact Eo|].
          rewrite Eu2. discriminate.
        * pose proof (b_rq _ (c_b _ _ A2) Writer q Eq) as [Bq1 Bq2].
          eapply (push_WI (q_iov q) (x_w (y_o c)) s2 s' (fun w => set_written w q)); auto.
          -- unfold ataken. rewrite Eq. lia.
          -- apply (w_q _ H3 _ Eq).
    - assert (H2 : WI (aw_uw None s)) by (destruct H; constructor; assumption).
      assert (R2 : RI [] (aw_uw None s)) by done HR.
      destruct (run_pending (y_p c) (aw_uw None s)) as [| |s2] eqn:E2; try discriminate. cbn [bind] in E.
      pose proof (run_pending_rs _ _ _ (w_blk _ H2) C2 E2) as T.
      pose proof (rstep_WI _ _ T H2) as H3.
      destruct r; cbn [err_of] in E.
      + assert (T2 : rstep s2 s') by (eapply complete_rs; [exact E | right; reflexivity]).
        split; [eapply rstep_WI; eassumption|].
        assert (X : a_werr s' = true).
        { rewrite (t_werr _ _ T2), (t_werr _ _ T). cbn [aw_uw a_werr]. eapply (proj1 HU). exact Eu. }
        split; auto.
      + destruct (a_werr s2) eqn:Ew.
        * exfalso. pose proof (w_qe _ H3 Ew) as X. unfold complete_req in E. cbn [req_of] in E. rewrite X in E. discriminate.
        * eapply (complete_WI _ _ _ 0); [exact H3 | exact E | exact Ew | left; reflexivity].
  Qed.

  Lemma read_cb_WI c s s' : WI s -> WU s -> RI [] s ->
    calm_r (x_r (y_p c)) -> calm_r (x_r (y_o c)) -> read_cb c s = Next s' -> WI s' /\ WU s'.
  Proof.
    intros H HU HR C2 C3 E. unfold read_cb in E.
    destruct (a_ur s) as [[r n]|] eqn:Eu; [|discriminate]. destruct (r_ur _ _ HR _ _ Eu) as [-> _].
    assert (T0 : rstep s (aw_ur None s)) by rst.
    assert (FIN : rstep s s' -> WI s' /\ WU s') by (intros T; split; [eapply rstep_WI | eapply rstep_WU]; eassumption).
    apply FIN. eapply rstep_trans; [exact T0|].
    assert (ERR : bind (run_pending (y_p c) (aw_ur None s)) (complete_req Reader (err_of Reader)) = Next s' -> rstep (aw_ur None s) s').
    { intros X. destruct (run_pending _ _) as [| |s2] eqn:E2; try discriminate. cbn [bind] in X.
      eapply rstep_trans; [eapply run_pending_rs; [exact (w_blk _ H) | exact C2 | exact E2]|].
      eapply complete_rs; [exact X | right; reflexivity]. }
    destruct (y_n c) as [k0| | |]; try discriminate; try (apply ERR, E).
    cbv zeta in E. set (m := clamp k0 (len (a_rx s))) in *. destruct (m =? 0); [discriminate|].
    destruct (run_pending _ _) as [| |s2] eqn:E2; try discriminate. cbn [bind] in E.
    eapply rstep_trans; [eapply run_pending_rs; [exact (w_blk _ H) | exact C2 | exact E2]|].
    eapply rstep_trans; [|eapply role_action_rs; [exact C3 | exact E]].
    rst.
  Qed.

  Lemma astep_WI s l s' : WI s -> WU s -> RI [] s -> G s -> agood l -> calm_writes l -> calm_reads l ->
    astep U s l = Next s' -> WI s' /\ WU s'.
  Proof.
    intros H HU HR Gs Hl Hc Hd E. destruct l as [lens chs|n ch|c|c]; cbn [astep agood calm_writes calm_reads] in *.
    - unfold acan_write in E. destruct (a_wr s) eqn:Ew; [discriminate|].
      destruct (negb (a_werr s) && (a_pos s + total lens <=? len U) && (0 <? total lens)) eqn:Ec; [|discriminate].
      apply andb_prop in Ec as [Ec E3]. apply andb_prop in Ec as [E1 E2]. apply N.leb_le in E2. apply N.ltb_lt in E3.
      apply Bool.negb_true_iff in E1.
      destruct (split_ok lens (drop (a_pos s) U)) as [S1 S2]; [rewrite len_drop; lia|].
      unfold async_write in E. rewrite Ew in E.
      eapply (push_WI (split lens (drop (a_pos s) U)) chs s s' (fun w => mkQ (split lens (drop (a_pos s) U)) 0 w false)); auto.
      + destruct (a_uw s) as [[[] k]|] eqn:X; [| |reflexivity].
        * rewrite (proj1 HU k X) in E1. discriminate.
        * destruct (G_pres Writer s Gs) as [Y _]; [left; rewrite X; reflexivity|]. unfold pres in Y. cbn [req_of] in Y. rewrite Ew in Y. discriminate.
      + unfold ataken. rewrite Ew. reflexivity.
      + destruct lens; [cbn [total] in E3; lia|]. discriminate.
      + rewrite S1. rewrite len_take, N.min_l by (rewrite len_drop; lia). reflexivity.
    - destruct (a_rd s); [discriminate|]. pose proof (async_read_rs _ _ _ _ Hd E) as T.
      split; [eapply rstep_WI | eapply rstep_WU]; eassumption.
    - eapply write_cb_WI; try eassumption; try apply Hc; apply Hd.
    - eapply read_cb_WI; try eassumption; apply Hd.
  Qed.
End Streams.

Lemma init_RI rx : RI rx [] (ainit rx).
Proof.
  constructor; cbn; try discriminate; auto.
  - exists []. split; [reflexivity|]. split; [reflexivity | intros []].
  - intros (n & _ & []).
Qed.
Lemma init_WI U rx : WI U (ainit rx) /\ WU (ainit rx).
Proof.
  split.
  - constructor; cbn; try discriminate; auto.
    + exists 0. split; [|split; [lia|auto]]. split; [|split]; [reflexivity | lia | reflexivity].
    + split; [discriminate|]. intros [[]|[]].
  - split; [discriminate|]. intros X. exfalso. apply X. reflexivity.
Qed.

Lemma exec_pred2 {S L} (step : S -> L -> outcome S) (I : S -> Prop) (Pl : L -> Prop) :
  (forall s l s', I s -> Pl l -> step s l = Next s' -> I s') ->
  forall ls s0 s, Forall Pl ls -> I s0 -> exec step s0 ls = Next s -> I s.
Proof.
  intros H ls. induction ls as [|l ls IH]; intros s0 s F H0 E; cbn [exec] in E; [injection E as <-; exact H0|].
  inversion_clear F. destruct (step s0 l) eqn:E1; try discriminate. eapply IH; [assumption| |exact E]. eauto.
Qed.

Lemma reach_RI U rx ls s : Forall agood ls -> Forall calm_writes ls -> exec (astep U) (ainit rx) ls = Next s ->
  RI rx [] s /\ G s.
Proof.
  intros F1 F2. apply (exec_pred2 (astep U) (fun s => RI rx [] s /\ G s) (fun l => agood l /\ calm_writes l)).
  - intros s0 l s' [H1 H2] [L1 L2] E. split; [eapply astep_RI; eassumption|].
    pose proof (astep_G U s0 l H2 L1) as X. rewrite E in X. exact X.
  - apply Forall_and; assumption.
  - split; [apply init_RI | apply init_G].
Qed.
Lemma reach_WI U rx ls s : Forall agood ls -> Forall calm_writes ls -> Forall calm_reads ls ->
  exec (astep U) (ainit rx) ls = Next s -> WI U s /\ WU s /\ G s.
Proof.
  intros F1 F2 F3 E0.
  assert (X : (WI U s /\ WU s) /\ RI rx [] s /\ G s).
  { revert E0. apply (exec_pred2 (astep U) (fun s => (WI U s /\ WU s) /\ RI rx [] s /\ G s) (fun l => (agood l /\ calm_writes l) /\ calm_reads l)).
    - intros s0 l s' [[W1 W2] [H1 H2]] [[L1 L2] L3] E. split; [eapply astep_WI; eassumption|]. split; [eapply astep_RI; eassumption|].
      pose proof (astep_G U s0 l H2 L1) as X. rewrite E in X. exact X.
    - apply Forall_and; [apply Forall_and|]; assumption.
    - split; [apply init_WI|]. split; [apply init_RI | apply init_G]. }
  tauto.
Qed.

Lemma async_write_stream_pf U rx ls s : Forall agood ls -> Forall calm_writes ls -> Forall calm_reads ls ->
  exec (astep U) (ainit rx) ls = Next s ->
  exists m, apps (a_wire s ++ aout s) = take m U /\ awrote (a_log s) <= m <= len U
    /\ (~ astopped (a_log s) -> m = awrote (a_log s) + ataken s).
Proof.
  intros F1 F2 F3 E. destruct (reach_WI _ _ _ _ F1 F2 F3 E) as ([W1 W2 W3 W4 W5 W6] & _ & _).
  destruct W4 as (m & (M1 & M2 & M3) & M4 & M5). exists m. split; [exact M1|]. split; [lia|].
  intros X. rewrite <- W5. apply M5. destruct (a_werr s); [|reflexivity]. exfalso. apply X, W6. reflexivity.
Qed.
Lemma async_flushed_pf U rx ls s : Forall agood ls -> Forall calm_writes ls -> Forall calm_reads ls ->
  exec (astep U) (ainit rx) ls = Next s -> ~ astopped (a_log s) -> a_wr s = None ->
  apps (a_wire s) = take (awrote (a_log s)) U.
Proof.
  intros F1 F2 F3 E X Ew. destruct (reach_WI _ _ _ _ F1 F2 F3 E) as ([W1 W2 W3 W4 W5 W6] & [U1 U2] & Gs).
  assert (We : a_werr s = false) by (destruct (a_werr s); [exfalso; apply X, W6; reflexivity | reflexivity]).
  assert (Eu : a_uw s = None).
  { destruct (a_uw s) as [[[] k]|] eqn:Y; [| |reflexivity].
    - rewrite (U1 k eq_refl) in We. discriminate.
    - destruct (G_pres Writer s Gs) as [Z _]; [left; rewrite Y; reflexivity|]. unfold pres in Z. cbn [req_of] in Z. rewrite Ew in Z. discriminate. }
  assert (Eo : aout s = []).
  { destruct (aout s) eqn:Y; [reflexivity|]. destruct U2 as [Z|Z]; [discriminate | congruence | congruence]. }
  destruct W4 as (m & (M1 & M2 & M3) & M4 & M5). specialize (M5 We). unfold ataken in M5. rewrite Ew, N.add_0_r in M5.
  unfold aout in Eo. rewrite Eo, app_nil_r in M1. rewrite M1, M5, W5. reflexivity.
Qed.
Lemma async_read_stream_pf U rx ls s : Forall agood ls -> Forall calm_writes ls ->
  exec (astep U) (ainit rx) ls = Next s ->
  exists con, rx = con ++ e_in (a_e s) ++ a_rx s /\ iapps con = areads (a_log s) /\ ~ In IZ con.
Proof.
  intros F1 F2 E. destruct (reach_RI _ _ _ _ F1 F2 E) as ([_ _ _ (con & D1 & D2 & D3) _] & _).
  exists con. rewrite app_nil_r in D2. auto.
Qed.
Lemma async_no_truncation_pf U rx ls s : Forall agood ls -> Forall calm_writes ls ->
  exec (astep U) (ainit rx) ls = Next s -> aeof (a_log s) ->
  exists before after, rx = before ++ IZ :: after /\ ~ In IZ before /\ areads (a_log s) = iapps before.
Proof.
  intros F1 F2 E X. destruct (reach_RI _ _ _ _ F1 F2 E) as ([_ _ _ (con & D1 & D2 & D3) D5] & _).
  destruct (D5 X) as (t & Et). rewrite Et in D1. exists con, (t ++ a_rx s). rewrite app_nil_r in D2. auto.
Qed.

Lemma is_eq r o : is r o = true <-> o = Some r.
Proof. destruct r, o as [[]|]; cbn; split; congruence. Qed.
Lemma own_owner o : own o = owner o. Proof. reflexivity. Qed.
Lemma G_where s r : G s -> req_of r s <> None -> in_flight r s \/ a_blk s = Some r /\ in_flight (peer r) s.
Proof.
  intros [B P Q] H.
  assert (F : forall r0, pres r0 s = true -> a_blk s <> Some r0 -> in_flight r0 s).
  { intros r0 Hp Hb. specialize (P r0). rewrite Hp in P. unfold places in P.
    destruct (is r0 (a_blk s)) eqn:E3; [apply is_eq in E3; contradiction|].
    destruct (is r0 (own (a_uw s))) eqn:E1; [left; apply is_eq in E1; exact E1|].
    destruct (is r0 (own (a_ur s))) eqn:E2; [right; apply is_eq in E2; exact E2|]. cbn in P. lia. }
  assert (Hp : pres r s = true) by (unfold pres; destruct (req_of r s); congruence).
  destruct (is r (a_blk s)) eqn:E.
  - apply is_eq in E. right. split; [exact E|]. apply F; [apply Q; exact E|]. rewrite E. destruct r; discriminate.
  - left. apply F; [exact Hp|]. intros X. rewrite X in E. destruct r; discriminate.
Qed.
Lemma async_no_hang_pf U rx ls s r : Forall agood ls -> exec (astep U) (ainit rx) ls = Next s -> req_of r s <> None ->
  in_flight r s \/ a_blk s = Some r /\ in_flight (peer r) s.
Proof. intros F E. apply G_where. eapply reach_G; eassumption. Qed.
Lemma async_resumed_pf U rx ls s r l s' : Forall agood ls -> exec (astep U) (ainit rx) ls = Next s -> a_blk s = Some r ->
  astep U s l = Next s' -> a_blk s' = Some r -> owner (a_uw s') = Some (peer r).
Proof.
  intros F E Hb E' Hb'. pose proof (reach_G _ _ _ _ F E) as Gs.
  assert (PP : pres Reader s = true /\ pres Writer s = true).
  { destruct (G_pres r s Gs) as [X _]; [right; right; apply is_eq; exact Hb|]. pose proof (g_blk _ Gs r Hb) as Y.
    destruct r; cbn [other] in Y; auto. }
  destruct PP as [P1 P2]. unfold pres in P1, P2. cbn [req_of] in P1, P2.
  assert (W : wk s s').
  { destruct l as [lens chs|n ch|c|c]; cbn [astep] in E'.
    - unfold acan_write in E'. destruct (a_wr s); discriminate.
    - destruct (a_rd s); discriminate.
    - pose proof (write_cb_ok c s Gs) as X. rewrite E' in X. apply X.
    - pose proof (read_cb_ok c s Gs) as X. rewrite E' in X. apply X. }
  destruct (W r Hb Hb') as (n & X). rewrite X. destruct r; reflexivity.
Qed.
