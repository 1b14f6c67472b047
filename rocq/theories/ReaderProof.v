(** Proofs about the cloud readers. *)
From Verif Require Import Util ReaderModel ReaderSpec.
From Coq Require Import Lia.
Open Scope N_scope.

Lemma take_min {A} n (l : list A) : take (N.min n (len l)) l = take n l.
Proof.
  destruct (N.le_gt_cases n (len l)).
  - now rewrite N.min_l.
  - rewrite N.min_r by lia. rewrite !take_all by lia. reflexivity.
Qed.
Lemma drop_min {A} n (l : list A) : drop (N.min n (len l)) l = drop n l.
Proof.
  destruct (N.le_gt_cases n (len l)).
  - now rewrite N.min_l.
  - rewrite N.min_r by lia. rewrite !drop_all by lia. reflexivity.
Qed.
Lemma take_add {A} a b (l : list A) : take (a + b) l = take a l ++ take b (drop a l).
Proof.
  rewrite <- (take_drop a (take (a + b) l)).
  rewrite take_take, drop_take. f_equal; [f_equal; lia | f_equal; lia].
Qed.

(** ** S3ReadFile *)

Section S3.
  Variables (obj : list N) (c : N).

  Definition At (s : dl) (rest : list N) : Prop :=
    d_read s <= len obj /\ rest = drop (d_read s) obj
    /\ (exists tl, rest = d_buf s ++ tl)
    /\ (d_size s = len obj \/ d_size s = 0 /\ d_read s = 0 /\ d_buf s = []).

  Lemma At0 : At dl0 obj.
  Proof.
    unfold At, dl0; cbn [d_read d_size d_buf]. split; [lia|]. split; [reflexivity|]. split; [exists obj; reflexivity|]. auto.
  Qed.

  Lemma At_len s rest : At s rest -> len rest = len obj - d_read s.
  Proof. intros (H & -> & _). apply len_drop. Qed.

  (** Taking bytes out of the buffer. *)
  Lemma At_take s rest n : At s rest -> n <= len (d_buf s) ->
    At (mkDl (drop n (d_buf s)) (d_read s + n) (d_size s)) (drop n rest)
    /\ take n (d_buf s) = take n rest.
  Proof.
    intros A Hn. pose proof (At_len _ _ A) as L. destruct A as (H & E & (tl & T) & Z).
    assert (L2 := f_equal len T). rewrite len_app in L2.
    split.
    - unfold At; cbn [d_read d_size d_buf]. split; [lia|]. split.
      { rewrite E, drop_drop. reflexivity. }
      split. { exists tl. rewrite T, drop_app_le by lia. reflexivity. }
      destruct Z as [Z | (Z & R & B)]; [auto|]. right. rewrite B in Hn |- *. rewrite len_nil in Hn.
      split; [exact Z|]. split; [lia|]. apply drop_all. rewrite len_nil; lia.
    - rewrite T, take_app_le by lia. reflexivity.
  Qed.

  Lemma At_end s rest : At s rest -> at_end s = true -> rest = [].
  Proof.
    intros A E. pose proof (At_len _ _ A) as L. destruct A as (H & _ & _ & Z).
    unfold at_end in E. apply andb_prop in E as [E1 E2].
    apply N.ltb_lt in E1. apply N.eqb_eq in E2. apply len_zero. lia.
  Qed.

  Definition honest (net : list get_fate) : Prop := ~ In GWhole net.

  (** What Read(iovec) does. [fuel]: enough downloads are granted. *)
  Definition enough (s : dl) (net : list get_fate) : Prop :=
    Forall (fun f => f = GOk) net /\ len obj - (d_read s + len (d_buf s)) <= c * len net
    /\ 0 < len obj /\ 0 < c.

  Definition rd_post (rest : list N) (w : N) (acc : list N) (full : Prop) (o : out dl get_fate) : Prop :=
    match o with
    | Wait => ~ full
    | Ret (Some r) s' net' =>
      r = acc ++ take w rest /\ At s' (drop w rest) /\ honest net' /\ (full -> enough s' net')
    | Ret None s' net' => (exists k, k <= w /\ At s' (drop k rest)) /\ honest net' /\ ~ full
    | _ => False
    end.

  Lemma read_buf_eq net got want s : read_buf obj c net got want s =
    if at_end s then Ret (Some got) s net
    else if want - len got =? 0 then Ret (Some got) s net
    else
      let n := N.min (want - len got) (len (d_buf s)) in
      let got1 := got ++ take n (d_buf s) in
      let s1 := mkDl (drop n (d_buf s)) (d_read s + n) (d_size s) in
      if len got1 <? want then
        if at_end s1 then Ret (Some got1) s1 net
        else
          match net with
          | [] => Wait
          | GErr :: net' => Ret None s1 net'
          | GOk :: net' =>
            if len obj <=? d_read s1 then Ret None s1 net'
            else match store obj c (take c (drop (d_read s1) obj)) s1 with
                 | DUb => Ub
                 | DAbort => Abort
                 | DOk s2 => read_buf obj c net' got1 want s2
                 end
          | GWhole :: net' =>
            match store obj c obj s1 with
            | DUb => Ub
            | DAbort => Abort
            | DOk s2 => read_buf obj c net' got1 want s2
            end
          end
      else Ret (Some got1) s1 net.
  Proof. destruct net; reflexivity. Qed.

  Definition rb_ok (net : list get_fate) : Prop := forall got want s rest (full : Prop),
    At s rest -> honest net -> len got <= want -> (full -> enough s net) ->
    rd_post rest (want - len got) got full (read_buf obj c net got want s).

  (** [drop w] at the end of the file. *)
  Lemma rb_step net : (forall f net', net = f :: net' -> rb_ok net') -> rb_ok net.
  Proof.
    intros IH got want s rest full A Hh Hw Hf.
    pose proof (At_len _ _ A) as L. rewrite read_buf_eq.
    destruct (at_end s) eqn:Ee.
    { pose proof (At_end _ _ A Ee). subst rest. cbn [rd_post].
      rewrite take_all, drop_all, app_nil_r by (rewrite len_nil; lia). auto. }
    destruct (N.eqb_spec (want - len got) 0) as [E0|E0].
    { cbn [rd_post]. rewrite E0, take_0, drop_0, app_nil_r. auto. }
    set (n := N.min (want - len got) (len (d_buf s))).
    destruct (At_take s rest n A ltac:(lia)) as [A1 T1]. cbv zeta.
    set (s1 := mkDl (drop n (d_buf s)) (d_read s + n) (d_size s)) in *.
    rewrite T1.
    assert (Ln : n <= len rest)
      by (destruct A as (_ & _ & (tl & T) & _); rewrite T, len_app; lia).
    assert (Lg : len (got ++ take n rest) = len got + n)
      by (rewrite len_app, len_take; lia).
    assert (Hf1 : full -> enough s1 net).
    { intros F. destruct (Hf F) as (F1 & F2 & F3). split; [exact F1|]. split; [|exact F3].
      unfold s1; cbn [d_read d_buf]. rewrite len_drop. lia. }
    rewrite Lg. destruct (N.ltb_spec (len got + n) want) as [Hlt|Hge].
    2:{ cbn [rd_post]. replace (want - len got) with n by lia. auto. }
    assert (B1 : d_buf s1 = []) by (unfold s1; cbn [d_buf]; apply drop_all; lia).
    assert (TK : got ++ take (want - len got) rest
                 = (got ++ take n rest) ++ take (want - len (got ++ take n rest)) (drop n rest)).
    { rewrite Lg, <- app_assoc, <- take_add. do 2 f_equal. lia. }
    assert (DK : drop (want - len got) rest = drop (want - len (got ++ take n rest)) (drop n rest)).
    { rewrite drop_drop, Lg. f_equal. lia. }
    destruct (at_end s1) eqn:Ee1.
    { pose proof (At_end _ _ A1 Ee1) as R1. cbn [rd_post]. rewrite TK, DK, R1.
      rewrite (take_all _ (@nil N)), (drop_all _ (@nil N)), app_nil_r by (rewrite len_nil; lia).
      rewrite R1 in A1. auto. }
    assert (Hr : full -> d_read s1 < len obj).
    { intros F. destruct (Hf1 F) as (_ & F2 & F3 & F4). destruct A1 as (R & _ & _ & Z).
      destruct (N.eq_dec (d_read s1) (len obj)) as [E|]; [|lia].
      destruct Z as [Z|(Z & Z1 & _)]; [|lia].
      unfold at_end in Ee1. rewrite Z, E, N.eqb_refl in Ee1.
      destruct (N.ltb_spec 0 (len obj)); [discriminate Ee1 | lia]. }
    destruct net as [|f net'].
    { cbn [rd_post]. intros F. destruct (Hf1 F) as (_ & F2 & F3 & F4). specialize (Hr F).
      rewrite B1 in F2. change (len (@nil N)) with 0 in F2. change (len (@nil get_fate)) with 0 in F2.
      rewrite N.mul_0_r in F2. lia. }
    assert (Hh' : honest net') by (intros I; apply Hh; right; exact I).
    assert (Er : (exists k, k <= want - len got /\ At s1 (drop k rest)))
      by (exists n; split; [lia | exact A1]).
    destruct f.
    - destruct (N.leb_spec (len obj) (d_read s1)) as [Hle|Hgt].
      { cbn [rd_post]. split; [exact Er|]. split; [exact Hh'|]. intros F. specialize (Hr F). lia. }
      unfold store. rewrite B1, len_nil, N.eqb_refl. cbn [negb].
      rewrite len_take, len_drop.
      destruct (N.ltb_spec c (N.min c (len obj - d_read s1))); [lia|].
      set (s2 := mkDl _ _ _).
      assert (A2 : At s2 (drop n rest)).
      { destruct A1 as (R & E & _ & Z). unfold At, s2; cbn [d_read d_size d_buf].
        split; [exact R|]. split; [exact E|]. split.
        - exists (drop c (drop (d_read s1) obj)). rewrite take_drop. exact E.
        - left. destruct (N.eqb_spec (d_size s1) 0); [reflexivity|]. destruct Z as [Z|(Z & _)]; [exact Z|lia]. }
      pose proof (IH GOk net' eq_refl (got ++ take n rest) want s2 (drop n rest) full A2 Hh') as P.
      assert (Q : full -> enough s2 net').
      { intros F. destruct (Hf1 F) as (F1 & F2 & F3 & F4). inversion_clear F1.
        split; [assumption|]. split; [|auto]. unfold s2; cbn [d_read d_buf].
        rewrite len_take, len_drop. rewrite B1, len_nil, len_cons in F2.
        assert (len obj - d_read s1 <= c + c * len net') by lia. lia. }
      specialize (P ltac:(rewrite Lg; lia) Q).
      destruct (read_buf obj c net' (got ++ take n rest) want s2) as [| | |[r|] s' n']; cbn [rd_post] in P |- *; try exact P.
      + rewrite TK, DK. exact P.
      + destruct P as ((k & Hk & P1) & P2). split; [|exact P2].
        exists (n + k). split; [rewrite Lg in Hk; lia|]. rewrite <- drop_drop. exact P1.
    - cbn [rd_post]. split; [exact Er|]. split; [exact Hh'|]. intros F.
      destruct (Hf1 F) as (F1 & _). inversion_clear F1. discriminate.
    - exfalso. apply Hh. left. reflexivity.
  Qed.

  Lemma rb_all net : rb_ok net.
  Proof.
    induction net as [|f net IH]; apply rb_step; intros g n E; [discriminate|].
    injection E as -> ->. exact IH.
  Qed.

  Lemma read_bufs_ok lens : forall acc s rest net (full : Prop),
    At s rest -> honest net -> (full -> enough s net) ->
    rd_post rest (total lens) acc full (read_bufs obj c lens acc s net).
  Proof.
    induction lens as [|n r IH]; intros acc s rest net full A Hh Hf; cbn [read_bufs total].
    { cbn [rd_post]. rewrite take_0, drop_0, app_nil_r. auto. }
    pose proof (rb_all net [] n s rest full A Hh ltac:(rewrite len_nil; lia) Hf) as P.
    rewrite len_nil, N.sub_0_r in P.
    destruct (read_buf obj c net [] n s) as [| | |[b|] s1 net1]; cbn [rd_post] in P |- *; try exact P.
    - destruct P as (-> & A1 & H1 & F1). cbn [app].
      pose proof (IH (acc ++ take n rest) s1 _ net1 full A1 H1 F1) as Q.
      destruct (read_bufs obj c r _ s1 net1) as [| | |[b|] s2 net2]; cbn [rd_post] in Q |- *; try exact Q.
      + rewrite take_add, app_assoc, <- drop_drop. exact Q.
      + destruct Q as ((k & Hk & Q1) & Q2). split; [|exact Q2].
        exists (n + k). split; [lia|]. rewrite <- drop_drop. exact Q1.
    - destruct P as ((k & Hk & P1) & P2). split; [|exact P2]. exists k. split; [lia | exact P1].
  Qed.

  Let rd := fun lens s net => read_bufs obj c lens [] s net.

  Lemma s3_session_ok calls : forall s net e outs, At s (drop (d_read s) obj) -> honest net ->
    session rd calls s net = (e, outs) ->
    e <> Ub /\ e <> Abort /\ slices obj (d_read s) calls outs
    /\ (forall r s' net', e = Ret r s' net' -> At s' (drop (d_read s') obj) /\ d_read s <= d_read s'
         /\ (0 < len (bytes_of outs) -> d_read s < d_read s')).
  Proof.
    induction calls as [|lens r IH]; intros s net e outs A Hh E; cbn [session] in E.
    { injection E as <- <-. split; [discriminate|]. split; [discriminate|]. split; [constructor|].
      intros r s' net' E. injection E as _ <- <-. split; [exact A|]. split; [lia|].
      intros X; discriminate X. }
    pose proof (read_bufs_ok lens [] s _ net False A Hh ltac:(tauto)) as P.
    unfold rd at 1 in E.
    pose proof (At_len _ _ A) as L.
    destruct (read_bufs obj c lens [] s net) as [| | |o s1 net1]; cbn [rd_post] in P; try contradiction.
    { injection E as <- <-. split; [discriminate|]. split; [discriminate|]. split; [constructor|]. discriminate. }
    destruct (session rd r s1 net1) as [e1 l] eqn:E1. injection E as <- <-.
    destruct o as [b|].
    - destruct P as (-> & A1 & H1 & _). cbn [app] in *.
      pose proof (At_len _ _ A1) as L1. rewrite len_drop, L in L1.
      assert (X : d_read s1 = d_read s + N.min (total lens) (len obj - d_read s)).
      { destruct A as (R & _). destruct A1 as (R1 & _). lia. }
      assert (A1' : At s1 (drop (d_read s1) obj)) by (destruct A1 as (U1 & U2 & U3); rewrite <- U2; split; auto).
      destruct (IH _ _ _ _ A1' H1 E1) as (I1 & I2 & I3 & I4).
      split; [exact I1|]. split; [exact I2|]. split.
      { apply sl_ok. rewrite <- X. exact I3. }
      intros r0 s' net' E. destruct (I4 _ _ _ E) as (J1 & J2 & J3).
      split; [exact J1|]. split; [lia|]. cbn [bytes_of]. rewrite len_app, len_take, len_drop.
      intros HH. destruct (N.eq_dec (len (bytes_of l)) 0); [lia|]. specialize (J3 ltac:(lia)). lia.
    - destruct P as ((k & Hk & A1) & H1 & _).
      pose proof (At_len _ _ A1) as L1. rewrite len_drop, L in L1.
      assert (X : d_read s <= d_read s1 <= d_read s + total lens).
      { destruct A as (R & _). destruct A1 as (R1 & _). lia. }
      assert (A1' : At s1 (drop (d_read s1) obj)) by (destruct A1 as (U1 & U2 & U3); rewrite <- U2; split; auto).
      destruct (IH _ _ _ _ A1' H1 E1) as (I1 & I2 & I3 & I4).
      split; [exact I1|]. split; [exact I2|]. split.
      { apply sl_err with (p' := d_read s1); assumption. }
      intros r0 s' net' E. destruct (I4 _ _ _ E) as (J1 & J2 & J3).
      split; [exact J1|]. split; [lia|]. cbn [bytes_of]. intros HH. specialize (J3 HH). lia.
  Qed.

  Lemma s3_session_full calls : forall s rest net, At s rest -> honest net -> enough s net ->
    exists s' net', session rd calls s net = (Ret None s' net', map Some (expected rest calls)).
  Proof.
    induction calls as [|lens r IH]; intros s rest net A Hh Hf; cbn [session expected].
    { eauto. }
    pose proof (read_bufs_ok lens [] s _ net True A Hh ltac:(tauto)) as P.
    unfold rd at 1.
    destruct (read_bufs obj c lens [] s net) as [| | |[b|] s1 net1]; cbn [rd_post] in P; try tauto.
    destruct P as (-> & A1 & H1 & F1). destruct (IH _ _ _ A1 H1 (F1 I)) as (s' & net' & ->).
    exists s', net'. reflexivity.
  Qed.
End S3.

Lemma slices_ok obj p calls outs : slices obj p calls outs -> all_ok outs ->
  outs = map Some (firstn (length outs) (expected (drop p obj) calls)).
Proof.
  intros H. induction H as [p calls | p lens calls outs H IH | p p' lens calls outs Hp H IH]; intros Ha.
  - reflexivity.
  - inversion_clear Ha. cbn [length expected firstn]. cbn [map]. f_equal.
    rewrite IH at 1 by assumption. do 3 f_equal. rewrite drop_drop.
    rewrite <- len_drop. rewrite <- drop_drop, drop_min, drop_drop. reflexivity.
  - inversion_clear Ha. contradiction.
Qed.

Lemma s3_reads_pf obj c calls net e outs :
  ~ In GWhole net -> s3_session obj c calls net = (e, outs) ->
  e <> Ub /\ e <> Abort
  /\ slices obj 0 calls outs
  /\ (all_ok outs -> outs = map Some (firstn (length outs) (expected obj calls))).
Proof.
  intros Hh E. destruct (s3_session_ok obj c calls dl0 net e outs (At0 obj) Hh E) as (H1 & H2 & H3 & _).
  split; [exact H1|]. split; [exact H2|]. split; [exact H3|].
  intros Ha. apply (slices_ok _ _ _ _ H3 Ha).
Qed.

Lemma s3_size_pf obj c calls net r s net' outs :
  ~ In GWhole net -> s3_session obj c calls net = (Ret r s net', outs) ->
  bytes_of outs <> [] -> d_size s = len obj.
Proof.
  intros Hh E Hb. destruct (s3_session_ok obj c calls dl0 net _ outs (At0 obj) Hh E) as (_ & _ & _ & H).
  destruct (H _ _ _ eq_refl) as ((_ & _ & _ & Z) & _ & H2).
  destruct Z as [Z|(Z & Z1 & _)]; [exact Z|].
  assert (0 < len (bytes_of outs)). { destruct (bytes_of outs); [contradiction|]. rewrite len_cons. lia. }
  specialize (H2 H0). cbn [dl0 d_read] in H2. lia.
Qed.

Lemma s3_complete_pf obj c calls net :
  obj <> [] -> 0 < c -> Forall (fun f => f = GOk) net -> len obj <= c * len net ->
  exists s net', s3_session obj c calls net = (Ret None s net', map Some (expected obj calls)).
Proof.
  intros Ho Hc Hg Hl. apply (s3_session_full obj c calls dl0 obj net).
  - apply At0.
  - intros I. rewrite Forall_forall in Hg. specialize (Hg _ I). discriminate.
  - unfold enough, dl0; cbn [d_read d_buf]. change (len (@nil N)) with 0. split; [exact Hg|]. split; [lia|]. split; [|exact Hc].
    destruct obj; [contradiction|]. rewrite len_cons; lia.
Qed.

(** Empty objects. *)
Lemma s3_empty_pf c calls net e outs i lens :
  s3_session [] c calls net = (e, outs) -> nth_error calls i = Some lens -> 0 < total lens ->
  nth_error outs i = Some None \/ nth_error outs i = None.
Proof.
  unfold s3_session. 
  assert (B : forall n net, 0 < n -> match read_buf [] c net [] n dl0 with
     | Ret o s _ => o = None /\ s = dl0 | Ub | Abort => False | Wait => True end).
  { intros n nt Hn. induction nt as [|f nt IH]; rewrite read_buf_eq; unfold at_end, dl0; cbn [d_size d_read d_buf];
      change (0 <? 0) with false; cbn [andb]; change (len (@nil N)) with 0; rewrite N.sub_0_r;
      (destruct (N.eqb_spec n 0); [lia|]); rewrite N.min_0_r, take_0, drop_0; cbn [app]; change (len (@nil N)) with 0;
      (destruct (N.ltb_spec 0 n); [|lia]); cbn [d_size d_read].
    - exact I.
    - change (0 + 0) with 0. change (len (@nil N) <=? 0) with true; change (0 <=? 0) with true. cbv iota.
      destruct f; auto.
      unfold store. cbn [d_buf d_size d_read]. change (len (@nil N)) with 0. change (0 =? 0) with true. cbn [negb].
      destruct (N.ltb_spec c 0); [lia|]. exact IH. }
  assert (B0 : forall net, read_buf [] c net [] 0 dl0 = Ret (Some []) dl0 net) by (intros nt; destruct nt; reflexivity).
  assert (C : forall ls acc net, match read_bufs [] c ls acc dl0 net with
     | Ret o s _ => (0 < total ls -> o = None) /\ s = dl0 | Ub | Abort => False | Wait => True end).
  { induction ls as [|n r IH]; intros acc nt; cbn [read_bufs total]; [split; [lia|reflexivity]|].
    destruct (N.eq_dec n 0) as [->|Hn].
    - rewrite B0. rewrite app_nil_r. rewrite N.add_0_l. apply IH.
    - specialize (B n nt ltac:(lia)). destruct (read_buf [] c nt [] n dl0) as [| | |o s n1]; auto.
      destruct B as [-> ->]. auto. }
  revert net outs i e. induction calls as [|l r IH]; intros net outs i e E Hi Ht.
  { destruct i; discriminate. }
  cbn [session] in E. specialize (C l [] net).
  destruct (read_bufs [] c l [] dl0 net) as [| | |o s n1]; try (injection E as <- <-; destruct i; auto).
  destruct C as [C ->]. destruct (session _ r dl0 n1) as [e1 l1] eqn:E1. injection E as <- <-.
  destruct i as [|i]; cbn [nth_error] in *.
  - injection Hi as <-. rewrite (C Ht). auto.
  - eapply IH; eauto.
Qed.
(** ** The streaming readers *)

Section Streams.
  Variables (kd : kind) (obj : list N).

  (** [rest] is still to be handed out. *)
  Definition Live (s : stream) (rest : list N) : Prop :=
    t_sess s = true /\ t_open s = true /\ t_left s = rest
    /\ t_offs s + len rest = len obj /\ t_size s = len obj.
  Definition Dead (s : stream) : Prop :=
    t_sess s = true /\ t_open s = false /\ t_left s <> [] /\ t_size s = len obj.

  Lemma recv_bufs_ok lens : forall acc s net rest, Live s rest ->
    match recv_bufs kd lens acc s net with
    | Wait => ~ (Forall (fun f => f = NMore) net /\ (length lens <= length net)%nat)
    | Ret (Some r) s' net' => r = acc ++ take (total lens) rest /\ Live s' (drop (total lens) rest)
        /\ incl net' net
        /\ (length net <= length lens + length net')%nat
    | Ret None s' net' => Dead s' /\ incl net' net /\ ~ Forall (fun f => f = NMore) net
    | _ => False
    end.
  Proof.
    induction lens as [|n r IH]; intros acc s net rest H; cbn [recv_bufs total].
    { rewrite take_0, drop_0, app_nil_r. split; [reflexivity|]. split; [exact H|].
      split; [apply incl_refl | cbn [length]; lia]. }
    destruct H as (Hs & Ho & Hl & Hf & Hz). unfold recv. rewrite Hl, Ho.
    destruct (N.eqb_spec (len rest) 0) as [E0|E0].
    { assert (E : t_offs s =? t_size s = true) by (apply N.eqb_eq; lia).
      cbn [negb]. rewrite E. cbn [negb]. rewrite andb_false_r.
      assert (HL : Live s rest) by (repeat split; auto).
      specialize (IH acc s net rest HL). rewrite app_nil_r.
      apply len_zero in E0. subst rest. rewrite E0 in *.
      rewrite !(take_all _ (@nil N)), !(drop_all _ (@nil N)) in * by (change (len (@nil N)) with 0; lia).
      assert (G : match recv_bufs kd r acc s net with
              | Wait => ~ (Forall (fun f => f = NMore) net /\ (length (n :: r) <= length net)%nat)
              | Ret (Some r0) s' net' => r0 = acc ++ [] /\ Live s' [] /\ incl net' net
                 /\ (length net <= length (n :: r) + length net')%nat
              | Ret None s' net' => Dead s' /\ incl net' net /\ ~ Forall (fun f => f = NMore) net
              | _ => False end).
      { destruct (recv_bufs kd r acc s net) as [| | |[b|] s1 n1]; try exact IH.
        - intros [F1 F2]. apply IH. split; [exact F1|]. cbn [length] in F2. lia.
        - destruct IH as (I1 & I2 & I3 & I4). repeat (split; [assumption|]). cbn [length]. lia. }
      destruct kd; exact G. }
    cbn [negb].
    destruct net as [|f net'].
    { intros [_ F]. cbn [length] in F. lia. }
    set (m := match f with NFail k => N.min k (N.min n (len rest)) | _ => N.min n (len rest) end).
    cbv zeta. fold m.
    set (ok := match f with NFail _ => m =? len rest | _ => true end).
    assert (Hm : m <= N.min n (len rest)) by (unfold m; destruct f; lia).
    destruct ok eqn:Eok; cbn [negb].
    2:{ split.
      - unfold Dead; cbn [t_sess t_open t_left t_size]. split; [reflexivity|]. split; [reflexivity|].
        split; [|exact Hz]. intros D. apply (f_equal len) in D. rewrite len_drop in D.
        change (len (@nil N)) with 0 in D. unfold ok in Eok. destruct f; try discriminate Eok.
        apply N.eqb_neq in Eok. lia.
      - split; [apply incl_tl, incl_refl|]. intros F. inversion_clear F. subst f. discriminate Eok. }
    assert (Hm2 : m = N.min n (len rest)).
    { unfold ok in Eok. destruct f; try reflexivity. apply N.eqb_eq in Eok. lia. }
    set (s1 := mkStream _ _ _ _ _).
    assert (HL : Live s1 (drop n rest)).
    { unfold Live, s1; cbn [t_sess t_open t_left t_offs t_size].
      split; [reflexivity|]. split; [reflexivity|]. rewrite <- (drop_min n rest), <- Hm2. split; [reflexivity|].
      rewrite len_drop. lia. }
    assert (ET : take m rest = take n rest) by (rewrite Hm2; apply take_min).
    rewrite ET.
    assert (ES : negb (n - len (take n rest) =? 0) && negb (t_offs s1 =? t_size s1) = false).
    { rewrite len_take. unfold s1; cbn [t_offs t_size].
      destruct (N.eqb_spec (n - N.min n (len rest)) 0); [reflexivity|]. cbn [negb andb].
      destruct (N.eqb_spec (t_offs s + m) (t_size s)); [reflexivity | lia]. }
    rewrite ES.
    specialize (IH (acc ++ take n rest) s1 net' _ HL).
    rewrite take_add, app_assoc, <- drop_drop.
    assert (G : match recv_bufs kd r (acc ++ take n rest) s1 net' with
            | Wait => ~ (Forall (fun f => f = NMore) (f :: net') /\ (length (n :: r) <= length (f :: net'))%nat)
            | Ret (Some r0) s' net2 => r0 = (acc ++ take n rest) ++ take (total r) (drop n rest)
               /\ Live s' (drop (total r) (drop n rest)) /\ incl net2 (f :: net')
               /\ (length (f :: net') <= length (n :: r) + length net2)%nat
            | Ret None s' net2 => Dead s' /\ incl net2 (f :: net') /\ ~ Forall (fun f => f = NMore) (f :: net')
            | _ => False end).
    { destruct (recv_bufs kd r (acc ++ take n rest) s1 net') as [| | |[b|] s2 n2]; try exact IH.
      - intros [F1 F2]. inversion_clear F1. apply IH. split; [assumption|]. cbn [length] in F2. lia.
      - destruct IH as (I1 & I2 & I3 & I4). repeat (split; [assumption|]). split; [apply incl_tl; exact I3|].
        cbn [length]. lia.
      - destruct IH as (I1 & I2 & I3). split; [exact I1|]. split; [apply incl_tl; exact I2|].
        intros F. inversion_clear F. auto. }
    destruct kd; exact G.
  Qed.

  Let rd := stream_read kd obj.

  Lemma dead_read s net lens : Dead s ->
    exists s' o, rd lens s net = Ret o s' net /\ Dead s' /\ dead lens o.
  Proof.
    intros (Hs & Ho & Hl & Hz). unfold rd, stream_read. rewrite Hs.
    destruct lens as [|n r]; cbn [recv_bufs].
    - exists s, (Some []). split; [reflexivity|]. split; [repeat split; auto|]. right; auto.
    - unfold recv. rewrite Ho. destruct (N.eqb_spec (len (t_left s)) 0) as [E|E].
      { apply len_zero in E. contradiction. }
      cbn [negb]. exists s, None. split; [reflexivity|]. split; [repeat split; auto|]. left; auto.
  Qed.

  Lemma dead_session calls : forall s net e outs, Dead s -> session rd calls s net = (e, outs) ->
    e <> Ub /\ e <> Abort
    /\ (forall i o, nth_error outs i = Some o -> exists l, nth_error calls i = Some l /\ dead l o)
    /\ (forall r s' n, e = Ret r s' n -> t_size s' = len obj).
  Proof.
    induction calls as [|lens r IH]; intros s net e outs H E; cbn [session] in E.
    - injection E as <- <-. split; [discriminate|]. split; [discriminate|].
      split; [intros [|i] o X; discriminate|]. intros r s' n X. injection X as _ <- <-. apply H.
    - destruct (dead_read s net lens H) as (s' & o & E1 & H1 & D1). rewrite E1 in E.
      destruct (session rd r s' net) as [e1 l] eqn:E2. injection E as <- <-.
      destruct (IH _ _ _ _ H1 E2) as (I1 & I2 & I3 & I4).
      split; [exact I1|]. split; [exact I2|]. split; [|exact I4].
      intros [|i] o' X; cbn [nth_error] in *.
      + injection X as <-. eauto.
      + apply I3. exact X.
  Qed.

  Lemma live_session calls : forall s net e outs rest, Live s rest -> session rd calls s net = (e, outs) ->
    e <> Ub /\ e <> Abort /\ streamed rest calls outs
    /\ (forall r s' n, e = Ret r s' n -> t_size s' = len obj).
  Proof.
    induction calls as [|lens r IH]; intros s net e outs rest H E; cbn [session] in E.
    - injection E as <- <-. split; [discriminate|]. split; [discriminate|]. split; [constructor|].
      intros r s' n X. injection X as _ <- <-. apply H.
    - pose proof (recv_bufs_ok lens [] s net rest H) as P.
      unfold rd at 1, stream_read in E. rewrite (proj1 H) in E.
      destruct (recv_bufs kd lens [] s net) as [| | |o s1 net1]; try contradiction.
      { injection E as <- <-. split; [discriminate|]. split; [discriminate|]. split; [constructor|]. discriminate. }
      destruct (session rd r s1 net1) as [e1 l] eqn:E2. injection E as <- <-.
      destruct o as [b|].
      + destruct P as (-> & P2 & _). cbn [app].
        destruct (IH _ _ _ _ _ P2 E2) as (I1 & I2 & I3 & I4).
        split; [exact I1|]. split; [exact I2|]. split; [|exact I4]. constructor. exact I3.
      + destruct P as (P1 & _).
        destruct (dead_session _ _ _ _ _ P1 E2) as (I1 & I2 & I3 & I4).
        split; [exact I1|]. split; [exact I2|]. split; [|exact I4]. constructor. exact I3.
  Qed.

  Lemma init_live s : t_offs s = 0 -> Live (snd (init kd obj NOpen s)) obj.
  Proof. intros E. unfold Live; cbn. rewrite E. repeat split. Qed.

  Lemma open_session calls : forall net e outs,
    (kd <> Gcs \/ ~ In NOpenNoLen net) -> session rd calls stream0 net = (e, outs) ->
    e <> Ub /\ e <> Abort /\ opened obj calls outs
    /\ (forall r s' n o, e = Ret r s' n -> In o outs -> o <> None -> t_size s' = len obj).
  Proof.
    induction calls as [|lens r IH]; intros net e outs Hk E; cbn [session] in E.
    - injection E as <- <-. split; [discriminate|]. split; [discriminate|].
      split; [exists 0%nat, []; split; [reflexivity | constructor]|]. intros ? ? ? ? _ [].
    - unfold rd at 1, stream_read in E. change (t_sess stream0) with false in E. cbv iota in E.
      destruct net as [|f net'].
      { injection E as <- <-. split; [discriminate|]. split; [discriminate|].
        split; [exists 0%nat, []; split; [reflexivity | constructor]|]. intros ? ? ? ? _ []. }
      assert (Hk' : kd <> Gcs \/ ~ In NOpenNoLen net').
      { destruct Hk as [Hk|Hk]; [auto|]. right. intros I; apply Hk; right; exact I. }
      assert (FAIL : init kd obj f stream0 = (false, stream0) ->
        e <> Ub /\ e <> Abort /\ opened obj (lens :: r) outs
        /\ (forall r s' n o, e = Ret r s' n -> In o outs -> o <> None -> t_size s' = len obj)).
      { intros EI. rewrite EI in E. destruct (session rd r stream0 net') as [e1 l] eqn:E2.
        injection E as <- <-. destruct (IH _ _ _ Hk' E2) as (I1 & I2 & (k & o' & I3 & I4) & I5).
        split; [exact I1|]. split; [exact I2|]. split.
        - exists (S k), o'. rewrite I3. split; [reflexivity | exact I4].
        - intros r0 s' n o X [<-|Io] No; [contradiction|]. eapply I5; eauto. }
      destruct f; try (apply FAIL; reflexivity).
      + destruct (init kd obj NOpen stream0) as [ok s1] eqn:EI.
        pose proof (init_live stream0 eq_refl) as HL. rewrite EI in HL. cbn [snd] in HL.
        assert (ok = true) by (unfold init in EI; injection EI as <- _; reflexivity). subst ok.
        pose proof (live_session (lens :: r) s1 net' e outs obj HL) as Q.
        cbn [session] in Q. unfold rd at 1, stream_read in Q. rewrite (proj1 HL) in Q.
        destruct (Q E) as (I1 & I2 & I3 & I4).
        split; [exact I1|]. split; [exact I2|]. split.
        * exists 0%nat, outs. split; [reflexivity | exact I3].
        * intros. eapply I4; eauto.
      + apply FAIL. unfold init. destruct Hk as [Hk|Hk]; [|exfalso; apply Hk; left; reflexivity].
        destruct kd; [reflexivity | reflexivity | contradiction].
  Qed.

  Lemma live_complete calls : forall s net rest, Live s rest ->
    Forall (fun f => f = NMore) net -> (length (concat calls) <= length net)%nat ->
    exists s' net', session rd calls s net = (Ret None s' net', map Some (expected rest calls)).
  Proof.
    induction calls as [|lens r IH]; intros s net rest H F Hl; cbn [session expected]; [eauto|].
    cbn [concat] in Hl. rewrite app_length in Hl.
    pose proof (recv_bufs_ok lens [] s net rest H) as P.
    unfold rd at 1, stream_read. rewrite (proj1 H).
    destruct (recv_bufs kd lens [] s net) as [| | |[b|] s1 net1]; try contradiction.
    - exfalso. apply P. split; [exact F | lia].
    - destruct P as (-> & P2 & P3 & P4).
      destruct (IH s1 net1 _ P2) as (s' & n' & ->).
      + rewrite Forall_forall in *. intros x I. apply F, P3, I.
      + lia.
      + eauto.
    - destruct P as (_ & _ & P). contradiction.
  Qed.
End Streams.

Lemma streamed_prefix rest calls outs : streamed rest calls outs -> exists tl, rest = bytes_of outs ++ tl.
Proof.
  intros H. induction H as [rest calls | rest lens calls outs H (tl & IH) | rest lens calls outs H].
  - exists rest. reflexivity.
  - cbn [bytes_of]. exists tl. rewrite <- app_assoc, <- IH. symmetry. apply take_drop.
  - exists rest. cbn [bytes_of]. replace (bytes_of outs) with (@nil N); [reflexivity|].
    symmetry. clear lens. revert calls H. induction outs as [|o outs IH]; intros calls H; [reflexivity|].
    destruct (H 0%nat o eq_refl) as (l & E & [-> | (_ & ->)]); cbn [bytes_of app];
      (destruct calls as [|c0 calls]; [discriminate E|]; apply (IH calls); intros i x X; apply (H (S i) x X)).
Qed.

(** A short read means that all was read. *)
Lemma streamed_short rest calls outs : streamed rest calls outs -> forall i lens b,
  nth_error calls i = Some lens -> nth_error outs i = Some (Some b) -> len b < total lens ->
  bytes_of (firstn (S i) outs) = rest.
Proof.
  intros H. induction H as [rest calls | rest ln calls outs H IH | rest ln calls outs H];
    intros i lens b Hc Ho Hs.
  - destruct i; discriminate.
  - destruct i as [|i]; cbn [nth_error] in Hc, Ho.
    + injection Hc as <-. injection Ho as <-. cbn [firstn bytes_of]. rewrite app_nil_r.
      rewrite len_take in Hs. apply take_all. lia.
    + change (firstn (S (S i)) (Some (take (total ln) rest) :: outs))
        with (Some (take (total ln) rest) :: firstn (S i) outs).
      cbn [bytes_of]. rewrite (IH i lens b Hc Ho Hs). apply take_drop.
  - destruct i as [|i]; cbn [nth_error] in Hc, Ho; [discriminate|].
    destruct (H i _ Ho) as (l & E & [D | (D1 & D2)]); [discriminate|].
    rewrite Hc in E. injection E as <-. subst lens. cbn [total] in Hs. lia.
Qed.

Lemma repeat_none k outs : bytes_of (repeat None k ++ outs) = bytes_of outs.
Proof. induction k as [|k IH]; [reflexivity|]. exact IH. Qed.

Lemma stream_reads_pf kd obj calls net e outs :
  kd <> Gcs \/ ~ In NOpenNoLen net ->
  stream_session kd obj calls net = (e, outs) ->
  e <> Ub /\ e <> Abort
  /\ opened obj calls outs
  /\ (exists tl, obj = bytes_of outs ++ tl)
  /\ (forall i lens b, nth_error calls i = Some lens -> nth_error outs i = Some (Some b) ->
       len b < total lens -> bytes_of (firstn (S i) outs) = obj)
  /\ (forall r s net' o, e = Ret r s net' -> In o outs -> o <> None -> t_size s = len obj).
Proof.
  intros Hk E. destruct (open_session kd obj calls net e outs Hk E) as (H1 & H2 & H3 & H4).
  split; [exact H1|]. split; [exact H2|]. split; [exact H3|].
  destruct H3 as (k & o' & -> & H3). split.
  { rewrite repeat_none. eapply streamed_prefix; eauto. }
  split; [|exact H4].
  intros i lens b Hc Ho Hs.
  assert (Hi : (k <= i)%nat).
  { destruct (Nat.le_gt_cases k i); [assumption|]. exfalso.
    rewrite nth_error_app1 in Ho by (rewrite repeat_length; lia).
    apply nth_error_In, repeat_spec in Ho. discriminate. }
  rewrite nth_error_app2 in Ho by (rewrite repeat_length; lia). rewrite repeat_length in Ho.
  rewrite firstn_app, repeat_length, firstn_all2 by (rewrite repeat_length; lia).
  rewrite repeat_none. replace (S i - k)%nat with (S (i - k)) by lia.
  eapply streamed_short; eauto.
  rewrite <- Hc. replace i with (k + (i - k))%nat at 2 by lia.
  clear. revert calls. generalize (i - k)%nat. intros j. induction k as [|k IH]; intros calls; [reflexivity|].
  destruct calls as [|c calls]; [destruct j; reflexivity|]. apply IH.
Qed.

Lemma stream_complete_pf kd obj calls net :
  Forall (fun f => f = NMore) net -> (length (concat calls) <= length net)%nat ->
  exists s net', stream_session kd obj calls (NOpen :: net)
                 = (Ret None s net', map Some (expected obj calls)).
Proof.
  intros F Hl. unfold stream_session. destruct calls as [|lens r].
  { exists stream0, (NOpen :: net). reflexivity. }
  destruct (live_complete kd obj (lens :: r) (snd (init kd obj NOpen stream0)) net obj) as (s' & n' & E); auto.
  { apply init_live. reflexivity. }
  exists s', n'. rewrite <- E. reflexivity.
Qed.
