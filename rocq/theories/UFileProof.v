From Verif Require Import Util IoStreamModel IoStreamSpec IoStreamProof UFileModel UFileSpec.
Local Open Scope N_scope.

(** ** read(2) *)
Lemma kread_le F off cap n : kread F off cap n <= cap /\ kread F off cap n <= len F - off.
Proof. unfold kread. destruct (N.eqb_spec (N.min cap (len F - off)) 0); lia. Qed.
Lemma kread_0 F off cap n : kread F off cap n = 0 -> cap = 0 \/ len F <= off.
Proof. unfold kread. destruct (N.eqb_spec (N.min cap (len F - off)) 0); lia. Qed.
Lemma kread_full F off cap n : cap <= n -> kread F off cap n = N.min cap (len F - off).
Proof. unfold kread. destruct (N.eqb_spec (N.min cap (len F - off)) 0); lia. Qed.

Lemma piece_more F off a k : piece F off a ++ slice F (off + a) k = piece F off (a + k).
Proof.
  unfold piece, slice. rewrite <- drop_drop. generalize (drop off F). clear. intros l.
  unfold take, drop. replace (N.to_nat (a + k)) with (N.to_nat a + N.to_nat k)%nat by lia.
  generalize (N.to_nat a) (N.to_nat k). clear. intros a k. revert l.
  induction a; intros l; simpl; auto. destruct l; simpl; [now rewrite firstn_nil|]. now rewrite IHa.
Qed.
Lemma len_piece F off n : len (piece F off n) = N.min n (len F - off).
Proof. unfold piece. now rewrite len_take, len_drop. Qed.
Lemma piece_eof F off a b : a <= b -> len F <= off + a -> piece F off a = piece F off b.
Proof. intros. unfold piece. rewrite !take_all; auto; rewrite len_drop; lia. Qed.
Lemma piece_begins F off a b : a <= b -> begins (piece F off a) (piece F off b).
Proof.
  intros. exists (slice F (off + a) (b - a)). rewrite piece_more. f_equal. lia.
Qed.

(** ** ReadFileImpl::Read *)
Lemma sum_cons c vs : sum (c :: vs) = c + sum vs. Proof. reflexivity. Qed.
Arguments sum : simpl never.

Lemma pass_spec vs : forall k r rest, k <= sum vs -> pass k vs = (r, rest) ->
  r + sum vs = k + sum rest /\ (match rest with [] => r = 0 | c :: _ => r < c end).
Proof.
  induction vs as [|c vs IH]; simpl; intros k r rest Hk E.
  - injection E as <- <-. unfold sum in Hk. simpl in Hk. split; [reflexivity|lia].
  - rewrite sum_cons in *. destruct (N.leb_spec c k) as [Hc|Hc].
    + destruct (IH (k - c) r rest ltac:(lia) E) as [E1 E2]. split; auto. lia.
    + injection E as <- <-. rewrite sum_cons. split; lia.
Qed.

Definition rem (p : rpos) : N := match p with Vec vs => sum vs | In c g vs => c - g + sum vs end.
Definition wfp (p : rpos) : Prop := match p with Vec _ => True | In c g _ => g < c end.

Definition read_right (F : list N) (off all : N) (r : rout) : Prop :=
  match r with
  | ROk n out => out = piece F off all /\ n = len out
  | RFail _ out | RWait out => begins out (piece F off all)
  | RUb => True
  end.

Lemma read_loop_right F off all rs : forall p total out,
  wfp p -> rem p + total = all -> out = piece F off total -> total = len out ->
  read_right F off all (read_loop F off rs p total out).
Proof.
  induction rs as [|a rs IH]; intros p total out W R O T; simpl.
  - rewrite O. apply piece_begins. lia.
  - destruct a as [n|e]; [|simpl; rewrite O; apply piece_begins; lia].
    destruct p as [vs|cnt got vs]; simpl in W, R.
    + pose proof (kread_le F (off + total) (sum vs) n) as [K1 K2].
      pose proof (kread_0 F (off + total) (sum vs) n) as K3.
      set (k := kread F (off + total) (sum vs) n) in *. clearbody k.
      assert (O' : out ++ slice F (off + total) k = piece F off (total + k)) by (rewrite O at 1; apply piece_more).
      assert (T' : total + k = len (out ++ slice F (off + total) k))
        by (rewrite O', len_piece; lia || (rewrite O, len_piece in T; lia)).
      destruct (N.eqb_spec k 0) as [->|Hk].
      { simpl. split; auto. rewrite O. destruct K3 as [K3|K3]; auto.
        - f_equal. lia.
        - apply piece_eof; lia. }
      destruct (pass k vs) as [r rest] eqn:E. apply pass_spec in E; auto. destruct E as [E1 E2].
      destruct rest as [|c rest].
      * subst r. simpl. split; auto. rewrite O'. f_equal. change (sum []) with 0 in E1. lia.
      * destruct r as [|r]; apply IH; auto; simpl; rewrite ?sum_cons in *; lia.
    + pose proof (kread_le F (off + total) cnt n) as [K1 K2].
      pose proof (kread_0 F (off + total) cnt n) as K3.
      set (k := kread F (off + total) cnt n) in *. clearbody k.
      assert (O' : out ++ slice F (off + total) k = piece F off (total + k)) by (rewrite O at 1; apply piece_more).
      assert (T' : total + k = len (out ++ slice F (off + total) k))
        by (rewrite O', len_piece; lia || (rewrite O, len_piece in T; lia)).
      destruct (N.eqb_spec k 0) as [->|Hk].
      { simpl. split; auto. rewrite O. destruct K3 as [K3|K3]; auto; [lia|]. apply piece_eof; lia. }
      destruct (N.ltb_spec cnt (got + k)) as [Hc|Hc]; [exact Logic.I|].
      destruct (N.eqb_spec (got + k) cnt) as [He|He].
      * destruct vs as [|c vs].
        -- simpl. split; auto. rewrite O'. f_equal. change (sum []) with 0 in R. lia.
        -- apply IH; auto; simpl; lia.
      * apply IH; auto; simpl; lia.
Qed.

Lemma file_read_partial_pf : forall F off vs rs,
  match Read F off vs rs with
  | ROk n out => out = piece F off (sum vs) /\ n = len out
  | RFail _ out | RWait out => begins out (piece F off (sum vs))
  | RUb => True
  end.
Proof.
  intros. destruct vs as [|c vs]; [simpl; auto|]. apply read_loop_right; simpl; auto. lia.
Qed.

Lemma read_loop_safe F off rs : forall p total out,
  (match p with Vec _ => True | In c g _ => g = 0 /\ 0 < c end) ->
  (forall a, List.In a rs -> match a with KN n => rem p <= n | KErr _ => True end) ->
  read_loop F off rs p total out <> RUb.
Proof.
  induction rs as [|a rs IH]; intros p total out W A; simpl; [discriminate|].
  pose proof (A a (or_introl eq_refl)) as Ha. destruct a as [n|e]; [|discriminate].
  destruct p as [vs|cnt got vs]; simpl in W, Ha.
  - pose proof (kread_le F (off + total) (sum vs) n) as [K1 K2].
    set (k := kread F (off + total) (sum vs) n) in *. clearbody k.
    destruct (N.eqb_spec k 0); [discriminate|].
    destruct (pass k vs) as [r rest] eqn:E. apply pass_spec in E; auto. destruct E as [E1 E2].
    destruct rest as [|c rest].
    + subst r. discriminate.
    + rewrite sum_cons in E1.
      destruct r as [|r]; (apply IH; [simpl; lia|]); intros a Hin; specialize (A a (or_intror Hin));
        destruct a; auto; cbn [rem] in *; rewrite ?sum_cons; lia.
  - destruct W as [-> W]. rewrite kread_full by lia.
    destruct (N.eqb_spec (N.min cnt (len F - (off + total))) 0); [discriminate|].
    destruct (N.ltb_spec cnt (0 + N.min cnt (len F - (off + total)))); [lia|].
    destruct (N.eqb_spec (0 + N.min cnt (len F - (off + total))) cnt) as [E|E].
    + destruct vs as [|c vs]; [discriminate|]. apply IH; [exact Logic.I|].
      intros a Hin. specialize (A a (or_intror Hin)). destruct a; auto. cbn [rem] in *. lia.
    + (* the end of the file *)
      destruct rs as [|a rs]; [discriminate|]. simpl. destruct a as [n'|e]; [|discriminate].
      replace (kread F (off + (total + N.min cnt (len F - (off + total)))) cnt n') with 0; [discriminate|].
      unfold kread. destruct (N.eqb_spec (N.min cnt (len F - (off + (total + N.min cnt (len F - (off + total)))))) 0); lia.
Qed.

Lemma file_read_safe_partial_pf : forall F off vs rs,
  (forall n, List.In (KN n) rs -> sum vs <= n) -> Read F off vs rs <> RUb.
Proof.
  intros F off vs rs H. destruct vs as [|c vs]; [discriminate|]. apply read_loop_safe; [exact Logic.I|].
  intros [n|e] Hin; auto.
Qed.

Lemma read_loop_ends F off rs : forall p total out, wfp p ->
  rem p < len rs -> (forall w, read_loop F off rs p total out <> RWait w).
Proof.
  induction rs as [|a rs IH]; intros p total out W L w; simpl; [rewrite len_nil in L; lia|].
  rewrite len_cons in L. destruct a as [n|e]; [|discriminate].
  destruct p as [vs|cnt got vs]; cbn [rem wfp] in W, L.
  - pose proof (kread_le F (off + total) (sum vs) n) as [K1 K2].
    set (k := kread F (off + total) (sum vs) n) in *. clearbody k.
    destruct (N.eqb_spec k 0); [discriminate|].
    destruct (pass k vs) as [r rest] eqn:E. apply pass_spec in E; auto. destruct E as [E1 E2].
    destruct rest as [|c rest].
    + subst r. discriminate.
    + rewrite sum_cons in E1. destruct r as [|r]; apply IH; cbn [rem wfp]; rewrite ?sum_cons; auto; lia.
  - pose proof (kread_le F (off + total) cnt n) as [K1 K2].
    set (k := kread F (off + total) cnt n) in *. clearbody k.
    destruct (N.eqb_spec k 0); [discriminate|].
    destruct (N.ltb_spec cnt (got + k)); [discriminate|].
    destruct (N.eqb_spec (got + k) cnt); [destruct vs; [discriminate|]|]; apply IH; cbn [rem wfp]; auto; lia.
Qed.
Lemma file_read_ends_pf : forall F off vs rs,
  sum vs < len rs -> forall w, Read F off vs rs <> RWait w.
Proof.
  intros F off vs rs H w. destruct vs; [discriminate|]. apply read_loop_ends; auto. exact Logic.I.
Qed.

(** ** pwrite *)
Lemma nth_len {A} (l : list A) i : (i < length l)%nat -> nth_error l i <> None.
Proof. intros. now apply nth_error_Some. Qed.

Lemma pwrite_written F off d : written F off d (pwrite F off d).
Proof.
  intros i. unfold byte_after, pwrite. destruct d as [|x d].
  { replace ((N.to_nat off <=? i) && (i <? N.to_nat off + length (@nil N)))%nat with false.
    - change (0 <? length (@nil N))%nat with false. rewrite andb_false_r. now destruct (nth_error F i).
    - simpl length. destruct (Nat.leb_spec (N.to_nat off) i), (Nat.ltb_spec i (N.to_nat off + 0)); auto; lia. }
  set (D := x :: d). assert (HD : (0 < length D)%nat) by (unfold D; simpl; lia).
  clearbody D. set (o := N.to_nat off).
  assert (Ht : take off (F ++ repeat 0 (N.to_nat (off - len F))) = firstn o F ++ repeat 0 (o - length F)%nat).
  { unfold take, len. fold o. rewrite firstn_app.
    replace (N.to_nat (off - N.of_nat (length F))) with (o - length F)%nat by lia.
    f_equal. apply firstn_all2. now rewrite repeat_length. }
  rewrite Ht.
  assert (HT : length (firstn o F ++ repeat 0 (o - length F)%nat) = o)
    by (rewrite app_length, firstn_length, repeat_length; lia).
  destruct (Nat.leb_spec o i) as [Hi|Hi]; simpl andb.
  - rewrite nth_error_app2 by lia. rewrite HT.
    destruct (Nat.ltb_spec i (o + length D)) as [Hj|Hj].
    + now rewrite nth_error_app1 by lia.
    + rewrite nth_error_app2 by lia. unfold drop, len.
      assert (G : forall n (l : list N) j, nth_error (skipn n l) j = nth_error l (n + j)).
      { clear. induction n; intros l j; auto. destruct l; simpl; auto. now destruct j. }
      rewrite G. replace (N.to_nat (off + N.of_nat (length D)) + (i - o - length D))%nat with i by lia.
      destruct (Nat.ltb_spec i o); [lia|]. now destruct (nth_error F i).
  - rewrite nth_error_app1 by lia.
    destruct (Nat.ltb_spec i o); [|lia]. destruct (Nat.ltb_spec 0 (length D)); [|lia]. simpl andb.
    destruct (Nat.lt_ge_cases i (length F)) as [Hf|Hf].
    + rewrite nth_error_app1 by (rewrite firstn_length; lia).
      assert (G : forall n (l : list N) j, (j < n)%nat -> nth_error (firstn n l) j = nth_error l j).
      { clear. induction n; intros l j Hj; [lia|]. destruct l; auto. destruct j; simpl; auto. apply IHn. lia. }
      rewrite G by lia. destruct (nth_error F i) eqn:E; auto. now apply nth_len in E.
    + rewrite nth_error_app2 by (rewrite firstn_length; lia).
      assert (E : nth_error F i = None) by now apply nth_error_None. rewrite E.
      apply nth_error_repeat. rewrite firstn_length. lia.
Qed.

Lemma written_app F off a b F1 F2 :
  written F off a F1 -> written F1 (off + len a) b F2 -> written F off (a ++ b) F2.
Proof.
  unfold written. intros H1 H2 i. rewrite H2. unfold byte_after. rewrite H1. unfold byte_after.
  unfold len. replace (N.to_nat (off + N.of_nat (length a))) with (N.to_nat off + length a)%nat by lia.
  set (o := N.to_nat off). rewrite app_length.
  destruct (Nat.leb_spec o i) as [A1|A1]; simpl andb.
  - destruct (Nat.ltb_spec i (o + length a)) as [A2|A2].
    + destruct (Nat.leb_spec (o + length a) i); [lia|]. simpl andb.
      destruct (Nat.ltb_spec i (o + (length a + length b))); [|lia].
      rewrite nth_error_app1 by lia. destruct (nth_error a (i - o)) eqn:E; auto.
      apply nth_error_None in E. lia.
    + destruct (Nat.leb_spec (o + length a) i); [|lia]. simpl andb.
      replace (o + (length a + length b))%nat with (o + length a + length b)%nat by lia.
      destruct (Nat.ltb_spec i (o + length a + length b)).
      * rewrite nth_error_app2 by lia. f_equal. lia.
      * destruct (Nat.ltb_spec i o); [lia|]. simpl. now destruct (nth_error F i).
  - destruct (Nat.leb_spec (o + length a) i); [lia|]. simpl andb.
    destruct (Nat.ltb_spec i o); [|lia]. destruct (Nat.ltb_spec i (o + length a)); [|lia]. simpl.
    destruct (nth_error F i); auto.
    destruct (Nat.ltb_spec 0 (length a)), (Nat.ltb_spec 0 (length a + length b)), (Nat.ltb_spec 0 (length b)); auto; lia.
Qed.
Lemma written_nil F off : written F off [] F.
Proof. apply (pwrite_written F off []). Qed.
Lemma written_unique F off d F1 F2 : written F off d F1 -> written F off d F2 -> F1 = F2.
Proof.
  unfold written. intros H1 H2. assert (H : forall i, nth_error F1 i = nth_error F2 i) by (intros; now rewrite H1, H2).
  clear H1 H2. revert F2 H. induction F1 as [|x F1 IH]; intros [|y F2] H; auto.
  - specialize (H O). discriminate.
  - specialize (H O). discriminate.
  - f_equal. { specialize (H O). now injection H. } apply IH. intros i. apply (H (S i)).
Qed.

(** ** LinuxFile::Write *)
Lemma ready_dec p : p = Outer [] \/ ready p.
Proof. destruct p as [[|]|]; simpl; auto. Qed.
Lemma write_eq F off r rs p : ready p -> write_loop F off (r :: rs) p =
  match r with
  | KErr e => LFail e F []
  | KN n => let k := N.min n (len (offered p)) in
            match advance k p with
            | None => LUb
            | Some p' => write_loop (pwrite F off (take k (offered p))) (off + k) rs p'
            end
  end.
Proof. destruct p as [[|]|]; simpl; tauto || (destruct r; reflexivity). Qed.

Lemma write_loop_ok rs : forall F0 o0 F off p d, written F0 o0 d F -> off = o0 + len d ->
  match write_loop F off rs p with
  | LDone F' out => written F0 o0 (d ++ left_over p) F' /\ out = []
  | LFail _ F' out | LWait F' out =>
      exists d', begins d' (d ++ left_over p) /\ written F0 o0 d' F' /\ out = []
  | LUb => False
  end.
Proof.
  induction rs as [|r rs IH]; intros F0 o0 F off p d W O.
  - destruct p as [[|v vs]|rest vs]; simpl.
    + now rewrite app_nil_r.
    + exists d. split; [eexists; reflexivity|auto].
    + exists d. split; [eexists; reflexivity|auto].
  - destruct (ready_dec p) as [->|Hr]; [simpl; now rewrite app_nil_r|].
    rewrite write_eq by auto. destruct r as [n|e].
    + cbv zeta. set (k := N.min n (len (offered p))). assert (Hk : k <= len (offered p)) by lia.
      destruct (advance_spec p k Hk) as (p' & -> & HL).
      specialize (IH F0 o0 (pwrite F off (take k (offered p))) (off + k) p' (d ++ take k (offered p))).
      rewrite HL, <- app_assoc, <- (take_offered p k Hk), take_drop in IH.
      rewrite (take_offered p k Hk) in IH. apply IH.
      * eapply written_app; eauto. rewrite <- O. apply pwrite_written.
      * rewrite len_app, len_take. lia.
    + exists d. split; [eexists; reflexivity|auto].
Qed.

Lemma file_write_pf : forall F off vs rs,
  match Write F off vs rs with
  | LDone F' _ => written F off (concat vs) F'
  | LFail _ F' _ | LWait F' _ => exists d, begins d (concat vs) /\ written F off d F'
  | LUb => False
  end.
Proof.
  intros. pose proof (write_loop_ok rs F off F off (Outer vs) [] (written_nil F off)) as H.
  simpl in H. unfold Write. specialize (H ltac:(rewrite len_nil; lia)).
  destruct (write_loop F off rs (Outer vs)); try tauto; destruct H as (d & ? & ? & _); eauto.
Qed.

(** Progress of ApplyExactly. *)
Definition inner_ok (p : apos) : Prop := match p with Outer _ => True | Inner r _ => r <> [] end.
Lemma offered_pos p : inner_ok p -> left_over p <> [] -> offered p <> [].
Proof. destruct p; simpl; auto. Qed.
Lemma advance_inner p k p' : k <= len (offered p) -> advance k p = Some p' -> inner_ok p'.
Proof.
  destruct p as [vs|rest vs]; simpl; intros Hk.
  - destruct (skip_done k vs) as [d r] eqn:E. apply skip_done_spec in E; auto. destruct E as (E1 & E2 & E3).
    destruct (N.eqb_spec d 0) as [->|Hd]; [intros [= <-]; exact Logic.I|].
    destruct (E2 Hd) as (v & vs' & -> & Hv). intros [= <-]. simpl. intros E.
    assert (len (drop d v) = 0) by now rewrite E. rewrite len_drop in *. lia.
  - destruct (N.eqb_spec (len (drop k rest)) 0) as [E|E]; intros [= <-]; simpl; auto.
    intros Z. now rewrite Z in E.
Qed.
Lemma advance_end p p' : inner_ok p -> left_over p = [] -> advance 0 p = Some p' -> p' = Outer [].
Proof.
  destruct p as [vs|rest vs]; simpl.
  - intros _ HL. assert (G : skip_done 0 vs = (0, [])).
    { induction vs as [|v vs IH]; auto. simpl in HL. apply app_eq_nil in HL. destruct HL as [-> HL]. simpl. auto. }
    rewrite G. now intros [= <-].
  - intros Hr HL. apply app_eq_nil in HL. tauto.
Qed.
Lemma skip_rest k vs : k = len (concat vs) -> forall d r, skip_done k vs = (d, r) -> r = [] /\ d = 0.
Proof.
  revert k. induction vs as [|v vs IH]; simpl; intros k E d r.
  - intros [= <- <-]. split; auto.
  - rewrite len_app in E. destruct (N.leb_spec (len v) k); [|lia]. apply IH. lia.
Qed.

Lemma write_loop_ends rs : forall F off p, inner_ok p -> len (left_over p) < len rs ->
  (forall a, List.In a rs -> exists n, a = KN n /\ 0 < n) -> exists F', write_loop F off rs p = LDone F' [].
Proof.
  induction rs as [|r rs IH]; intros F off p Hi L A; [rewrite len_nil in L; lia|].
  destruct (ready_dec p) as [->|Hr]; [simpl; eauto|].
  rewrite write_eq by auto. destruct (A r (or_introl eq_refl)) as (n & -> & Hn). cbv zeta.
  set (k := N.min n (len (offered p))). assert (Hk : k <= len (offered p)) by lia.
  rewrite len_cons in L.
  destruct (advance_spec p k Hk) as (p' & E & HL). rewrite E.
  destruct (left_over p) as [|x l] eqn:EL.
  - assert (k = 0).
    { destruct (left_offered p) as [t Ht]. rewrite EL in Ht. symmetry in Ht. apply app_eq_nil in Ht.
      destruct Ht as [Ht _]. rewrite Ht, len_nil in Hk. lia. }
    rewrite H in E. apply advance_end in E; auto. subst p'. destruct rs; simpl; eauto.
  - assert (Ho : offered p <> []) by (apply offered_pos; auto; now rewrite EL).
    assert (0 < len (offered p)) by (destruct (offered p); [tauto|rewrite len_cons; lia]).
    apply IH.
    + now apply advance_inner in E.
    + rewrite HL, len_drop, len_cons in *. lia.
    + intros a Hin. apply A. now right.
Qed.
Lemma file_write_ends_pf : forall F off vs rs,
  (forall a, List.In a rs -> exists n, a = KN n /\ 0 < n) -> len (concat vs) < len rs ->
  exists F', Write F off vs rs = LDone F' [] /\ written F off (concat vs) F'.
Proof.
  intros F off vs rs A L. destruct (write_loop_ends rs F off (Outer vs) Logic.I L A) as [F' E].
  exists F'. split; auto. pose proof (file_write_pf F off vs rs) as H. unfold Write in *. now rewrite E in H.
Qed.

(** ** LinuxFile::Read *)
Lemma lread_eq F off r rs p out : ready p -> lread_loop F off (r :: rs) p out =
  match r with
  | KErr e => LFail e F out
  | KN n => let k := kread F off (len (offered p)) n in
            match advance k p with
            | None => LUb
            | Some p' => lread_loop F (off + k) rs p' (out ++ slice F off k)
            end
  end.
Proof. destruct p as [[|]|]; simpl; tauto || (destruct r; reflexivity). Qed.

Lemma lread_loop_ok F o0 all rs : forall p t out, out = piece F o0 t -> t = len out -> t + len (left_over p) = all ->
  match lread_loop F (o0 + t) rs p out with
  | LDone F' o => F' = F /\ o = piece F o0 all /\ len o = all
  | LFail e F' o => F' = F /\ begins o (piece F o0 all) /\ List.In (KErr e) rs
  | LWait F' o => F' = F /\ begins o (piece F o0 all)
  | LUb => False
  end.
Proof.
  induction rs as [|r rs IH]; intros p t out O T A.
  - assert (begins out (piece F o0 all)) by (rewrite O; apply piece_begins; lia).
    destruct p as [[|v vs]|rest vs]; simpl; auto.
    simpl in A. rewrite len_nil in A. replace all with t by lia. auto.
  - assert (begins out (piece F o0 all)) by (rewrite O; apply piece_begins; lia).
    destruct (ready_dec p) as [->|Hr].
    { simpl. simpl in A. rewrite len_nil in A. replace all with t by lia. auto. }
    rewrite lread_eq by auto. destruct r as [n|e]; [|simpl; auto].
    cbv zeta. pose proof (kread_le F (o0 + t) (len (offered p)) n) as [K1 K2].
    set (k := kread F (o0 + t) (len (offered p)) n) in *. clearbody k.
    destruct (advance_spec p k K1) as (p' & -> & HL).
    replace (o0 + t + k) with (o0 + (t + k)) by lia.
    assert (O' : out ++ slice F (o0 + t) k = piece F o0 (t + k)) by (rewrite O at 1; apply piece_more).
    specialize (IH p' (t + k) (out ++ slice F (o0 + t) k) O').
    assert (T' : t + k = len (out ++ slice F (o0 + t) k)).
    { rewrite O', len_piece. rewrite O, len_piece in T. lia. }
    destruct (left_offered p) as [tl Ht].
    assert (A' : t + k + len (left_over p') = all)
      by (rewrite HL, len_drop; assert (len (left_over p) = len (offered p) + len tl) by (rewrite Ht; apply len_app); lia).
    specialize (IH T' A'). destruct (lread_loop F (o0 + (t + k)) rs p' _); auto.
    destruct IH as (? & ? & ?). split; auto. split; auto. now right.
Qed.

Lemma lread_pf : forall F off vs rs,
  match LRead F off vs rs with
  | LDone F' out => F' = F /\ out = piece F off (len (concat vs)) /\ len out = len (concat vs)
  | LFail e F' out => F' = F /\ begins out (piece F off (len (concat vs))) /\ List.In (KErr e) rs
  | LWait F' out => F' = F /\ begins out (piece F off (len (concat vs)))
  | LUb => False
  end.
Proof.
  intros. pose proof (lread_loop_ok F off (len (concat vs)) rs (Outer vs) 0 []) as H.
  rewrite N.add_0_r in H. apply H; auto.
Qed.
Lemma linux_read_pf : forall F off vs rs,
  match LRead F off vs rs with
  | LDone F' out => F' = F /\ out = piece F off (len (concat vs)) /\ len out = len (concat vs)
  | LFail _ F' out | LWait F' out => F' = F /\ begins out (piece F off (len (concat vs)))
  | LUb => False
  end.
Proof. intros. pose proof (lread_pf F off vs rs). destruct (LRead F off vs rs); tauto. Qed.

Lemma lread_ends F rs : forall off p out, inner_ok p -> off + len (left_over p) <= len F ->
  len (left_over p) < len rs -> (forall a, List.In a rs -> exists n, a = KN n) ->
  exists o, lread_loop F off rs p out = LDone F o.
Proof.
  induction rs as [|r rs IH]; intros off p out Hi Hf L A; [rewrite len_nil in L; lia|].
  destruct (ready_dec p) as [->|Hr]; [simpl; eauto|].
  rewrite lread_eq by auto. destruct (A r (or_introl eq_refl)) as (n & ->). cbv zeta.
  pose proof (kread_le F off (len (offered p)) n) as [K1 K2].
  pose proof (kread_0 F off (len (offered p)) n) as K3.
  set (k := kread F off (len (offered p)) n) in *. clearbody k.
  rewrite len_cons in L. destruct (advance_spec p k K1) as (p' & E & HL). rewrite E.
  destruct (left_over p) as [|x l] eqn:EL.
  - assert (k = 0).
    { destruct (left_offered p) as [t Ht]. rewrite EL in Ht. symmetry in Ht. apply app_eq_nil in Ht.
      destruct Ht as [Ht _]. rewrite Ht, len_nil in K1. lia. }
    rewrite H in E. apply advance_end in E; auto. subst p'. destruct rs; simpl; eauto.
  - assert (Ho : offered p <> []) by (apply offered_pos; auto; now rewrite EL).
    assert (0 < len (offered p)) by (destruct (offered p); [tauto|rewrite len_cons; lia]).
    assert (k <> 0) by (intros Z; destruct (K3 Z); rewrite len_cons in *; lia).
    assert (Hlp : k <= len (x :: l)).
    { destruct (left_offered p) as [t Ht]. rewrite EL in Ht. rewrite Ht, len_app. lia. }
    apply IH.
    + now apply advance_inner in E.
    + rewrite HL, len_drop, len_cons in *. lia.
    + rewrite HL, len_drop, len_cons in *. lia.
    + intros a Hin. apply A. now right.
Qed.
Lemma linux_read_ends_partial_pf : forall F off vs rs, off + len (concat vs) <= len F ->
  (forall a, List.In a rs -> exists n, a = KN n) -> len (concat vs) < len rs ->
  LRead F off vs rs = LDone F (piece F off (len (concat vs))).
Proof.
  intros F off vs rs Hf A L. destruct (lread_ends F rs off (Outer vs) [] Logic.I Hf L A) as [o E].
  pose proof (lread_pf F off vs rs) as H. unfold LRead in *. rewrite E in *. destruct H as (_ & -> & _). reflexivity.
Qed.
Lemma linux_read_past_end_refuted_pf : forall F off vs rs, len F < off + len (concat vs) -> concat vs <> [] ->
  (forall a, List.In a rs -> exists n, a = KN n) -> exists out, LRead F off vs rs = LWait F out.
Proof.
  intros F off vs rs Hf Hv A. pose proof (lread_pf F off vs rs) as H.
  assert (0 < len (concat vs)) by (destruct (concat vs); [tauto|rewrite len_cons; lia]).
  destruct (LRead F off vs rs) as [F' o|e F' o|F' o|]; [| | |tauto].
  - destruct H as (_ & -> & H). rewrite len_piece in H. lia.
  - destruct H as (_ & _ & H). destruct (A _ H). discriminate.
  - destruct H as (-> & _). eauto.
Qed.

(** ** ReadFixed *)
Lemma read_fixed_partial_pf : forall F off cap r,
  match ReadFixed F off cap r with
  | LDone F' out => F' = F /\ begins out (piece F off cap) /\ (forall n, r = KN n -> cap <= n -> out = piece F off cap)
  | LFail e F' out => F' = F /\ out = [] /\ r = KErr e
  | _ => False
  end.
Proof.
  intros F off cap [n|e]; simpl; auto. split; auto.
  pose proof (kread_le F off cap n) as [K1 K2]. split.
  - apply piece_begins. lia.
  - intros m [= <-] Hm. rewrite kread_full by auto. unfold slice, piece.
    destruct (N.le_ge_cases cap (len F - off)).
    + now rewrite N.min_l by lia.
    + rewrite N.min_r by lia. rewrite !take_all; auto; rewrite len_drop; lia.
Qed.

(** ** Descriptors *)
Lemma upd_eq m k v : upd m k v k = v. Proof. unfold upd. now rewrite N.eqb_refl. Qed.
Lemma upd_ne m k v x : x <> k -> upd m k v x = m x.
Proof. unfold upd. intros. destruct (N.eqb_spec x k); congruence. Qed.

Lemma file_target_partial_pf : forall t fd slot o,
  slot = None \/ (o <> OReadFixed /\ o <> OFSync) ->
  let '(t', l) := make t fd slot in target t' l o = fdt t fd.
Proof.
  intros t fd [k|] o H; simpl; auto. destruct H as [H|[H1 H2]]; [discriminate|].
  unfold target. destruct o; simpl; try tauto; apply upd_eq.
Qed.
Lemma file_target_refuted_pf : forall t fd k other, fdt t k = other -> fdt t fd <> other ->
  forall o, o = OReadFixed \/ o = OFSync ->
  let '(t', l) := make t fd (Some k) in target t' l o = other /\ target t' l o <> fdt t fd.
Proof. intros t fd k other H1 H2 o [-> | ->]; unfold target; simpl; split; congruence. Qed.

Lemma file_close_partial_pf : forall t fd slot, fd <> 0 ->
  (forall k, slot = Some k -> fixed t k = None) ->
  let '(t1, l1) := make t fd slot in
  let '(t2, l2) := lclose t1 l1 (Some fd) in
  fdt t2 fd = None /\ (forall x, x <> fd -> fdt t2 x = fdt t x) /\ (forall k, fixed t2 k = fixed t k) /\
  (forall o, target t2 l2 o = None) /\ forall b, lclose t2 l2 b = (t2, l2).
Proof.
  intros t fd slot Hfd Hs. unfold make. destruct slot as [k|]; simpl; unfold close_file;
    destruct (N.ltb_spec 0 fd); try lia; simpl.
  - split; [apply upd_eq|]. split; [intros; now apply upd_ne|]. split.
    + intros x. destruct (N.eq_dec x k) as [->|]; [rewrite upd_eq; symmetry; now apply Hs|]. now rewrite !upd_ne.
    + split; auto.
  - split; [apply upd_eq|]. split; [intros; now apply upd_ne|]. auto.
Qed.
Lemma file_close_zero_refuted_pf : forall t slot,
  let '(t1, l1) := make t 0 slot in
  let '(t2, l2) := lclose t1 l1 (Some 0) in
  fdt t2 0 = fdt t 0 /\ forall o, target t2 l2 o = None.
Proof. intros t [k|]; simpl; auto. Qed.
