From Verif Require Import Util FileModel FileSpec.
Open Scope N_scope.

Arguments effective : simpl never.
Lemma eff_cons a rs : a <> PIntr -> effective (a :: rs) = 1 + effective rs.
Proof. destruct a; auto. congruence. Qed.
Lemma spaced_weak rs : forall a, spaced a rs -> spaced false rs.
Proof. induction rs as [|[|k| |e] rs IH]; intros a; simpl; auto. intros [_ H]; auto. apply IH. Qed.
Lemma pass_sum v : forall r v' r', pass v r = (v', r') -> r <= sum v -> sum v' + r = sum v + r' /\
  (match v' with [] => r' = 0 | l :: _ => r' < l end).
Proof.
  induction v as [|l v IH]; intros r v' r'; cbn [pass].
  - intros [= <- <-] H. change (sum []) with 0 in *. lia.
  - change (sum (l :: v)) with (l + sum v). destruct (N.leb_spec l r).
    + intros E Hr. apply IH in E; [|lia]. destruct E as [E1 E2]. split; [lia|exact E2].
    + intros [= <- <-] Hr. change (sum (l :: v)) with (l + sum v). lia.
Qed.
Lemma got_len a file off n : len (got a file off n) <= n /\ len (got a file off n) <= len file - off.
Proof. destruct a; simpl; rewrite ?len_take, ?len_drop, ?len_nil; lia. Qed.
Lemma got_take a file off n : got a file off n = take (len (got a file off n)) (drop off file).
Proof.
  destruct a; simpl; auto; rewrite len_take; set (x := drop off file).
  - destruct (N.le_gt_cases n (len x)); [now rewrite N.min_l|]. rewrite N.min_r by lia. now rewrite !take_all by lia.
  - set (k' := N.min (N.max 1 k) n). destruct (N.le_gt_cases k' (len x)); [now rewrite N.min_l|]. rewrite N.min_r by lia. now rewrite !take_all by lia.
Qed.
Lemma take_plus {A} a b (l : list A) : take (a + b) l = take a l ++ take b (drop a l).
Proof.
  unfold take, drop. replace (N.to_nat (a + b)) with (N.to_nat a + N.to_nat b)%nat by lia.
  revert l. induction (N.to_nat a) as [|n IH]; intros [|x l]; simpl; auto. now rewrite firstn_nil. now rewrite IH.
Qed.
Lemma got_zero a file off n : a <> PIntr -> (forall e, a <> PFail e) -> 0 < n -> len (got a file off n) = 0 -> drop off file = [].
Proof.
  intros H1 H2 Hn H. apply len_zero. destruct a; simpl in H; rewrite ?len_take in H; try congruence; try lia.
Qed.
Lemma full_short file off n : len (got PFull file off n) < n -> len (got PFull file off n) = len file - off.
Proof. simpl. rewrite len_take, len_drop. lia. Qed.

Section Proof.
  Variable file : list N.
  Variable off S : N.
  Definition inv (after : bool) (m : option (N * N)) (v : list N) (tot : N) (acc : list N) : Prop :=
    match m with
    | None => acc = take tot (drop off file) /\ len acc = tot /\ tot + sum v = S
    | Some (count, rd) => acc = take (tot + rd) (drop off file) /\ len acc = tot + rd /\ rd < count /\ v <> [] /\
        tot + count + sum (tl v) = S /\ (rd = 0 /\ after = true \/ len file <= off + tot + rd)
    end.
  Definition good (rs : list pans) (have : N) (out : fres * list pans) : Prop :=
    match out with
    | (FOk n bs, rs') => n = len bs /\ bs = take S (drop off file) /\ spaced false rs' /\
        effective rs + have <= effective rs' + n + 1
    | (FErr e, rs') => In (PFail e) rs
    | (FUb, _) => False
    | (FMore, _) => effective rs + have <= len (take S (drop off file))
    end.
  Lemma snoc_bytes a b x : x = take (len x) (drop (off + a) file) -> b = take a (drop off file) -> b ++ x = take (a + len x) (drop off file).
  Proof. intros Hx Hb. rewrite take_plus, drop_drop. congruence. Qed.
  Lemma all_there n : len file <= off + n -> n <= S -> take n (drop off file) = take S (drop off file).
  Proof. intros H1 H2. rewrite !take_all; auto; rewrite len_drop; lia. Qed.

  Lemma posix_ok rs : forall after m v tot acc, spaced after rs -> inv after m v tot acc ->
    good rs (len acc) (posix file off rs m v tot acc).
  Proof.
    induction rs as [|a rs IH]; intros after m v tot acc Hs Hi.
    { assert (L : len acc <= len (take S (drop off file))).
      { rewrite len_take. destruct m as [[count rd]|]; simpl in Hi; destruct Hi as (H1 & H2 & H3).
        - rewrite H2. assert (H4 := f_equal (@len N) H1). rewrite len_take in H4. lia.
        - rewrite H2. assert (H4 := f_equal (@len N) H1). rewrite len_take in H4. lia. }
      simpl. change (effective []) with 0. lia. }
    assert (W : forall out have have', good rs have' out -> have + 1 <= have' -> a <> PIntr -> good (a :: rs) have out).
    { intros [[n bs|e| |] rs'] have have'; simpl; auto.
      - intros (H1 & H2 & H3 & H4) Hh Ha. split; auto. split; auto. split; auto. rewrite eff_cons by assumption. lia.
      - intros H Hh Ha. rewrite eff_cons by assumption. lia. }
    destruct a as [|k| |e]; try (cbn [posix]; simpl; auto; fail).
    - (* full *)
      assert (EF : effective (PFull :: rs) = 1 + effective rs) by reflexivity.
      cbn [posix]. simpl in Hs. destruct m as [[count rd]|].
      + simpl in Hi. destruct Hi as (H1 & H2 & H3 & H4 & H5 & H6). cbv zeta. set (bs := got PFull file (off + tot + rd) count).
        assert (Gl := got_len PFull file (off + tot + rd) count). fold bs in Gl.
        assert (Gt := got_take PFull file (off + tot + rd) count). fold bs in Gt.
        assert (Hrd : rd + len bs <= count) by lia.
        destruct (N.ltb_spec count (rd + len bs)); [lia|].
        destruct (N.eqb_spec (len bs) 0) as [L0|L0].
        * assert (D : drop (off + tot + rd) file = []) by (apply (got_zero PFull file _ count); try discriminate; [lia|exact L0]).
          assert (Dl := f_equal (@len N) D). rewrite len_drop, len_nil in Dl.
          simpl. split; [congruence|]. split; [rewrite H1; apply all_there; lia|]. split; [now apply spaced_weak in Hs|lia].
        * assert (E : acc ++ bs = take (tot + rd + len bs) (drop off file)).
          { apply snoc_bytes; auto. rewrite N.add_assoc. exact Gt. }
          assert (El : len (acc ++ bs) = tot + rd + len bs) by (rewrite len_app; lia).
          destruct (N.eqb_spec (rd + len bs) count) as [C|C].
          -- destruct v as [|l v]; [congruence|]. simpl in H5. destruct v as [|l' v].
             ++ simpl. simpl in H5. split; [lia|]. split; [rewrite E; f_equal; lia|]. split; [now apply spaced_weak in Hs|lia].
             ++ apply (W _ _ (len (acc ++ bs))); [|lia|discriminate]. apply (IH false); auto. simpl.
                rewrite N.add_assoc. split; auto. split; auto. simpl in H5. lia.
          -- apply (W _ _ (len (acc ++ bs))); [|lia|discriminate]. apply (IH false); auto. simpl. rewrite N.add_assoc.
             assert (F : len bs < count) by lia. apply full_short in F. fold bs in F.
             split; [|split; [|split; [|split; [|split]]]]; auto; lia.
      + simpl in Hi. destruct Hi as (H1 & H2 & H3). cbv zeta. set (bs := got PFull file (off + tot) (sum v)).
        assert (Gl := got_len PFull file (off + tot) (sum v)). fold bs in Gl.
        assert (Gt := got_take PFull file (off + tot) (sum v)). fold bs in Gt.
        destruct (N.eqb_spec (len bs) 0) as [L0|L0].
        * simpl. split; [congruence|]. split; [|split; [now apply spaced_weak in Hs|lia]].
          destruct (N.eq_dec (sum v) 0) as [Z|Z]; [rewrite H1; f_equal; lia|].
          assert (D : drop (off + tot) file = []) by (apply (got_zero PFull file _ (sum v)); try discriminate; [lia|exact L0]).
          assert (Dl := f_equal (@len N) D). rewrite len_drop, len_nil in Dl. rewrite H1. apply all_there; lia.
        * assert (E : acc ++ bs = take (tot + len bs) (drop off file)) by (apply snoc_bytes; auto).
          assert (El : len (acc ++ bs) = tot + len bs) by (rewrite len_app; lia).
          destruct (pass v (len bs)) as [v' read] eqn:P. apply pass_sum in P; [|lia]. destruct P as [P1 P2].
          destruct (N.ltb_spec 0 read) as [Hr|Hr].
          -- destruct v' as [|l v']; [lia|]. simpl in P1.
             apply (W _ _ (len (acc ++ bs))); [|lia|discriminate]. apply (IH false); auto. simpl. rewrite N.add_0_r.
             assert (F : len bs < sum v) by lia. apply full_short in F. fold bs in F.
             split; [|split; [|split; [|split; [|split]]]]; auto; try lia. discriminate.
          -- destruct v' as [|l v'].
             ++ simpl in P1. simpl. split; [lia|]. split; [rewrite E; f_equal; lia|]. split; [now apply spaced_weak in Hs|lia].
             ++ apply (W _ _ (len (acc ++ bs))); [|lia|discriminate]. apply (IH false); auto. simpl. simpl in P1. split; auto. split; auto. lia.
    - (* short *)
      assert (EF : effective (PShort k :: rs) = 1 + effective rs) by reflexivity.
      cbn [posix]. simpl in Hs. destruct Hs as [Ha Hs]. destruct m as [[count rd]|].
      + simpl in Hi. destruct Hi as (H1 & H2 & H3 & H4 & H5 & H6). cbv zeta. set (bs := got (PShort k) file (off + tot + rd) count).
        assert (Gl := got_len (PShort k) file (off + tot + rd) count). fold bs in Gl.
        destruct H6 as [[_ H6]|H6]; [congruence|]. assert (L0 : len bs = 0) by lia. rewrite L0.
        destruct (N.ltb_spec count (rd + 0)); [lia|]. simpl.
        split; [congruence|]. split; [rewrite H1; apply all_there; lia|]. split; [now apply spaced_weak in Hs|lia].
      + simpl in Hi. destruct Hi as (H1 & H2 & H3). cbv zeta. set (bs := got (PShort k) file (off + tot) (sum v)).
        assert (Gl := got_len (PShort k) file (off + tot) (sum v)). fold bs in Gl.
        assert (Gt := got_take (PShort k) file (off + tot) (sum v)). fold bs in Gt.
        destruct (N.eqb_spec (len bs) 0) as [L0|L0].
        * simpl. split; [congruence|]. split; [|split; [now apply spaced_weak in Hs|lia]].
          destruct (N.eq_dec (sum v) 0) as [Z|Z]; [rewrite H1; f_equal; lia|].
          assert (D : drop (off + tot) file = []) by (apply (got_zero (PShort k) file _ (sum v)); try discriminate; [lia|exact L0]).
          assert (Dl := f_equal (@len N) D). rewrite len_drop, len_nil in Dl. rewrite H1. apply all_there; lia.
        * assert (E : acc ++ bs = take (tot + len bs) (drop off file)) by (apply snoc_bytes; auto).
          assert (El : len (acc ++ bs) = tot + len bs) by (rewrite len_app; lia).
          destruct (pass v (len bs)) as [v' read] eqn:P. apply pass_sum in P; [|lia]. destruct P as [P1 P2].
          destruct (N.ltb_spec 0 read) as [Hr|Hr].
          -- destruct v' as [|l v']; [lia|]. simpl in P1.
             apply (W _ _ (len (acc ++ bs))); [|lia|discriminate]. apply (IH true); auto. simpl. rewrite N.add_0_r.
             split; [|split; [|split; [|split; [|split]]]]; auto; try lia. discriminate.
          -- destruct v' as [|l v'].
             ++ simpl in P1. simpl. split; [lia|]. split; [rewrite E; f_equal; lia|]. split; [now apply spaced_weak in Hs|lia].
             ++ apply (W _ _ (len (acc ++ bs))); [|lia|discriminate]. apply (IH true); auto. simpl. simpl in P1. split; auto. split; auto. lia.
    - (* EINTR *)
      simpl in Hs. cbn [posix]. assert (G := IH after m v tot acc Hs Hi). destruct (posix file off rs m v tot acc) as [[n bs|e| |] rs']; simpl in *; auto; exact G.
  Qed.
End Proof.

Lemma posix_suffix file off rs : forall m v tot acc n bs rs', posix file off rs m v tot acc = (FOk n bs, rs') ->
  exists a pre, rs = a :: pre ++ rs'.
Proof.
  induction rs as [|a rs IH]; intros m v tot acc n bs rs' H; cbn [posix] in H; [discriminate|].
  assert (D : posix file off rs m v tot acc = (FOk n bs, rs') \/ True) by auto. clear D.
  assert (K : forall m v tot acc, posix file off rs m v tot acc = (FOk n bs, rs') -> exists a' pre, a :: rs = a' :: pre ++ rs').
  { intros m' v' tot' acc' H'. apply IH in H'. destruct H' as (a' & pre & ->). exists a, (a' :: pre). reflexivity. }
  assert (F : forall f, (f, rs) = (FOk n bs, rs') -> exists a' pre, a :: rs = a' :: pre ++ rs').
  { intros f [= _ <-]. exists a, []. reflexivity. }
  destruct a; eauto; cbv zeta in H; destruct m as [[count rd]|].
  - destruct (_ <? _); eauto. destruct (_ =? 0); eauto. destruct (_ =? count); eauto. destruct v as [|? [|? ?]]; eauto.
  - destruct (_ =? 0); eauto. destruct (pass _ _) as [v' read]. destruct (0 <? read); destruct v' as [|? [|? ?]]; eauto.
  - destruct (_ <? _); eauto. destruct (_ =? 0); eauto. destruct (_ =? count); eauto. destruct v as [|? [|? ?]]; eauto.
  - destruct (_ =? 0); eauto. destruct (pass _ _) as [v' read]. destruct (0 <? read); destruct v' as [|? [|? ?]]; eauto.
Qed.
Lemma file_read_ok fsize file rs off v : spaced false rs -> off <= fsize -> v <> [] ->
  good file off (sum v) rs 0 (FileRead fsize file rs off v).
Proof.
  intros Hs Ho Hv. unfold FileRead. destruct v as [|l v]; [congruence|].
  destruct (N.ltb_spec fsize off); [lia|].
  apply (posix_ok file off (sum (l :: v)) rs false None (l :: v) 0 []); auto.
  simpl. split; auto.
Qed.
Lemma file_read_partial_pf fsize file rs off v : spaced false rs -> off <= fsize -> v <> [] ->
  match fst (FileRead fsize file rs off v) with
  | FOk n bs => bs = range file off v /\ n = len bs
  | FErr e => In (PFail e) rs
  | FUb => False
  | FMore => effective rs <= len (range file off v)
  end.
Proof.
  intros Hs Ho Hv. assert (G := file_read_ok fsize file rs off v Hs Ho Hv).
  destruct (FileRead fsize file rs off v) as [[n bs|e| |] rs']; simpl in *; auto. tauto. rewrite N.add_0_r in G. exact G.
Qed.

Lemma rfts_ok file : forall fuel rs val sz, (length rs < fuel)%nat -> spaced false rs ->
  val = take (len val) file -> len val <= len file -> len val < sz ->
  match rfts fuel (len file) file rs val sz with
  | FOk n bs => bs = file /\ n = len file
  | FErr e => In (PFail e) rs
  | FUb => False
  | FMore => effective rs <= 2 * (len file - len val) + 1
  end.
Proof.
  induction fuel as [|fuel IH]; intros rs val sz Hf Hs Hv Hl Hz; [lia|].
  cbn [rfts]. cbv zeta. assert (G := file_read_ok (len file) file rs (len val) [sz - len val] Hs Hl ltac:(discriminate)).
  destruct (FileRead (len file) file rs (len val) [sz - len val]) as [[n bs|e| |] rs'] eqn:E; simpl in G; auto.
  - destruct G as (Hn & Hb & Hs' & He). rewrite N.add_0_r in Hb, He.
    assert (Ln : n = N.min (sz - len val) (len file - len val)) by (rewrite Hn, Hb, len_take, len_drop; reflexivity).
    destruct (N.ltb_spec n (sz - len val)) as [C|C].
    + assert (Eb : val ++ bs = file).
      { rewrite Hb, take_all by (rewrite len_drop; lia). transitivity (take (len val) file ++ drop (len val) file); [now rewrite <- Hv|apply take_drop]. }
      rewrite Eb. split; auto. lia.
    + assert (Lv : len (val ++ bs) = sz) by (rewrite len_app; lia).
      assert (Vb : val ++ bs = take sz file).
      { rewrite Hb. transitivity (take (len val) file ++ take (sz - len val) (drop (len val) file)); [now rewrite <- Hv|].
        rewrite <- take_plus. f_equal. lia. }
      assert (H' : exists a pre, rs = a :: pre ++ rs').
      { unfold FileRead in E. destruct (_ <? _); [discriminate|]. now apply posix_suffix in E. }
      destruct H' as (a & pre & Ers).
      assert (Hf' : (length rs' < fuel)%nat) by (rewrite Ers in Hf; simpl in Hf; rewrite app_length in Hf; lia).
      assert (I := IH rs' (val ++ bs) (sz * 2) Hf' Hs'). rewrite Lv in I. specialize (I Vb ltac:(lia) ltac:(lia)).
      destruct (rfts fuel (len file) file rs' (val ++ bs) (sz * 2)) as [n2 bs2|e2| |]; auto.
      * rewrite Ers; simpl; rewrite in_app_iff; auto.
      * lia.
  - rewrite len_take, len_drop in G. lia.
Qed.
Lemma read_file_partial_pf file rs : spaced false rs ->
  match ReadFileToString (len file) file rs with
  | FOk n bs => bs = file /\ n = len file
  | FErr e => In (PFail e) rs
  | FUb => False
  | FMore => effective rs <= 2 * len file + 1
  end.
Proof.
  intros Hs. unfold ReadFileToString.
  assert (G := rfts_ok file (S (length rs)) rs [] 4096 (le_n _) Hs eq_refl). change (len (@nil N)) with 0 in G.
  rewrite N.sub_0_r in G. apply G; lia.
Qed.
Lemma read_proc_file_refuted_pf file rs : 4096 <= len file ->
  ReadFileToString 0 file (PFull :: rs) = FErr EDOM.
Proof.
  intros H. unfold ReadFileToString. cbn [length rfts]. cbv zeta. change (len (@nil N)) with 0.
  change (4096 - 0) with 4096. unfold FileRead. change (0 <? 0) with false. cbn [posix].
  cbv zeta. change (0 + 0) with 0. change (sum [4096]) with 4096. cbn [got]. rewrite drop_0.
  assert (L : len (take 4096 file) = 4096) by (rewrite len_take; lia). rewrite L.
  change (4096 =? 0) with false. change (pass [4096] 4096) with (@nil N, 0). change (0 <? 0) with false. cbv iota beta.
  change (0 <? 0) with false. cbv iota beta. change (0 + 4096 <? 4096) with false. cbv iota beta.
  cbn [app]. rewrite L. reflexivity.
Qed.
Lemma file_overflow_refuted_pf : exists file v rs,
  fst (FileRead (len file) file rs 0 v) = FUb /\ len file = 20 /\ v = [10] /\ Forall (fun a => a = PShort 3 \/ a = PFull) rs.
Proof.
  exists (repeat 7 20), [10], [PShort 3; PShort 3; PFull]. split; [vm_compute; reflexivity|]. split; [reflexivity|].
  split; [reflexivity|]. repeat (constructor; [auto|]). constructor.
Qed.

(** Successive reads through a FileSource. *)
Lemma source_run_pf file vs : forall rs off, spaced false rs -> Forall (fun v => v <> []) vs -> off <= len file ->
  match source_run (len file) file rs off vs with
  | Some (outs, end_) => Forall2 (fun v bs => len bs <= sum v) vs outs /\
      concat outs = take (sum (map sum vs)) (drop off file) /\ end_ = off + len (concat outs)
  | None => (exists e, In (PFail e) rs) \/ effective rs < sum (map sum vs) + len vs
  end.
Proof.
  induction vs as [|v vs IH]; intros rs off Hs Hv Ho; simpl.
  - split; [constructor|]. split; [reflexivity|]. rewrite len_nil. lia.
  - inversion Hv; subst. unfold SourceRead. assert (G := file_read_ok (len file) file rs off v Hs Ho H1).
    change (fold_right N.add 0 (map sum vs)) with (sum (map sum vs)). rewrite (len_cons v vs).
    destruct (FileRead (len file) file rs off v) as [[n bs|e| |] rs'] eqn:E; simpl in G; eauto.
    2: contradiction. 2: rewrite len_take in G; right; lia.
    assert (Sx : exists pre, rs = pre ++ rs').
    { unfold FileRead in E. destruct v; [congruence|]. destruct (_ <? _); [discriminate|]. apply posix_suffix in E.
      destruct E as (a & pre & ->). exists (a :: pre). reflexivity. }
    destruct Sx as (pre & Ers). destruct G as (Hn & Hb & Hs' & He).
    assert (Lb : n = N.min (sum v) (len file - off)) by (rewrite Hn, Hb, len_take, len_drop; reflexivity).
    specialize (IH rs' (off + n) Hs' H2 ltac:(lia)). destruct (source_run _ _ _ _ _) as [[outs end_]|];
      [|destruct IH as [(e & IH)|IH]; [left; exists e; rewrite Ers, in_app_iff; auto|right; lia]].
    destruct IH as (I1 & I2 & I3). split; [constructor; auto; lia|]. simpl. rewrite I2, I3.
    split; [|rewrite len_app, <- I2; lia].
    rewrite take_plus, <- Hb, drop_drop. f_equal.
    destruct (N.le_gt_cases (sum v) (len file - off)) as [C|C].
    + f_equal. f_equal. lia.
    + rewrite !drop_all by lia. reflexivity.
Qed.
