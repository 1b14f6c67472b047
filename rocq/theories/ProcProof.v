From Verif Require Import Util IoBufModel IoBufProof LineModel LineProof IniModel IniSpec IniProof ProcModel ProcSpec.
Open Scope N_scope.

Lemma cells_some q : cells (map Some q) = Some q.
Proof. induction q as [|b q IH]; simpl; auto. now rewrite IH. Qed.
Lemma size_fill b bs b' : FillAndCommit bs b = Some b' -> size b' <= size b + len bs.
Proof. unfold FillAndCommit. destruct (copy_cells _ _ _ _ _); [|discriminate]. intros [= <-]. simpl. unfold wrap. apply N.mod_le. unfold two64; lia. Qed.
Lemma size_compact b b' : Compact b = Some b' -> size b' <= size b.
Proof. unfold Compact. destruct (0 <? offs b); [|intros [= <-]; lia]. destruct (copy_cells _ _ _ _ _); [|discriminate]. intros [= <-]. simpl. lia. Qed.
Lemma size_consume b n b' : ConsumeInput n b = Some b' -> size b' <= size b.
Proof.
  unfold ConsumeInput. destruct (size b <=? _); [intros [= <-]; simpl; lia|].
  cbv zeta. destruct (_ && _)%bool; [|intros [= <-]; simpl; lia]. intros H. apply size_compact in H. exact H.
Qed.
Lemma bit_ceil_le x c : bit_ceil x = Some c -> c <= 2 * x + 1.
Proof.
  unfold bit_ceil. destruct (N.leb_spec x 1); [intros [= <-]; lia|]. destruct (x <=? 2 ^ 63); [|discriminate]. intros [= <-].
  assert (H1 := N.log2_up_spec x ltac:(lia)). destruct H1 as [H1 _].
  rewrite <- (N.succ_pred (N.log2_up x)). rewrite N.pow_succ_r'. lia.
  intros E. rewrite E in *. assert (H2 := N.log2_up_spec x ltac:(lia)). rewrite E in H2. simpl in H2. lia.
Qed.
Lemma grow_ensure b n b' : EnsureCapacity n b = Some b' -> size b + n < two64 ->
  size b' <= size b /\ (cap b' <= cap b \/ cap b' <= 2 * (size b + n) + 1).
Proof.
  unfold EnsureCapacity. intros H Hn. destruct (AppendLen b <? n); [|injection H as <-; lia].
  unfold Reserve in H. unfold wrap in H. rewrite N.mod_small in H by assumption.
  destruct (_ <? cap b); [injection H as <-; lia|]. destruct (bit_ceil _) as [k|] eqn:E; [|discriminate].
  apply bit_ceil_le in E. unfold Reallocate in H. cbv zeta in H. destruct (hasbuf b).
  - destruct (offs b <? size b); [|injection H as <-; cbn [size cap]; lia].
    destruct (copy_cells _ _ _ _ _); [|discriminate]. injection H as <-. cbn [size cap]. lia.
  - injection H as <-. cbn [size cap]. lia.
Qed.

Section Proof.
  Variable c : N.
  (** All lines that end, the report, both as functions. *)
  Fixpoint outs (fuel : nat) (text : list N) : list (list N * list N) :=
    match fuel with
    | O => []
    | S fuel => match cut text with
                | None => []
                | Some (l, r) => match find_sep c l with None => [] | Some (k, v) => (k, ltrim v) :: outs fuel r end
                end
    end.
  Lemma cut_len a l r : cut a = Some (l, r) -> (length r < length a)%nat.
  Proof. intros H. apply cut_spec in H. subst a. rewrite app_length. simpl. lia. Qed.
  Lemma outs_fuel f1 : forall f2 t, (length t < f1)%nat -> (length t < f2)%nat -> outs f1 t = outs f2 t.
  Proof.
    induction f1 as [|f1 IH]; intros [|f2] t H1 H2; try lia. simpl. destruct (cut t) as [[l r]|] eqn:E; auto.
    apply cut_len in E. destruct (find_sep c l) as [[k v]|]; auto. f_equal. apply IH; lia.
  Qed.
  Definition rep (hs : bool) (text : list N) : list (list N * list N) :=
    if hs then outs (S (length text)) text
    else match cut text with Some (_, r) => outs (S (length r)) r | None => [] end.
  Definition stuck (hs : bool) (q : list N) : Prop := hs = true /\ exists l r, cut q = Some (l, r) /\ find_sep c l = None.
  Lemma stuck_app hs q z : stuck hs q -> stuck hs (q ++ z).
  Proof. intros (-> & l & r & E & F). split; auto. exists l, (r ++ z). now rewrite cut_app, E. Qed.
  Lemma rep_stuck hs q : stuck hs q -> rep hs q = [].
  Proof. intros (-> & l & r & E & F). simpl. now rewrite E, F. Qed.
  Lemma rep_line q l r k v z : cut q = Some (l, r) -> find_sep c l = Some (k, v) -> rep true (q ++ z) = (k, ltrim v) :: rep true (r ++ z).
  Proof.
    intros E F. assert (E2 : cut (q ++ z) = Some (l, r ++ z)) by (now rewrite cut_app, E). unfold rep.
    assert (L := cut_len _ _ _ E2). simpl outs at 1. rewrite E2, F. f_equal. apply outs_fuel; lia.
  Qed.
  Lemma rep_header q l r z : cut q = Some (l, r) -> rep false (q ++ z) = rep true (r ++ z).
  Proof. intros E. unfold rep. now rewrite cut_app, E. Qed.

  Lemma inner_ok fuel : forall b hs out q total, Rep b q -> 0 < cap b -> (length q < fuel)%nat -> size b <= total -> cap b <= 12 * total + 513 ->
    total <= 2 ^ 58 ->
    exists b' hs' out' q', inner c fuel b hs out = Some (b', hs', out ++ out') /\ Rep b' q' /\ 0 < cap b' /\
      (forall z, rep hs (q ++ z) = out' ++ rep hs' (q' ++ z)) /\
      (cut q' = None /\ 0 < AppendLen b' \/ stuck hs' q') /\ size b' <= total /\ cap b' <= 12 * total + 513.
  Proof.
    induction fuel as [|fuel IH]; intros b hs out q total R Cp Hf Hs Hcap Ht; [lia|].
    assert (RL := Rep_len _ _ R). cbn [inner]. assert (Rq := proj2 R). rewrite Rq, cells_some.
    destruct R as [(Hb & Hm & Ho & Hsz & Hc) Hin]. assert (R : Rep b q) by (repeat split; auto).
    unfold InputLen in RL.
    destruct (cut q) as [[l r]|] eqn:E.
    - assert (Hq := cut_spec _ _ _ E). assert (Hr : drop (len l + 1) q = r).
      { rewrite Hq. change (LF :: r) with ([LF] ++ r). rewrite app_assoc. apply drop_app_eq. rewrite len_app. reflexivity. }
      assert (Hl : len l + 1 <= len q) by (rewrite Hq, len_app, len_cons; lia).
      assert (Hcl := cut_len _ _ _ E).
      destruct (Consume_ok b q (len l + 1) R) as (b' & Eb & R' & Cb & _); [unfold two64; lia|].
      rewrite Hr in R'. assert (S' := size_consume _ _ _ Eb).
      destruct hs; cbn [negb].
      + destruct (find_sep c l) as [[k v]|] eqn:F.
        * rewrite Eb. destruct (IH b' true (out ++ [(k, ltrim v)]) r total R') as (b2 & hs2 & out2 & q2 & H1 & H2 & H2' & H3 & H4 & H5 & H6); try lia.
          exists b2, hs2, ((k, ltrim v) :: out2), q2. rewrite H1, <- app_assoc. split; [reflexivity|]. split; auto. split; auto. split; auto.
          intros z. rewrite (rep_line q l r k v) by assumption. rewrite H3. reflexivity.
        * exists b, true, [], q. rewrite app_nil_r. split; [reflexivity|]. split; auto. split; auto. split; auto. split; auto.
          right. split; auto. exists l, r. auto.
      + rewrite Eb. destruct (IH b' true out r total R') as (b2 & hs2 & out2 & q2 & H1 & H2 & H2' & H3 & H4 & H5 & H6); try lia.
        exists b2, hs2, out2, q2. split; auto. split; auto. split; auto. split; auto. intros z. rewrite (rep_header q l r) by assumption. apply H3.
    - destruct (N.eqb_spec (AppendLen b) 0) as [A0|A0].
      + unfold AppendLen in A0. assert (Ec : cap b = size b) by lia.
        unfold wrap. rewrite N.mod_small by (unfold two64; lia).
        destruct (Ensure_ok b q (cap b * 2) R) as (b' & Eb & R' & A' & _); [lia|]. rewrite Eb.
        exists b', hs, [], q. rewrite app_nil_r. split; [reflexivity|]. split; auto.
        destruct (grow_ensure _ _ _ Eb) as [G1 G2]; [unfold two64; lia|]. unfold AppendLen in *.
        split; [lia|]. split; auto. split; [left; split; auto; lia|]. split; lia.
      + exists b, hs, [], q. rewrite app_nil_r. split; [reflexivity|]. split; auto. split; auto. split; auto. split; auto. left. split; auto. lia.
  Qed.

  Lemma outer_ok rs : reads rs -> forall file b hs out q total, Rep b q -> 0 < cap b -> size b <= total -> cap b <= 12 * total + 513 ->
    total + len file <= 2 ^ 58 -> (cut q = None /\ 0 < AppendLen b \/ stuck hs q) -> (length file < length rs)%nat ->
    outer c rs file b hs out = PDone (out ++ rep hs (q ++ file)).
  Proof.
    induction 1 as [|r rs Hr Hrs IH]; intros file b hs out q total R Cp Hs Hcap Ht Hn Hl; [simpl in Hl; lia|].
    destruct Hr as (k & -> & Hk). cbn [outer]. set (bs := take (N.min k (AppendLen b)) file).
    destruct (N.eqb_spec (len bs) 0) as [L0|L0].
    - assert (E : rep hs (q ++ file) = []); [|now rewrite E, app_nil_r].
      destruct Hn as [[Hc Ha]|Hst]; [|apply rep_stuck; now apply stuck_app].
      unfold bs in L0. rewrite len_take in L0. assert (F0 : len file = 0) by lia. apply len_zero in F0. subst file.
      rewrite app_nil_r. unfold rep. destruct hs; simpl; now rewrite Hc.
    - assert (Lb : len bs <= AppendLen b) by (unfold bs; rewrite len_take; lia).
      assert (Lf : len bs <= len file) by (unfold bs; rewrite len_take; lia).
      destruct (Fill_ok b q bs R Lb) as (b1 & E1 & R1 & C1 & _). rewrite E1. assert (S1 := size_fill _ _ _ E1).
      destruct (inner_ok (S (length (InputBuffer b1))) b1 hs out (q ++ bs) (total + len bs) R1)
        as (b2 & hs2 & out2 & q2 & H1 & H2 & H2' & H3 & H4 & H5 & H6); try lia.
      { destruct R1 as [_ ->]. rewrite map_length. lia. }
      rewrite H1. assert (Fd : file = bs ++ drop (len bs) file).
      { unfold bs at 1. rewrite <- (take_drop (N.min k (AppendLen b)) file) at 1. f_equal. unfold bs. rewrite len_take.
        destruct (N.le_gt_cases (N.min k (AppendLen b)) (len file)); [f_equal; lia|].
        rewrite !drop_all by lia. reflexivity. }
      rewrite (IH (drop (len bs) file) b2 hs2 (out ++ out2) q2 (total + len bs)); auto.
      + rewrite <- app_assoc. f_equal. f_equal. rewrite Fd at 2. rewrite app_assoc. symmetry. apply H3.
      + rewrite len_drop. lia.
      + assert (len (drop (len bs) file) < len file) by (rewrite len_drop; lia). unfold len in *. simpl in Hl. lia.
  Qed.

  (** ** the specification *)
  Lemma find_sep_iff l k v : find_sep c l = Some (k, v) <-> l = k ++ c :: v /\ ~ In c k.
  Proof.
    revert k v. induction l as [|x l IH]; intros k v; simpl.
    - split; [discriminate|]. intros [H _]. destruct k; discriminate.
    - destruct (N.eqb_spec x c) as [->|Hx].
      + split. intros [= <- <-]; auto. intros [H Hn]. destruct k as [|y k]; simpl in *. congruence. injection H as <- ?. tauto.
      + destruct (find_sep c l) as [[k' v']|] eqn:E.
        * destruct (proj1 (IH k' v') eq_refl) as [H1 H2]. split.
          -- intros [= <- <-]. subst l. split; auto. simpl. intuition.
          -- intros [H Hn]. destruct k as [|y k]; simpl in *; [congruence|]. injection H as <- H.
             assert (Some (k', v') = Some (k, v)) by (apply IH; split; auto). congruence.
        * split; [discriminate|]. intros [H Hn]. destruct k as [|y k]; simpl in *; [congruence|]. injection H as <- H.
          assert (None = Some (k, v)) by (apply IH; split; auto). congruence.
  Qed.
  Lemma find_sep_none l : find_sep c l = None <-> ~ In c l.
  Proof.
    split.
    - intros H Hi. induction l as [|x l IH]; simpl in *; auto. destruct (N.eqb_spec x c); [discriminate|].
      destruct (find_sep c l) as [[]|]; [discriminate|]. destruct Hi; auto.
    - intros H. destruct (find_sep c l) as [[a b]|] eqn:E; auto. apply find_sep_iff in E. destruct E as [-> _]. exfalso. apply H. apply in_elt.
  Qed.
  Lemma entry_iff l kv : entry c l kv <-> exists v, find_sep c l = Some (fst kv, v) /\ snd kv = ltrim v.
  Proof.
    unfold entry. split.
    - intros (sp & E & H1 & H2 & H3). exists (sp ++ snd kv). split.
      + apply find_sep_iff. auto.
      + rewrite ltrim_spaces by assumption. now rewrite ltrim_id.
    - intros (v & E & Hv). apply find_sep_iff in E. destruct E as [-> Hn].
      destruct (ltrim_split v) as (sp & E & H1 & H2). exists sp. rewrite Hv. split; [simpl; congruence|]. auto.
  Qed.
  Lemma cut_line l z : ~ In 10 l -> cut ((l ++ [10]) ++ z) = Some (l, z).
  Proof. intros H. rewrite <- app_assoc, cut_app, (cut_none l H). simpl. now rewrite app_nil_r. Qed.
  Lemma outs_lines ls kvs : Forall2 (entry c) ls kvs -> Forall (fun l => ~ In 10 l) ls ->
    forall more tail fuel, (length (unlines (ls ++ more) ++ tail) < fuel)%nat ->
    (more = [] /\ ~ In 10 tail \/ exists l m, more = l :: m /\ ~ In 10 l /\ ~ In c l) ->
    outs fuel (unlines (ls ++ more) ++ tail) = kvs.
  Proof.
    induction 1 as [|l kv ls kvs He H IH]; intros Hn more tail fuel Hf Hm; (destruct fuel as [|fuel]; [lia|]).
    - simpl app in *. destruct Hm as [[-> Ht]|(l & m & -> & Hl & Hc)]; simpl.
      + now rewrite (cut_none tail Ht).
      + unfold unlines. simpl. rewrite <- app_assoc, cut_line by assumption. apply find_sep_none in Hc. now rewrite Hc.
    - inversion Hn; subst. unfold unlines in Hf; simpl in Hf; fold (unlines (ls ++ more)) in Hf. rewrite <- app_assoc in Hf. unfold unlines. simpl map. simpl concat. fold (unlines (ls ++ more)).
      rewrite <- app_assoc. cbn [outs]. rewrite cut_line by assumption.
      apply entry_iff in He. destruct He as (v & F & Hv). rewrite F, <- Hv. destruct kv as [k w]. simpl. f_equal.
      apply IH; auto. rewrite !app_length in Hf. simpl in Hf. rewrite <- app_length in Hf. lia.
  Qed.
  Lemma outs_app_lines ls : Forall (fun l => ~ In 10 l) ls -> forall tail, ~ In 10 tail ->
    exists kvs good bad, ls = good ++ bad /\ Forall2 (entry c) good kvs /\ (bad = [] \/ exists l m, bad = l :: m /\ ~ In c l).
  Proof.
    intros Hn tail Ht. induction Hn as [|l ls Hl Hn IH].
    - exists [], [], []. auto.
    - destruct (find_sep c l) as [[k v]|] eqn:F.
      + destruct IH as (kvs & good & bad & -> & H1 & H2). exists ((k, ltrim v) :: kvs), (l :: good), bad.
        split; auto. split; auto. constructor; auto. apply entry_iff. eauto.
      + exists [], [], (l :: ls). split; auto. split; auto. right. exists l, ls. split; auto. now apply find_sep_none.
  Qed.

  Lemma proc_run rs file skip : reads rs -> len file <= 2 ^ 57 -> (length file < length rs)%nat ->
    ReadProcFile c skip rs file = PDone (rep (negb skip) file).
  Proof.
    intros Hr Hf Hl. unfold ReadProcFile. destruct (New_ok 512) as (b & E & R & Hc); [lia|]. rewrite E.
    assert (Cb : cap b = 512) by (vm_compute in E; injection E as <-; reflexivity).
    assert (Sb : size b = 0) by (vm_compute in E; injection E as <-; reflexivity).
    rewrite (outer_ok rs Hr file b (negb skip) [] [] 0 R); rewrite ?Cb, ?Sb; auto; try lia.
    left. split; auto. unfold AppendLen. rewrite Cb, Sb. lia.
  Qed.
  Lemma proc_lines_pf rs file ls tail kvs : reads rs -> len file <= 2 ^ 57 -> (length file < length rs)%nat ->
    lines_of file ls tail -> Forall2 (entry c) ls kvs ->
    ReadProcFile c false rs file = PDone kvs.
  Proof.
    intros Hr Hf Hl (E & Hn & Ht) He. rewrite proc_run by assumption. f_equal. subst file.
    rewrite <- (app_nil_r ls). apply (outs_lines ls kvs); auto.
  Qed.
  Lemma proc_header_pf rs file h ls tail kvs : reads rs -> len file <= 2 ^ 57 -> (length file < length rs)%nat ->
    lines_of file (h :: ls) tail -> Forall2 (entry c) ls kvs ->
    ReadProcFile c true rs file = PDone kvs.
  Proof.
    intros Hr Hf Hl (E & Hn & Ht) He. rewrite proc_run by assumption. f_equal. subst file. inversion Hn; subst.
    unfold rep, negb. unfold unlines. simpl map. simpl concat. fold (unlines ls). rewrite <- app_assoc, cut_line by assumption.
    rewrite <- (app_nil_r ls). apply (outs_lines ls kvs); auto.
  Qed.
  Lemma proc_stops_pf rs file ls l more tail kvs : reads rs -> len file <= 2 ^ 57 -> (length file < length rs)%nat ->
    lines_of file (ls ++ l :: more) tail -> Forall2 (entry c) ls kvs -> ~ In c l ->
    ReadProcFile c false rs file = PDone kvs.
  Proof.
    intros Hr Hf Hl (E & Hn & Ht) He Hc. rewrite proc_run by assumption. f_equal. subst file.
    apply Forall_app in Hn. destruct Hn as [Hn1 Hn2]. inversion Hn2; subst.
    apply (outs_lines ls kvs); auto. right. exists l, more. auto.
  Qed.
End Proof.
Lemma not10 l : existsb (N.eqb 10) l = false -> ~ In 10 l.
Proof. intros H Hi. assert (existsb (N.eqb 10) l = true); [|congruence]. apply existsb_exists. exists 10. auto. Qed.
Lemma entry_by c l k v : find_sep c l = Some (k, v) -> entry c l (k, ltrim v).
Proof. intros H. apply entry_iff. eauto. Qed.
Lemma proc_blank_line_refuted_pf rs : reads rs -> (9 < length rs)%nat ->
  exists file ls, lines_of file ls [] /\ In [98; 61; 50] ls /\ entry 61 [98; 61; 50] ([98], [50]) /\
    ReadProcFile 61 false rs file = PDone [([97], [49])].
Proof.
  intros Hr Hl. exists [97; 61; 49; 10; 10; 98; 61; 50; 10], [[97; 61; 49]; []; [98; 61; 50]].
  assert (L : lines_of [97; 61; 49; 10; 10; 98; 61; 50; 10] [[97; 61; 49]; []; [98; 61; 50]] []).
  { split; [reflexivity|]. split; [|auto]. repeat constructor; now apply not10. }
  split; auto. split; [simpl; auto|]. split; [now apply (entry_by 61 _ [98] [50])|].
  apply (proc_stops_pf 61 rs _ [[97; 61; 49]] [] [[98; 61; 50]] []); auto.
  - vm_compute. congruence.
  - constructor; [now apply (entry_by 61 _ [97] [49])|constructor].
Qed.
Lemma proc_last_line_refuted_pf rs : reads rs -> (9 < length rs)%nat ->
  exists file ls tail, lines_of file ls tail /\ entry 61 tail ([98], [50]) /\
    ReadProcFile 61 false rs file = PDone [([97], [49])].
Proof.
  intros Hr Hl. exists [97; 61; 49; 10; 98; 61; 50], [[97; 61; 49]], [98; 61; 50].
  assert (L : lines_of [97; 61; 49; 10; 98; 61; 50] [[97; 61; 49]] [98; 61; 50]).
  { split; [reflexivity|]. split; [|now apply not10]. repeat constructor; now apply not10. }
  split; auto. split; [now apply (entry_by 61 _ [98] [50])|].
  apply (proc_lines_pf 61 rs _ [[97; 61; 49]] [98; 61; 50]); auto.
  - vm_compute. congruence.
  - simpl. lia.
  - constructor; [now apply (entry_by 61 _ [97] [49])|constructor].
Qed.
Lemma proc_demo_pf : let file := [107; 58; 32; 118; 10; 109; 58; 58; 10] in
  reads (repeat (RdMax 3) 10) /\ lines_of file [[107; 58; 32; 118]; [109; 58; 58]] [] /\
  Forall2 (entry 58) [[107; 58; 32; 118]; [109; 58; 58]] [([107], [118]); ([109], [58])] /\
  ReadProcFile 58 false (repeat (RdMax 3) 4) file = PDone [([107], [118]); ([109], [58])].
Proof.
  cbv zeta. split; [|split; [|split]].
  - apply Forall_forall. intros x Hx. apply repeat_spec in Hx. subst x. exists 3. split; [reflexivity|lia].
  - split; [reflexivity|]. split; [|auto]. repeat constructor; now apply not10.
  - constructor; [now apply (entry_by 58 _ [107] [32; 118])|]. constructor; [now apply (entry_by 58 _ [109] [58])|constructor].
  - vm_compute. reflexivity.
Qed.
Lemma outer_error c e rs' rs : forall file b hs out, outer c rs file b hs out = PMore ->
  exists cbs, outer c (rs ++ RdErr e :: rs') file b hs out = PErr e cbs.
Proof.
  induction rs as [|r rs IH]; intros file b hs out H; [simpl; eauto|].
  cbn [outer app] in *. destruct r; [|discriminate]. cbv zeta in *. destruct (_ =? 0); [discriminate|]. destruct (FillAndCommit _ b) as [b1|]; [|discriminate].
  destruct (inner c _ b1 hs out) as [[[b2 hs'] out']|]; [|discriminate]. now apply IH.
Qed.
Lemma proc_error_pf c skip rs e rs' file : ReadProcFile c skip rs file = PMore ->
  exists cbs, ReadProcFile c skip (rs ++ RdErr e :: rs') file = PErr e cbs.
Proof. unfold ReadProcFile. destruct (NewIoBuf 512) as [b|]; [|discriminate]. apply outer_error. Qed.
