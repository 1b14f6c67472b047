From Verif Require Import Util Conc RespModel RespSpec.

Definition hd10 (l : bytes) : Prop := match l with [] => True | c :: _ => c = 10%N end.
Definition brk (l : bytes) : Prop := match l with [] => True | c :: _ => (c <= 32)%N end.
Lemma take_skip f l : take_while f l ++ skip f l = l.
Proof. induction l as [|c l IH]; cbn; auto. destruct (f c); cbn; [now rewrite IH|auto]. Qed.
Lemma take_all_f f l : Forall (fun c => f c = true) (take_while f l).
Proof. induction l as [|c l IH]; cbn; auto. destruct (f c) eqn:E; auto. Qed.
Lemma skip_hd f l : match skip f l with [] => True | c :: _ => f c = false end.
Proof. induction l as [|c l IH]; cbn; auto. destruct (f c) eqn:E; auto. Qed.
Lemma skip_app f a b : Forall (fun c => f c = true) a -> skip f (a ++ b) = skip f b.
Proof. induction 1; cbn; auto. now rewrite H. Qed.
Lemma take_app f a b : Forall (fun c => f c = true) a -> take_while f (a ++ b) = a ++ take_while f b.
Proof. induction 1; cbn; auto. now rewrite H, IHForall. Qed.
Lemma skip_stop f c l : f c = false -> skip f (c :: l) = c :: l. Proof. cbn. now intros ->. Qed.
Lemma take_stop f c l : f c = false -> take_while f (c :: l) = []. Proof. cbn. now intros ->. Qed.

(** ** Words *)
Lemma split_word cur w l : Forall (fun c => in_word c = true) w -> brk l -> split cur (w ++ l) = word (cur ++ w) ++ split [] l.
Proof.
  intros H B. revert cur. induction H as [|c w E H IH]; intros cur; cbn [app].
  - rewrite app_nil_r. destruct l as [|c l]; cbn [split]; [now rewrite app_nil_r|]. cbn [brk] in B.
    destruct (N.ltb_spec 32 c); [lia|]. reflexivity.
  - cbn [split]. unfold in_word in E. rewrite E, IH. now rewrite <- app_assoc.
Qed.
Lemma split_space s l : Forall (fun c => (c <= 32)%N) s -> split [] (s ++ l) = split [] l.
Proof. induction 1; cbn [app split]; auto. destruct (N.ltb_spec 32 x); [lia|]. exact IHForall. Qed.
Fixpoint scan (cur : bytes) (l : bytes) : list bytes * bytes :=
  match l with
  | [] => ([], cur)
  | c :: l => if (32 <? c)%N then scan (cur ++ [c]) l else let '(ws, x) := scan [] l in (word cur ++ ws, x)
  end.
Lemma scan_split pre : forall cur l ws x, scan cur pre = (ws, x) -> split cur (pre ++ l) = ws ++ split x l.
Proof.
  induction pre as [|c pre IH]; cbn [scan app split]; intros cur l ws x H.
  - injection H as <- <-. reflexivity.
  - destruct (32 <? c)%N; [eauto|]. destruct (scan [] pre) as [w y] eqn:E. injection H as <- <-. rewrite (IH _ _ _ _ E). now rewrite app_assoc.
Qed.
Lemma scan_app a : forall cur b ws x, scan cur a = (ws, x) -> scan cur (a ++ b) = (ws ++ fst (scan x b), snd (scan x b)).
Proof.
  induction a as [|c a IH]; cbn [scan app]; intros cur b ws x H.
  - injection H as <- <-. cbn. now destruct (scan cur b).
  - destruct (32 <? c)%N; [eauto|]. destruct (scan [] a) as [w y] eqn:E. injection H as <- <-. rewrite (IH _ _ _ _ E). now rewrite app_assoc.
Qed.
Lemma scan_words cur l : fst (scan cur l) ++ word (snd (scan cur l)) = split cur l.
Proof.
  pose proof (scan_split l cur [] (fst (scan cur l)) (snd (scan cur l))) as H. rewrite app_nil_r in H. cbn [split] in H.
  symmetry. apply H. now destruct (scan cur l).
Qed.
Lemma scan_last cur l : l <> [] -> in_word (last l 0%N) = match snd (scan cur l) with [] => false | _ => true end.
Proof.
  revert cur. induction l as [|c l IH]; [easy|]. intros cur _. destruct l as [|d l].
  - cbn [scan last]. unfold in_word. destruct (32 <? c)%N eqn:E; cbn [scan snd]; auto. now destruct cur.
  - change (last (c :: d :: l) 0%N) with (last (d :: l) 0%N).
    assert (X : forall y, snd (scan y (c :: d :: l)) = snd (scan (if (32 <? c)%N then y ++ [c] else []) (d :: l))).
    { intros y. cbn [scan]. destruct (32 <? c)%N; auto. now destruct (if (32 <? d)%N then _ else _). }
    rewrite X. apply IH. easy.
Qed.

(** ** Lines *)
Lemma inline_ok fuel : forall a rest acc, length a < fuel -> ~ In 10%N a -> hd10 rest ->
  inline_loop fuel (a ++ rest) acc = (acc ++ map View (words a), rest).
Proof.
  induction fuel as [|fuel IH]; intros a rest acc Hf Ha Hr; [lia|]. cbn [inline_loop].
  set (f := fun c => ((c <=? 32) && negb (c =? 10))%N).
  pose proof (take_skip f a) as T. pose proof (take_all_f f a) as TA. pose proof (skip_hd f a) as TH.
  set (sp := take_while f a) in *. set (a' := skip f a) in *. clearbody sp a'. rewrite <- T in *. clear T a.
  rewrite <- app_assoc, skip_app by auto.
  assert (W : words (sp ++ a') = words a'). { apply split_space. eapply Forall_impl; [|exact TA]. unfold f. intros. lia. }
  rewrite W. destruct a' as [|c a'].
  - cbn [app words split word map]. rewrite app_nil_r. destruct rest as [|c rest]; cbn [skip]; auto. cbn [hd10] in Hr. subst c. reflexivity.
  - cbn [app]. rewrite skip_stop by exact TH. assert (Hc : c <> 10%N). { intros ->. apply Ha. apply in_or_app. right. now left. }
    destruct (N.eqb_spec c 10); [easy|]. assert (Hw : in_word c = true). { unfold f in TH. unfold in_word. lia. }
    change (c :: a' ++ rest) with ((c :: a') ++ rest).
    pose proof (take_skip in_word (c :: a')) as T. pose proof (take_all_f in_word (c :: a')) as TA2. pose proof (skip_hd in_word (c :: a')) as TH2.
    cbn [take_while skip] in T, TA2, TH2. rewrite Hw in T, TA2, TH2. set (w := take_while in_word a') in *. set (b := skip in_word a') in *. clearbody w b.
    cbn [app] in T. rewrite <- T in *. clear T.
    assert (E1 : skip in_word ((c :: w ++ b) ++ rest) = b ++ rest).
    { change ((c :: w ++ b) ++ rest) with (((c :: w) ++ b) ++ rest). rewrite <- app_assoc, skip_app by auto. destruct b as [|d b]; cbn [app].
      - destruct rest as [|d rest]; auto. cbn [hd10] in Hr. subst d. reflexivity.
      - now apply skip_stop. }
    assert (E2 : take_while in_word ((c :: w ++ b) ++ rest) = c :: w).
    { change ((c :: w ++ b) ++ rest) with (((c :: w) ++ b) ++ rest). rewrite <- app_assoc, take_app by auto. destruct b as [|d b]; cbn [app].
      - destruct rest as [|d rest]; [now rewrite app_nil_r|]. cbn [hd10] in Hr. subst d. cbn. now rewrite app_nil_r.
      - rewrite take_stop by auto. now rewrite app_nil_r. }
    rewrite E1, E2. rewrite app_length in Hf. cbn [length] in Hf. rewrite app_length in Hf. rewrite IH; auto; try lia.
    + change (c :: w ++ b) with ((c :: w) ++ b). unfold words at 2. rewrite (split_word [] (c :: w) b TA2).
      * cbn [app word map]. now rewrite <- app_assoc.
      * destruct b; cbn; auto. unfold in_word in TH2. lia.
    + intros X. apply Ha. apply in_or_app. right. right. apply in_or_app. auto.
Qed.

Definition stored (a : arg) : Prop := match a with Null => True | Blob _ _ => True | _ => False end.
Definition held (p : parser) (vs : list bytes) : Prop :=
  Forall stored (top p) /\ map content (top p) = map Some vs /\ (own p = true /\ idx p = length (top p) \/ own p = false /\ top p = [] /\ idx p = 0).
Definition idle (p : parser) : Prop := (st p = START \/ st p = CMD_COMPLETE) /\ broken p = false.
Definition at_line (p : parser) (pre : bytes) : Prop :=
  st p = INLINE /\ pre <> [] /\ held p (words pre) /\ broken p = (match snd (scan [] pre) with [] => false | _ => true end).
Lemma map_dead l : Forall stored l -> map dead l = l.
Proof. induction 1 as [|a l H _ IH]; cbn; auto. rewrite IH. now destruct a. Qed.
Definition okarg (a : arg) : Prop := match a with View b => b <> [] | Dead => False | _ => True end.
Lemma copy_ok l : Forall okarg l -> exists l', copy_args l = Some l' /\ Forall stored l' /\ map content l' = map content l /\ length l' = length l.
Proof.
  induction 1 as [|a l H F IH]; cbn [copy_args].
  - exists []. repeat split; auto.
  - destruct IH as (l' & -> & I1 & I2 & I3).
    destruct a as [|b|c b|]; cbn [okarg] in H; [| | |easy]; (eexists; split; [reflexivity|]).
    + split; [constructor; [exact I|exact I1]|]. split; [cbn [map]; now rewrite I2|cbn; lia].
    + destruct b; [easy|]. split; [constructor; [exact I|exact I1]|]. split; [cbn [map]; now rewrite I2|cbn; lia].
    + split; [constructor; [now destruct b|exact I1]|]. split; [cbn [map]; rewrite I2; now destruct b|cbn; lia].
Qed.
Lemma cache_ok p t0 t1 vs : top p = t0 ++ t1 -> idx p = length t0 -> Forall stored t0 -> Forall okarg t1 -> map content (t0 ++ t1) = map Some vs ->
  exists p', cache p = Next p' /\ st p' = st p /\ arr p' = arr p /\ bulk p' = bulk p /\ broken p' = broken p /\ held p' vs.
Proof.
  intros Ht Hi H0 H1 Hc. destruct (copy_ok t1 H1) as (l' & C1 & C2 & C3 & C4).
  assert (G : match copy_args (skipn (idx p) (top p)) with Some l => Next (P (st p) (arr p) (bulk p) (broken p) (firstn (idx p) (top p) ++ l) true (length (top p))) | None => Ub end =
    Next (P (st p) (arr p) (bulk p) (broken p) (t0 ++ l') true (length (top p)))).
  { rewrite Ht, Hi, skipn_app, skipn_all, Nat.sub_diag. cbn [skipn app]. rewrite C1. rewrite firstn_app, firstn_all, Nat.sub_diag. cbn [firstn]. now rewrite app_nil_r. }
  unfold cache. destruct (top p) as [|a t] eqn:Et.
  - destruct t0; [|easy]. destruct t1; [|easy]. destruct (own p) eqn:Eo.
    + rewrite G. eexists. split; [reflexivity|]. cbn [st arr bulk broken]. do 4 (split; [reflexivity|]).
      destruct l'; [|discriminate]. split; [constructor|]. split; [exact Hc|]. left. split; reflexivity.
    + exists p. do 5 (split; [reflexivity|]). split; [rewrite Et; constructor|]. rewrite Et. split; [exact Hc|]. right. auto.
  - rewrite G. eexists. split; [reflexivity|]. cbn [st arr bulk broken]. do 4 (split; [reflexivity|]). split; cbn [top own idx].
    + apply Forall_app. auto.
    + split; [rewrite map_app, C3, <- map_app; auto|]. left. split; auto. rewrite Ht, !app_length. congruence.
Qed.
Lemma stored_last t vs x : Forall stored t -> map content t = map Some (vs ++ [x]) -> x <> [] ->
  exists t' cap, t = t' ++ [Blob cap x] /\ map content t' = map Some vs /\ Forall stored t'.
Proof.
  intros F E Hx. rewrite map_app in E. cbn [map] in E. destruct t as [|a t] using rev_ind. { cbn in E. now destruct (map Some vs). }
  clear IHt. rewrite map_app in E. cbn [map] in E. apply app_inj_tail in E as [E1 E2]. apply Forall_app in F as [F1 F2]. inversion F2; subst.
  destruct a as [| |c b|]; cbn in *; try easy. { injection E2 as <-. easy. } injection E2 as <-. exists t, c. auto.
Qed.
Lemma set_last_snoc t a b : set_last (t ++ [a]) b = t ++ [b].
Proof. unfold set_last. rewrite removelast_app by easy. cbn. now rewrite app_nil_r. Qed.
Lemma last_snoc {A} (t : list A) a d : last (t ++ [a]) d = a.
Proof. induction t as [|x t IH]; auto. cbn [app]. destruct (t ++ [a]) eqn:E; [now destruct t|]. cbn in *. exact IH. Qed.

(** Parsing the bytes [a] of a line, up to the end of the string or to a line feed *)
Lemma content_views ws : map content (map View ws) = map Some ws.
Proof. now rewrite map_map. Qed.
Lemma words_ok ws l : words l = ws -> Forall okarg (map View ws).
Proof.
  intros <-. unfold words. assert (H : forall l cur, Forall (fun w => w <> []) (split cur l)).
  { clear. induction l as [|c l IH]; intros cur; cbn [split]. { destruct cur; cbn; auto. constructor; auto. easy. }
    destruct (32 <? c)%N; auto. apply Forall_app. split; auto. destruct cur; cbn; auto. constructor; auto. easy. }
  rewrite Forall_map. exact (H l []).
Qed.
Lemma inline_parse p pre a rest : ~ In 10%N a -> hd10 rest -> a ++ rest <> [] -> Forall stored (top p) -> map content (top p) = map Some (words pre) ->
  broken p = (match snd (scan [] pre) with [] => false | _ => true end) ->
  exists t, (exists t0 t1, t = t0 ++ t1 /\ length t0 = length (top p) /\ Forall stored t0 /\ Forall okarg t1) /\ map content t = map Some (words (pre ++ a)) /\
  parse_inline p (a ++ rest) = match rest with
    | [] => Next (P (st p) (arr p) (bulk p) (match snd (scan [] (pre ++ a)) with [] => false | _ => true end) t (own p) (idx p), More, length a)
    | _ :: _ => Next (P CMD_COMPLETE (arr p) (bulk p) false t (own p) (idx p), Ok, length a + 1)
    end.
Proof.
  intros Ha Hr Hn Hs Hc Hb. destruct (scan [] pre) as [ws x] eqn:Es. cbn [snd] in Hb.
  pose proof (scan_words [] pre) as Hw. rewrite Es in Hw. cbn [fst snd] in Hw. fold (words pre) in Hw.
  assert (Hsn : snd (scan [] (pre ++ a)) = snd (scan x a)) by (rewrite (scan_app pre [] a ws x Es); reflexivity).
  assert (Hsp : words (pre ++ a) = ws ++ split x a) by (unfold words; apply scan_split; auto).
  unfold parse_inline. rewrite Hb. destruct x as [|x0 x].
  - cbn [word] in Hw. rewrite app_nil_r in Hw. exists (top p ++ map View (words a)). split.
    { exists (top p), (map View (words a)). repeat split; auto. eapply words_ok; eauto. }
    split. { rewrite map_app, content_views, Hc, Hsp, <- map_app. now rewrite Hw. }
    rewrite inline_ok; auto; [|rewrite app_length; lia]. rewrite app_length.
    destruct rest as [|c rest].
    + rewrite app_nil_r in *. cbn [orb]. rewrite (scan_last [] a Hn). rewrite Hsn. cbn [length]. do 3 f_equal. lia.
    + do 3 f_equal. cbn [length]. lia.
  - cbn [word] in Hw. rewrite <- Hw in Hc. destruct (stored_last (top p) ws (x0 :: x) Hs Hc ltac:(easy)) as (t' & cap & Et & Ec & Es').
    rewrite Et, last_snoc, set_last_snoc.
    pose proof (take_skip in_word a) as T. pose proof (take_all_f in_word a) as TA. pose proof (skip_hd in_word a) as TH.
    assert (B : brk (skip in_word a)). { destruct (skip in_word a); cbn; auto. unfold in_word in TH. lia. }
    assert (T1 : take_while in_word (a ++ rest) = take_while in_word a).
    { rewrite <- T at 1. rewrite <- app_assoc, take_app by auto. destruct (skip in_word a) as [|d b]; cbn [app].
      - destruct rest as [|d rest]; [now rewrite app_nil_r|]. cbn [hd10] in Hr. subst d. cbn. now rewrite app_nil_r.
      - rewrite take_stop by auto. now rewrite app_nil_r. }
    assert (T2 : skip in_word (a ++ rest) = skip in_word a ++ rest).
    { rewrite <- T at 1. rewrite <- app_assoc, skip_app by auto. destruct (skip in_word a) as [|d b]; cbn [app].
      - destruct rest as [|d rest]; auto. cbn [hd10] in Hr. subst d. reflexivity.
      - now apply skip_stop. }
    rewrite T1, T2. set (w := take_while in_word a) in *. set (b := skip in_word a) in *. clearbody w b.
    exists ((t' ++ [Blob (length (x0 :: x) + length w) ((x0 :: x) ++ w)]) ++ map View (words b)). split.
    { eexists _, _. split; [reflexivity|]. split. { rewrite !app_length. reflexivity. } split. { apply Forall_app. split; auto. constructor; cbn; auto. } eapply words_ok; eauto. }
    split. { rewrite !map_app, content_views, Ec, Hsp. cbn [map content]. rewrite <- T, (split_word (x0 :: x) w b TA B). cbn [app word]. rewrite <- app_assoc. rewrite !map_app. reflexivity. }
    rewrite inline_ok; auto; [| rewrite app_length; lia | intros X; apply Ha; rewrite <- T; apply in_or_app; auto].
    rewrite !app_length. destruct rest as [|c rest].
    + rewrite !app_nil_r in *. rewrite Hsn. rewrite (scan_last (x0 :: x) a Hn). destruct b as [|d b].
      * rewrite app_nil_r in T. subst a. cbn [orb]. assert (N0 : snd (scan (x0 :: x) w) <> []).
        { clear - TA. revert TA. generalize x0 x. induction w as [|c w IH]; cbn [scan]; intros x1 x2 H; [easy|]. inversion H; subst. unfold in_word in *. rewrite H2. cbn [app]. apply IH; auto. }
        destruct (snd (scan (x0 :: x) w)); [easy|]. do 3 f_equal. cbn [length]. lia.
      * cbn [orb]. do 3 f_equal. cbn [length]. lia.
    + destruct (b ++ c :: rest) eqn:E; [now destruct b|]. do 3 f_equal. cbn [length]. lia.
Qed.

(** ** Parse on a line *)
Definition on_line (p : parser) (pre : bytes) : Prop := idle p /\ pre = [] \/ at_line p pre.
Definition plain (str : bytes) : Prop := match str with c :: _ => ~ In c [36; 58; 42]%N | [] => True end.
Definition entry (p : parser) (str : bytes) : parser :=
  let p := with_top p (if own p then map dead (top p) else []) in
  match st p with CMD_COMPLETE | START => init_start p (nth 0 str 0%N) | _ => p end.
Lemma init_line p c l : ~ In c [36; 58; 42]%N -> init_start p (nth 0 (c :: l) 0%N) = P INLINE 0 (bulk p) (broken p) [] false 0.
Proof.
  intros H. unfold init_start. cbn [nth]. cbn [In] in H. destruct (N.eqb_spec c 36); [lia|]. destruct (N.eqb_spec c 58); [lia|]. destruct (N.eqb_spec c 42); [lia|]. reflexivity.
Qed.
Lemma line_entry p pre str : on_line p pre -> (pre = [] -> plain str) -> str <> [] ->
  st (entry p str) = INLINE /\ held (entry p str) (words pre) /\ broken (entry p str) = (match snd (scan [] pre) with [] => false | _ => true end).
Proof.
  intros [[[H1 H2] ->]|(H1 & H2 & H3 & H4)] Hp Hn.
  - specialize (Hp eq_refl). destruct str as [|c l]; [easy|]. unfold entry. cbn [with_top st]. destruct H1 as [-> | ->];
    rewrite init_line by exact Hp; cbn [st held top own idx broken words split scan snd]; (split; [reflexivity|]); (split; [|exact H2]); (split; [constructor|]); (split; [reflexivity|]); right; auto.
  - unfold entry. cbn [with_top st]. rewrite H1. cbn [broken st]. split; auto. split; auto. destruct H3 as (K1 & K2 & K3). cbn [held top own idx].
    assert (E : (if own p then map dead (top p) else []) = top p).
    { destruct K3 as [[-> _]|[-> [-> _]]]; auto. now apply map_dead. }
    split; cbn [top own idx]; rewrite E; auto.
Qed.
Lemma held_split p vs : held p vs -> top p = firstn (idx p) (top p) ++ skipn (idx p) (top p) /\ skipn (idx p) (top p) = [] /\ idx p = length (top p).
Proof.
  intros (_ & _ & [[_ H]|(_ & H & H2)]).
  - rewrite H, firstn_all, skipn_all, app_nil_r. auto.
  - rewrite H, H2. auto.
Qed.
Lemma parse_entry p str : 2 <= length str -> parse p str =
  match loop (S (3 * length str)) (entry p str) str 0 with
    | Next (p, More, n) => match cache p with Next p => Next (p, (More, n, [])) | Ub => Ub | Stuck => Stuck end
    | Next (p, Ok, n) => Next (p, (Ok, n, top p))
    | Next (p, s, n) => Next (p, (s, n, []))
    | Ub => Ub
    | Stuck => Stuck
    end.
Proof. intros H. unfold parse. destruct (Nat.ltb_spec (length str) 2); [lia|]. reflexivity. Qed.
Lemma loop_inline fuel p str used : st p = INLINE -> loop (S fuel) p str used =
  match parse_inline p str with
    | Next (p, Ok, n) => loop fuel p (skipn n str) (used + n)
    | Next (p, s, n) => Next (p, s, used + n)
    | Ub => Ub
    | Stuck => Stuck
    end.
Proof. intros H. cbn [loop]. now rewrite H. Qed.
Lemma parse_line_more p pre str : on_line p pre -> (pre = [] -> plain str) -> 2 <= length str -> ~ In 10%N str ->
  exists p', parse p str = Next (p', (More, length str, [])) /\ at_line p' (pre ++ str).
Proof.
  intros H Hp Hl Hn. assert (Hne : str <> []) by (destruct str; easy). destruct (line_entry p pre str H Hp Hne) as (E1 & E2 & E3).
  rewrite parse_entry by auto. set (q := entry p str) in *. clearbody q. rewrite loop_inline by auto.
  pose proof E2 as (F1 & F2 & F3). destruct (held_split q _ E2) as (_ & _ & Hi).
  destruct (inline_parse q pre str [] Hn I ltac:(rewrite app_nil_r; auto) F1 F2 E3) as (t & (t0 & t1 & T1 & T2 & T3 & T4) & Tc & T5).
  rewrite app_nil_r in T5. rewrite T5. cbn [Nat.add].
  set (q2 := P (st q) (arr q) (bulk q) (match snd (scan [] (pre ++ str)) with [] => false | _ => true end) t (own q) (idx q)).
  destruct (cache_ok q2 t0 t1 (words (pre ++ str))) as (p' & C1 & C2 & C3 & C4 & C5 & C6); cbn [q2 top idx]; auto; try congruence.
  rewrite C1. exists p'. split; auto. split; [rewrite C2; exact E1|]. split; [intros X; apply app_eq_nil in X; easy|]. split; auto.
Qed.
Lemma skipn_app_eq {A} (a b : list A) n : n = length a -> skipn n (a ++ b) = b.
Proof. intros ->. rewrite skipn_app, skipn_all, Nat.sub_diag. reflexivity. Qed.
Lemma firstn_app_eq {A} (a b : list A) n : n = length a -> firstn n (a ++ b) = a.
Proof. intros ->. rewrite firstn_app, firstn_all, Nat.sub_diag. cbn. apply app_nil_r. Qed.
Lemma loop_done fuel p str used : st p = CMD_COMPLETE -> loop (S fuel) p str used = Next (p, Ok, used).
Proof. intros H. cbn [loop]. now rewrite H. Qed.
Lemma parse_line_ok p pre a rest : on_line p pre -> (pre = [] -> plain (a ++ [10%N])) -> 2 <= length (a ++ 10%N :: rest) -> ~ In 10%N a ->
  exists p' args, parse p (a ++ 10%N :: rest) = Next (p', (Ok, length a + 1, args)) /\ idle p' /\ map content args = map Some (words (pre ++ a)).
Proof.
  intros H Hp Hl Hn. assert (Hne : a ++ 10%N :: rest <> []) by (destruct a; easy).
  destruct (line_entry p pre (a ++ 10%N :: rest) H) as (E1 & E2 & E3); auto. { intros X. specialize (Hp X). destruct a; auto. }
  rewrite parse_entry by auto. set (q := entry p _) in *. clearbody q. rewrite loop_inline by auto.
  pose proof E2 as (F1 & F2 & F3).
  destruct (inline_parse q pre a (10%N :: rest) Hn eq_refl Hne F1 F2 E3) as (t & (t0 & t1 & T1 & T2 & T3 & T4) & Tc & T5).
  rewrite T5. replace (3 * length (a ++ 10%N :: rest)) with (S (3 * length (a ++ 10%N :: rest) - 1)) by (rewrite app_length; cbn; lia).
  rewrite loop_done by reflexivity. cbn [Nat.add top]. eexists. eexists. split; [reflexivity|]. split; auto. split; auto.
Qed.

(** ** Numbers *)
Lemma digit_space c : is_digit c = true -> is_space c = false. Proof. unfold is_digit, is_space. lia. Qed.
Lemma skip_none f l : Forall (fun c => f c = false) l -> skip f l = l.
Proof. destruct 1; auto. now apply skip_stop. Qed.
Lemma atoi_ok ds n : denotes ds n -> (N.of_nat n <= 67108864)%N -> atoi ds = Some (Z.of_nat n).
Proof.
  intros (H1 & H2 & H3 & H4) Hn. assert (S1 : Forall (fun c => is_space c = false) ds) by (eapply Forall_impl; [|exact H3]; apply digit_space).
  unfold atoi. rewrite (skip_none _ ds S1). rewrite skip_none by now apply Forall_rev. rewrite rev_involutive.
  destruct ds as [|c ds]; [easy|]. inversion H3 as [|? ? D1 D2]; subst.
  assert ((c =? 45) = false)%N as -> by (unfold is_digit in D1; lia). assert ((c =? 43) = false)%N as -> by (unfold is_digit in D1; lia).
  assert (F : forallb is_digit (c :: ds) = true) by (apply forallb_forall; rewrite Forall_forall in H3; auto). rewrite F, H4.
  destruct ((- 9223372036854775808 <=? Z.of_N (N.of_nat n)) && (Z.of_N (N.of_nat n) <=? 9223372036854775807))%Z eqn:E; [f_equal; lia|lia].
Qed.
Lemma index_lf_none l : ~ In 10%N l -> index_lf l = None.
Proof. induction l as [|c l IH]; cbn; auto. intros H. destruct (N.eqb_spec c 10); [tauto|]. rewrite IH; tauto. Qed.
Lemma index_lf_app a b : ~ In 10%N a -> index_lf (a ++ 10%N :: b) = Some (length a).
Proof. induction a as [|c a IH]; cbn; auto. intros H. destruct (N.eqb_spec c 10); [tauto|]. rewrite IH; tauto. Qed.
Lemma digits_lf ds n : denotes ds n -> ~ In 10%N (ds ++ [13%N]).
Proof. intros (_ & _ & H & _) X. apply in_app_or in X as [X|[X|[]]]; [|lia]. rewrite Forall_forall in H. now apply H in X. Qed.
Lemma head_length c ds : length (head c ds) = length ds + 3. Proof. unfold head, crlf. rewrite !app_length. cbn. lia. Qed.
Lemma parse_num_ok c ds n more : denotes ds n -> (N.of_nat n <= 67108864)%N -> parse_num (head c ds ++ more) = NOk (Z.of_nat n) (length (head c ds)).
Proof.
  intros H Hn. unfold parse_num. rewrite app_length. pose proof (head_length c ds) as L. assert (1 <= length ds) by (destruct H as (H & _); destruct ds; [easy|cbn; lia]).
  destruct (Nat.ltb_spec (length (head c ds) + length more) 4); [lia|].
  assert (E : head c ds ++ more = c :: (ds ++ [13%N]) ++ 10%N :: more). { unfold head, crlf. cbn [app]. now rewrite <- !app_assoc. }
  rewrite E. cbn [tl]. rewrite index_lf_app by (eapply digits_lf; eauto). rewrite app_length. cbn [length].
  assert (Nt : nth (length ds + 1) (c :: (ds ++ [13%N]) ++ 10%N :: more) 0%N = 13%N).
  { replace (length ds + 1) with (S (length ds)) by lia. cbn [nth]. rewrite <- app_assoc. rewrite app_nth2, Nat.sub_diag by lia. reflexivity. }
  rewrite Nt. cbn [N.eqb Pos.eqb negb]. rewrite <- app_assoc, firstn_app_eq by lia. rewrite (atoi_ok ds n H Hn). f_equal. lia.
Qed.
Lemma within_length a b : within a b -> length a < length b.
Proof. intros (c & H & <-). rewrite app_length. destruct c; [easy|cbn; lia]. Qed.
Lemma parse_num_more c ds n h : denotes ds n -> within h (head c ds) -> parse_num h = NMore.
Proof.
  intros H W. pose proof (within_length _ _ W) as L. rewrite head_length in L. unfold parse_num. destruct (Nat.ltb_spec (length h) 4); auto.
  rewrite index_lf_none. { destruct H as (_ & H & _). destruct (Nat.ltb_spec (length h) 32); [auto|lia]. }
  destruct W as (x & Hx & E). destruct h as [|c0 h]; [easy|]. cbn [tl].
  destruct x as [|y x] using rev_ind; [easy|]. clear IHx. unfold head, crlf in E. cbn [app] in E. injection E as _ E.
  change [13%N; 10%N] with ([13%N] ++ [10%N]) in E. rewrite !app_assoc in E. apply app_inj_tail in E as [E _].
  intros X. apply (digits_lf ds n H). rewrite <- E. apply in_or_app. auto.
Qed.

(** ** Arrays *)
Definition arr_in (p : parser) (vs : list bytes) (n : nat) : Prop :=
  st p = PARSE_ARG /\ arr p = n /\ broken p = false /\ map content (top p) = map Some vs /\
  exists t0 t1, top p = t0 ++ t1 /\ idx p = length t0 /\ Forall stored t0 /\ Forall okarg t1.
Definition small_arg (a : bytes * bytes) : Prop := denotes (fst a) (length (snd a)) /\ (N.of_nat (length (snd a)) <= 67108864)%N.
Lemma loop_parg fuel p str used : st p = PARSE_ARG -> 4 <= length str -> loop (S fuel) p str used =
  match parse_arg p str with
    | (p, Ok, n) => loop fuel p (skipn n str) (used + n)
    | (p, s, n) => Next (p, s, used + n)
    end.
Proof. intros H L. cbn [loop]. rewrite H. destruct (Nat.ltb_spec (length str) 4); [lia|]. now destruct (parse_arg p str) as [[? []] ?]. Qed.
Lemma loop_bulk fuel p str used : st p = BULK_STR -> loop (S fuel) p str used =
  match consume_bulk p str with
    | Next (p, Ok, n) => loop fuel p (skipn n str) (used + n)
    | Next (p, s, n) => Next (p, s, used + n)
    | Ub => Ub
    | Stuck => Stuck
    end.
Proof. intros H. cbn [loop]. now rewrite H. Qed.
Lemma loop_fin fuel p str used : st p = FINISH_ARG -> loop (S fuel) p str used = loop fuel (finish_arg p) str used.
Proof. intros H. cbn [loop]. rewrite H. cbn [skipn]. now rewrite Nat.add_0_r. Qed.
Definition whole (b : bytes) : arg := match b with [] => Null | _ => View b end.
Lemma bulk_ok p t b more : top p = t ++ [Null] -> bulk p = length b -> broken p = false ->
  consume_bulk p (b ++ crlf ++ more) = Next (P FINISH_ARG (arr p) 0 false (t ++ [whole b]) (own p) (idx p), Ok, length b + 2).
Proof.
  intros Ht Hb Hr. unfold consume_bulk. rewrite Ht, Hb, Hr, last_snoc, !set_last_snoc.
  assert (Lb : length (b ++ crlf ++ more) = length b + 2 + length more) by (rewrite !app_length; cbn; lia).
  assert (K : length b + 2 <=? length (b ++ crlf ++ more) = true) by (apply Nat.leb_le; lia). rewrite K.
  assert (N1 : nth (length b) (b ++ crlf ++ more) 0%N = 13%N) by (rewrite app_nth2, Nat.sub_diag by lia; reflexivity).
  assert (N2 : nth (length b + 1) (b ++ crlf ++ more) 0%N = 10%N) by (rewrite app_nth2 by lia; replace (length b + 1 - length b) with 1 by lia; reflexivity).
  rewrite N1, N2. cbn [N.eqb Pos.eqb negb orb]. rewrite firstn_app_eq by auto. now destruct b.
Qed.
Lemma item_step fuel p vs n a more used : arr_in p vs (S n) -> small_arg a -> exists p',
  loop (S (S (S fuel))) p (item a ++ more) used = loop fuel p' more (used + length (item a)) /\
  match n with
  | 0 => st p' = CMD_COMPLETE /\ broken p' = false /\ map content (top p') = map Some (vs ++ [snd a])
  | S _ => arr_in p' (vs ++ [snd a]) n
  end.
Proof.
  intros (H1 & H2 & H3 & H4 & t0 & t1 & H5 & H6 & H7 & H8) [Ha Hb]. destruct a as [ds b]. cbn [fst snd] in *.
  pose proof (head_length 36 ds) as L. assert (1 <= length ds) by (destruct Ha as (H & _); destruct ds; [easy|cbn; lia]).
  unfold item. cbn [fst snd]. rewrite <- !app_assoc. rewrite loop_parg; auto; [|rewrite app_length; lia].
  unfold parse_arg. assert (N0 : nth 0 (head 36 ds ++ b ++ crlf ++ more) 0%N = 36%N) by reflexivity. rewrite N0. cbn [N.eqb Pos.eqb].
  rewrite (parse_num_ok 36 ds _ _ Ha Hb).
  assert (((Z.of_nat (length b) <? -1) || (kMaxBulkLen <? Z.of_nat (length b)))%Z = false) as -> by (unfold kMaxBulkLen; lia).
  assert ((Z.of_nat (length b) <? 0)%Z = false) as -> by lia. rewrite Nat2Z.id. rewrite skipn_app_eq by auto.
  rewrite loop_bulk by reflexivity. rewrite (bulk_ok _ (top p) b more) by auto. cbn [arr own idx]. set (v := whole b).
  rewrite app_assoc, skipn_app_eq by (rewrite app_length; cbn; lia).
  rewrite loop_fin by reflexivity. cbn [finish_arg arr]. rewrite H2.
  assert (Cv : map content (top p ++ [v]) = map Some (vs ++ [b])).
  { rewrite !map_app, H4. cbn [map]. unfold v. now destruct b. }
  assert (Ov : okarg v) by (unfold v; destruct b; cbn; easy).
  assert (Lu : used + length (head 36 ds) + (length b + 2) = used + length (head 36 ds ++ b ++ crlf)) by (rewrite !app_length; cbn; lia).
  unfold finish_arg. cbn [arr bulk broken top own idx]. destruct n as [|n].
  - eexists. split. { rewrite Lu. reflexivity. } cbn [st broken top]. auto.
  - eexists. split. { rewrite Lu. reflexivity. } split; [reflexivity|]. split; [reflexivity|]. split; [reflexivity|]. split; [exact Cv|].
    exists t0, (t1 ++ [v]). cbn [top idx]. rewrite H5, app_assoc. split; auto. split; auto. split; auto. apply Forall_app. auto.
Qed.
Lemma items_cons a l : items (a :: l) = item a ++ items l. Proof. reflexivity. Qed.
Lemma items_done rest : forall fuel p vs more used, rest <> [] -> Forall small_arg rest -> arr_in p vs (length rest) -> 3 * length rest < fuel ->
  exists p', loop fuel p (items rest ++ more) used = Next (p', Ok, used + length (items rest)) /\ st p' = CMD_COMPLETE /\ broken p' = false /\
    map content (top p') = map Some (vs ++ map snd rest).
Proof.
  induction rest as [|a rest IH]; intros fuel p vs more used Hn F A Hf; [easy|]. inversion F as [|? ? F1 F2]; subst.
  cbn [length] in *. do 4 (destruct fuel as [|fuel]; [lia|]). rewrite items_cons, <- app_assoc.
  destruct (item_step (S fuel) p vs (length rest) a (items rest ++ more) used A F1) as (p1 & E1 & E2). rewrite E1.
  destruct rest as [|a2 rest].
  - cbn [length] in E2. destruct E2 as (G1 & G2 & G3). rewrite loop_done by auto. exists p1. split; [|auto]. do 2 f_equal. rewrite app_length. cbn. lia.
  - destruct (IH (S fuel) p1 (vs ++ [snd a]) more (used + length (item a)) ltac:(easy) F2 E2 ltac:(cbn [length] in *; lia)) as (p' & I1 & I2 & I3 & I4).
    exists p'. rewrite I1. split. { do 2 f_equal. rewrite app_length. lia. } split; auto. split; auto. rewrite I4, <- app_assoc. reflexivity.
Qed.
Lemma loop_parg_more fuel p h a used : st p = PARSE_ARG -> small_arg a -> within h (head 36 (fst a)) -> loop (S fuel) p h used = Next (p, More, used).
Proof.
  intros H Ha W. destruct (le_lt_dec 4 (length h)) as [L|L].
  - rewrite loop_parg by auto. unfold parse_arg. assert (N0 : nth 0 h 0%N = 36%N). { destruct W as (x & _ & E). destruct h; [easy|]. unfold head in E. cbn in *. congruence. }
    rewrite N0. cbn [N.eqb Pos.eqb]. rewrite (parse_num_more 36 (fst a) (length (snd a)) h); auto. { now rewrite Nat.add_0_r. } apply Ha.
  - cbn [loop]. rewrite H. destruct (Nat.ltb_spec (length h) 4); [|lia]. now rewrite Nat.add_0_r.
Qed.
Lemma items_more l1 : forall fuel p vs a l2 h used, Forall small_arg l1 -> small_arg a -> arr_in p vs (length (l1 ++ a :: l2)) -> within h (head 36 (fst a)) -> 3 * length l1 < fuel ->
  exists p', loop fuel p (items l1 ++ h) used = Next (p', More, used + length (items l1)) /\ arr_in p' (vs ++ map snd l1) (S (length l2)).
Proof.
  induction l1 as [|b l1 IH]; intros fuel p vs a l2 h used F Fa A W Hf.
  - destruct fuel as [|fuel]; [cbn in Hf; lia|]. exists p. cbn [items map concat app length] in *. rewrite (loop_parg_more fuel p h a) by (auto; apply A).
    rewrite Nat.add_0_r, app_nil_r. auto.
  - inversion F as [|? ? F1 F2]; subst. cbn [length app] in *. do 3 (destruct fuel as [|fuel]; [lia|]). rewrite items_cons, <- app_assoc.
    destruct (item_step fuel p vs (length (l1 ++ a :: l2)) b (items l1 ++ h) used A F1) as (p1 & E1 & E2). rewrite E1.
    assert (E3 : arr_in p1 (vs ++ [snd b]) (length (l1 ++ a :: l2))). { rewrite app_length in *. cbn [length] in *. rewrite Nat.add_succ_r in *. exact E2. }
    destruct (IH fuel p1 (vs ++ [snd b]) a l2 h (used + length (item b)) F2 Fa E3 W ltac:(lia)) as (p' & I1 & I2).
    exists p'. rewrite I1. split. { do 2 f_equal. rewrite app_length. lia. } rewrite <- app_assoc in I2. exact I2.
Qed.

(** ** Parse on an array *)
Definition alen (p : parser) : Prop := st p = ARRAY_LEN /\ arr p = 0 /\ top p = [] /\ own p = false /\ idx p = 0 /\ broken p = false.
Definition on_cmd (p : parser) (c : cmd) (pre : bytes) : Prop :=
  match c with
  | Line l => on_line p pre /\ within pre (l ++ [10%N])
  | Arr ds args => pre = [] /\ (idle p \/ alen p) \/
      exists done rest, args = done ++ rest /\ rest <> [] /\ pre = head 42 ds ++ items done /\ st p = PARSE_ARG /\ arr p = length rest /\ broken p = false /\ held p (map snd done)
  end.
Definition on (p : parser) (cs : list cmd) (pre : bytes) : Prop := match cs with [] => idle p /\ pre = [] | c :: _ => on_cmd p c pre end.

Lemma pref_cmp {A} (a1 b1 a2 b2 : list A) : a1 ++ b1 = a2 ++ b2 -> (exists l, a2 = a1 ++ l) \/ (exists x l, a1 = a2 ++ x :: l).
Proof.
  revert a2. induction a1 as [|x a1 IH]; intros a2 H; [left; now exists a2|]. destruct a2 as [|y a2].
  - right. now exists x, a1.
  - cbn in H. injection H as -> H. destruct (IH a2 H) as [[l ->]|(z & l & ->)]; [left; now exists l|right; now exists z, l].
Qed.
Lemma items_app a b : items (a ++ b) = items a ++ items b. Proof. unfold items. now rewrite map_app, concat_app. Qed.
Lemma item_length a : 6 <= length (item a) + match fst a with [] => 1 | _ => 0 end.
Proof. unfold item. rewrite !app_length, head_length. destruct (fst a); cbn; lia. Qed.
Lemma items_length l : 5 * length l <= length (items l).
Proof. induction l as [|a l IH]; [cbn; lia|]. rewrite items_cons, app_length. pose proof (item_length a). cbn [length]. destruct (fst a); lia. Qed.
Lemma arr_entry p str : idle p \/ alen p -> nth 0 str 0%N = 42%N -> st (entry p str) = ARRAY_LEN /\ arr (entry p str) = 0 /\ top (entry p str) = [] /\
  own (entry p str) = false /\ idx (entry p str) = 0 /\ broken (entry p str) = false.
Proof.
  intros [[H1 H2]|(H1 & H2 & H3 & H4 & H5 & H6)] H.
  - unfold entry. cbn [with_top st]. rewrite H. destruct H1 as [-> | ->]; cbn; auto 10.
  - unfold entry. cbn [with_top st]. rewrite H1. cbn [with_top st arr top own idx broken]. rewrite H4. auto 10.
Qed.
Lemma args_entry p str vs n : st p = PARSE_ARG -> arr p = n -> broken p = false -> held p vs -> arr_in (entry p str) vs n.
Proof.
  intros H1 H2 H3 (K1 & K2 & K3). unfold entry. cbn [with_top st]. rewrite H1.
  assert (E : (if own p then map dead (top p) else []) = top p).
  { destruct K3 as [[-> _]|[-> [-> _]]]; auto. now apply map_dead. }
  rewrite E. split; auto. split; auto. split; auto. split; auto. exists (top p), []. cbn [with_top top idx]. rewrite app_nil_r. split; auto. split; auto.
  destruct K3 as [[_ ->]|(_ & -> & ->)]; auto.
Qed.
Lemma loop_alen fuel p str used : st p = ARRAY_LEN -> loop (S fuel) p str used =
  match array_len p str with
    | (p, Ok, n) => loop fuel p (skipn n str) (used + n)
    | (p, s, n) => Next (p, s, used + n)
    end.
Proof. intros H. cbn [loop]. rewrite H. now destruct (array_len p str) as [[? []] ?]. Qed.
Lemma array_len_ok p ds n more : denotes ds n -> 1 <= n -> n <= 1024 -> arr p = 0 -> top p = [] -> own p = false -> idx p = 0 -> broken p = false ->
  exists p', array_len p (head 42 ds ++ more) = (p', Ok, length (head 42 ds)) /\ arr_in p' [] n.
Proof.
  intros H H1 H2 Ha Ht Ho Hi Hb. unfold array_len. rewrite (parse_num_ok 42 ds n) by (auto; lia).
  assert (((Z.of_nat n <? -1) || (kMaxArrayLen <? Z.of_nat n))%Z = false) as -> by (unfold kMaxArrayLen; lia). rewrite Ha, Ht. cbn [Nat.eqb negb].
  assert ((Z.of_nat n <=? 0)%Z = false) as -> by lia. eexists. split; [reflexivity|]. rewrite Nat2Z.id. repeat split; auto. exists [], []. cbn. auto.
Qed.
Lemma valid_small ds args : valid (Arr ds args) -> Forall small_arg args. Proof. intros (_ & _ & _ & H). exact H. Qed.
Lemma parse_arr_ok p ds args pre suf more : valid (Arr ds args) -> on_cmd p (Arr ds args) pre -> pre ++ suf = wire (Arr ds args) ->
  exists p' vs, parse p (suf ++ more) = Next (p', (Ok, length suf, vs)) /\ idle p' /\ map content vs = map Some (value (Arr ds args)).
Proof.
  intros Hv Ho Hw. pose proof (valid_small _ _ Hv) as Hs. destruct Hv as (V1 & V2 & V3 & _).
  assert (Hp : 1 <= length args) by (destruct args; [easy|cbn; lia]). pose proof (head_length 42 ds) as HL.
  destruct Ho as [[-> Ho]|(done & rest & -> & Hr & -> & H1 & H2 & H3 & H4)].
  - cbn [app wire] in Hw. subst suf. set (str := (head 42 ds ++ items args) ++ more). assert (L : length str = length (head 42 ds) + length (items args) + length more) by (unfold str; now rewrite !app_length).
    pose proof (items_length args). rewrite parse_entry by lia. destruct (arr_entry p str Ho eq_refl) as (E1 & E2 & E3 & E4 & E5 & E6).
    set (q := entry p str) in *. clearbody q. rewrite loop_alen by auto. assert (Es : str = head 42 ds ++ items args ++ more) by (unfold str; now rewrite <- app_assoc). clearbody str.
    destruct (array_len_ok q ds (length args) (items args ++ more)) as (q' & A1 & A2); auto. rewrite <- Es in A1. rewrite A1. replace (skipn (length (head 42 ds)) str) with (items args ++ more) by (rewrite Es, skipn_app_eq; auto).
    destruct (items_done args (3 * length str) q' [] more (0 + length (head 42 ds)) V1 Hs A2 ltac:(lia)) as (p' & I1 & I2 & I3 & I4).
    rewrite I1. exists p', (top p'). split. { repeat f_equal. now rewrite app_length. } split; [split; auto|]. exact I4.
  - assert (suf = items rest). { cbn [wire] in Hw. rewrite items_app, <- !app_assoc in Hw. now apply app_inv_head, app_inv_head in Hw. } subst suf.
    apply Forall_app in Hs as [_ Hs]. pose proof (items_length rest). assert (1 <= length rest) by (destruct rest; [easy|cbn; lia]).
    rewrite parse_entry by (rewrite app_length; lia). pose proof (args_entry p (items rest ++ more) _ _ H1 H2 H3 H4) as A. set (q := entry p _) in *. clearbody q.
    destruct (items_done rest (S (3 * length (items rest ++ more))) q (map snd done) more 0 Hr Hs A) as (p' & I1 & I2 & I3 & I4). { rewrite app_length. lia. }
    rewrite I1. exists p', (top p'). split; auto. split; [split; auto|]. cbn [value]. now rewrite map_app.
Qed.
Lemma cache_arr p vs n : arr_in p vs n -> exists p', cache p = Next p' /\ st p' = PARSE_ARG /\ arr p' = n /\ broken p' = false /\ held p' vs.
Proof.
  intros (H1 & H2 & H3 & H4 & t0 & t1 & H5 & H6 & H7 & H8). rewrite H5 in H4.
  destruct (cache_ok p t0 t1 vs H5 H6 H7 H8 H4) as (p' & C1 & C2 & C3 & C4 & C5 & C6). exists p'. split; auto. split; [congruence|]. split; [congruence|]. split; [congruence|auto].
Qed.
Lemma parse_arr_more p ds args pre str : valid (Arr ds args) -> on_cmd p (Arr ds args) pre -> calm (Arr ds args) (pre ++ str) -> 2 <= length str ->
  exists p' n, parse p str = Next (p', (More, n, [])) /\ on_cmd p' (Arr ds args) (pre ++ firstn n str).
Proof.
  intros Hv Ho Hc Hl. pose proof (valid_small _ _ Hv) as Hs. destruct Hv as (V1 & V2 & V3 & _).
  assert (Hp : 1 <= length args) by (destruct args; [easy|cbn; lia]). pose proof (head_length 42 ds) as HL. rewrite parse_entry by auto.
  destruct Ho as [[-> Ho]|(d0 & rest & Ea & Hr & -> & H1 & H2 & H3 & H4)].
  - cbn [app] in *. assert (N0 : nth 0 str 0%N = 42%N).
    { destruct Hc as [(x & _ & E)|(done & a & rest & h & _ & _ & ->)]; [|reflexivity]. destruct str; [cbn in Hl; lia|]. unfold head in E. cbn in *. congruence. }
    destruct (arr_entry p str Ho N0) as (E1 & E2 & E3 & E4 & E5 & E6). set (q := entry p str) in *. clearbody q. rewrite loop_alen by auto.
    destruct Hc as [W|(done & a & rest & h & Ea & W & Es)].
    + unfold array_len. rewrite (parse_num_more 42 ds (length args) str V2 W). unfold cache. rewrite E3, E4. exists q, 0. split; auto. left. split; auto. right. repeat split; auto.
    + assert (Ea1 : Forall small_arg done /\ small_arg a). { rewrite Ea in Hs. apply Forall_app in Hs as [S1 S2]. inversion S2; auto. } destruct Ea1 as [S1 S2].
      destruct (array_len_ok q ds (length args) (items done ++ h)) as (q' & A1 & A2); auto.
      assert (A3 : arr_in q' [] (length (done ++ a :: rest))) by (rewrite <- Ea; exact A2).
      assert (Ls : length str = length (head 42 ds) + length (items done) + length h) by (rewrite Es, !app_length; lia).
      pose proof (items_length done).
      destruct (items_more done (3 * length str) q' [] a rest h (0 + length (head 42 ds)) S1 S2 A3 W ltac:(lia)) as (p' & I1 & I2).
      rewrite <- Es in A1. rewrite A1. replace (skipn (length (head 42 ds)) str) with (items done ++ h) by (rewrite Es, skipn_app_eq; auto). rewrite I1.
      destruct (cache_arr p' _ _ I2) as (p2 & C1 & C2 & C3 & C4 & C5). rewrite C1. eexists p2, _. split; [reflexivity|].
      right. exists done, (a :: rest). split; auto. split; [easy|]. split; [|auto]. rewrite Es, app_assoc. apply firstn_app_eq. rewrite app_length. lia.
  - destruct Hc as [W|(done & a & rest2 & h & Ea2 & W & Es)].
    { apply within_length in W. rewrite !app_length in W. lia. }
    rewrite Ea in Ea2. rewrite <- app_assoc in Es. apply app_inv_head in Es. destruct (pref_cmp _ _ _ _ Ea2) as [[l1 ->]|(x & l & ->)].
    + rewrite <- app_assoc in Ea2. apply app_inv_head in Ea2. subst rest. rewrite items_app, <- app_assoc in Es. apply app_inv_head in Es. subst str.
      rewrite Ea in Hs. apply Forall_app in Hs as [_ Hs]. apply Forall_app in Hs as [S1 S2]. inversion S2 as [|? ? S3 S4]; subst.
      pose proof (args_entry p (items l1 ++ h) _ _ H1 H2 H3 H4) as A. set (q := entry p _) in *. clearbody q. pose proof (items_length l1).
      destruct (items_more l1 (S (3 * length (items l1 ++ h))) q (map snd d0) a rest2 h 0 S1 S3 A W) as (p' & I1 & I2). { rewrite app_length. lia. }
      rewrite I1. destruct (cache_arr p' _ _ I2) as (p2 & C1 & C2 & C3 & C4 & C5). rewrite C1. eexists p2, _. split; [reflexivity|].
      right. exists (d0 ++ l1), (a :: rest2). rewrite <- app_assoc. split; auto. split; [easy|]. rewrite firstn_app_eq by auto. rewrite items_app, <- app_assoc. split; auto.
      split; auto. split; auto. split; auto. now rewrite map_app.
    + exfalso. rewrite <- app_assoc in Ea2. apply app_inv_head in Ea2. cbn [app] in Ea2. injection Ea2 as -> _. rewrite items_app, items_cons in Es.
      apply within_length in W. apply (f_equal (@length N)) in Es. rewrite !app_length in Es. unfold item in Es. rewrite !app_length in Es. lia.
Qed.

(** ** The stream *)
Definition vals (c : cmd) : list (option bytes) := map Some (value c).
Lemma wire_pos c : 1 <= length (wire c).
Proof. destruct c as [l|ds args]; cbn [wire]; rewrite app_length; [cbn; lia|]. rewrite head_length. lia. Qed.
Lemma calm_lt c part : calm c part -> length part < length (wire c).
Proof.
  destruct c as [l|ds args]; cbn [calm wire].
  - apply within_length.
  - intros [W|(done & a & rest & h & -> & W & ->)].
    + apply within_length in W. rewrite app_length. lia.
    + apply within_length in W. rewrite items_app, items_cons, !app_length. unfold item. rewrite !app_length. lia.
Qed.
Lemma on_within p c pre : on_cmd p c pre -> within pre (wire c).
Proof.
  destruct c as [l|ds args]; cbn [on_cmd wire].
  - tauto.
  - intros [[-> _]|(done & rest & -> & Hr & -> & _)].
    + exists (head 42 ds ++ items args). split; auto. intros X. apply (f_equal (@length N)) in X. rewrite app_length, head_length in X. cbn in X. lia.
    + exists (items rest). split. { destruct rest as [|a rest]; [easy|]. intros X. apply (f_equal (@length N)) in X. pose proof (items_length (a :: rest)). rewrite X in H. cbn in H. lia. }
      now rewrite items_app, <- app_assoc.
Qed.
Lemma idle_on p cs : idle p -> on p cs [].
Proof.
  intros H. destruct cs as [|[l|ds args] cs]; cbn [on on_cmd]; auto. split; [left; auto|]. exists (l ++ [10%N]). split; auto. now destruct l.
Qed.
Lemma parse_ok p c pre suf more : valid c -> on_cmd p c pre -> pre ++ suf = wire c -> 2 <= length (suf ++ more) ->
  exists p' vs, parse p (suf ++ more) = Next (p', (Ok, length suf, vs)) /\ idle p' /\ map content vs = vals c.
Proof.
  destruct c as [l|ds args].
  - intros [V1 V2] [Ho (x & Hx & Ex)] Hw Hl. cbn [wire] in Hw.
    assert (suf <> []). { intros ->. rewrite app_nil_r in Hw. rewrite Hw in Ex. apply (f_equal (@length N)) in Ex. rewrite app_length in Ex. destruct x; [easy|cbn in Ex; lia]. }
    destruct suf as [|y a] using rev_ind; [easy|]. clear IHa. rewrite app_assoc in Hw. apply app_inj_tail in Hw as [Hw ->].
    rewrite <- app_assoc in *. cbn [app] in *. destruct (parse_line_ok p pre a more) as (p' & vs & P1 & P2 & P3); auto.
    + intros ->. cbn [app] in Hw. subst l. destruct a as [|c a]; cbn in *; auto. lia.
    + intros X. apply V1. rewrite <- Hw. apply in_or_app. auto.
    + exists p', vs. rewrite app_length. split; auto. split; auto. rewrite P3, Hw. reflexivity.
  - intros. eapply parse_arr_ok; eauto.
Qed.
Lemma parse_more p c pre b : valid c -> on_cmd p c pre -> calm c (pre ++ b) -> 2 <= length b ->
  exists p' n, parse p b = Next (p', (More, n, [])) /\ on_cmd p' c (pre ++ firstn n b).
Proof.
  destruct c as [l|ds args].
  - intros [V1 V2] [Ho _] Hc Hl. cbn [calm] in Hc. assert (Hl10 : exists x, pre ++ b ++ x = l).
    { destruct Hc as (x & Hx & E). destruct x as [|y x] using rev_ind; [easy|]. clear IHx. rewrite app_assoc in E. apply app_inj_tail in E as [E _]. exists x. now rewrite app_assoc. }
    destruct Hl10 as [x Ex]. destruct (parse_line_more p pre b) as (p' & P1 & P2); auto.
    + intros ->. destruct b as [|c b]; [cbn in Hl; lia|]. cbn [app] in Ex. rewrite <- Ex in V2. exact V2.
    + intros X. apply V1. rewrite <- Ex. apply in_or_app. right. apply in_or_app. auto.
    + exists p', (length b). split; auto. rewrite firstn_all. split; auto. right. exact P2.
  - intros. eapply parse_arr_more; eauto.
Qed.
Lemma wires_cons c cs : wires (c :: cs) = wire c ++ wires cs. Proof. reflexivity. Qed.
Lemma wires_app a b : wires (a ++ b) = wires a ++ wires b. Proof. unfold wires. now rewrite map_app, concat_app. Qed.
Lemma parse_short p b : length b < 2 -> parse p b = Next (p, (More, 0, [])).
Proof. intros H. unfold parse. now destruct (Nat.ltb_spec (length b) 2); [|lia]. Qed.
Definition stall (c : cmd) (pre b : bytes) : Prop := b = [10%N] /\ pre ++ [10%N] = wire c.
Definition rest_ok (cs : list cmd) (part : bytes) : Prop := match cs with [] => part = [] | c :: _ => calm c part end.
Definition left_ok (cs : list cmd) (pre b : bytes) : Prop :=
  match cs with [] => pre ++ b = [] | c :: _ => length (pre ++ b) < length (wire c) \/ stall c pre b end.
Lemma rest_left cs pre b : rest_ok cs (pre ++ b) -> left_ok cs pre b.
Proof. destruct cs; cbn; auto. intros H. left. now apply calm_lt. Qed.
Lemma drain_ok done : forall cs fuel p pre b g part, Forall valid (done ++ cs) -> on p (done ++ cs) pre -> pre ++ b = wires done ++ part -> rest_ok cs part -> length b < fuel ->
  exists s d2 cs2 pre2, drain fuel p b g = Next s /\ done ++ cs = d2 ++ cs2 /\ on (par s) cs2 pre2 /\ got s = g ++ map vals d2 /\ wires d2 ++ pre2 ++ buf s = pre ++ b /\ left_ok cs2 pre2 (buf s).
Proof.
  induction done as [|c done IH]; intros cs fuel p pre b g part V O E R Hf; (destruct fuel as [|fuel]; [lia|]); cbn [drain app] in *.
  - cbn [wires map concat app] in E. subst part. destruct (le_lt_dec 2 (length b)) as [L|L].
    + destruct cs as [|c cs]; cbn [on rest_ok] in *. { apply app_eq_nil in R as [_ ->]. cbn in L. lia. }
      inversion V as [|? ? V1 V2]; subst. destruct (parse_more p c pre b V1 O R L) as (p' & n & P1 & P2). rewrite P1.
      exists (C p' (skipn n b) g), [], (c :: cs), (pre ++ firstn n b). cbn [par buf got map]. rewrite app_nil_r. split; auto. split; auto. split; auto. split; auto.
      cbn [wires map concat app]. rewrite <- app_assoc, firstn_skipn. split; auto. apply rest_left. cbn [rest_ok]. now rewrite <- app_assoc, firstn_skipn.
    + rewrite parse_short by auto. exists (C p b g), [], cs, pre. cbn [par buf got map skipn]. rewrite app_nil_r. repeat split; auto. now apply rest_left.
  - inversion V as [|? ? V1 V2]; subst. cbn [on] in O. destruct (on_within p c pre O) as (suf & Hs & Es).
    rewrite wires_cons, <- Es, <- !app_assoc in E. apply app_inv_head in E. destruct (le_lt_dec 2 (length b)) as [L|L].
    + rewrite E in L. destruct (parse_ok p c pre suf (wires done ++ part) V1 O Es L) as (p' & vs & P1 & P2 & P3). rewrite E, P1, P3. rewrite skipn_app_eq by auto.
      destruct (IH cs fuel p' [] (wires done ++ part) (g ++ [vals c]) part V2 (idle_on p' _ P2) eq_refl R) as (s & d2 & cs2 & pre2 & D1 & D2 & D3 & D4 & D5 & D6).
      { rewrite E, app_length in Hf. destruct suf; [easy|]. cbn in Hf. lia. }
      exists s, (c :: d2), cs2, pre2. split; auto. split; [cbn; now rewrite D2|]. split; auto. split. { rewrite D4, <- app_assoc. reflexivity. }
      split; auto. rewrite wires_cons, <- app_assoc, D5. cbn [app]. rewrite <- Es, <- !app_assoc. reflexivity.
    + rewrite parse_short by auto. exists (C p b g), [], (c :: done ++ cs), pre. cbn [par buf got map skipn]. rewrite app_nil_r. repeat split; auto.
      cbn [left_ok]. right. assert (b = suf). { rewrite E in L. rewrite app_length in L. destruct suf as [|y [|]]; [easy| |cbn in L; lia]. cbn in L. destruct (wires done ++ part); [rewrite E; reflexivity|cbn in L; lia]. }
      subst suf. destruct b as [|y [|]]; [easy| |cbn in L; lia]. destruct c as [l|ds args].
      * cbn [wire] in Es. apply app_inj_tail in Es as [Es ->]. subst l. split; reflexivity.
      * exfalso. cbn [on_cmd wire] in *. destruct O as [[-> _]|(d & rest & -> & Hr & -> & _)].
        { apply (f_equal (@length N)) in Es. rewrite !app_length, head_length in Es. cbn in Es. lia. }
        rewrite items_app, <- !app_assoc in Es. apply app_inv_head, app_inv_head in Es. apply (f_equal (@length N)) in Es.
        pose proof (items_length rest). destruct rest; [easy|]. cbn [length] in *. lia.
Qed.
Definition R (cs : list cmd) (seen : bytes) (s : conn) : Prop :=
  exists d cs2 pre, cs = d ++ cs2 /\ on (par s) cs2 pre /\ got s = map vals d /\ seen = wires d ++ pre ++ buf s /\ left_ok cs2 pre (buf s).
Lemma feed_ok cs seen s chunk : Forall valid cs -> R cs seen s -> cut cs (seen ++ chunk) -> exists s', feed s chunk = Next s' /\ R cs (seen ++ chunk) s'.
Proof.
  intros V (d & cs2 & pre & E1 & E2 & E3 & E4 & E5) Hc.
  assert (H : exists D cs' part, cs = D ++ cs' /\ rest_ok cs' part /\ seen ++ chunk = wires D ++ part).
  { destruct Hc as [H|(D & c & rest & part & H1 & H2 & H3)].
    - exists cs, [], []. now rewrite !app_nil_r.
    - exists D, (c :: rest), part. auto. }
  destruct H as (D & cs' & part & F1 & F2 & F3). rewrite E1 in F1. destruct (pref_cmp _ _ _ _ F1) as [[done ->]|(x & l & ->)].
  - rewrite <- app_assoc in F1. apply app_inv_head in F1. rewrite E4, wires_app, <- !app_assoc in F3. apply app_inv_head in F3.
    assert (V2 : Forall valid (done ++ cs')). { rewrite <- F1. rewrite E1 in V. now apply Forall_app in V. }
    rewrite F1 in E2. unfold feed. destruct (drain_ok done cs' (S (length (buf s ++ chunk))) (par s) pre (buf s ++ chunk) (got s) part V2 E2 F3 F2 ltac:(lia)) as (s' & d2 & cs3 & pre2 & D1 & D2 & D3 & D4 & D5 & D6).
    exists s'. split; auto. exists (d ++ d2), cs3, pre2. split. { rewrite <- app_assoc, <- D2, <- F1. exact E1. } split; auto. split. { now rewrite map_app, D4, E3. }
    split; auto. rewrite wires_app, <- app_assoc, D5, E4, <- !app_assoc. reflexivity.
  - exfalso. rewrite <- app_assoc in F1. apply app_inv_head in F1. cbn [app] in F1. subst cs'. cbn [rest_ok] in F2. apply calm_lt in F2.
    rewrite E4, wires_app, wires_cons, <- !app_assoc in F3. apply app_inv_head in F3. apply (f_equal (@length N)) in F3. rewrite !app_length in F3. lia.
Qed.
Lemma feeds_ok cs chunks : forall seen s, Forall valid cs -> R cs seen s -> (forall k, cut cs (seen ++ concat (firstn k chunks))) ->
  exists s', exec feed s chunks = Next s' /\ R cs (seen ++ concat chunks) s'.
Proof.
  induction chunks as [|c chunks IH]; intros seen s V H Hc; cbn [exec concat].
  - exists s. rewrite app_nil_r. auto.
  - pose proof (Hc 1) as H1. cbn [firstn concat] in H1. rewrite app_nil_r in H1. destruct (feed_ok cs seen s c V H H1) as (s1 & -> & H2).
    destruct (IH (seen ++ c) s1 V H2) as (s2 & H3 & H4). { intros k. specialize (Hc (S k)). cbn [firstn concat] in Hc. now rewrite <- app_assoc. }
    exists s2. split; auto. now rewrite <- app_assoc in H4.
Qed.
Lemma resp_partial_pf cs chunks : Forall valid cs -> concat chunks = wires cs -> (forall k, cut cs (concat (firstn k chunks))) ->
  exists s late, exec feed start chunks = Next s /\ got s ++ late = map (fun c => map Some (value c)) cs /\ (late = [] \/ length late = 1 /\ buf s = [10%N]).
Proof.
  intros V E Hc. destruct (feeds_ok cs chunks [] start V) as (s & H1 & d & cs2 & pre & H2 & H3 & H4 & H5 & H6); auto.
  { exists [], cs, []. split; auto. split. { apply idle_on. split; auto. } split; auto. split; auto. destruct cs as [|c cs]; cbn [left_ok app]; auto. left. apply wire_pos. }
  exists s, (map vals cs2). split; auto. split. { rewrite H4, H2, map_app. reflexivity. }
  cbn [app] in H5. rewrite E, H2, wires_app in H5. apply app_inv_head in H5. destruct cs2 as [|c cs2]; [left; reflexivity|]. right. cbn [left_ok] in H6. rewrite wires_cons in H5.
  destruct H6 as [H6|[H6 H7]].
  - rewrite <- H5, app_length in H6. lia.
  - rewrite H6, H7 in H5. apply (f_equal (@length N)) in H5. rewrite app_length in H5. destruct cs2 as [|c2 cs2]; auto. rewrite wires_cons, app_length in H5. pose proof (wire_pos c2). lia.
Qed.
