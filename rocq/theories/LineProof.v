From Verif Require Import Util IoStreamModel LineModel LineSpec.
Open Scope N_scope.

(** lines in terms of [cut] *)
Lemma rev_drop_cr l : rev (drop_cr l) = strip_cr (rev l).
Proof.
  destruct l as [|b l]; simpl; auto.
  assert (H : forall x y, strip_cr (x ++ [y]) = if y =? CR then x else x ++ [y]).
  { induction x as [|a x IH]; intros y; simpl; [reflexivity|].
    destruct (x ++ [y]) eqn:E; [destruct x; discriminate|]. rewrite <- E, IH. now destruct (y =? CR). }
  rewrite H. destruct (b =? CR); simpl; auto.
Qed.
Lemma lines_cut text : forall acc, lines_from acc text =
  match cut text with
  | Some (l, t) => strip_cr (rev acc ++ l) :: lines t
  | None => match rev acc ++ text with [] => [] | x => [x] end
  end.
Proof.
  induction text as [|b t IH]; intros acc; simpl.
  - rewrite app_nil_r. destruct acc as [|a acc]; auto. simpl. destruct (rev acc ++ [a]) eqn:E; auto. destruct (rev acc); discriminate.
  - destruct (b =? LF) eqn:Eb.
    + now rewrite app_nil_r, rev_drop_cr.
    + rewrite IH. simpl. destruct (cut t) as [[l r]|]; rewrite <- app_assoc; reflexivity.
Qed.
Lemma cut_app a b : cut (a ++ b) = match cut a with
  | Some (l, r) => Some (l, r ++ b)
  | None => match cut b with Some (l, r) => Some (a ++ l, r) | None => None end end.
Proof.
  induction a as [|x a IH]; simpl. destruct (cut b) as [[]|]; auto.
  destruct (x =? LF); auto. rewrite IH. destruct (cut a) as [[]|]; auto. destruct (cut b) as [[]|]; auto.
Qed.
Lemma cut_spec a l r : cut a = Some (l, r) -> a = l ++ LF :: r.
Proof.
  revert l r. induction a as [|x a IH]; simpl; intros l r; [discriminate|].
  destruct (N.eqb_spec x LF) as [->|]. intros [= <- <-]; auto.
  destruct (cut a) as [[l' r']|]; [|discriminate]. intros [= <- <-]. simpl. f_equal. auto.
Qed.

Lemma exists_last_or_nil {A} (l : list A) : l = [] \/ exists x y, l = x ++ [y].
Proof. destruct l as [|a l]; auto. right. destruct (@exists_last A (a :: l)) as (x & y & E); [discriminate|eauto]. Qed.

Section Proof.
  Variable page limit : N.

  (** The runs as the reader sees them: [r] is buffered. *)
  Definition is_nil {A} (l : list A) : bool := match l with [] => true | _ => false end.
  Definition lruns (r : list N) (f : bool) (cs : list (list N)) : list (list N) :=
    if (f || is_nil r)%bool then match runs page cs with [] => [r] | x :: o => (r ++ x) :: o end else r :: runs page cs.
  Definition todo r f cs := flat_map lines (lruns r f cs).

  Definition edge_ok (r : list N) (cs : list (list N)) : Prop :=
    match cs with c :: _ => ~ (exists x, r = x ++ [CR]) \/ ~ (exists y, c = LF :: y) | [] => True end.
  Lemma nsc_tail c cs : no_split_crlf (c :: cs) -> no_split_crlf cs.
  Proof. intros H a b x y E. apply (H a b (c :: x) y). now rewrite E. Qed.
  Lemma nsc_head c cs : no_split_crlf (c :: cs) -> edge_ok c cs.
  Proof. destruct cs as [|c' cs]; simpl; auto. intros H. apply (H c c' [] cs). reflexivity. Qed.

  Lemma strip_app a b : b <> [] -> strip_cr (a ++ b) = a ++ strip_cr b.
  Proof.
    intros Hb. induction a as [|x a IH]; simpl; auto. destruct (a ++ b) eqn:E.
    - destruct a; [simpl in E; congruence|discriminate].
    - now rewrite IH.
  Qed.
  Lemma strip_snoc x y : strip_cr (x ++ [y]) = if y =? CR then x else x ++ [y].
  Proof. rewrite strip_app by discriminate. simpl. destruct (y =? CR); auto. now rewrite app_nil_r. Qed.

  (** First lines of a text. *)
  Lemma todo_cons r f cs : flat_map lines (lruns r f cs) =
    match cut r with Some (l, r') => strip_cr l :: todo r' f cs | None => flat_map lines (lruns r f cs) end.
  Proof.
    destruct (cut r) as [[l r']|] eqn:E; auto. assert (Hr := cut_spec _ _ _ E).
    assert (Nr : is_nil r = false) by (rewrite Hr; destruct l; reflexivity).
    unfold todo, lruns. rewrite Nr, orb_false_r.
    assert (A : forall z, lines (r ++ z) = strip_cr l :: lines (r' ++ z)).
    { intros z. unfold lines at 1. rewrite lines_cut, cut_app, E. reflexivity. }
    assert (A0 : lines r = strip_cr l :: lines r') by (rewrite <- (app_nil_r r), A, app_nil_r; auto).
    destruct f; simpl.
    - destruct (runs page cs) as [|x o]; simpl; rewrite ?A0, ?A; auto.
    - rewrite A0. simpl. destruct (is_nil r') eqn:Er'; simpl; auto.
      destruct r'; [|discriminate]. destruct (runs page cs); simpl; reflexivity.
  Qed.

  Lemma short_suffix a b : short_lines limit (a ++ b) -> short_lines limit b.
  Proof. intros H x y z E. apply (H (a ++ x) y z). now rewrite E, <- app_assoc. Qed.
  Lemma short_prefix a b : short_lines limit (a ++ b) -> cut a = None -> len a < limit.
  Proof. intros H E. apply (H [] a b); auto. intros Hi. apply in_split in Hi. destruct Hi as (x & y & ->).
    rewrite cut_app in E. simpl in E. destruct (cut x) as [[]|]; discriminate. Qed.
  (** The lines still to come when [s] has been moved to the scratch string. *)
  Definition todo2 (s r : list N) (f : bool) (cs : list (list N)) : list (list N) :=
    match lruns r f cs with [] => [] | x :: o => lines (s ++ x) ++ flat_map lines o end.
  Lemma todo2_nil r f cs : todo2 [] r f cs = todo r f cs.
  Proof. unfold todo2, todo. destruct (lruns r f cs); auto. Qed.
  Lemma lruns_cons r f cs : exists x o, lruns r f cs = x :: o.
  Proof. unfold lruns. destruct (f || is_nil r)%bool; [destruct (runs page cs)|]; eauto. Qed.
  Lemma runs_lruns c cs : c <> [] -> runs page (c :: cs) = lruns c (len c =? page) cs.
  Proof. intros H. simpl. unfold lruns. replace (is_nil c) with false by (destruct c; auto; congruence). rewrite orb_false_r. reflexivity. Qed.

  Definition ready (r : list N) (cs : list (list N)) : Prop :=
    proper page cs /\ no_split_crlf cs /\ edge_ok r cs /\ short_lines limit (r ++ concat cs).
  Definition good (ls : list (list N)) (out : lres * lreader) : Prop :=
    exists r' f' cs', snd out = mk_lr r' f' (source cs') /\ ready r' cs' /\
      match ls with
      | [] => fst out = NEnd /\ todo r' f' cs' = []
      | l :: o => fst out = NLine l /\ todo r' f' cs' = o
      end.

  Lemma lines_nolf x : cut x = None -> lines x = match x with [] => [] | _ => [x] end.
  Proof. intros H. unfold lines. rewrite lines_cut, H. simpl. destruct x; reflexivity. Qed.
  Lemma todo_nil f cs : todo [] f cs = flat_map lines (runs page cs).
  Proof. unfold todo, lruns. simpl. rewrite orb_true_r. destruct (runs page cs); reflexivity. Qed.
  Lemma strip_join s l r r' : cut r = Some (l, r') -> edge_ok s [r] -> strip_cr (s ++ l) = s ++ strip_cr l.
  Proof.
    intros E Ed. destruct l as [|b l]; [|now apply strip_app].
    simpl. rewrite !app_nil_r. destruct (exists_last_or_nil s) as [->|(x & y & ->)]; auto.
    rewrite strip_snoc. destruct (N.eqb_spec y CR) as [->|]; auto. apply cut_spec in E. simpl in E, Ed.
    destruct Ed as [Ed|Ed]; exfalso; apply Ed; eauto.
  Qed.
  Lemma todo2_cut s r f cs l r' : cut r = Some (l, r') -> cut s = None -> edge_ok s [r] ->
    todo2 s r f cs = (s ++ strip_cr l) :: todo r' f cs.
  Proof.
    intros E Cs Ed. rewrite <- (strip_join s l r r') by assumption.
    assert (Nr : is_nil r = false) by (rewrite (cut_spec _ _ _ E); destruct l; reflexivity).
    assert (A : forall z, lines (s ++ (r ++ z)) = strip_cr (s ++ l) :: lines (r' ++ z)).
    { intros z. unfold lines at 1. rewrite lines_cut, !cut_app, Cs, E. reflexivity. }
    assert (A0 : lines (s ++ r) = strip_cr (s ++ l) :: lines r') by (rewrite <- (app_nil_r r), A, app_nil_r; auto).
    unfold todo2, todo, lruns. rewrite Nr, orb_false_r. destruct f; simpl.
    - destruct (runs page cs) as [|x o]; simpl; rewrite ?A0, ?A; auto.
    - rewrite A0. simpl. destruct (is_nil r') eqn:Er'; simpl; auto.
      destruct r'; [|discriminate]. destruct (runs page cs); simpl; reflexivity.
  Qed.
  Lemma edge_suffix l r' cs : edge_ok (l ++ LF :: r') cs -> edge_ok r' cs.
  Proof.
    destruct cs as [|c cs]; simpl; auto. intros [H|H]; auto. left. intros [x ->]. apply H. exists (l ++ LF :: x).
    rewrite <- app_assoc. reflexivity.
  Qed.
  Lemma edge_nil cs : edge_ok [] cs.
  Proof. destruct cs; simpl; auto. left. intros [x H]. destruct x; discriminate. Qed.
  Lemma ready_nil r cs : ready r cs -> ready [] cs.
  Proof. intros (P & NS & _ & L). split; [|split; [|split]]; auto. apply edge_nil. now apply short_suffix in L. Qed.

  Lemma good_cut s r f cs l r' : ready r cs -> cut r = Some (l, r') -> cut s = None -> edge_ok s [r] ->
    good (todo2 s r f cs) (NLine (s ++ strip_cr l), mk_lr r' f (source cs)).
  Proof.
    intros (P & NS & EO & L) E Cs Ed. rewrite (todo2_cut s r f cs l r') by assumption.
    apply cut_spec in E. subst r. exists r', f, cs. split; [reflexivity|]. split; [|split; reflexivity].
    split; [|split; [|split]]; auto. now apply edge_suffix in EO. rewrite <- app_assoc in L. simpl in L. apply (short_suffix l) in L. apply (short_suffix [LF]). exact L.
  Qed.
  (** A line that the end of a run ends. *)
  Lemma good_line s r f cs : ready r cs -> r <> [] -> cut r = None -> cut s = None -> (f = true -> cs = []) ->
    good (todo2 s r f cs) (NLine (s ++ r), mk_lr [] f (source cs)).
  Proof.
    intros R Nr Cr Cs Hf. exists [], f, cs. split; [reflexivity|]. split; [now apply ready_nil in R|].
    assert (A : todo2 s r f cs = (s ++ r) :: todo [] f cs).
    { assert (B : lines (s ++ r) = [s ++ r]).
      { rewrite lines_nolf by now rewrite cut_app, Cs, Cr. destruct s, r; simpl; congruence. }
      rewrite todo_nil. unfold todo2, lruns. replace (is_nil r) with false by (destruct r; auto; congruence).
      destruct f; simpl.
      - rewrite (Hf eq_refl). simpl. now rewrite B.
      - now rewrite B. }
    rewrite A. split; reflexivity.
  Qed.

  Lemma next_ok cs : forall r f scr, ready r cs -> short_lines limit (scr_list scr ++ r ++ concat cs) ->
    (scr <> None -> scr_list scr <> [] /\ r <> []) -> cut (scr_list scr) = None -> edge_ok (scr_list scr) [r] ->
    good (todo2 (scr_list scr) r f cs) (next page limit r f scr (source cs)).
  Proof.
    induction cs as [|c cs IH]; intros r f scr R Lim Sc Cs Ed; assert (R0 := R); destruct R as (P & NS & EO & L).
    - cbn [source map next]. destruct (cut r) as [[line r']|] eqn:E; [now apply (good_cut _ r f [])|].
      destruct r as [|b r].
      + destruct scr as [s|]; [destruct Sc; congruence|]. exists [], f, []. split; [reflexivity|]. split; auto.
        simpl scr_list. rewrite todo2_nil, todo_nil. split; reflexivity.
      + cbv zeta. replace (limit <=? len (b :: r) + len (scr_list scr)) with false by (symmetry; apply N.leb_gt; rewrite app_assoc in Lim; apply short_prefix in Lim; [rewrite len_app in Lim; lia|now rewrite cut_app, Cs, E]).
        destruct f; simpl break_; apply (good_line _ (b :: r) _ []); auto; discriminate.
    - cbn [source map next]. change (map RData cs) with (source cs).
      assert (Pc : 0 < len c <= page /\ proper page cs) by (inversion P; auto). destruct Pc as [Pc P'].
      assert (Nc : c <> []) by (intros E0; subst c; destruct Pc as [Pc _]; now apply N.lt_irrefl in Pc).
      destruct (cut r) as [[line r']|] eqn:E; [now apply (good_cut _ r f (c :: cs))|].
      replace (len c =? 0) with false by (symmetry; apply N.eqb_neq; lia).
      replace (page <? len c) with false by (symmetry; apply N.ltb_ge; lia).
      cbn [concat] in Lim, L.
      assert (Rc : ready c cs).
      { split; [|split; [|split]]; auto. now apply nsc_tail in NS. now apply nsc_head. now apply short_suffix in L. }
      destruct r as [|b r].
      + destruct scr as [s|]; [destruct Sc; congruence|]. simpl scr_list in *.
        assert (H := IH c (len c =? page) None Rc). simpl scr_list in H. rewrite todo2_nil in *.
        rewrite todo_nil, runs_lruns by assumption. apply H; auto.
      + cbv zeta. replace (limit <=? len (b :: r) + len (scr_list scr)) with false by (symmetry; apply N.leb_gt; rewrite app_assoc in Lim; apply short_prefix in Lim; [rewrite len_app in Lim; lia|now rewrite cut_app, Cs, E]).
        destruct f.
        * assert (H := IH c (len c =? page) (Some (scr_list scr ++ b :: r)) Rc). simpl scr_list in H.
          assert (A : todo2 (scr_list scr) (b :: r) true (c :: cs) = todo2 (scr_list scr ++ b :: r) c (len c =? page) cs).
          { unfold todo2 at 1. unfold lruns. rewrite orb_true_l. rewrite runs_lruns by assumption. unfold todo2.
            destruct (lruns_cons c (len c =? page) cs) as (x & o & ->). now rewrite <- app_assoc. }
          rewrite A. apply H.
          -- rewrite <- app_assoc. exact Lim.
          -- intros _. split; auto. destruct (scr_list scr); discriminate.
          -- now rewrite cut_app, Cs, E.
          -- simpl in EO |- *. destruct EO as [EO|EO]; auto. left. intros [x Hx]. apply EO.
             destruct (exists_last_or_nil (b :: r)) as [Hn|(x' & y & Hr)]; [discriminate|].
             rewrite Hr, app_assoc in Hx. apply app_inj_tail in Hx. destruct Hx as [_ ->]. exists x'. exact Hr.
        * apply (good_line _ (b :: r) false (c :: cs)); auto; discriminate.
  Qed.

  Lemma calls_ok n : forall r f cs, ready r cs ->
    calls page limit n (mk_lr r f (source cs)) = map (answer (todo r f cs)) (seq 0 n).
  Proof.
    induction n as [|n IH]; intros r f cs R; [reflexivity|].
    cbn [calls]. unfold Next. cbn [rest full answers].
    assert (H := next_ok cs r f None R). simpl scr_list in H. rewrite todo2_nil in H.
    destruct H as (r' & f' & cs' & Hs & R' & Hm).
    { destruct R as (_ & _ & _ & L). exact L. } { congruence. } { reflexivity. } { apply edge_nil. }
    destruct (next page limit r f None (source cs)) as [x s']. simpl in Hs, Hm. subst s'.
    rewrite IH by assumption. cbn [seq map]. destruct (todo r f cs) as [|l o]; destruct Hm as [-> ->].
    - unfold answer at 2. simpl. f_equal. rewrite <- seq_shift, map_map. apply map_ext. intros i.
      unfold answer. now destruct i.
    - unfold answer at 2. simpl. f_equal. rewrite <- seq_shift, map_map. apply map_ext. intros i. reflexivity.
  Qed.
  Lemma linereader_runs_pf n chunks : proper page chunks -> no_split_crlf chunks -> short_lines limit (concat chunks) ->
    calls page limit n (lr_init (source chunks)) = map (answer (flat_map lines (runs page chunks))) (seq 0 n).
  Proof.
    intros P NS L. unfold lr_init. rewrite calls_ok. now rewrite todo_nil.
    split; [|split; [|split]]; auto. apply edge_nil.
  Qed.
  Lemma runs_full chunks : full_reads page chunks -> flat_map lines (runs page chunks) = lines (concat chunks).
  Proof.
    induction chunks as [|c cs IH]; intros F; [reflexivity|].
    assert (IH' : flat_map lines (runs page cs) = lines (concat cs)).
    { apply IH. intros x a b E Hb. apply (F x (c :: a) b); auto. now rewrite E. }
    assert (R : forall cs, full_reads page cs -> runs page cs = match cs with [] => [] | _ => [concat cs] end).
    { clear. induction cs as [|c cs IH]; intros F; auto. simpl.
      assert (F' : full_reads page cs) by (intros x a b E Hb; apply (F x (c :: a) b); auto; now rewrite E).
      rewrite (IH F'). destruct cs as [|d cs]. simpl. rewrite app_nil_r. destruct (len c =? page); auto.
      rewrite (F c [] (d :: cs)) by (auto; discriminate). now rewrite N.eqb_refl. }
    rewrite R by assumption. simpl. now rewrite app_nil_r.
  Qed.
  Lemma linereader_lines_pf n chunks : proper page chunks -> full_reads page chunks -> no_split_crlf chunks ->
    short_lines limit (concat chunks) ->
    calls page limit n (lr_init (source chunks)) = map (answer (lines (concat chunks))) (seq 0 n).
  Proof. intros P F NS L. rewrite linereader_runs_pf by assumption. now rewrite runs_full. Qed.
End Proof.

Lemma short_le limit t : len t < limit -> short_lines limit t.
Proof. intros H x y z -> _. rewrite !len_app in H. lia. Qed.
Lemma nsc2 a b : edge_ok a [b] -> no_split_crlf [a; b].
Proof.
  intros H x y cs cs' E. destruct cs as [|? cs].
  - injection E. intros _ <- <-. exact H.
  - destruct cs as [|? []]; discriminate.
Qed.
Lemma linereader_short_read_refuted_pf : exists chunks, proper 2047 chunks /\ no_split_crlf chunks /\
  lines (concat chunks) = [[97; 98; 99; 100]] /\
  calls 2047 (2 ^ 64 - 1) 3 (lr_init (source chunks)) = [NLine [97; 98]; NLine [99; 100]; NEnd].
Proof.
  exists [[97; 98]; [99; 100; 10]]. split; [|split; [|split]].
  - repeat constructor; discriminate.
  - apply nsc2. right. intros [y Hy]. discriminate.
  - reflexivity.
  - reflexivity.
Qed.
Lemma full1 page c : full_reads page [c].
Proof. intros x cs cs' E H. destruct cs as [|? [|]]; try discriminate. injection E. intros <-. congruence. Qed.
Lemma full2 page c d : len c = page -> full_reads page [c; d].
Proof.
  intros Hc x cs cs' E H. destruct cs as [|? [|? [|]]]; try discriminate.
  - injection E. intros _ <-. exact Hc.
  - injection E. intros <-. congruence.
Qed.
Lemma linereader_crlf_refuted_pf : exists chunks chunks', proper 2047 chunks /\ full_reads 2047 chunks /\
  proper 4095 chunks' /\ full_reads 4095 chunks' /\ concat chunks = concat chunks' /\
  calls 4095 (2 ^ 64 - 1) 2 (lr_init (source chunks')) = [NLine (repeat 97 2046); NEnd] /\
  calls 2047 (2 ^ 64 - 1) 2 (lr_init (source chunks)) = [NLine (repeat 97 2046 ++ [CR]); NEnd].
Proof.
  exists [repeat 97 2046 ++ [CR]; [LF]], [repeat 97 2046 ++ [CR; LF]].
  split; [|split; [|split; [|split; [|split; [|split]]]]].
  - repeat constructor; vm_compute; congruence.
  - apply full2. vm_compute. reflexivity.
  - repeat constructor; vm_compute; congruence.
  - apply full1.
  - cbn [concat]. now rewrite <- app_assoc.
  - vm_compute. reflexivity.
  - vm_compute. reflexivity.
Qed.
Lemma cut_none c : ~ In LF c -> cut c = None.
Proof.
  induction c as [|b c IH]; simpl; auto. intros H. destruct (N.eqb_spec b LF) as [->|]; [destruct H; auto|].
  rewrite IH by tauto. reflexivity.
Qed.
Lemma linereader_error_pf page limit c e rs : 0 < len c < page -> ~ In LF c -> len c < limit ->
  calls page limit 3 (lr_init (RData c :: RErr e :: rs)) = [NLine c; NErr e] ++ calls page limit 1 (lr_init rs).
Proof.
  intros Hc Hn Hl. unfold calls, Next, lr_init. cbn [rest full answers next cut scr_list].
  replace (len c =? 0) with false by (symmetry; apply N.eqb_neq; lia).
  replace (page <? len c) with false by (symmetry; apply N.ltb_ge; lia).
  rewrite (cut_none c Hn). replace (len c =? page) with false by (symmetry; apply N.eqb_neq; lia).
  rewrite len_nil, N.add_0_r. replace (limit <=? len c) with false by (symmetry; apply N.leb_gt; lia).
  destruct c as [|b c]; [destruct Hc as [Hc _]; now apply N.lt_irrefl in Hc|]. cbn [rest full answers next cut scr_list app].
  destruct (next page limit [] false None rs). reflexivity.
Qed.
Lemma nsc3 a b c : edge_ok a [b] -> edge_ok b [c] -> no_split_crlf [a; b; c].
Proof.
  intros H1 H2 x y cs cs' E. destruct cs as [|? [|? cs]].
  - injection E. intros _ <- <-. exact H1.
  - injection E. intros _ <- <- _. exact H2.
  - destruct cs as [|? []]; discriminate.
Qed.
Lemma linereader_demo_pf : let chunks := [[97; 10; 10; 98]; [99; 13; 10; 100]; [13; 101]] in
  proper 4 chunks /\ full_reads 4 chunks /\ no_split_crlf chunks /\ short_lines 100 (concat chunks) /\
  calls 4 100 6 (lr_init (source chunks)) = [NLine [97]; NLine []; NLine [98; 99]; NLine [100; 13; 101]; NEnd; NEnd].
Proof.
  cbv zeta. split; [|split; [|split; [|split]]].
  - repeat constructor; vm_compute; congruence.
  - intros c cs cs' E H. destruct cs as [|? [|? [|? []]]]; try discriminate;
      injection E; intros; subst; try reflexivity. congruence.
  - apply nsc3; right; intros [y Hy]; discriminate.
  - apply short_le. reflexivity.
  - reflexivity.
Qed.
