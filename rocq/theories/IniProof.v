From Verif Require Import Util IoStreamModel LineModel LineSpec LineProof IniModel IniSpec.
Open Scope N_scope.

Lemma isspace_iff b : isspace b = true <-> space b.
Proof. unfold isspace, space. lia. Qed.
Lemma isspace_false b : isspace b = false <-> ~ space b.
Proof. rewrite <- isspace_iff. destruct (isspace b); intuition congruence. Qed.
Lemma seqb_eq a b : seqb a b = true <-> a = b.
Proof. unfold seqb. destruct (list_eq_dec N.eq_dec a b); intuition congruence. Qed.
Lemma seqb_refl a : seqb a a = true. Proof. now apply seqb_eq. Qed.
Lemma seqb_sym a b : seqb a b = seqb b a.
Proof. destruct (seqb b a) eqn:E. apply seqb_eq. symmetry. now apply seqb_eq.
  destruct (seqb a b) eqn:E2; auto. apply seqb_eq in E2. subst. rewrite seqb_refl in E. congruence. Qed.

(** ** blanks *)
Lemma ltrim_spaces a x : Forall space a -> ltrim (a ++ x) = ltrim x.
Proof. induction 1 as [|b a Hb Ha IH]; simpl; auto. apply isspace_iff in Hb. now rewrite Hb. Qed.
Lemma ltrim_id t : (forall x y, t = x :: y -> ~ space x) -> ltrim t = t.
Proof. destruct t as [|b t]; simpl; auto. intros H. assert (H' := H b t eq_refl). apply isspace_false in H'. now rewrite H'. Qed.
Lemma ltrim_split s : exists a, s = a ++ ltrim s /\ Forall space a /\ (forall x y, ltrim s = x :: y -> ~ space x).
Proof.
  induction s as [|b s IH]; simpl.
  - exists []. repeat split; auto. discriminate.
  - destruct (isspace b) eqn:E.
    + destruct IH as (a & H1 & H2 & H3). exists (b :: a). split; [simpl; congruence|]. split; auto. constructor; auto. now apply isspace_iff.
    + exists []. split; [reflexivity|]. split; auto. intros x y [= -> ->]. now apply isspace_false.
Qed.
Lemma Forall_rev' {A} (P : A -> Prop) l : Forall P l -> Forall P (rev l).
Proof. rewrite !Forall_forall. intros H x Hx. apply H. now apply in_rev. Qed.
Lemma strip_trims s : trims s (strip s).
Proof.
  unfold strip. destruct (ltrim_split s) as (a & H1 & H2 & H3).
  destruct (ltrim_split (rev (ltrim s))) as (b & H4 & H5 & H6).
  set (t := ltrim (rev (ltrim s))) in *. exists a, (rev b).
  assert (E : ltrim s = rev t ++ rev b) by (rewrite <- rev_app_distr, <- H4; symmetry; apply rev_involutive).
  split; [|split; [|split; [|split]]]; auto.
  - rewrite <- E. exact H1.
  - now apply Forall_rev'.
  - intros x y Ht. apply (H3 x (y ++ rev b)). rewrite E, Ht. reflexivity.
  - intros x y Ht. apply (H6 x (rev y)). rewrite <- (rev_involutive t), Ht, rev_app_distr. reflexivity.
Qed.
Lemma trims_strip s t : trims s t -> t = strip s.
Proof.
  intros (a & b & -> & Ha & Hb & H1 & H2). unfold strip. rewrite ltrim_spaces by assumption.
  destruct t as [|x t].
  - simpl. assert (E : ltrim b = []) by (rewrite <- (app_nil_r b), ltrim_spaces by assumption; reflexivity). now rewrite E.
  - simpl app. rewrite (ltrim_id (x :: t ++ b)) by (intros p q [= <- _]; now apply (H1 _ t)).
    rewrite app_comm_cons, rev_app_distr, ltrim_spaces by now apply Forall_rev'.
    rewrite ltrim_id. now rewrite rev_involutive.
    intros p q E. apply (H2 p (rev q)). rewrite <- (rev_involutive (x :: t)), E. reflexivity.
Qed.
Lemma trims_iff s t : trims s t <-> t = strip s.
Proof. split. apply trims_strip. intros ->. apply strip_trims. Qed.
Lemma strip_app_space s q : Forall space q -> strip (s ++ q) = strip s.
Proof.
  intros Hq. symmetry. apply trims_strip. destruct (strip_trims s) as (a & b & H1 & H2 & H3 & H4).
  exists a, (b ++ q). split; [rewrite H1 at 1; rewrite <- !app_assoc; reflexivity|].
  split; auto. split; auto. now apply Forall_app.
Qed.
Lemma strip_space_app p s : Forall space p -> strip (p ++ s) = strip s.
Proof.
  intros Hp. symmetry. apply trims_strip. destruct (strip_trims s) as (a & b & H1 & H2 & H3 & H4).
  exists (p ++ a), b. split; [rewrite H1 at 1; rewrite <- !app_assoc; reflexivity|].
  split; auto. now apply Forall_app.
Qed.

(** ** comments *)
Lemma uncomment_spec l : before_comment l (uncomment l).
Proof.
  induction l as [|b l IH]; simpl.
  - exists []. repeat split; auto.
  - destruct ((b =? SEMI) || (b =? HASH))%bool eqn:E.
    + exists (b :: l). repeat split; auto. right. exists b, l. split; auto. apply orb_true_iff in E. rewrite !N.eqb_eq in E. exact E.
    + destruct IH as (c & H1 & H2 & H3 & H4). exists c. apply orb_false_iff in E. rewrite !N.eqb_neq in E.
      split; [simpl; congruence|]. split; [|split]; auto; simpl; intuition congruence.
Qed.
Lemma uncomment_app t c : ~ In SEMI t -> ~ In HASH t -> uncomment (t ++ c) = t ++ uncomment c.
Proof.
  induction t as [|b t IH]; simpl; auto. intros H1 H2.
  replace ((b =? SEMI) || (b =? HASH))%bool with false. rewrite IH by tauto. reflexivity.
  symmetry. apply orb_false_iff. rewrite !N.eqb_neq. intuition congruence.
Qed.
Lemma uncomment_comment c : comment c -> uncomment c = [].
Proof. intros (b & o & -> & H). simpl. replace ((b =? SEMI) || (b =? HASH))%bool with true; auto. symmetry. apply orb_true_iff. now rewrite !N.eqb_eq. Qed.
Lemma before_comment_iff l t : before_comment l t <-> t = uncomment l.
Proof.
  split; [|intros ->; apply uncomment_spec]. intros (c & -> & H1 & H2 & H3). rewrite uncomment_app by assumption.
  destruct H3 as [->|H3]; [|rewrite uncomment_comment by assumption]; symmetry; apply app_nil_r.
Qed.
Lemma no_comment t : ~ In SEMI t -> ~ In HASH t -> uncomment t = t.
Proof. intros. rewrite <- (app_nil_r t) at 1. rewrite uncomment_app by assumption. apply app_nil_r. Qed.
Lemma space_no_comment q : Forall space q -> ~ In SEMI q /\ ~ In HASH q /\ ~ In EQS q.
Proof.
  intros H. rewrite Forall_forall in H. unfold SEMI, HASH, EQS.
  repeat split; intros Hi; apply H in Hi; unfold space in Hi; lia.
Qed.

(** ** brackets, = *)
Lemma inside_iff u x : inside u = Some x <-> bracketed u x.
Proof.
  unfold inside, bracketed. destruct u as [|b u]; [split; discriminate|]. destruct (N.eqb_spec b LBR) as [->|Hn].
  - destruct (exists_last_or_nil u) as [->|(m & e & ->)]; simpl.
    + split; [discriminate|]. intros [= H]. destruct x; discriminate.
    + rewrite rev_app_distr. simpl. destruct (N.eqb_spec e RBR) as [->|He].
      * rewrite rev_involutive. split; [intros [= ->]; auto|]. intros [= H]. apply app_inj_tail in H. destruct H. now subst.
      * split; [discriminate|]. intros [= H]. apply app_inj_tail in H. tauto.
  - split; [discriminate|]. congruence.
Qed.
Lemma inside_none u : inside u = None <-> forall x, ~ bracketed u x.
Proof.
  split.
  - intros H x Hx. apply inside_iff in Hx. congruence.
  - intros H. destruct (inside u) as [x|] eqn:E; auto. exfalso. apply (H x). now apply inside_iff.
Qed.
Lemma split_iff u a b : split_eq u = Some (a, b) <-> u = a ++ EQS :: b /\ ~ In EQS a.
Proof.
  revert a b. induction u as [|x u IH]; intros a b; simpl.
  - split; [discriminate|]. intros [H _]. destruct a; discriminate.
  - destruct (N.eqb_spec x EQS) as [->|Hx].
    + split. intros [= <- <-]; auto. intros [H Hn]. destruct a as [|y a]; simpl in *. congruence. injection H as <- ?. tauto.
    + destruct (split_eq u) as [[a' b']|] eqn:E.
      * destruct (proj1 (IH a' b') eq_refl) as [H1 H2]. split.
        -- intros [= <- <-]. subst u. split; auto. simpl. intuition.
        -- intros [H Hn]. destruct a as [|y a]; simpl in *; [congruence|]. injection H as <- H.
           assert (Some (a', b') = Some (a, b)) by (apply IH; split; auto). congruence.
      * split; [discriminate|]. intros [H Hn]. destruct a as [|y a]; simpl in *; [congruence|]. injection H as <- H.
        assert (None = Some (a, b)) by (apply IH; split; auto). congruence.
Qed.
Lemma split_none u : split_eq u = None <-> ~ In EQS u.
Proof.
  split.
  - intros H Hi. induction u as [|x u IH]; simpl in *; auto. destruct (N.eqb_spec x EQS); [discriminate|].
    destruct (split_eq u) as [[]|]; [discriminate|]. destruct Hi; auto.
  - intros H. destruct (split_eq u) as [[a b]|] eqn:E; auto. apply split_iff in E. destruct E as [-> _]. exfalso. apply H. apply in_elt.
Qed.

(** ** the meaning of a line as a function *)
Definition kind_of (u : list N) : item :=
  match u with
  | [] => INone
  | _ => match inside u with
         | Some x => ISec (strip x)
         | None => match split_eq u with Some (a, b) => IEnt (strip a) (strip b) | None => INone end
         end
  end.
Definition kind (l : list N) : item := kind_of (strip (uncomment l)).
Lemma means_iff l i : means l i <-> i = kind l.
Proof.
  split.
  - intros H. unfold kind, kind_of. destruct H as [t B T|t u x name B T X Y|t u a b k v B T X Y Z K V|t u B T X Y Z];
      apply before_comment_iff in B; subst t; apply trims_iff in T.
    + now rewrite <- T.
    + rewrite <- T. assert (E := X). apply inside_iff in E. rewrite E. apply trims_iff in Y. subst name.
      destruct u; [discriminate|reflexivity].
    + rewrite <- T. apply inside_none in X. rewrite X. assert (E : split_eq u = Some (a, b)) by now apply split_iff.
      rewrite E. apply trims_iff in K, V. subst k v. destruct u; [discriminate|reflexivity].
    + rewrite <- T. apply inside_none in Y. rewrite Y. apply split_none in Z. rewrite Z. now destruct u.
  - intros ->. unfold kind. assert (B := uncomment_spec l). assert (T := strip_trims (uncomment l)).
    set (u := strip (uncomment l)) in *. unfold kind_of. destruct u as [|b u'] eqn:Eu; [econstructor; eauto|].
    rewrite <- Eu in *. clearbody u. destruct (inside u) as [x|] eqn:Ex.
    + apply inside_iff in Ex. econstructor; eauto. apply strip_trims.
    + assert (Ex' := proj1 (inside_none u) Ex). destruct (split_eq u) as [[a c]|] eqn:Es.
      * apply split_iff in Es. destruct Es. eapply m_entry; eauto; apply strip_trims.
      * apply split_none in Es. eapply m_other; eauto. congruence.
Qed.

(** The text the code looks at: the blanks before a comment are still there. *)
Lemma code_text l : exists q, Forall space q /\ uncomment (strip l) = strip (uncomment l) ++ q /\
  (q <> [] -> exists p c, l = p ++ strip (uncomment l) ++ q ++ c /\ Forall space p /\ comment c).
Proof.
  destruct (strip_trims l) as (a & b & H1 & Ha & Hb & Hf & Hl). set (s := strip l) in *.
  destruct (uncomment_spec s) as (c & Es & N1 & N2 & Hc). set (m := uncomment s) in *.
  destruct (space_no_comment a Ha) as (A1 & A2 & _). destruct (space_no_comment b Hb) as (B1 & B2 & _).
  destruct Hc as [->|Hc].
  - exists []. split; auto. rewrite app_nil_r in Es. split; [|congruence]. rewrite app_nil_r.
    assert (E : uncomment l = l).
    { rewrite H1. rewrite Es. apply no_comment; rewrite !in_app_iff; tauto. }
    rewrite E. fold s. congruence.
  - assert (E : uncomment l = a ++ m).
    { rewrite H1, Es, <- app_assoc. rewrite uncomment_app by assumption. rewrite uncomment_app by assumption.
      destruct Hc as (x & o & -> & Hc).
      change ((x :: o) ++ b) with (x :: o ++ b).
      rewrite (uncomment_comment (x :: o ++ b)) by (exists x, (o ++ b); auto). rewrite app_nil_r. reflexivity. }
    rewrite E. rewrite strip_space_app by assumption.
    destruct (strip_trims m) as (a' & q & Em & Ha' & Hq & Hf' & Hl').
    assert (a' = []).
    { destruct a' as [|y a']; auto. exfalso. apply (Hf y (a' ++ strip m ++ q ++ c)).
      rewrite Es. rewrite Em at 1. simpl. f_equal. rewrite <- !app_assoc. reflexivity. inversion Ha'; auto. }
    subst a'. simpl in Em. exists q. split; auto. split; auto. intros _. exists a, (c ++ b). split; [|split; auto].
    + rewrite H1, Es. rewrite Em at 1. rewrite <- !app_assoc. reflexivity.
    + destruct Hc as (x & o & -> & Hc). exists x, (o ++ b). auto.
Qed.
Lemma kind_code l : ~ header_blank_comment l -> kind_of (uncomment (strip l)) = kind l.
Proof.
  intros Hh. unfold kind. destruct (code_text l) as (q & Hq & E & Hc). rewrite E.
  set (u := strip (uncomment l)) in *.
  destruct (space_no_comment q Hq) as (_ & _ & Q3).
  assert (Tu := strip_trims (uncomment l)). fold u in Tu.
  destruct u as [|b u'] eqn:Eu.
  - (* the text starts with a non-blank *)
    simpl in *. assert (q = []) as ->; [|reflexivity]. destruct q as [|x q]; auto. exfalso.
    destruct (strip_trims l) as (a & b & H1 & Ha & Hb & Hf & Hl). destruct (uncomment_spec (strip l)) as (c & Es & _).
    rewrite E in Es. apply (Hf x (q ++ c)); auto. inversion Hq; auto.
  - rewrite <- Eu in *. clearbody u. unfold kind_of. rewrite Eu at 1. simpl app.
    change (match b :: u' ++ q with [] => INone | _ :: _ => ?x end) with x.
    assert (EI : inside (u ++ q) = inside u).
    { destruct (exists_last_or_nil q) as [->|(q' & e & ->)]; [now rewrite app_nil_r|].
      assert (He : space e) by (apply Forall_app in Hq; destruct Hq as [_ Hq]; inversion Hq; auto).
      transitivity (@None (list N)).
      - apply inside_none. intros x Hx. unfold bracketed in Hx. rewrite app_assoc, app_comm_cons in Hx.
        apply app_inj_tail in Hx. destruct Hx as [_ ->]. unfold space, RBR in He. lia.
      - symmetry. apply inside_none. intros x Hx. apply Hh.
        destruct Hc as (p & c & Hl & Hp & Hcc); [destruct q'; discriminate|].
        exists p, x, (q' ++ [e]), c. rewrite Hl at 1. unfold bracketed in Hx.
        assert (Nc : ~ In SEMI u /\ ~ In HASH u).
        { destruct (uncomment_spec l) as (c' & Ec & N1 & N2 & _). destruct Tu as (a0 & b0 & Et & _).
          rewrite Et in N1, N2. rewrite !in_app_iff in N1, N2. tauto. }
        rewrite Hx in Nc |- *. simpl in Nc. rewrite !in_app_iff in Nc.
        split. { simpl. rewrite <- !app_assoc. reflexivity. }
        split; [tauto|]. split; [tauto|]. split; auto. split; auto. split; auto. destruct q'; discriminate. }
    rewrite EI. rewrite Eu at 2. destruct (inside u) as [x|]; auto.
    destruct (split_eq u) as [[a c]|] eqn:Es.
    + apply split_iff in Es. destruct Es as [Es Hn].
      assert (E2 : split_eq (u ++ q) = Some (a, c ++ q)) by (apply split_iff; rewrite Es, <- app_assoc; auto).
      rewrite E2. now rewrite strip_app_space.
    + apply split_none in Es. assert (E2 : split_eq (u ++ q) = None) by (apply split_none; rewrite in_app_iff; tauto).
      now rewrite E2.
Qed.

(** ** maps *)
Lemma aget_aset {V} (m : amap V) k k' v : aget (aset m k v) k' = if seqb k' k then Some v else aget m k'.
Proof.
  induction m as [|[x y] m IH]; simpl. now destruct (seqb k' k).
  destruct (seqb k x) eqn:E; simpl.
  - apply seqb_eq in E. subst x. destruct (seqb k' k); auto.
  - rewrite IH. destruct (seqb k' x) eqn:E2; auto. apply seqb_eq in E2. subst x. rewrite seqb_sym, E. reflexivity.
Qed.
Lemma get_touch r n sec key : get (touch r n) sec key = get r sec key.
Proof.
  unfold get, touch. destruct (aget r n) eqn:E; auto. rewrite aget_aset. destruct (seqb sec n) eqn:E2; auto.
  apply seqb_eq in E2. subst. now rewrite E.
Qed.
Lemma has_touch r n sec : has (touch r n) sec = (seqb sec n || has r sec)%bool.
Proof.
  unfold has, touch. destruct (aget r n) eqn:E.
  - destruct (seqb sec n) eqn:E2; auto. apply seqb_eq in E2. subst. now rewrite E.
  - rewrite aget_aset. destruct (seqb sec n); auto.
Qed.
Lemma get_assign r n k v sec key : get (assign r n k v) sec key = if (seqb key k && seqb sec n)%bool then Some v else get r sec key.
Proof.
  unfold get, assign. rewrite aget_aset. destruct (seqb sec n) eqn:E; [|now rewrite andb_false_r].
  apply seqb_eq in E. subst sec. rewrite aget_aset, andb_true_r. destruct (seqb key k); auto. destruct (aget r n); auto.
Qed.
Lemma has_assign r n k v sec : has (assign r n k v) sec = (seqb sec n || has r sec)%bool.
Proof. unfold has, assign. rewrite aget_aset. destruct (seqb sec n); auto. Qed.

(** ** the run *)
Fixpoint secs (h : list item) (sec : list N) : Prop :=
  match h with
  | [] => False
  | ISec n :: h' => sec = n \/ secs h' sec
  | IEnt _ _ :: h' => sec = current h' \/ secs h' sec
  | INone :: h' => secs h' sec
  end.
Definition Rel (st : contents * option (list N)) (h : list item) : Prop :=
  (forall sec key, get (fst st) sec key = value h sec key) /\
  (match snd st with Some n => n = current h | None => current h = [] end) /\
  (forall sec, has (fst st) sec = true <-> secs h sec).
Lemma ini_line_rel st h l : ~ header_blank_comment l -> Rel st h -> Rel (ini_line st l) (kind l :: h).
Proof.
  intros Hh (G & C & S). rewrite <- (kind_code l Hh). destruct st as [r cur]. unfold ini_line, kind_of.
  destruct (uncomment (strip l)) as [|b m] eqn:E; [split; [|split]; auto|]. rewrite <- E. clear E.
  simpl fst in *. simpl snd in *.
  destruct (inside _) as [x|].
  - split; [|split]; simpl; auto.
    + intros. now rewrite get_touch.
    + intros sec. rewrite has_touch, orb_true_iff, seqb_eq, S. tauto.
  - destruct (split_eq _) as [[k v]|]; [|split; [|split]; auto].
    assert (D : exists r', (match cur with Some n => (r, n) | None => (touch r [], []) end) = (r', current h) /\
              (forall sec key, get r' sec key = get r sec key) /\ (forall sec, has r' sec = true -> sec = current h \/ has r sec = true) /\
              (forall sec, has r sec = true -> has r' sec = true)).
    { destruct cur as [n|].
      - subst n. exists r. auto.
      - exists (touch r []). rewrite C. split; auto. split; [intros; apply get_touch|]. split; intros sec; rewrite has_touch, orb_true_iff, seqb_eq; tauto. }
    destruct D as (r' & -> & D1 & D2 & D3). split; [|split]; simpl; auto.
    + intros. now rewrite get_assign, D1, G.
    + intros sec. rewrite has_assign, orb_true_iff, seqb_eq. split.
      * intros [H|H]; auto. apply D2 in H. rewrite S in H. tauto.
      * intros [H|H]; auto. right. apply D3. now apply S.
Qed.
Lemma fold_rel ls : forall st h, Rel st h -> Forall (fun l => ~ header_blank_comment l) ls ->
  Rel (fold_left ini_line ls st) (rev (map kind ls) ++ h).
Proof.
  induction ls as [|l ls IH]; intros st h R F; simpl; auto. inversion F; subst.
  rewrite <- app_assoc. simpl. apply IH; auto. now apply ini_line_rel.
Qed.
Lemma secs_iff its sec : secs (rev its) sec <-> exists_section its sec.
Proof.
  unfold exists_section. induction its as [|i its IH] using rev_ind.
  - simpl. split; [tauto|]. intros [[]|(p & k & v & o & H & _)]. destruct p; discriminate.
  - rewrite rev_app_distr. simpl. assert (A : forall p k v o, its ++ [i] = p ++ IEnt k v :: o ->
      (o = [] /\ p = its /\ i = IEnt k v) \/ exists o', its = p ++ IEnt k v :: o').
    { intros p k v o H. destruct (exists_last_or_nil o) as [->|(o' & e & ->)].
      - apply app_inj_tail in H. left. intuition.
      - right. exists o'. rewrite app_comm_cons, app_assoc in H. now apply app_inj_tail in H. }
    assert (B : (exists p k v o, its = p ++ IEnt k v :: o /\ current (rev p) = sec) ->
                exists p k v o, its ++ [i] = p ++ IEnt k v :: o /\ current (rev p) = sec).
    { intros (p & k & v & o & -> & Hc). exists p, k, v, (o ++ [i]). rewrite <- app_assoc. auto. }
    assert (C : (exists p k v o, its ++ [i] = p ++ IEnt k v :: o /\ current (rev p) = sec) ->
                (exists k v, i = IEnt k v /\ current (rev its) = sec) \/ exists p k v o, its = p ++ IEnt k v :: o /\ current (rev p) = sec).
    { intros (p & k & v & o & H & Hc). destruct (A p k v o H) as [(-> & -> & ->)|(o' & ->)]; [left; eauto|right; eauto 6]. }
    rewrite in_app_iff. simpl. destruct i as [|n|k v]; rewrite IH.
    + split.
      * intros [H|H]; auto.
      * intros [[H|[H|[]]]|H]; auto; try discriminate. destruct (C H) as [(?&?&?&_)|?]; auto; discriminate.
    + split.
      * intros [->|[H|H]]; auto.
      * intros [[H|[H|[]]]|H]; auto. injection H; auto. destruct (C H) as [(?&?&?&_)|?]; auto; discriminate.
    + split.
      * intros [->|[H|H]]; auto. right. exists its, k, v, []. auto.
      * intros [[H|[H|[]]]|H]; auto; try discriminate. destruct (C H) as [(?&?&_&?)|?]; auto.
Qed.
Lemma ini_loop_lines ls n : forall st, (length ls < n)%nat ->
  ini_loop st (map (answer ls) (seq 0 n)) = IniOk (fst (fold_left ini_line ls st)).
Proof.
  revert n. induction ls as [|l ls IH]; intros n st Hn; (destruct n as [|n]; [simpl in Hn; lia|]); simpl; auto.
  rewrite <- seq_shift, map_map. erewrite map_ext. apply IH. simpl in Hn; lia. reflexivity.
Qed.
Lemma ini_parse_pf chunks n its : proper ini_page chunks -> full_reads ini_page chunks -> no_split_crlf chunks ->
  short_lines ini_limit (concat chunks) -> Forall2 means (lines (concat chunks)) its ->
  Forall (fun l => ~ header_blank_comment l) (lines (concat chunks)) -> (length (lines (concat chunks)) < n)%nat ->
  exists c, Parse n (source chunks) = IniOk c /\
    (forall sec key, get c sec key = value (rev its) sec key) /\
    (forall sec, has c sec = true <-> exists_section its sec).
Proof.
  intros P F NS L M H Hn. unfold Parse. rewrite linereader_lines_pf by assumption.
  rewrite ini_loop_lines by assumption. eexists. split; [reflexivity|].
  assert (Ei : its = map kind (lines (concat chunks))).
  { clear -M. induction M as [|l i ls is Hm M IH]; simpl; auto. apply means_iff in Hm. congruence. }
  destruct (fold_rel (lines (concat chunks)) ([], None) []) as (G & _ & S); auto.
  { split; [|split]; simpl; auto. intros sec. split; [discriminate|tauto]. }
  rewrite app_nil_r in G, S. subst its. split; auto. intros sec. rewrite S. apply secs_iff.
Qed.
Lemma ini_means_pf l : exists i, means l i /\ forall j, means l j -> j = i.
Proof. exists (kind l). split. now apply means_iff. intros j. apply means_iff. Qed.
Lemma means_kinds ls : Forall2 means ls (map kind ls).
Proof. induction ls; simpl; constructor; auto. now apply means_iff. Qed.
Lemma ini_header_comment_refuted_pf : exists text its c,
  Forall2 means (lines text) its /\ Parse 9 (source [text]) = IniOk c /\
  value (rev its) [98] [107] = Some [49] /\ get c [98] [107] = None /\ get c [97] [107] = Some [49].
Proof.
  exists [91;97;93;10; 91;98;93;32;59;120;10; 107;61;49]. eexists. eexists. split; [apply means_kinds|].
  split; [vm_compute; reflexivity|]. vm_compute. auto.
Qed.
Lemma hbc_comment l : header_blank_comment l -> uncomment l <> l /\ In LBR (uncomment l).
Proof.
  intros (p & x & q & c & -> & X1 & X2 & Hp & Hq & Hn & Hc).
  destruct (space_no_comment p Hp) as (P1 & P2 & _). destruct (space_no_comment q Hq) as (Q1 & Q2 & _).
  replace (p ++ LBR :: x ++ RBR :: q ++ c) with ((p ++ LBR :: x ++ RBR :: q) ++ c)
    by (rewrite <- app_assoc; simpl; rewrite <- app_assoc; reflexivity).
  rewrite uncomment_app, uncomment_comment by
    (auto; rewrite in_app_iff; simpl; rewrite in_app_iff; simpl; unfold LBR, RBR, SEMI, HASH in *; intuition discriminate).
  rewrite app_nil_r. split.
  - intros E. rewrite <- (app_nil_r (p ++ _)) in E at 1. apply app_inv_head in E. destruct Hc as (b & o & -> & _). discriminate.
  - rewrite in_app_iff. simpl. auto.
Qed.
Definition hbc_no (l : list N) : bool := (seqb (uncomment l) l || negb (existsb (N.eqb LBR) (uncomment l)))%bool.
Lemma hbc_no_ok l : hbc_no l = true -> ~ header_blank_comment l.
Proof.
  unfold hbc_no. intros H Hh. apply hbc_comment in Hh. destruct Hh as [H1 H2]. apply orb_true_iff in H. destruct H as [H|H].
  - apply seqb_eq in H. congruence.
  - apply negb_true_iff in H. assert (existsb (N.eqb LBR) (uncomment l) = true); [|congruence].
    apply existsb_exists. exists LBR. split; auto.
Qed.
Lemma ini_demo_pf : let text := [32;122;32;61;32;48;32;59;99;10; 10; 91;32;115;32;93;13;10; 107;61;32;118;32;49;32;10;
    107;61;50;35;10; 106;117;110;107;10; 91;115;93;10; 109;61;61] in
  exists its c, proper ini_page [text] /\ full_reads ini_page [text] /\ no_split_crlf [text] /\
    short_lines ini_limit (concat [text]) /\ Forall2 means (lines text) its /\
    Forall (fun l => ~ header_blank_comment l) (lines text) /\ Parse 10 (source [text]) = IniOk c /\
    its = [IEnt [122] [48]; INone; ISec [115]; IEnt [107] [118;32;49]; IEnt [107] [50]; INone; ISec [115]; IEnt [109] [61]] /\
    get c [] [122] = Some [48] /\ get c [115] [107] = Some [50] /\ get c [115] [109] = Some [61] /\ get c [115] [122] = None.
Proof.
  cbv zeta. set (text := _ : list N). exists (map kind (lines text)).
  eexists. split; [|split; [|split; [|split; [|split; [|split; [|split]]]]]].
  - constructor; auto. vm_compute. split; congruence.
  - apply full1.
  - intros x y a b E. destruct a as [|? []]; discriminate.
  - apply short_le. vm_compute. reflexivity.
  - apply means_kinds.
  - assert (H : forallb hbc_no (lines text) = true) by (vm_compute; reflexivity).
    rewrite forallb_forall in H. apply Forall_forall. intros l Hl. apply hbc_no_ok. auto.
  - vm_compute. reflexivity.
  - vm_compute. auto.
Qed.
Lemma ini_error_pf c e rs n : 0 < len c < ini_page -> ~ In LF c ->
  Parse (S (S n)) (RData c :: RErr e :: rs) = IniErr e.
Proof.
  intros Hc Hn. unfold Parse. assert (H := linereader_error_pf ini_page ini_limit c e rs Hc Hn).
  assert (E : forall k s, exists t, calls ini_page ini_limit (S (S k)) s = firstn 2 (calls ini_page ini_limit 3 s) ++ t).
  { intros k s. cbn [calls]. destruct (Next ini_page ini_limit s) as [x1 s1]. destruct (Next ini_page ini_limit s1) as [x2 s2].
    destruct (Next ini_page ini_limit s2) as [x3 s3]. simpl. eauto. }
  destruct (E n (lr_init (RData c :: RErr e :: rs))) as [t ->]. rewrite H. simpl. destruct (ini_line ([], None) c). reflexivity.
  unfold ini_page in Hc. unfold ini_limit, two64. lia.
Qed.
