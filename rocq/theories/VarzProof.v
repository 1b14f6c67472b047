(** Proofs for C88. *)
From Verif Require Import Util Conc VarzModel VarzSpec.
From Coq Require Import Lia.

(** ** The list *)
Definition adr (l : list (nat * option (list N))) : option nat := match l with [] => None | (a, _) :: _ => Some a end.
(** [p]: what the first node's prev_ must be, if anything. *)
Fixpoint chain (m : nat -> option node) (p : option nat) (l : list (nat * option (list N))) : Prop :=
  match l with
  | [] => True
  | (a, nm) :: r => (exists pv, m a = Some (Node nm (adr r) pv) /\ (p = None \/ pv = p)) /\ chain m (Some a) r
  end.
Record rep (h : heap) (l : list (nat * option (list N))) : Prop := {
  rH : head h = adr l; rC : chain (mem h) None l; rN : NoDup (map fst l);
  rD : forall a, ~ In a (map fst l) -> mem h a = None }.

Lemma chain_ext m m' l : forall p, (forall a, In a (map fst l) -> m' a = m a) -> chain m p l -> chain m' p l.
Proof.
  induction l as [|[a nm] r IH]; intros p He; cbn; auto. intros [(pv & E & H) Hc]. split.
  - exists pv. rewrite He; cbn; auto.
  - apply IH; auto. intros. apply He. now right.
Qed.
Lemma chain_weak m p l : chain m p l -> chain m None l.
Proof. destruct l as [|[a nm] r]; cbn; auto. intros [(pv & E & H) Hc]. split; auto. exists pv. auto. Qed.
Lemma chain_live m p l a : chain m p l -> In a (map fst l) -> m a <> None.
Proof.
  revert p. induction l as [|[b nm] r IH]; intros p; cbn; [tauto|]. intros [(pv & E & _) Hc] [<-|Hi]; [congruence|]. eauto.
Qed.

Lemma new_rep h l a name : rep h l -> mem h a = None ->
  exists h', construct h a name = Next h' /\ rep h' ((a, name) :: l).
Proof.
  intros R Ha. assert (Hni : ~ In a (map fst l)). { intros Hi. eapply chain_live; eauto. apply R. }
  unfold construct. rewrite (rH _ _ R). destruct l as [|[b nb] r]; cbn [adr].
  - eexists. split; [reflexivity|]. constructor; cbn; auto.
    + split; auto. exists None. rewrite upd_eq. auto.
    + constructor; auto. constructor.
    + intros x Hx. rewrite upd_neq by intuition. apply R. auto.
  - destruct (rC _ _ R) as [(pv & Eb & _) Hc]. unfold set_prev. rewrite Eb. cbn [n_name n_next].
    eexists. split; [reflexivity|]. pose proof (rN _ _ R) as Hn. cbn in Hn, Hni. inversion Hn; subst.
    constructor; cbn; auto.
    + split; [exists None; rewrite upd_eq; auto|]. split.
      * exists (Some a). rewrite upd_neq, upd_eq by intuition. auto.
      * eapply chain_ext; [|exact Hc]. intros x Hx. rewrite !upd_neq; auto; intros ->; tauto.
    + constructor; auto.
    + intros x Hx. rewrite !upd_neq by intuition. apply R. cbn. tauto.
Qed.

Lemma filter_notin (a : nat) (l : list (nat * option (list N))) : ~ In a (map fst l) -> filter (fun p => negb (fst p =? a)) l = l.
Proof.
  induction l as [|[b n] r IH]; cbn; auto. intros H. destruct (Nat.eqb_spec b a); [subst; tauto|]. cbn. rewrite IH; tauto.
Qed.

(** Nodes behind the first. *)
Definition cut (m : nat -> option node) (x a : nat) (nx : option (list N)) (px : option nat) (r : list (nat * option (list N))) : nat -> option node :=
  upd (upd (match r with (b, nb) :: r' => upd m b (Some (Node nb (adr r') (Some x))) | [] => m end) x (Some (Node nx (adr r) px))) a None.
Lemma cut_chain m x nx a na r : forall l1 p, NoDup (map fst (l1 ++ (x, nx) :: (a, na) :: r)) ->
  chain m p (l1 ++ (x, nx) :: (a, na) :: r) ->
  exists px, m x = Some (Node nx (Some a) px) /\ m a = Some (Node na (adr r) (Some x)) /\
    chain (cut m x a nx px r) p (l1 ++ (x, nx) :: r).
Proof.
  induction l1 as [|[y ny] l1 IH]; intros p Hnd Hc.
  - cbn [app] in *. destruct Hc as [(px & Ex & Hp) [(pa & Ea & Ha) Hr]]. cbn [adr] in Ex.
    destruct Ha as [Ha|Ha]; [discriminate|]. subst pa. exists px. split; auto. split; auto.
    cbn [map fst] in Hnd. inversion Hnd as [|? ? H1 Hnd1]; subst. inversion Hnd1 as [|? ? H2 Hnd2]; subst. cbn [In] in H1.
    assert (Hax : a <> x) by tauto.
    split.
    + exists px. unfold cut. rewrite upd_neq, upd_eq by auto. auto.
    + destruct r as [|[b nb] r]; cbn [chain]; auto. destruct Hr as [(pb & Eb & _) Hr]. cbn [map fst In] in *.
      inversion Hnd2 as [|? ? H3 Hnd3]; subst. unfold cut. split.
      * exists (Some x). rewrite !upd_neq, upd_eq by intuition. auto.
      * eapply chain_ext; [|exact Hr]. intros z Hz. rewrite !upd_neq; auto; intros ->; tauto.
  - cbn [app map fst] in Hnd. inversion Hnd as [|? ? H1 Hnd1]; subst. cbn [app chain] in Hc. destruct Hc as [(py & Ey & Hy) Hc].
    destruct (IH _ Hnd1 Hc) as (px & Ex & Ea & Hc'). exists px. split; auto. split; auto. split; auto. exists py. split; auto.
    assert (Hy2 : cut m x a nx px r y = m y).
    { unfold cut. rewrite map_app, in_app_iff in H1. cbn [map fst In] in H1. rewrite !upd_neq by intuition.
      destruct r as [|[b nb] r]; auto. rewrite upd_neq; auto. intros ->. apply H1. right. right. right. now left. }
    rewrite Hy2, Ey. f_equal. f_equal. destruct l1 as [|[z nz] l1]; reflexivity.
Qed.
Lemma split_last {A} (l : list A) y : exists l1 x, y :: l = l1 ++ [x].
Proof.
  destruct (exists_last (l := y :: l)) as (l1 & x & E); [discriminate|]. eauto.
Qed.
Lemma del_rep h l a x : rep h l -> mem h a = Some x ->
  exists h', destroy h a x = Next h' /\ rep h' (filter (fun p => negb (fst p =? a)) l).
Proof.
  intros R Ha.
  assert (Hin : In a (map fst l)). { destruct (in_dec Nat.eq_dec a (map fst l)) as [|H]; auto. apply (rD _ _ R) in H. congruence. }
  apply in_map_iff in Hin as ([a' na] & Ea & Hin). cbn in Ea. subst a'.
  destruct (in_split _ _ Hin) as (l1 & r & El). pose proof (rN _ _ R) as Hnd. rewrite El in Hnd.
  assert (Hnotin : ~ In a (map fst l1) /\ ~ In a (map fst r)).
  { rewrite map_app in Hnd. cbn in Hnd. apply NoDup_remove_2 in Hnd. rewrite in_app_iff in Hnd. tauto. }
  assert (Ef : filter (fun p => negb (fst p =? a)) l = l1 ++ r).
  { rewrite El, filter_app. cbn [filter fst]. rewrite Nat.eqb_refl. cbn [negb]. rewrite !filter_notin; tauto. }
  assert (Hnd' : NoDup (map fst (l1 ++ r))). { rewrite map_app in *. cbn in Hnd. eapply NoDup_remove_1; eauto. }
  assert (HD : forall m, (forall y, y <> a -> ~ In y (map fst (l1 ++ r)) -> m y = mem h y) -> m a = None ->
             forall y, ~ In y (map fst (l1 ++ r)) -> m y = None).
  { intros m H1 H2 y Hy. destruct (Nat.eq_dec y a) as [->|]; auto. rewrite H1 by auto. apply (rD _ _ R). rewrite El.
    rewrite map_app, in_app_iff in *. cbn. intuition. }
  rewrite Ef. unfold destroy. rewrite (rH _ _ R). pose proof (rC _ _ R) as Hc. rewrite El in Hc |- *.
  destruct l1 as [|[y ny] l1].
  - cbn [app adr]. rewrite Nat.eqb_refl. eexists. split; [reflexivity|]. cbn [app] in *. destruct Hc as [(pv & E & _) Hc].
    rewrite Ha in E. injection E as ->. constructor; cbn [head mem]; auto.
    + apply chain_weak in Hc. eapply chain_ext; [|exact Hc]. intros z Hz. apply upd_neq. intros ->. tauto.
    + intros z Hz. eapply HD; eauto; [|apply upd_eq]. intros w Hw _. now apply upd_neq.
  - cbn [app adr]. destruct (Nat.eqb_spec y a) as [->|Hya]; [cbn in Hnotin; tauto|].
    destruct (split_last l1 (y, ny)) as (l2 & [p np] & Es).
    change ((y, ny) :: l1 ++ (a, na) :: r) with (((y, ny) :: l1) ++ (a, na) :: r) in *.
    change ((y, ny) :: l1 ++ r) with (((y, ny) :: l1) ++ r).
    assert (Hhd : adr (((y, ny) :: l1) ++ r) = Some y) by reflexivity.
    rewrite Es in *. rewrite <- app_assoc in Hc, Hnd. cbn [app] in Hc, Hnd.
    destruct (cut_chain _ _ _ _ _ _ _ _ Hnd Hc) as (px & Ep & Ea & Hcut).
    rewrite Ha in Ea. injection Ea as ->. cbn [n_next n_prev].
    assert (Hpa : p <> a). { intros ->. destruct Hnotin as [Hn _]. apply Hn. rewrite map_app, in_app_iff. right. now left. }
    rewrite <- app_assoc in *. cbn [app] in *.
    assert (Hpr : ~ In p (map fst r)). { rewrite map_app in Hnd'. cbn [map fst] in Hnd'. apply NoDup_remove_2 in Hnd'. rewrite in_app_iff in Hnd'. tauto. }
    destruct r as [|[b nb] r].
    + cbn [adr] in *. unfold set_next. rewrite Ep. cbn [n_name n_prev]. eexists. split; [reflexivity|].
      constructor; cbn [head mem]; auto.
      intros z Hz. eapply HD; eauto; [|apply upd_eq]. intros w Hw Hi. rewrite !upd_neq; auto. intros ->. apply Hi.
      rewrite map_app, in_app_iff. right. now left.
    + cbn [adr]. unfold set_prev.
      assert (Eb : exists pb, mem h b = Some (Node nb (adr r) pb)).
      { clear - Hc. assert (exists q, chain (mem h) q ((b, nb) :: r)) as [q [(pb & E & _) _]]; eauto.
        revert Hc. generalize (@None nat). induction l2 as [|[z nz] l2 IH]; intros q Hc; cbn [app chain] in Hc.
        - destruct Hc as [_ [_ Hc]]. eauto.
        - destruct Hc as [_ Hc]. eauto. }
      destruct Eb as [pb Eb]. rewrite Eb. cbn [n_name n_next]. unfold set_next. cbn [map fst In] in Hpr.
      rewrite upd_neq by intuition. rewrite Ep. cbn [n_name n_prev]. eexists. split; [reflexivity|].
      constructor; cbn [head mem]; auto.
      intros z Hz. eapply HD; eauto; [|apply upd_eq]. intros w Hw Hi. rewrite map_app, in_app_iff in Hi. cbn [map fst In] in Hi.
      rewrite !upd_neq; auto; intros ->; tauto.
Qed.

Lemma varz_rep ops : forall h l, rep h l ->
  match exec vstep h ops with Ub => False | Stuck => True | Next h' => rep h' (live l ops) end.
Proof.
  induction ops as [|o ops IH]; intros h l R; cbn [exec live]; auto. destruct o as [a name|a]; cbn [vstep].
  - destruct (mem h a) eqn:Ea; auto. destruct (new_rep h l a name R Ea) as (h' & -> & R'). apply IH. auto.
  - destruct (mem h a) eqn:Ea; auto. destruct (del_rep h l a n R Ea) as (h' & -> & R'). apply IH. auto.
Qed.
Lemma rep_empty : rep empty [].
Proof. constructor; cbn; auto. constructor. Qed.
Lemma varz_list_safe_pf ops : exec vstep empty ops <> Ub.
Proof. intros E. pose proof (varz_rep ops empty [] rep_empty) as H. now rewrite E in H. Qed.
Lemma walk_chain m l : forall p fuel, chain m p l -> length l <= fuel -> walk fuel m (adr l) = Some (names l).
Proof.
  induction l as [|[a nm] r IH]; intros p fuel Hc Hf; [destruct fuel; reflexivity|].
  cbn [length] in Hf. destruct fuel as [|k]; [lia|]. destruct Hc as [(pv & E & _) Hc]. cbn [walk adr]. rewrite E. cbn [n_next n_name].
  rewrite (IH _ _ Hc) by lia. cbn [names flat_map snd]. destruct nm; reflexivity.
Qed.
Lemma varz_list_pf ops h fuel : exec vstep empty ops = Next h -> length (live [] ops) <= fuel ->
  Iterate fuel h = Some (names (live [] ops)).
Proof.
  intros E Hf. pose proof (varz_rep ops empty [] rep_empty) as R. rewrite E in R. unfold Iterate. rewrite (rH _ _ R).
  eapply walk_chain; eauto. apply R.
Qed.

(** ** Format *)
Section ValInd.
  Variable P : val -> Prop.
  Hypothesis Hs : forall s, P (VStr s).
  Hypothesis Hn : forall z, P (VNum z).
  Hypothesis Ht : forall z, P (VTime z).
  Hypothesis Hd : forall t, P (VDbl t).
  Hypothesis Hm : forall l, Forall (fun p => P (snd p)) l -> P (VMap l).
  Fixpoint val_ind2 (v : val) : P v :=
    match v with
    | VStr s => Hs s | VNum z => Hn z | VTime z => Ht z | VDbl t => Hd t
    | VMap l => Hm l ((fix go (l : list (list N * val)) : Forall (fun p => P (snd p)) l :=
        match l with [] => Forall_nil _ | p :: r => Forall_cons p (val_ind2 (snd p)) (go r) end) l)
    end.
End ValInd.

Definition item (p : list N * val) : list N := 34%N :: fst p ++ [34; 58; 32]%N ++ Format (snd p).
Fixpoint body (l : list (list N * val)) : list N :=
  match l with [] => [] | [p] => item p | p :: r => item p ++ 44%N :: body r end.
Fixpoint go (l : list (list N * val)) : list N :=
  match l with [] => [] | (k, w) :: r => (34%N :: k ++ [34; 58; 32]%N ++ Format w ++ [44]%N) ++ go r end.
Lemma format_map l : Format (VMap l) = set_back ([123; 32]%N ++ go l) ++ [125%N].
Proof. reflexivity. Qed.
Lemma go_body l : l <> [] -> go l = body l ++ [44%N].
Proof.
  induction l as [|[k w] r IH]; [congruence|]. intros _. cbn [go]. destruct r as [|q r].
  - cbn [go body]. unfold item. cbn [fst snd]. rewrite app_nil_r. cbn [app]. f_equal. now rewrite <- !app_assoc.
  - rewrite IH by discriminate. cbn [body]. unfold item at 3. cbn [fst snd app].
    f_equal. rewrite <- !app_assoc. f_equal. cbn [app]. do 3 f_equal. rewrite <- app_assoc. f_equal.
Qed.
Lemma format_map_body l : l <> [] -> Format (VMap l) = [123; 32]%N ++ body l ++ [32; 125]%N.
Proof.
  intros H. rewrite format_map, go_body by auto. unfold set_back. rewrite app_assoc, removelast_last, <- !app_assoc. reflexivity.
Qed.

Definition stop (t : list N) : Prop := match t with c :: _ => numeric c = false | [] => True end.
Lemma number_app t rest : Forall (fun c => numeric c = true) t -> stop rest -> number (t ++ rest) = (t, rest).
Proof.
  induction 1 as [|c t Hc _ IH]; intros Hs; cbn [app number].
  - destruct rest as [|c r]; auto. cbn in Hs |- *. now rewrite Hs.
  - rewrite Hc, IH; auto.
Qed.
Lemma numeric_cases c : numeric c = true -> exists i, nth_error [43; 45; 46; 48; 49; 50; 51; 52; 53; 54; 55; 56; 57; 69; 101]%N i = Some c.
Proof.
  intros H. unfold numeric in H.
  assert (c = 43 \/ c = 45 \/ c = 46 \/ c = 48 \/ c = 49 \/ c = 50 \/ c = 51 \/ c = 52 \/ c = 53 \/ c = 54 \/ c = 55 \/ c = 56 \/ c = 57 \/ c = 69 \/ c = 101)%N as D.
  { repeat rewrite Bool.orb_true_iff in H. rewrite Bool.andb_true_iff, !N.leb_le, !N.eqb_eq in H. lia. }
  repeat (destruct D as [-> |D]; [match goal with |- exists i, nth_error ?l i = Some ?x =>
    (exists 0; reflexivity) || (exists 1; reflexivity) || (exists 2; reflexivity) || (exists 3; reflexivity) || (exists 4; reflexivity) || (exists 5; reflexivity)
    || (exists 6; reflexivity) || (exists 7; reflexivity) || (exists 8; reflexivity) || (exists 9; reflexivity) || (exists 10; reflexivity)
    || (exists 11; reflexivity) || (exists 12; reflexivity) || (exists 13; reflexivity) || (exists 14; reflexivity) end|]).
  subst. exists 14. reflexivity.
Qed.
Lemma value_number k c t : numeric c = true ->
  value (S k) (c :: t) = match number (c :: t) with ([], _) => None | (a, r') => Some (JNum a, r') end.
Proof.
  intros H. destruct (numeric_cases c H) as [i Hi]. do 15 (destruct i as [|i]; [injection Hi as <-; reflexivity|]). destruct i; discriminate.
Qed.
Lemma read_number k t rest : t <> [] -> Forall (fun c => numeric c = true) t -> stop rest -> value (S k) (t ++ rest) = Some (JNum t, rest).
Proof.
  intros Hn Ha Hs. destruct t as [|c t]; [congruence|]. inversion Ha; subst. cbn [app]. rewrite value_number by auto.
  change (c :: t ++ rest) with ((c :: t) ++ rest). now rewrite number_app.
Qed.
Lemma read_quoted s rest : tame_text s -> quoted (s ++ 34%N :: rest) = Some (s, rest).
Proof.
  induction 1 as [|c s (H1 & H2 & H3) _ IH]; cbn [app quoted]; [reflexivity|].
  destruct (N.eqb_spec c 34); [congruence|]. destruct (N.eqb_spec c 92); [congruence|]. destruct (N.ltb_spec c 32); [lia|].
  cbn [orb]. now rewrite IH.
Qed.

Lemma digs_numeric fuel : forall n, Forall (fun c => numeric c = true) (digs fuel n).
Proof.
  induction fuel as [|k IH]; intros n; cbn [digs]; [constructor|].
  assert (D : forall d, (d < 10)%N -> numeric (48 + d)%N = true).
  { intros d Hd. unfold numeric. destruct (N.leb_spec 48 (48 + d)); [|lia]. destruct (N.leb_spec (48 + d) 57); [reflexivity|lia]. }
  destruct (N.ltb_spec n 10).
  - constructor; auto.
  - apply Forall_app. split; auto. constructor; auto. apply D. apply N.mod_lt. discriminate.
Qed.
Lemma digits_val_snoc t c : digits_val (t ++ [c]) = (10 * digits_val t + (Z.of_N c - 48))%Z.
Proof. unfold digits_val. now rewrite fold_left_app. Qed.
Lemma digs_val fuel : forall n, (n < 2 ^ N.of_nat fuel)%N -> digits_val (digs (S fuel) n) = Z.of_N n.
Proof.
  induction fuel as [|k IH]; intros n Hn.
  - change (2 ^ N.of_nat 0)%N with 1%N in Hn. assert (n = 0)%N by lia. subst. reflexivity.
  - change (digs (S (S k)) n) with (if (n <? 10)%N then [48 + n]%N else digs (S k) (n / 10)%N ++ [48 + n mod 10]%N).
    destruct (N.ltb_spec n 10).
    + unfold digits_val. cbn [fold_left]. lia.
    + rewrite digits_val_snoc, IH.
      * rewrite N2Z.inj_add, N2Z.inj_mod, N2Z.inj_div. pose proof (Z.div_mod (Z.of_N n) (Z.of_N 10)). lia.
      * rewrite Nat2N.inj_succ, N.pow_succ_r' in Hn. apply N.div_lt_upper_bound; lia.
Qed.
Lemma digs_nonempty k n : digs (S k) n <> [].
Proof. cbn [digs]. destruct (n <? 10)%N; [discriminate|]. intros E. apply app_eq_nil in E. destruct E; discriminate. Qed.
Lemma size_bound n : (n < 2 ^ N.of_nat (N.size_nat n))%N.
Proof. pose proof (N.size_gt n) as H. replace (N.of_nat (N.size_nat n)) with (N.size n); auto. clear H. destruct n as [|p]; auto. cbn [N.size N.size_nat].
  induction p as [p IH|p IH|]; cbn [Pos.size Pos.size_nat]; auto; rewrite Nat2N.inj_succ, <- IH; reflexivity.
Qed.
Lemma dec_numeric z : Forall (fun c => numeric c = true) (dec z).
Proof. unfold dec. apply Forall_app. split; [|apply digs_numeric]. destruct (z <? 0)%Z; auto. Qed.
Lemma dec_nonempty z : dec z <> [].
Proof. unfold dec. intros E. apply app_eq_nil in E. destruct E as [_ E]. now apply digs_nonempty in E. Qed.
Lemma dec_val z : int_val (dec z) = z.
Proof.
  unfold dec. set (n := Z.abs_N z). pose proof (digs_val _ n (size_bound n)) as H. pose proof (digs_nonempty (N.size_nat n) n) as Hne.
  assert (Hh : match digs (S (N.size_nat n)) n with c :: _ => (48 <= c)%N | [] => True end).
  { generalize (S (N.size_nat n)) as k. intros k. generalize n. clear. induction k as [|k IH]; intros n; cbn [digs]; auto.
    destruct (n <? 10)%N; [lia|]. specialize (IH (n / 10)%N). destruct (digs k (n / 10)%N); cbn [app]; [apply N.le_add_r|auto]. }
  destruct (Z.ltb_spec z 0) as [Hz|Hz].
  - cbn [app int_val]. rewrite H. unfold n. lia.
  - cbn [app]. assert (E : int_val (digs (S (N.size_nat n)) n) = digits_val (digs (S (N.size_nat n)) n)).
    { destruct (digs (S (N.size_nat n)) n) as [|c t]; auto. unfold int_val. destruct (N.eq_dec c 45) as [->|Hc]; [lia|].
      destruct c as [|p]; auto. do 6 (destruct p as [p|p|]; auto). congruence. }
    rewrite E, H. unfold n. lia.
Qed.

Lemma value_blank f t : value f (32%N :: t) = value f t. Proof. destruct f; reflexivity. Qed.
Definition reads (v : val) (j : json) : Prop :=
  forall f rest, stop rest -> length (Format v) <= f -> value f (Format v ++ rest) = Some (j, rest).
Lemma read_item k p rest v r3 : tame_text (fst p) -> value k (Format (snd p) ++ rest) = Some (v, r3) ->
  members (S k) (item p ++ rest) =
    match skip r3 with
    | 125%N :: r4 => Some ([(fst p, v)], r4)
    | 44%N :: r4 => match members k r4 with Some (l, r5) => Some ((fst p, v) :: l, r5) | None => None end
    | _ => None
    end.
Proof.
  intros Ht Hv. unfold item. cbn [app members]. change (skip (34%N :: ?x)) with (34%N :: x). cbv iota beta.
  rewrite <- !app_assoc. cbn [app]. change (skip (34%N :: ?x)) with (34%N :: x). 
  cbn [skip blank N.eqb Pos.eqb]. rewrite read_quoted by auto. cbn [skip blank N.eqb Pos.eqb]. rewrite value_blank, Hv. reflexivity.
Qed.
Lemma item_length p : length (item p) = 4 + length (fst p) + length (Format (snd p)).
Proof. unfold item. cbn [length]. rewrite !app_length. cbn [length]. lia. Qed.
Lemma read_body l : l <> [] -> Forall (fun p => tame_text (fst p) /\ exists j, means (snd p) j /\ reads (snd p) j) l ->
  exists js, Forall2 (fun a b => fst a = fst b /\ means (snd a) (snd b)) l js /\
    forall f rest, length (body l) <= f -> members f (body l ++ 32%N :: 125%N :: rest) = Some (js, rest).
Proof.
  induction l as [|p r IH]; [congruence|]. intros _ HF. inversion HF as [|? ? (Ht & j & Hm & Hr) HF']; subst.
  destruct r as [|q r].
  - exists [(fst p, j)]. split. { constructor; [cbn; auto|constructor]. }
    intros f rest Hf. cbn [body] in *. rewrite item_length in Hf. destruct f as [|k]; [lia|].
    rewrite (read_item k p (32 :: 125 :: rest)%N j (32 :: 125 :: rest)%N); [reflexivity|auto|]. apply Hr; [reflexivity|lia].
  - destruct IH as (js & H2 & Hb); [discriminate|auto|]. exists ((fst p, j) :: js). split. { constructor; [cbn; auto|auto]. }
    intros f rest Hf. change (body (p :: q :: r)) with (item p ++ 44%N :: body (q :: r)) in *. rewrite app_length, item_length in Hf. cbn [length] in Hf.
    destruct f as [|k]; [lia|]. rewrite <- app_assoc. cbn [app].
    rewrite (read_item k p (44 :: body (q :: r) ++ 32 :: 125 :: rest)%N j (44 :: body (q :: r) ++ 32 :: 125 :: rest)%N); [|auto|apply Hr; [reflexivity|lia]].
    cbn [skip blank N.eqb Pos.eqb]. rewrite Hb by lia. reflexivity.
Qed.
Lemma body_head l : l <> [] -> exists t, body l = 34%N :: t.
Proof. destruct l as [|p [|q r]]; [congruence| |]; intros _; cbn [body]; unfold item; cbn [app]; eauto. Qed.
Lemma format_read v : tame v -> exists j, means v j /\ reads v j.
Proof.
  induction v as [s|z|z|t|l IH] using val_ind2; intros T.
  - inversion T; subst. exists (JStr s). split; [constructor|]. intros f rest _ Hf. cbn [Format length] in Hf. destruct f as [|k]; [lia|].
    cbn [Format app value skip blank N.eqb Pos.eqb]. rewrite <- app_assoc. cbn [app]. now rewrite read_quoted.
  - exists (JNum (dec z)). split; [constructor; apply dec_val|]. intros f rest Hs Hf. cbn [Format] in *.
    pose proof (dec_nonempty z). destruct f as [|k]. { destruct (dec z); [congruence|cbn in Hf; lia]. }
    apply read_number; auto. apply dec_numeric.
  - exists (JNum (dec z)). split; [constructor; apply dec_val|]. intros f rest Hs Hf. cbn [Format] in *.
    pose proof (dec_nonempty z). destruct f as [|k]. { destruct (dec z); [congruence|cbn in Hf; lia]. }
    apply read_number; auto. apply dec_numeric.
  - inversion T; subst. exists (JNum t). split; [constructor|]. intros f rest Hs Hf. cbn [Format] in *.
    destruct f as [|k]. { destruct t; [congruence|cbn in Hf; lia]. } apply read_number; auto.
  - inversion T as [| | | |? HF]; subst. destruct l as [|p r].
    + exists (JObj []). split; [constructor; constructor|]. intros f rest _ Hf. destruct f as [|k]; [cbn in Hf; lia|]. reflexivity.
    + destruct (read_body (p :: r)) as (js & H2 & Hb); [discriminate| |].
      { rewrite Forall_forall in IH, HF |- *. intros x Hx. destruct (HF x Hx) as [H1 Hx2]. split; auto. }
      exists (JObj js). split; [now constructor|]. intros f rest _ Hf. rewrite format_map_body in * by discriminate.
      rewrite !app_length in Hf. cbn [length] in Hf. destruct f as [|k]; [lia|].
      destruct (body_head (p :: r)) as [t Et]; [discriminate|].
      rewrite <- !app_assoc. cbn [app value skip blank N.eqb Pos.eqb]. specialize (Hb k rest). rewrite Et in *. cbn [app skip blank N.eqb Pos.eqb] in *.
      rewrite Hb by lia. reflexivity.
Qed.
Lemma varz_format_pf v fuel : tame v -> length (Format v) <= fuel -> exists j, value fuel (Format v) = Some (j, []) /\ means v j.
Proof.
  intros T Hf. destruct (format_read v T) as (j & Hm & Hr). exists j. split; auto.
  pose proof (Hr fuel [] I Hf) as H. now rewrite app_nil_r in H.
Qed.

Lemma varz_quote_refuted_pf : exists v w, v <> w /\ Format v = Format w.
Proof.
  exists (VMap [([97], VStr [120; 34; 44; 34; 98; 34; 58; 32; 34; 121])]%N), (VMap [([97], VStr [120]); ([98], VStr [121])]%N).
  split; [discriminate|reflexivity].
Qed.
Lemma varz_backslash_refuted_pf : exists s, ~ In 34%N s /\ forall fuel, value fuel (Format (VStr s)) = None.
Proof. exists [92%N]. split. intros [H|[]]; discriminate. intros [|k]; reflexivity. Qed.

(** ** Averages *)
Lemma incs_app t k a b : incs_on t k (a ++ b) = incs_on t k a + incs_on t k b.
Proof. unfold incs_on. now rewrite filter_app, app_length. Qed.
Lemma delta_app t k a b : delta_on t k (a ++ b) = (delta_on t k a + delta_on t k b)%Z.
Proof. induction a as [|l a IH]; cbn [app delta_on]; auto. destruct l; rewrite IH; lia. Qed.
Lemma from_app t a b : from t (a ++ b) = from t a ++ from t b.
Proof. unfold from. now rewrite filter_app, map_app. Qed.

Lemma bump_none k d l : bump k d l = None <-> ~ In k (map fst l).
Proof.
  induction l as [|[k' [s c]] r IH]; cbn; [intuition congruence|]. destruct (Nat.eqb_spec k' k) as [->|Hn].
  - split; [discriminate|]. tauto.
  - destruct (bump k d r) as [r'|]; split; intros H; auto; try discriminate.
    + exfalso. enough (Some r' = None) by discriminate. apply IH. tauto.
    + intros [->|Hi]; [congruence|]. now apply IH.
Qed.
Lemma bump_some k d l : forall l', NoDup (map fst l) -> bump k d l = Some l' ->
  map fst l' = map fst l /\
  forall k' s' c', In (k', (s', c')) l' <-> (if k' =? k then exists s c, In (k', (s, c)) l /\ s' = (s + d)%Z /\ c' = S c else In (k', (s', c')) l).
Proof.
  induction l as [|[j [s c]] r IH]; intros l' Hnd E; cbn [bump] in E; [discriminate|]. cbn [map fst] in Hnd. inversion Hnd as [|? ? H1 H2]; subst.
  destruct (Nat.eqb_spec j k) as [->|Hn].
  - injection E as <-. split; auto. intros k' s' c'. destruct (Nat.eqb_spec k' k) as [->|Hk].
    + split.
      * intros [[= <- <-]|Hi]; [exists s, c; split; [now left|auto]|]. exfalso. apply H1. apply in_map_iff. exists (k, (s', c')). auto.
      * intros (s0 & c0 & [[= <- <-]|Hi] & -> & ->); [now left|]. exfalso. apply H1. apply in_map_iff. exists (k, (s0, c0)). auto.
    + cbn. split; intros [H|H]; auto; congruence.
  - destruct (bump k d r) as [r'|] eqn:Eb; [|discriminate]. injection E as <-. destruct (IH r' H2 eq_refl) as [Hm Hi]. split.
    + cbn. now rewrite Hm.
    + intros k' s' c'. cbn [In]. rewrite Hi. destruct (Nat.eqb_spec k' k) as [->|Hk].
      * split.
        -- intros [H|(s0 & c0 & H)]; [congruence|]. exists s0, c0. tauto.
        -- intros (s0 & c0 & [H|H] & H'); [congruence|]. right. exists s0, c0. tauto.
      * tauto.
Qed.

(** What the maps hold after the calls [h]. *)
Definition Hist (h : list alab) (s : avg) : Prop := forall t,
  NoDup (map fst (maps s t)) /\ (forall e, In e (maps s t) -> counts t h e) /\
  forall k, In k (map fst (maps s t)) <-> 0 < incs_on t k h.
Lemma delta_zero t k h : incs_on t k h = 0 -> delta_on t k h = 0%Z.
Proof.
  induction h as [|l h IH]; auto. unfold incs_on. cbn [filter delta_on]. destruct l as [u j d| | |]; try apply IH.
  destruct ((u =? t) && (j =? k)); [discriminate|]. intros H. rewrite IH; auto.
Qed.
Lemma hist_step h s l s' : Hist h s -> astep s l = Next s' -> Hist (h ++ [l]) s'.
Proof.
  intros H E. destruct l as [t k d| |t|t]; cbn [astep] in E.
  - assert (Hc : forall u j, incs_on u j [Inc t k d] = (if (t =? u) && (k =? j) then 1 else 0) /\
                 delta_on u j [Inc t k d] = (if (t =? u) && (k =? j) then d else 0%Z)).
    { intros u j. unfold incs_on. cbn. destruct ((t =? u) && (k =? j)); cbn; split; auto; lia. }
    intros u. destruct (H u) as (Hn & He & Hk). destruct (bump k d (maps s t)) as [m|] eqn:Eb.
    + injection E as <-. cbn [maps]. unfold upd. destruct (Nat.eqb_spec u t) as [->|Hu].
      * destruct (bump_some k d _ m Hn Eb) as [Em Ei]. rewrite Em. split; auto. split.
        -- intros [j [a c]] Hi. unfold counts. cbn [fst]. rewrite delta_app, incs_app. destruct (Hc t j) as [-> ->]. rewrite Nat.eqb_refl. cbn [andb].
           apply Ei in Hi. rewrite (Nat.eqb_sym k j). destruct (Nat.eqb_spec j k) as [->|Hj].
           ++ destruct Hi as (s0 & c0 & Hi & -> & ->). apply He in Hi. unfold counts in Hi. cbn [fst] in Hi. injection Hi as -> ->. f_equal. f_equal. lia.
           ++ apply He in Hi. unfold counts in Hi. cbn [fst] in Hi. injection Hi as -> ->. f_equal. f_equal; lia.
        -- intros j. rewrite Hk, incs_app. destruct (Hc t j) as [-> _]. rewrite Nat.eqb_refl. cbn [andb].
           destruct (Nat.eqb_spec k j) as [<-|]; [|rewrite Nat.add_0_r; tauto].
           assert (In k (map fst (maps s t))) as Hin. { destruct (in_dec Nat.eq_dec k (map fst (maps s t))) as [|Hx]; auto. apply (bump_none k d) in Hx. congruence. }
           apply Hk in Hin. lia.
      * split; auto. split.
        -- intros e Hi. apply He in Hi. unfold counts in *. rewrite delta_app, incs_app. destruct (Hc u (fst e)) as [-> ->].
           destruct (Nat.eqb_spec t u); [congruence|]. cbn [andb]. now rewrite Z.add_0_r, Nat.add_0_r.
        -- intros j. rewrite Hk, incs_app. destruct (Hc u j) as [-> _]. destruct (Nat.eqb_spec t u); [congruence|]. cbn [andb]. lia.
    + destruct (inside (at_ s t)); [discriminate|]. injection E as <-. cbn [maps]. unfold upd. destruct (Nat.eqb_spec u t) as [->|Hu].
      * apply bump_none in Eb. rewrite map_app. cbn [map fst]. split.
        { apply (NoDup_Add (a := k) (l := map fst (maps s t))). rewrite <- (app_nil_r (map fst (maps s t))) at 1. apply Add_app. auto. }
        assert (Z : incs_on t k h = 0). { destruct (incs_on t k h) eqn:Ez; auto. exfalso. apply Eb, Hk. lia. }
        split.
        -- intros e Hi. apply in_app_or in Hi as [Hi|[<-|[]]].
           ++ assert (fst e <> k). { intros <-. apply Eb. now apply in_map. }
              apply He in Hi. unfold counts in *. rewrite delta_app, incs_app. destruct (Hc t (fst e)) as [-> ->].
              destruct (Nat.eqb_spec k (fst e)); [congruence|]. rewrite Bool.andb_false_r. now rewrite Z.add_0_r, Nat.add_0_r.
           ++ unfold counts. cbn [fst]. rewrite delta_app, incs_app. destruct (Hc t k) as [-> ->]. rewrite !Nat.eqb_refl. cbn [andb].
              now rewrite Z, delta_zero.
        -- intros j. rewrite in_app_iff, Hk, incs_app. destruct (Hc t j) as [-> _]. rewrite Nat.eqb_refl. cbn [andb In].
           destruct (Nat.eqb_spec k j); [|intuition lia]. intuition lia.
      * split; auto. split.
        -- intros e Hi. apply He in Hi. unfold counts in *. rewrite delta_app, incs_app. destruct (Hc u (fst e)) as [-> ->].
           destruct (Nat.eqb_spec t u); [congruence|]. cbn [andb]. now rewrite Z.add_0_r, Nat.add_0_r.
        -- intros j. rewrite Hk, incs_app. destruct (Hc u j) as [-> _]. destruct (Nat.eqb_spec t u); [congruence|]. cbn [andb]. lia.
  - injection E as <-. intros u. destruct (H u) as (Hn & He & Hk). cbn [maps]. split; auto. split.
    + intros e Hi. apply He in Hi. unfold counts in *. rewrite delta_app, incs_app. cbn. now rewrite Z.add_0_r, Nat.add_0_r.
    + intros j. rewrite Hk, incs_app. cbn. lia.
  - assert (maps s' = maps s) as Em. { destruct (at_ s t); try discriminate. destruct (nth_error (maps s t) i); now injection E as <-. }
    intros u. destruct (H u) as (Hn & He & Hk). rewrite Em. split; auto. split.
    + intros e Hi. apply He in Hi. unfold counts in *. rewrite delta_app, incs_app. cbn. now rewrite Z.add_0_r, Nat.add_0_r.
    + intros j. rewrite Hk, incs_app. cbn. lia.
  - assert (maps s' = maps s) as Em. { destruct (at_ s t); try discriminate. now injection E as <-. }
    intros u. destruct (H u) as (Hn & He & Hk). rewrite Em. split; auto. split.
    + intros e Hi. apply He in Hi. unfold counts in *. rewrite delta_app, incs_app. cbn. now rewrite Z.add_0_r, Nat.add_0_r.
    + intros j. rewrite Hk, incs_app. cbn. lia.
Qed.
Lemma hist_run h : forall s, exec astep avg0 h = Next s -> Hist h s.
Proof.
  induction h as [|l h IH] using rev_ind; intros s E.
  - injection E as <-. intros t. cbn. split; [constructor|]. split; [tauto|]. intros k. split; [tauto|lia].
  - rewrite exec_app in E. destruct (exec astep avg0 h) as [| |s0] eqn:E0; try discriminate. cbn in E.
    destruct (astep s0 l) as [| |s1] eqn:E1; try discriminate. injection E as <-. eapply hist_step; eauto.
Qed.

(** An entry read at some moment of [h2], which comes after [h1]. *)
Definition moment (t : nat) (h1 h2 : list alab) (e : entry) : Prop := exists p q, h2 = p ++ q /\ counts t (h1 ++ p) e.
Lemma moment_later t h1 h2 l e : moment t h1 h2 e -> moment t h1 (h2 ++ [l]) e.
Proof. intros (p & q & -> & H). exists p, (q ++ [l]). rewrite app_assoc. auto. Qed.
Definition During (h1 h2 : list alab) (K : nat -> list nat) (s : avg) : Prop := forall t,
  Forall (moment t h1 h2) (from t (res s)) /\
  match at_ s t with
  | Out => False
  | At i => map fst (maps s t) = K t /\ i <= length (K t) /\ map fst (from t (res s)) = firstn i (K t)
  | Hold i e => map fst (maps s t) = K t /\ nth_error (K t) i = Some (fst e) /\ map fst (from t (res s)) = firstn i (K t) /\ moment t h1 h2 e
  | Fin => map fst (from t (res s)) = K t
  end.
Lemma firstn_snoc {A} (l : list A) i x : nth_error l i = Some x -> firstn (S i) l = firstn i l ++ [x].
Proof.
  revert i. induction l as [|y l IH]; intros [|i] H; try discriminate; cbn [nth_error] in H.
  - now injection H as ->.
  - change (firstn (S (S i)) (y :: l)) with (y :: firstn (S i) l). rewrite (IH i H). reflexivity.
Qed.
Lemma during_step h1 h2 K s l s' : Hist (h1 ++ h2) s -> During h1 h2 K s -> l <> Get -> astep s l = Next s' -> During h1 (h2 ++ [l]) K s'.
Proof.
  intros HH D Hl E.
  assert (HF : forall t r, Forall (moment t h1 h2) r -> Forall (moment t h1 (h2 ++ [l])) r).
  { intros t r. apply Forall_impl. intros e. apply moment_later. }
  destruct l as [t k d| |t|t]; cbn [astep] in E; [|congruence| |].
  - intros u. destruct (D u) as [D1 D2].
    assert (Em : res s' = res s /\ at_ s' = at_ s /\ (map fst (maps s' u) = map fst (maps s u) \/ (u = t /\ inside (at_ s t) = false))).
    { destruct (bump k d (maps s t)) as [m|] eqn:Eb.
      - injection E as <-. cbn. split; auto. split; auto. left. unfold upd. destruct (Nat.eqb_spec u t) as [->|]; auto.
        destruct (HH t) as (Hn & _). now destruct (bump_some k d _ m Hn Eb) as [Em _].
      - destruct (inside (at_ s t)) eqn:Ei; [discriminate|]. injection E as <-. cbn. split; auto. split; auto.
        unfold upd. destruct (Nat.eqb_spec u t) as [->|]; auto. }
    destruct Em as (-> & -> & Em). split; auto.
    destruct (at_ s u) eqn:Ea; auto.
    + destruct Em as [->|[-> Ei]]; auto. rewrite Ea in Ei. discriminate.
    + destruct Em as [->|[-> Ei]]; [|rewrite Ea in Ei; discriminate]. intuition. now apply moment_later.
  - intros u. destruct (D u) as [D1 D2]. destruct (at_ s t) as [|i| |] eqn:Ea; try discriminate.
    destruct (nth_error (maps s t) i) as [e|] eqn:En; injection E as <-; cbn [maps at_ res]; (split; [now apply HF|]); unfold upd;
      destruct (Nat.eqb_spec u t) as [->|Hu]; try (destruct (at_ s u); intuition; now apply moment_later).
    + rewrite Ea in D2. destruct D2 as (H1 & H2 & H3). split; auto. split; [|split; auto].
      * rewrite <- H1. now apply map_nth_error.
      * exists h2, [Read t]. split; auto. destruct (HH t) as (_ & He & _). apply He. eapply nth_error_In; eauto.
    + rewrite Ea in D2. destruct D2 as (H1 & H2 & H3). rewrite H3. apply firstn_all2. apply nth_error_None in En. rewrite <- H1, map_length. auto.
  - intros u. destruct (D u) as [D1 D2]. destruct (at_ s t) as [| |i e|] eqn:Ea; try discriminate. injection E as <-. cbn [maps at_ res].
    rewrite from_app. unfold upd. destruct (Nat.eqb_spec u t) as [->|Hu].
    + rewrite Ea in D2. destruct D2 as (H1 & H2 & H3 & H4). assert (Ef : from t [(t, e)] = [e]). { unfold from. cbn. now rewrite Nat.eqb_refl. }
      rewrite Ef. split.
      * apply Forall_app. split; [now apply HF|]. constructor; [now apply moment_later|constructor].
      * split; auto. split. { apply Nat.le_succ_l. apply nth_error_Some. congruence. } rewrite (firstn_snoc (K t) i (fst e) H2), <- H3. apply map_app.
    + assert (Ef : from u [(t, e)] = []). { unfold from. cbn. destruct (Nat.eqb_spec t u); [congruence|reflexivity]. }
      rewrite Ef, app_nil_r. split; auto. destruct (at_ s u); intuition. now apply moment_later.
Qed.
Lemma during_run h1 s1 h2 : exec astep avg0 (h1 ++ [Get]) = Next s1 -> ~ In Get h2 -> forall s, exec astep s1 h2 = Next s ->
  During (h1 ++ [Get]) h2 (fun t => map fst (maps s1 t)) s.
Proof.
  intros E1. induction h2 as [|l h2 IH] using rev_ind; intros Hg s E.
  - injection E as <-. rewrite exec_app in E1. destruct (exec astep avg0 h1) as [| |s0]; try discriminate. injection E1 as <-.
    intros t. cbn. split; [constructor|]. split; auto. split; [lia|auto].
  - rewrite exec_app in E. destruct (exec astep s1 h2) as [| |s2] eqn:E2; try discriminate. cbn in E.
    destruct (astep s2 l) as [| |s3] eqn:E3; try discriminate. injection E as <-.
    apply (during_step _ _ _ s2); auto.
    + apply hist_run. rewrite exec_app, E1. auto.
    + apply IH; auto. intros Hi. apply Hg. apply in_or_app. auto.
    + intros ->. apply Hg. apply in_or_app. right. now left.
Qed.
Lemma incs_get t k h : incs_on t k (h ++ [Get]) = incs_on t k h.
Proof. rewrite incs_app. cbn. lia. Qed.
Lemma counts_get t h p e : counts t ((h ++ [Get]) ++ p) e -> counts t (h ++ p) e.
Proof. unfold counts. rewrite !delta_app, !incs_app. cbn. now rewrite Z.add_0_r, Nat.add_0_r. Qed.
Lemma varz_avg_pf h1 h2 s t : exec astep avg0 (h1 ++ Get :: h2) = Next s -> ~ In Get h2 -> at_ s t = Fin ->
  NoDup (map fst (from t (res s))) /\ (forall k, In k (map fst (from t (res s))) <-> 0 < incs_on t k h1) /\
  forall e, In e (from t (res s)) -> exists p q, h2 = p ++ q /\ counts t (h1 ++ p) e.
Proof.
  intros E Hg Hf. change (h1 ++ Get :: h2) with (h1 ++ [Get] ++ h2) in E. rewrite app_assoc, exec_app in E.
  destruct (exec astep avg0 (h1 ++ [Get])) as [| |s1] eqn:E1; try discriminate.
  destruct (during_run h1 s1 h2 E1 Hg s E t) as [D1 D2]. rewrite Hf in D2. rewrite D2.
  destruct (hist_run _ _ E1 t) as (Hn & _ & Hk). split; auto. split.
  - intros k. rewrite Hk, incs_get. tauto.
  - intros e He. rewrite Forall_forall in D1. destruct (D1 e He) as (p & q & -> & Hc). exists p, q. split; auto. now apply counts_get.
Qed.
(** No key is new to its thread while the thread's map is being read. *)
Lemma varz_avg_safe_pf h1 h2 : exec astep avg0 h1 <> Ub ->
  (forall p t k d q, h2 = p ++ Inc t k d :: q -> 0 < incs_on t k (h1 ++ p)) -> exec astep avg0 (h1 ++ h2) <> Ub.
Proof.
  intros H1. induction h2 as [|l h2 IH] using rev_ind; intros H; [now rewrite app_nil_r|].
  assert (H0 : exec astep avg0 (h1 ++ h2) <> Ub). { apply IH. intros p t k d q ->. apply (H p t k d (q ++ [l])). now rewrite <- app_assoc. }
  rewrite app_assoc, exec_app. destruct (exec astep avg0 (h1 ++ h2)) as [| |s] eqn:E; try congruence. cbn [exec].
  assert (astep s l <> Ub); [|destruct (astep s l); congruence].
  destruct l as [t k d| |t|t]; cbn [astep].
  - destruct (bump k d (maps s t)) eqn:Eb; [discriminate|]. exfalso. apply bump_none in Eb. apply Eb.
    apply (hist_run _ _ E t). apply (H h2 t k d []). reflexivity.
  - discriminate.
  - destruct (at_ s t); try discriminate. destruct (nth_error _ _); discriminate.
  - destruct (at_ s t); discriminate.
Qed.
Lemma varz_avg_twice_refuted_pf : exists h s, exec astep avg0 h = Next s /\ at_ s 0 = Fin /\ at_ s 1 = Fin /\
  ~ NoDup (map (fun p => fst (snd p)) (res s)).
Proof.
  exists [Inc 0 7 3; Inc 1 7 5; Get; Read 0; Put 0; Read 0; Read 1; Put 1; Read 1].
  eexists. split; [cbn; reflexivity|]. cbn. repeat split. intros H. inversion H as [|? ? Hi _]. apply Hi. now left.
Qed.
Lemma varz_avg_rehash_refuted_pf : exec astep avg0 [Inc 0 7 3; Get; Read 0; Inc 0 8 1] = Ub.
Proof. reflexivity. Qed.
