From Verif Require Import Util Conc EcModel EcProof EcWake EcLoc SharedModel SharedSpec.

Section Shared.
  Variable menu : nat -> nat -> option scall.
  Variable NT : nat.
  Hypothesis Hnt : (N.of_nat NT < 2 ^ 30)%N.
  Notation code := (scode menu).
  Notation sstep := (step NT code).
  Lemma Hnt32 : (N.of_nat NT < two32)%N. Proof. unfold two32. lia. Qed.

  Definition sholds (t : nat) (l : sloc) : option nat :=
    match l with Cnd _ | CndBack | Wt _ | Lp _ | Dn _ => Some 0 | _ => None end.
  Lemma skey_ok : key_ok code sholds.
  Proof.
    intros t l. destruct l as [|w| |w| |w|w| |w|w|w|w|]; simpl; auto; try (split; auto; discriminate).
    - intros v c v' l'. destruct (menu t c) as [[w|w]|]; intros [= <- <-]; auto.
    - intros v c v' l'. unfold attempt, try_lock, try_lock_shared. destruct w. destruct (v =? 0)%N; intros [= <- <-]; auto.
      destruct (has_writer v); intros [= <- <-]; auto.
    - intros v c v' l' [= <- <-]. auto.
    - intros v c v' l'. unfold attempt, try_lock, try_lock_shared. destruct w. destruct (v =? 0)%N; intros [= <- <-]; auto.
      destruct (has_writer v); intros [= <- <-]; auto.
    - intros v c v' l' [= <- <-]. auto.
    - intros v c v' l'. unfold attempt, try_lock, try_lock_shared. destruct w. destruct (v =? 0)%N; intros [= <- <-]; auto.
      destruct (has_writer v); intros [= <- <-]; auto.
    - intros v c v' l' [= <- <-]. auto.
    - destruct w; simpl; intros v c v' l' [= <- <-]; auto.
  Qed.

  (** Contributions to the state word. *)
  Definition isw (l : sloc) : nat := match l with Hold true | Dn true => 1 | _ => 0 end.
  Definition isr (l : sloc) : nat := match l with Hold false | Dn false => 1 | _ => 0 end.
  Definition isb (l : sloc) : nat := match l with TryBack | FastBack | CndBack => 1 | _ => 0 end.
  Definition nw (s : st N sloc) := sumn (fun t => isw (at_ s t)) NT.
  Definition nr (s : st N sloc) := sumn (fun t => isr (at_ s t)) NT.
  Definition nb (s : st N sloc) := sumn (fun t => isb (at_ s t)) NT.
  Record SI (s : st N sloc) : Prop := mkSI {
    si_ec : EcInv NT code sholds s;
    si_v : cs s = N.of_nat (nw s + 4 * (nr s + nb s));
    si_w : nw s <= 1;
    si_x : nw s = 1 -> nr s = 0
  }.
  Lemma rb_bound s : nr s + nb s <= NT.
  Proof.
    unfold nr, nb. clear. induction NT; simpl; auto.
    assert (isr (at_ s n) + isb (at_ s n) <= 1) by (destruct (at_ s n) as [|[]| |[]| |[]|[]| |[]|[]|[]|[]|]; simpl; lia). lia.
  Qed.
  Lemma hasw n r : n <= 1 -> has_writer (N.of_nat (n + 4 * r)) = (n =? 1).
  Proof.
    intros H. unfold has_writer, WRITER.
    assert (E : N.land (N.of_nat (n + 4 * r)) 1 = N.of_nat n).
    { change 1%N with (N.ones 1). rewrite N.land_ones. simpl (2 ^ 1)%N.
      replace (N.of_nat (n + 4 * r)) with (N.of_nat n + (2 * N.of_nat r) * 2)%N by lia.
      rewrite N.mod_add by discriminate. apply N.mod_small. lia. }
    rewrite E. destruct n as [|[|]]; simpl; auto; lia.
  Qed.
  Lemma ldiffw n r : n = 1 + 4 * r -> N.ldiff (N.of_nat n) WRITER = N.of_nat (n - 1).
  Proof.
    intros ->. replace (N.of_nat (1 + 4 * r)) with (2 * (2 * N.of_nat r) + 1)%N by lia.
    replace (N.of_nat (1 + 4 * r - 1)) with (2 * (2 * N.of_nat r))%N by lia.
    unfold WRITER. apply N.bits_inj. intros i. rewrite N.ldiff_spec.
    destruct (N.eq_dec i 0) as [->|Hi].
    - rewrite N.testbit_even_0. simpl (N.testbit 1 0). now rewrite andb_false_r.
    - replace i with (N.succ (N.pred i)) by lia.
      rewrite N.testbit_odd_succ, N.testbit_even_succ by lia.
      replace (N.testbit 1 (N.succ (N.pred i))) with false. now rewrite andb_true_r.
      symmetry. rewrite N.testbit_eqb. replace (1 / 2 ^ N.succ (N.pred i))%N with 0%N. reflexivity.
      symmetry. apply N.div_small. rewrite N.succ_pred by lia. apply N.pow_gt_1; lia.
  Qed.

  Lemma si_step s lab s' : SI s -> sstep s lab = Next s' -> SI s'.
  Proof.
    destruct lab as [t c]. intros I H.
    assert (Ie : EcInv NT code sholds s').
    { pose proof (inv_step NT code sholds skey_ok Hnt32 s (t, c) (si_ec _ I)) as X. now rewrite H in X. }
    destruct (step_loc NT code sholds s t c s' (si_ec _ I) H) as (Ht & Ho & M).
    assert (Cw : nw s' + isw (at_ s t) = nw s + isw (at_ s' t)).
    { apply (sumn_chg (fun t => isw (at_ s' t)) (fun t => isw (at_ s t))); auto. intros u Hu. now rewrite Ho. }
    assert (Cr : nr s' + isr (at_ s t) = nr s + isr (at_ s' t)).
    { apply (sumn_chg (fun t => isr (at_ s' t)) (fun t => isr (at_ s t))); auto. intros u Hu. now rewrite Ho. }
    assert (Cb : nb s' + isb (at_ s t) = nb s + isb (at_ s' t)).
    { apply (sumn_chg (fun t => isb (at_ s' t)) (fun t => isb (at_ s t))); auto. intros u Hu. now rewrite Ho. }
    assert (B : nr s + nb s <= NT) by apply rb_bound.
    assert (B' : nr s' + nb s' <= NT) by apply rb_bound.
    pose proof (si_v _ I) as V. pose proof (si_w _ I) as W. pose proof (si_x _ I) as X.
    assert (Pw : isw (at_ s t) <= nw s) by (apply (sumn_pos (fun t => isw (at_ s t))); auto).
    assert (Pr : isr (at_ s t) <= nr s) by (apply (sumn_pos (fun t => isr (at_ s t))); auto).
    assert (Pb : isb (at_ s t) <= nb s) by (apply (sumn_pos (fun t => isb (at_ s t))); auto).
    destruct M as [(l & f & c' & l' & Pl & Cl & Fl & Ec & Pl')|[Ec Em]].
    - unfold at_ in *. rewrite Pl, Pl' in *. simpl loc in *.
      constructor; auto; rewrite ?Ec; destruct l as [|[]| |[]| |[]|[]| |[]|[]|[]|[]|]; simpl in Cl; try discriminate;
      injection Cl as <-; unfold attempt, try_lock, try_lock_shared, rollback, add32, sub32, READER in Fl; rewrite V in Fl.
      all: try (rewrite hasw in Fl by auto).
      all: try (destruct (menu t c) as [[w|w]|]; try discriminate).
      all: try (match type of Fl with context [(?a =? 0)%N] => destruct (N.eqb_spec a 0) end).
      all: try (match type of Fl with context [?a =? 1] => destruct (Nat.eqb_spec a 1) end).
      all: try (simpl isw in *; simpl isr in *; simpl isb in *; rewrite (proj2 (Nat.eqb_eq (nw s) 1)) in * by lia).
      all: injection Fl as <- <-; simpl isw in *; simpl isr in *; simpl isb in *; unfold two32, WRITER in *; try lia.
      all: try (assert (nw s = 1) as Ew by lia; rewrite Ew in *).
      all: rewrite (ldiffw _ (nr s + nb s)) by lia; lia.
    - rewrite V in Ec.
      assert (D : isw (at_ s' t) = isw (at_ s t) /\ isr (at_ s' t) = isr (at_ s t) /\ isb (at_ s' t) = isb (at_ s t)).
      { destruct Em as [->|F]; auto. unfold follows in F.
        destruct (at_ s t) as [|[]| |[]| |[]|[]| |[]|[]|[]|[]|]; simpl in F; try tauto; rewrite F; auto. }
      constructor; auto; lia.
  Qed.
  Lemma si_init : SI sinit.
  Proof.
    assert (Z : forall g : sloc -> nat, g SIdle = 0 -> sumn (fun t => g (at_ sinit t)) NT = 0).
    { intros g Hg. clear Hnt. induction NT; simpl; auto. change (at_ sinit n) with SIdle. now rewrite IHn, Hg. }
    constructor.
    - apply inv_init; auto.
    - unfold nw, nr, nb. now rewrite !Z.
    - unfold nw. rewrite Z; auto.
    - unfold nw. rewrite Z; auto. discriminate.
  Qed.
  Lemma si_reach s : reachable sstep sinit s -> SI s.
  Proof.
    intros [ls E]. revert E. pose proof si_init as I. revert I. generalize sinit. induction ls as [|lab ls IH]; simpl; intros s0 I E.
    - now injection E as <-.
    - destruct (sstep s0 lab) eqn:Es; try discriminate. eapply IH; [|eauto]. eapply si_step; eauto.
  Qed.
  Lemma shared_exclusion_pf s t u : reachable sstep sinit s -> t < NT -> u < NT -> t <> u ->
    writing s t -> ~ writing s u /\ ~ reading s u.
  Proof.
    intros R Ht Hu Ne W. pose proof (si_reach _ R) as I. unfold writing, reading in *.
    assert (Pt : isw (at_ s t) = 1) by (unfold at_; now rewrite W).
    assert (N1 : nw s = 1).
    { pose proof (sumn_pos (fun t => isw (at_ s t)) NT t Ht). pose proof (si_w _ I). unfold nw in *. lia. }
    split; intros Wu.
    - assert (Pu : isw (at_ s u) = 1) by (unfold at_; now rewrite Wu).
      assert (sumn (fun i => if i =? t then 0 else isw (at_ s i)) NT + isw (at_ s t) = nw s + 0) by now apply sumn_upd.
      pose proof (sumn_pos (fun i => if i =? t then 0 else isw (at_ s i)) NT u Hu) as P. simpl in P.
      destruct (Nat.eqb_spec u t); try congruence. lia.
    - assert (Pu : isr (at_ s u) = 1) by (unfold at_; now rewrite Wu).
      pose proof (sumn_pos (fun i => isr (at_ s i)) NT u Hu). pose proof (si_x _ I N1). unfold nr in *. lia.
  Qed.
  Lemma shared_safe_pf : safe sstep sinit.
  Proof.
    intros ls. pose proof si_init as I. revert I. generalize sinit. induction ls as [|lab ls IH]; simpl; intros s I; [discriminate|].
    pose proof (inv_step NT code sholds skey_ok Hnt32 s lab (si_ec _ I)) as St.
    destruct (sstep s lab) eqn:Es; try discriminate.
    - exfalso. destruct St as (l & f & _ & Ec & Ef). destruct l as [|[]| |[]| |[]|[]| |[]|[]|[]|[]|]; simpl in Ec; try discriminate; injection Ec as <-; try discriminate.
      destruct (menu _ _) as [[]|]; discriminate.
    - apply IH. eapply si_step; eauto.
  Qed.

  (** ** Wake-ups *)
  Definition swants (t : nat) (l : sloc) (v : N) : Prop := match l with Wt false => has_writer v = false | _ => False end.
  Definition sarmed (t : nat) (l : sloc) : option sloc := match l with CndBack => Some (Wt false) | Wt _ => Some l | _ => None end.
  Definition sdebt (t : nat) (l : sloc) : Prop := l = Ntf.
  Lemma odd_mod v : N.odd v = (v mod 2 =? 1)%N.
  Proof. rewrite <- N.bit0_odd, N.testbit_eqb. change (2 ^ 0)%N with 1%N. now rewrite N.div_1_r. Qed.
  Lemma hw_odd v : has_writer v = N.odd v.
  Proof.
    unfold has_writer, WRITER. change 1%N with (N.ones 1). rewrite N.land_ones. simpl (2 ^ 1)%N.
    rewrite odd_mod. pose proof (N.mod_lt v 2 ltac:(discriminate)). destruct (v mod 2)%N as [|[]] eqn:E; auto; lia.
  Qed.
  Lemma odd32 v d : N.odd ((v + 2 * d) mod two32) = N.odd v.
  Proof.
    rewrite !odd_mod. unfold two32.
    replace ((v + 2 * d) mod 4294967296 mod 2)%N with (v mod 2)%N. reflexivity.
    lia.
  Qed.
  Lemma hw_add v : has_writer (add32 v READER) = has_writer v.
  Proof. rewrite !hw_odd. apply (odd32 v 2). Qed.
  Lemma hw_sub v : has_writer (sub32 v READER) = has_writer v.
  Proof. rewrite !hw_odd. apply (odd32 v 2147483646). Qed.
  Lemma sclient_ok : client_ok code sholds 0 swants sarmed sdebt.
  Proof.
    intros t l. split. { destruct l; simpl; congruence. }
    assert (A : forall w ok ko back v c v' l', attempt w ok ko back v c = Next (v', l') ->
      (has_writer v' = false -> has_writer v = false) /\
      (l' = ok \/ (w = true /\ l' = ko) \/ (w = false /\ l' = back /\ has_writer v' = true))).
    { intros w ok ko back v c v' l'. unfold attempt, try_lock, try_lock_shared. destruct w.
      - destruct (N.eqb_spec v 0); intros [= <- <-]; split; auto. discriminate.
      - intros [= <- <-]. rewrite hw_add. split; auto. destruct (has_writer v); auto. }
    assert (B : forall w ok ko back v c v' l', attempt w ok ko back v c = Next (v', l') ->
      sarmed t ok = None -> (w = true -> sarmed t ko = Some (Wt true) \/ sarmed t ko = None) ->
      (w = false -> sarmed t back = Some (Wt false) \/ sarmed t back = None) ->
      forall w0, sarmed t l' = Some w0 -> ~ swants t w0 v').
    { intros w ok ko back v c v' l' E H1 H2 H3 w0 Hw. destruct (A _ _ _ _ _ _ _ _ E) as [_ [->|[[-> ->]|(-> & -> & Hx)]]].
      - congruence.
      - destruct (H2 eq_refl) as [Z|Z]; rewrite Z in Hw; try discriminate. injection Hw as <-. simpl. auto.
      - destruct (H3 eq_refl) as [Z|Z]; rewrite Z in Hw; try discriminate. injection Hw as <-. simpl. congruence. }
    assert (D : forall w ok ko back v c v' l', attempt w ok ko back v c = Next (v', l') ->
      forall u x, swants u x v' -> swants u x v \/ sdebt t l').
    { intros w ok ko back v c v' l' E u x. destruct x as [| | | | | | | |[]| | | |]; simpl; try tauto. left. eapply A; eauto. }
    destruct l as [|w| |w| |w|w| |w|w|w|w|]; simpl; auto.
    - intros v c v' l'. destruct (menu t c) as [[w|w]|]; intros [= <- <-]; repeat split; auto; discriminate.
    - intros v c v' l' E. split; [|split]; [eapply D; eauto| |discriminate].
      intros w0 H. right. eapply B; eauto.
    - intros v c v' l' [= <- <-]. split; [|split]; try discriminate.
      intros u x. destruct x as [| | | | | | | |[]| | | |]; simpl; try tauto. rewrite hw_sub. auto.
    - intros v c v' l' E. split; [|split]; [eapply D; eauto| |discriminate].
      intros w0 H. right. eapply B; eauto.
    - intros v c v' l' [= <- <-]. split; [|split]; try discriminate.
      intros u x. destruct x as [| | | | | | | |[]| | | |]; simpl; try tauto. rewrite hw_sub. auto.
    - split; auto. discriminate.
    - intros v c v' l' E. split; [|split]; [eapply D; eauto| |discriminate].
      intros w0 H. right. eapply B; eauto. intros ->. auto.
    - intros v c v' l' [= <- <-]. split; [|split]; try discriminate.
      + intros u x. destruct x as [| | | | | | | |[]| | | |]; simpl; try tauto. rewrite hw_sub. auto.
      + auto.
    - repeat split; auto; discriminate.
    - split; auto; discriminate.
    - split; auto; discriminate.
    - destruct w; simpl; intros v c v' l' [= <- <-]; (split; [|split]; try discriminate); right; reflexivity.
  Qed.
  Notation WI := (WakeInv NT code sholds 0 swants sarmed sdebt).
  Lemma swake s : reachable sstep sinit s -> WI s.
  Proof. intros R. eapply wake_reach; eauto using skey_ok, sclient_ok, Hnt32. auto. Qed.
  Lemma s_ntf s u : WI s -> match pc (th s u) with NLock e a k | NWork e a k => e = 0 /\ a = true /\ k = SIdle | NUnl e k => e = 0 /\ k = SIdle | _ => True end.
  Proof.
    intros W. pose proof (w_ntf _ _ _ _ _ _ _ _ W u) as N.
    destruct (pc (th s u)); auto.
    - destruct N as [l N]. destruct l as [|[]| |[]| |[]|[]| |[]|[]|[]|[]|]; simpl in N; try discriminate. injection N as <- <- <-; auto.
    - destruct N as [l N]. destruct l as [|[]| |[]| |[]|[]| |[]|[]|[]|[]|]; simpl in N; try discriminate. injection N as <- <- <-; auto.
    - destruct N as [l [a N]]. destruct l as [|[]| |[]| |[]|[]| |[]|[]|[]|[]|]; simpl in N; try discriminate. injection N as <- <- <-; auto.
  Qed.
  Lemma s_window ls s : exec sstep sinit ls = Next s ->
    (forall n s1 t l ky, exec sstep sinit (firstn n ls) = Next s1 -> pc (th s1 t) = WCheck l ->
      key (th s1 t) = Some ky -> (N.of_nat (ep (ec s1 (ke ky))) < N.of_nat (kg ky) + two32)%N) ->
    aba s = false.
  Proof.
    apply (aba_window NT code sholds 0 swants sarmed sdebt skey_ok Hnt32 sclient_ok 0%N (fun _ => SIdle)). auto.
  Qed.
  Lemma s_key0 s t ky : WI s -> key (th s t) = Some ky -> ke ky = 0.
  Proof.
    intros W K. pose proof (e_key _ _ _ _ (w_ec _ _ _ _ _ _ _ _ W) t) as X. rewrite K in X. simpl in X.
    destruct (loc (pc (th s t))); simpl in X; congruence.
  Qed.
  Lemma shared_reader_pf s t : reachable sstep sinit s -> aba s = false -> suspended_in s t false ->
    (exists u, u < NT /\ isw (at_ s u) = 1) \/
    exists u, match pc (th s u) with Run Ntf | NLock _ _ _ | NWork _ _ _ => True | _ => False end.
  Proof.
    intros R A S. pose proof (si_reach _ R) as I. pose proof (swake _ R) as W.
    destruct (has_writer (cs s)) eqn:Hw.
    - left. rewrite (si_v _ I), hasw in Hw by apply (si_w _ I). apply Nat.eqb_eq in Hw.
      destruct (sumn_ex (fun t => isw (at_ s t)) NT) as (u & Hu & P). unfold nw in Hw. lia.
      exists u. split; auto. destruct (at_ s u) as [|[]| |[]| |[]|[]| |[]|[]|[]|[]|]; simpl in *; lia.
    - right. destruct (no_lost_wakeup NT code sholds 0 swants sarmed sdebt sclient_ok s t (Wt false) W A S) as [u [O|P]]; auto;
      exists u; pose proof (s_ntf s u W) as N; unfold owes, sdebt, pending in *; destruct (pc (th s u)); try tauto; subst; auto.
      destruct N; discriminate.
  Qed.

  (** Writers, when try_lock_shared() is not used. *)
  Hypothesis Hmenu : forall t c, menu t c <> Some (CTry false).
  Definition no_try (s : st N sloc) : Prop := forall t, at_ s t <> Try false /\ at_ s t <> TryBack.
  Lemma no_try_step s t c s' : SI s -> no_try s -> sstep s (t, c) = Next s' -> no_try s'.
  Proof.
    intros I N H. destruct (step_loc NT code sholds s t c s' (si_ec _ I) H) as (Ht & Ho & M).
    intros u. destruct (Nat.eq_dec u t) as [->|Ne]; [|rewrite Ho by auto; apply N].
    specialize (N t).
    destruct M as [(l & f & c' & l' & Pl & Cl & Fl & Ec & Pl')|[Ec Em]].
    - unfold at_ in *. rewrite Pl, Pl' in *. simpl loc in *.
      destruct l as [|[]| |[]| |[]|[]| |[]|[]|[]|[]|]; simpl in Cl; try discriminate;
      injection Cl as <-; unfold attempt, try_lock, try_lock_shared, rollback in Fl; try tauto;
      try (destruct (menu t c) as [[w|[]]|] eqn:Em; try discriminate);
      try (match type of Fl with context [(?a =? 0)%N] => destruct (N.eqb_spec a 0) end);
      try (match type of Fl with context [has_writer ?a] => destruct (has_writer a) end);
      injection Fl as <- <-; try (split; discriminate). now destruct (Hmenu t c).
    - destruct Em as [->|F]; auto. unfold follows in F.
      destruct (at_ s t) as [|[]| |[]| |[]|[]| |[]|[]|[]|[]|]; simpl in F; try tauto; rewrite F; split; discriminate.
  Qed.

  Definition older (s : st N sloc) (t : nat) : Prop := exists ky, key (th s t) = Some ky /\ kg ky < ep (ec s 0).
  Definition ract (s : st N sloc) (u : nat) : Prop :=
    match pc (th s u) with
    | Run (Fast false) | Run FastBack | Run (Prep false) | Run (Cnd false) | Run (Lp false) => True
    | Run CndBack | Run (Wt false) | WLock (Wt false) | WCheck (Wt false) | WUnl (Wt false) true | Parked (Wt false) => older s u
    | WUnl (Wt false) false | Woken (Wt false) | FLock (Wt false) _ | FUnl (Wt false) _ => True
    | _ => False
    end.
  Definition wwatch (s : st N sloc) (t : nat) : Prop :=
    match pc (th s t) with
    | Run (Wt true) | WLock (Wt true) | WCheck (Wt true) | WUnl (Wt true) true | Parked (Wt true) => True
    | _ => False end.
  Definition busy (s : st N sloc) (u : nat) : Prop :=
    isw (at_ s u) + isr (at_ s u) = 1 \/ pc (th s u) = Run Ntf \/ ract s u.
  Definition Gw (s : st N sloc) : Prop := aba s = false -> forall t, t < NT -> wwatch s t -> older s t \/ exists u, busy s u.

  Ltac rw := rewrite ?th_set_aba, ?ec_set_aba, ?th_set_cs, ?ec_set_cs, ?th_set_ec, ?pc_set_pc,
    ?key_set_pc, ?ec_set_pc, ?pc_set_key, ?key_set_key, ?ec_set_key, ?th_set_ec, ?ec_set_ec,
    ?th_set_cs, ?ec_set_cs in *.
  Ltac cases H := unfold EcModel.step in H; cbn [fst snd] in H;
    match type of H with context [NT <=? ?t] => destruct (Nat.leb_spec NT t); [discriminate H|] end;
    match type of H with context [match pc (th ?s ?t) with _ => _ end] => destruct (pc (th s t)) eqn:E end;
    unfold step_run, acquire, release, activate in H;
    repeat match type of H with
    | context [match ?x with _ => _ end] =>
        lazymatch x with context [match _ with _ => _ end] => fail | _ => destruct x eqn:? end
    | Next _ = Next _ => injection H as <-
    | Stuck = _ => discriminate H | Ub = _ => discriminate H
    end.
  Lemma older_other s t c s' u : sstep s (t, c) = Next s' -> u <> t -> older s u -> older s' u.
  Proof.
    intros H Hu (ky & K & Lt). exists ky. rewrite (step_keys NT code s t c s' H) by auto. split; auto.
    pose proof (ep_step NT code s t c s' 0 H) as [Le _]. lia.
  Qed.
  Lemma pc_other s t c s' u : sstep s (t, c) = Next s' -> u <> t ->
    pc (th s' u) = pc (th s u) \/ exists l, pc (th s u) = Parked l /\ pc (th s' u) = Woken l.
  Proof.
    intros H Hu. apply Nat.eqb_neq in Hu. cases H; rw; rewrite ?Hu; auto;
    repeat match goal with |- context [?a =? ?b] => destruct (Nat.eqb_spec a b); subst end; rewrite ?Nat.eqb_refl in *; auto;
    rewrite ?Hu in *; eauto; congruence.
  Qed.
  Lemma busy_other s t c s' u : sstep s (t, c) = Next s' -> u <> t -> busy s u -> busy s' u.
  Proof.
    intros H Hu B. unfold busy in *.
    pose proof (older_other s t c s' u H Hu) as Ol.
    destruct (pc_other s t c s' u H Hu) as [P|(l & P & P')].
    - unfold at_, ract in *. rewrite P. destruct B as [B|[B|B]]; auto. right. right.
      destruct (pc (th s u)); auto; destruct l; auto; destruct w; auto. destruct linked; auto.
    - unfold at_, ract in *. rewrite P, P' in *. simpl in *. destruct B as [B|[B|B]]; auto; try discriminate.
      right. right. destruct l as [| | | | | | | |[]| | | |]; auto.
  Qed.
  Lemma nw_busy s : 0 < nw s -> exists u, busy s u.
  Proof.
    intros H. destruct (sumn_ex (fun t => isw (at_ s t)) NT H) as (u & Hu & P). exists u. left.
    destruct (at_ s u) as [|[]| |[]| |[]|[]| |[]|[]|[]|[]|]; simpl in *; lia.
  Qed.
  Lemma nr_busy s : 0 < nr s -> exists u, busy s u.
  Proof.
    intros H. destruct (sumn_ex (fun t => isr (at_ s t)) NT H) as (u & Hu & P). exists u. left.
    destruct (at_ s u) as [|[]| |[]| |[]|[]| |[]|[]|[]|[]|]; simpl in *; lia.
  Qed.
  (** A fiber at a program point that is not a wait is running there. *)
  Lemma at_run s u l : WI s -> at_ s u = l -> l <> SIdle -> ~ is_wait code u l -> pc (th s u) = Run l.
  Proof.
    intros W E Ne Nw. pose proof (s_ntf s u W) as N. pose proof (e_wc _ _ _ _ (w_ec _ _ _ _ _ _ _ _ W) u) as X.
    unfold at_ in E. destruct (pc (th s u)); simpl in E; subst; auto; simpl in *; try tauto;
    try (destruct N as (_ & _ & N); congruence); try (destruct N as (_ & N); congruence).
  Qed.
  Lemma nb_busy s : WI s -> SI s -> no_try s -> aba s = false -> 0 < nb s -> exists u, busy s u.
  Proof.
    intros W I Nt A H. destruct (sumn_ex (fun t => isb (at_ s t)) NT H) as (u & Hu & P).
    destruct (at_ s u) as [|[]| |[]| |[]|[]| |[]|[]|[]|[]|] eqn:E; simpl in P; try lia.
    - now destruct (Nt u).
    - exists u. right. right. unfold ract. rewrite (at_run s u _ W E); auto. discriminate.
    - pose proof (at_run s u _ W E ltac:(discriminate) ltac:(auto)) as Pc.
      destruct (has_writer (cs s)) eqn:Hw.
      + apply nw_busy. rewrite (si_v _ I), hasw in Hw by apply (si_w _ I). apply Nat.eqb_eq in Hw. lia.
      + pose proof (e_key _ _ _ _ (w_ec _ _ _ _ _ _ _ _ W) u) as K. rewrite Pc in K. simpl in K.
        destruct (key (th s u)) as [ky|] eqn:Ek; [|discriminate].
        destruct (w_1 _ _ _ _ _ _ _ _ W A u (Wt false) ky) as [[v O]|Lt]; auto.
        * unfold watch. now rewrite Pc.
        * assert (Pv : pc (th s v) = Run Ntf).
          { pose proof (s_ntf s v W) as N. unfold owes, sdebt in O. destruct (pc (th s v)); try tauto; subst; auto.
            now destruct N as (_ & _ & N). now destruct N as (_ & _ & N). now destruct N as (_ & N). }
          exists v. right. left. exact Pv.
        * exists u. right. right. unfold ract. rewrite Pc. exists ky. auto.
  Qed.

  (** What a busy fiber's own step leads to. *)
  Lemma busy_self s t c s' : SI s -> WI s -> aba s' = false -> sstep s (t, c) = Next s' -> busy s t ->
    (exists u, busy s' u) \/ ep (ec s' 0) = S (ep (ec s 0)).
  Proof.
    intros I W A H B. pose proof (aba_mono NT code _ _ _ H A) as A0.
    assert (Hold : forall u, u <> t -> busy s u -> (exists u, busy s' u) \/ ep (ec s' 0) = S (ep (ec s 0))).
    { intros u Hu Bu. left. exists u. eapply busy_other; eauto. }
    assert (K : forall ky, key (th s t) = Some ky -> ke ky = 0 /\ kw ky = (N.of_nat (kg ky) mod two32)%N).
    { intros ky K. split. eapply s_key0; eauto. apply (e_kw _ _ _ _ (w_ec _ _ _ _ _ _ _ _ W) t ky K). }
    assert (N := s_ntf s t W).
    pose proof (e_wc _ _ _ _ (w_ec _ _ _ _ _ _ _ _ W) t) as Wc. unfold is_wait in Wc.
    assert (Fin : (busy s' t -> (exists u, busy s' u) \/ ep (ec s' 0) = S (ep (ec s 0)))) by eauto.
    unfold busy at 1 in B. unfold ract, at_ in B. unfold busy at 1, ract, at_, older in Fin.
    cases H; rewrite ?E in *; simpl in B, N, Wc; rw; rewrite ?Nat.eqb_refl in *; simpl in Fin.
    1: { (* an atomic client step *)
      destruct l as [|[]| |[]| |[]|[]| |[]|[]|[]|[]|]; simpl in Heqi; try discriminate; injection Heqi as <-; simpl in B;
      unfold attempt, try_lock, try_lock_shared, rollback in Heqo;
      try (exfalso; lia); try (exfalso; destruct B as [B|[B|B]]; [lia|discriminate|exact B]).
      - destruct (has_writer (cs s)); injection Heqo as <- <-; apply Fin; simpl; auto.
      - injection Heqo as <- <-. apply Fin; simpl; auto.
      - destruct (has_writer (cs s)) eqn:Hw.
        + rewrite (si_v _ I), hasw in Hw by apply (si_w _ I). apply Nat.eqb_eq in Hw.
          destruct (sumn_ex (fun t => isw (at_ s t)) NT) as (u & Hu & P). { unfold nw in Hw. lia. }
          apply (Hold u).
          * intros ->. unfold at_ in P. rewrite E in P. simpl in P. lia.
          * left. destruct (at_ s u) as [|[]| |[]| |[]|[]| |[]|[]|[]|[]|]; simpl in *; lia.
        + injection Heqo as <- <-. apply Fin; simpl; auto.
      - injection Heqo as <- <-. apply Fin; simpl. right. right. destruct B as [B|[B|B]]; try discriminate; auto.
      - injection Heqo as <- <-. apply Fin; simpl; auto.
      - injection Heqo as <- <-. apply Fin; simpl; auto. }
    all: try (match type of N with _ /\ _ => exfalso; destruct N as (? & ? & N) || destruct N as (? & N); subst; simpl in B; destruct B as [B|[B|B]]; [lia|discriminate|tauto] end).
    all: destruct l as [|[]| |[]| |[]|[]| |[]|[]|[]|[]|]; try (simpl in Heqi; first [discriminate Heqi | injection Heqi; clear Heqi; intros; subst]); simpl in B, Fin;
      try (exfalso; destruct B as [B|[B|B]]; try lia; try discriminate; tauto);
      try (apply Fin; simpl; auto; fail).
    all: try (specialize (Wc eq_refl); simpl in Wc; tauto).
    all: try (right; reflexivity).
    all: destruct B as [B|[B|B]]; try discriminate B; destruct B as (ky & Ky & Lt); try (rewrite Ky in Heqo; injection Heqo as <-).
    all: try (destruct (K ky eq_refl) as [K1 K2]; rewrite K1 in *; simpl in Fin).
    all: try (apply Fin; right; right; exists ky; split; [congruence|exact Lt]).
  Qed.

  Lemma ww_key s t : WI s -> wwatch s t -> exists ky, key (th s t) = Some ky /\ kg ky <= ep (ec s 0).
  Proof.
    intros W H. pose proof (e_key _ _ _ _ (w_ec _ _ _ _ _ _ _ _ W) t) as K. unfold wwatch in H.
    assert (X : sholds t (loc (pc (th s t))) = Some 0).
    { destruct (pc (th s t)); try tauto; simpl; destruct l; simpl; auto; tauto. }
    rewrite X in K. destruct (key (th s t)) as [ky|] eqn:Ek; [|discriminate]. exists ky. split; auto.
    pose proof (e_kw _ _ _ _ (w_ec _ _ _ _ _ _ _ _ W) t ky Ek) as [_ Y]. now rewrite (s_key0 s t ky W Ek) in Y.
  Qed.
  (** A writer that starts to watch found the state word different from 0. *)
  Lemma ww_step s t c s' : WI s -> sstep s (t, c) = Next s' -> wwatch s' t ->
    (wwatch s t /\ key (th s' t) = key (th s t)) \/ (pc (th s t) = Run (Cnd true) /\ cs s <> 0%N).
  Proof.
    intros W H Ww. unfold wwatch in *. assert (N := s_ntf s t W).
    pose proof (e_wc _ _ _ _ (w_ec _ _ _ _ _ _ _ _ W) t) as Wc. unfold is_wait in Wc.
    cases H; rewrite ?E in *; simpl in N, Wc; rw; rewrite ?Nat.eqb_refl in *; try tauto.
    1: { destruct s1 as [| | | | | | | |[]| | | |]; try tauto. right.
      destruct l as [|[]| |[]| |[]|[]| |[]|[]|[]|[]|]; simpl in Heqi; try discriminate; injection Heqi as <-;
      unfold attempt, try_lock, try_lock_shared, rollback in Heqo.
      all: try (destruct (menu t c) as [[[]|[]]|]; discriminate).
      all: try (destruct (N.eqb_spec (cs s) 0)); try (destruct (has_writer (cs s))); try discriminate. all: auto. }
    all: try (match type of N with _ /\ _ => destruct N as (? & ? & N) || destruct N as (? & N); subst; simpl in Ww; try tauto end).
    all: try (destruct l as [|[]| |[]| |[]|[]| |[]|[]|[]|[]|]; try (simpl in Heqi; first [discriminate Heqi | injection Heqi; clear Heqi; intros; subst]); simpl in Ww; tauto).
    all: destruct (t =? n); tauto.
  Qed.
  Lemma gw_step s lab s' : SI s -> WI s -> WI s' -> no_try s -> Gw s -> sstep s lab = Next s' -> Gw s'.
  Proof.
    destruct lab as [t0 c]. intros I W W' Nt G H A t Ht Ww.
    pose proof (aba_mono NT code _ _ _ H A) as A0. specialize (G A0).
    assert (Tr : wwatch s t -> key (th s' t) = key (th s t) -> older s' t \/ exists u, busy s' u).
    { intros W0 Ek. destruct (ww_key s t W W0) as (ky & K & Le).
      pose proof (ep_step NT code s t0 c s' 0 H) as [Lp _].
      destruct (G t Ht W0) as [(ky' & K' & Lt)|[u Bu]].
      - left. exists ky'. rewrite Ek. split; auto. lia.
      - destruct (Nat.eq_dec u t0) as [->|Ne].
        + destruct (busy_self s t0 c s' I W A H Bu) as [B|B]; auto. left. exists ky. rewrite Ek. split; auto. lia.
        + right. exists u. eapply busy_other; eauto. }
    destruct (Nat.eq_dec t t0) as [->|Ne].
    - destruct (ww_step s t0 c s' W H Ww) as [[W0 Ek]|[Pc V]]; auto. right.
      assert (B : exists u, busy s u).
      { destruct (nw s) eqn:E1. destruct (nr s) eqn:E2. destruct (nb s) eqn:E3.
        - rewrite (si_v _ I), E1, E2, E3 in V. simpl in V. congruence.
        - apply nb_busy; auto. lia.
        - apply nr_busy; auto. lia.
        - apply nw_busy; auto. lia. }
      destruct B as [u B]. exists u. apply (busy_other s t0 c s' u H); auto.
      intros ->. unfold busy, ract, at_ in B. rewrite Pc in B. simpl in B. destruct B as [B|[B|B]]; try lia; try discriminate; auto.
    - apply Tr.
      + unfold wwatch in *. destruct (pc_other s t0 c s' t H Ne) as [P|(l & P & P')].
        now rewrite P in Ww. now rewrite P' in Ww.
      + apply (step_keys NT code s t0 c s' H); auto.
  Qed.
  Lemma gw_reach s : reachable sstep sinit s -> no_try s /\ Gw s.
  Proof.
    intros R. destruct R as [ls E]. revert s E. induction ls as [|lab ls IH] using rev_ind; intros s E.
    - injection E as <-. split. { intros t. split; discriminate. } intros _ t _ [].
    - rewrite exec_app in E. destruct (exec sstep sinit ls) as [| |s1] eqn:E1; try discriminate.
      assert (R1 : reachable sstep sinit s1) by now exists ls.
      simpl in E. destruct (sstep s1 lab) as [| |s2] eqn:E2; try discriminate. injection E as <-.
      destruct (IH s1 eq_refl) as [N G]. split.
      + destruct lab. eapply no_try_step; eauto. now apply si_reach.
      + eapply gw_step; eauto using si_reach, swake. apply swake. eapply reachable_step; eauto.
  Qed.
  Lemma shared_quiet_pf s t w : reachable sstep sinit s -> aba s = false -> all_quiet s -> ~ suspended_in s t w.
  Proof.
    intros R A Q S. pose proof (swake _ R) as W. pose proof (si_reach _ R) as I. destruct (gw_reach _ R) as [Nt G].
    assert (Np : forall u, older s u -> (exists x, pc (th s u) = Parked x) -> False).
    { intros u (ky & K & Lt) [x P].
      assert (Hq : In u (wq (ec s 0))).
      { rewrite <- (s_key0 s u ky W K). apply (e_wq2 _ _ _ _ (w_ec _ _ _ _ _ _ _ _ W) u ky); auto. now rewrite P. }
      destruct (w_2 _ _ _ _ _ _ _ _ W A u ky Hq K Lt) as [v Pv]. unfold pending in Pv.
      destruct (Q v) as [Hv|[w' Hv]]; unfold suspended_in in *; rewrite Hv in Pv; auto. }
    assert (Nb : forall u, ~ busy s u).
    { intros u B. unfold busy, ract, at_, suspended_in in *. destruct (Q u) as [Hu|[x Hu]]; rewrite Hu in B; simpl in B.
      - destruct B as [B|[B|B]]; try lia; try discriminate; auto.
      - destruct x; simpl in B; destruct B as [B|[B|B]]; try lia; try discriminate; auto. eauto. }
    destruct w.
    - assert (Hn : t < NT).
      { destruct (Nat.lt_ge_cases t NT) as [|Ge]; auto.
        destruct (e_idle _ _ _ _ (w_ec _ _ _ _ _ _ _ _ W) t Ge) as [l Hl]. unfold suspended_in in S. congruence. }
      destruct (G A t Hn) as [O|[u B]].
      + unfold wwatch. unfold suspended_in in S. now rewrite S.
      + eapply Np; eauto.
      + eapply Nb; eauto.
    - destruct (shared_reader_pf s t R A S) as [(u & Hu & B)|(u & B)].
      + apply (Nb u). left. destruct (at_ s u) as [|[]| |[]| |[]|[]| |[]|[]|[]|[]|]; simpl in *; lia.
      + destruct (Q u) as [Hv|[x Hv]]; unfold suspended_in in *; rewrite Hv in B; auto.
  Qed.
End Shared.
