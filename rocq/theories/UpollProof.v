From Verif Require Import Util Conc UpollModel UpollSpec.
Open Scope N_scope.

Definition evs (q : list cqe) : list cqe := filter (fun c => match c with Ev _ _ => true | _ => false end) q.
Definition errs (q : list cqe) : nat := length (filter (fun c => match c with Err _ => true | _ => false end) q).
Definition rems (q : list cqe) : nat := length (filter (fun c => match c with Rem _ => true | _ => false end) q).
Lemma errs_app a b : errs (a ++ b) = (errs a + errs b)%nat. Proof. unfold errs. now rewrite filter_app, app_length. Qed.
Lemma rems_app a b : rems (a ++ b) = (rems a + rems b)%nat. Proof. unfold rems. now rewrite filter_app, app_length. Qed.
Definition on (b : bool) : nat := if b then 1%nat else 0%nat.
Definition wait (d : del) : nat := match d with Waiting _ => 1%nat | _ => 0%nat end.
Definition some (o : option nat) : nat := match o with Some _ => 1%nat | None => 0%nat end.
(** Number of completions without IORING_CQE_F_MORE. *)
Definition ends (q : list cqe) : nat := length (filter (fun c => match c with Ev _ false => true | _ => false end) q).
Lemma ends_app a b : ends (a ++ b) = (ends a + ends b)%nat. Proof. unfold ends. now rewrite filter_app, app_length. Qed.

(** After the last error no event follows. *)
Fixpoint ordered (q : list cqe) : Prop :=
  match q with
  | [] => True
  | Err _ :: t => evs t = [] /\ errs t = 0%nat /\ ordered t
  | _ :: t => ordered t
  end.
Record inv (s : st) : Prop := {
  i_new : forall u, (next s <= u)%nat -> polls s u = false;
  i_one : forall u, polls s u = true -> u = idx s;
  i_live : match ent s with
           | Absent => dl s = Before /\ next s = 0%nat /\ cq s = []
           | Live => (on (polls s (idx s)) + errs (cq s) + ends (cq s) = 1)%nat /\ (idx s < next s)%nat
           | Freed => polls s (idx s) = false /\ evs (cq s) = [] /\ errs (cq s) = 0%nat /\ dl s <> Before end;
  i_ord : ordered (cq s);
  i_err : (0 < errs (cq s))%nat -> polls s (idx s) = false;
  i_rem : (some (rmq s) + rems (cq s) = wait (dl s))%nat;
  i_bef : dl s = Before -> errs (cq s) = 0%nat;
  i_pend : pending s = match dl s with Before => 0%Z | _ => match ent s with Freed => 0%Z | _ => 1%Z end end
}.
Lemma ordered_app q c : ordered q -> (match c with Rem _ => True | _ => errs q = 0%nat end) -> ordered (q ++ [c]).
Proof.
  induction q as [|a q IH]; intros O H.
  - destruct c; cbn; auto.
  - destruct a as [u m|u|r]; cbn in *.
    + apply IH; auto.
    + destruct O as [O1 [O2 O3]]. unfold evs, errs in *. rewrite !filter_app. destruct c as [x y|x|x]; cbn in *; try discriminate.
      rewrite !app_nil_r. auto.
    + apply IH; auto.
Qed.
Lemma evs_app a b : evs (a ++ b) = evs a ++ evs b. Proof. unfold evs. now rewrite filter_app. Qed.
Lemma ends_evs q : evs q = [] -> ends q = 0%nat.
Proof. induction q as [|a q IH]; cbn; auto. destruct a as [u []|u|r]; cbn; auto; discriminate. Qed.

Lemma step_inv s l : inv s -> no_failure l -> match step s l with Next s' => inv s' | Ub => False | Stuck => True end.
Proof.
  intros [New One Lv Ord Er Rm Bf Pd] Nf. destruct l as [| | |u m|u|b|]; cbn [step]; try contradiction.
  - destruct (ent s) eqn:E; auto. destruct Lv as [L1 [L2 L3]]. constructor; cbn [ent idx next polls rmq cq dl pending hist rearm].
    + intros v Hv. unfold upd. rewrite L2 in *. destruct (Nat.eqb_spec v 0); [lia|]. apply New. lia.
    + intros v. unfold upd. destruct (Nat.eqb_spec v (next s)); auto. intros Hv. rewrite New in Hv by lia. discriminate.
    + rewrite upd_eq, L3. cbn. split; [reflexivity|lia].
    + exact Ord.
    + rewrite L3. cbn. lia.
    + exact Rm.
    + exact Bf.
    + rewrite L1 in *. exact Pd.
  - destruct (dl s) eqn:D; auto. destruct (ent s) eqn:E; auto.
    + constructor; cbn [ent idx next polls rmq cq dl pending hist]; auto.
      * cbn in *. lia.
      * rewrite Pd. reflexivity.
    + destruct Lv as [_ [_ [_ X]]]. congruence.
  - destruct (cq s) as [|c t] eqn:Q; auto. destruct c as [u m|u|r].
    + destruct (ent s) eqn:E.
      { destruct Lv as [_ [_ X]]. discriminate. }
      2:{ destruct Lv as [_ [X _]]. discriminate. }
      destruct Lv as [L1 L2]. assert (T : ordered t) by exact Ord. destruct m; cbn [ent idx next polls rmq cq dl pending hist rearm] in *.
      * constructor; cbn [ent idx next polls rmq cq dl pending hist]; auto.
      * unfold ends, errs in L1. cbn in L1. fold (errs t) in L1. fold (ends t) in L1.
        assert (P0 : polls s (idx s) = false) by (destruct (polls s (idx s)); cbn in L1; auto; lia). assert (E0 : errs t = 0%nat /\ ends t = 0%nat) by lia. destruct E0 as [E0 E1].
        constructor; cbn [ent idx next polls rmq cq dl pending hist rearm]; auto.
        -- intros v Hv. unfold upd. destruct (Nat.eqb_spec v (next s)); [lia|]. apply New. lia.
        -- intros v. unfold upd. destruct (Nat.eqb_spec v (next s)); auto. intros Hv. pose proof (One v Hv). subst. congruence.
        -- rewrite upd_eq, E0, E1. cbn. split; lia.
        -- rewrite E0. lia.
    + destruct Ord as [O1 [O2 O3]]. destruct (ent s) eqn:E.
      { destruct Lv as [_ [_ X]]. discriminate. }
      2:{ destruct Lv as [_ [_ [X _]]]. discriminate. }
      destruct Lv as [L1 L2]. assert (Nb : dl s <> Before) by (intros X; specialize (Bf X); discriminate).
      constructor; cbn [ent idx next polls rmq cq dl pending hist]; auto.
      * split; [apply Er; cbn; lia|]. auto.
      * rewrite O2. lia.
      * rewrite Pd. destruct (dl s); auto. congruence.
    + assert (T : ordered t) by exact Ord. destruct (dl s) as [|u|] eqn:D; cbn in Rm; try lia.
      assert (R0 : some (rmq s) = 0%nat /\ rems t = 0%nat) by (unfold rems in *; cbn in Rm; lia). destruct R0 as [R0 R1].
      assert (Lv' : forall d o p h, d <> Before -> match ent s with
           | Absent => d = Before /\ next s = 0%nat /\ t = []
           | Live => (on (polls s (idx s)) + errs t + ends t = 1)%nat /\ (idx s < next s)%nat
           | Freed => polls s (idx s) = false /\ evs t = [] /\ errs t = 0%nat /\ d <> Before end /\ (o : option nat) = o /\ (p : Z) = p /\ (h : list ev) = h).
      { intros d o p h Hd. split; auto. destruct (ent s); [destruct Lv; discriminate|exact Lv|]. destruct Lv as [X1 [X2 [X3 X4]]]. auto. }
      destruct r; (constructor; cbn [ent idx next polls rmq cq dl pending hist]; auto; try (cbn; rewrite ?R1; lia); try discriminate).
      * apply (Lv' Returned None 0%Z []). discriminate.
      * apply (Lv' Returned None 0%Z []). discriminate.
      * apply (Lv' (Waiting u) None 0%Z []). discriminate.
  - destruct (polls s u) eqn:P; auto. pose proof (One u P) as ->. destruct m.
    + assert (E0 : errs (cq s) = 0%nat). { destruct (errs (cq s)) eqn:X; auto. rewrite Er in P; [discriminate|lia]. }
      destruct (ent s) eqn:E.
      { destruct Lv as [_ [X _]]. rewrite New in P by lia. discriminate. }
      2:{ destruct Lv; congruence. }
      constructor; cbn [ent idx next polls rmq cq dl pending hist post]; auto.
      * rewrite E, errs_app, ends_app. cbn. rewrite !Nat.add_0_r. exact Lv.
      * now apply ordered_app.
      * rewrite errs_app, E0. cbn. lia.
      * rewrite rems_app. cbn. now rewrite Nat.add_0_r.
      * intros _. rewrite errs_app, E0. reflexivity.
      * rewrite E. exact Pd.
    + assert (E0 : errs (cq s) = 0%nat). { destruct (errs (cq s)) eqn:X; auto. rewrite Er in P; [discriminate|lia]. }
      destruct (ent s) eqn:E.
      { destruct Lv as [_ [X _]]. rewrite New in P by lia. discriminate. }
      2:{ destruct Lv; congruence. }
      destruct Lv as [L1 L2]. rewrite P, E0 in L1. cbn in L1.
      constructor; cbn [ent idx next polls rmq cq dl pending hist post disarm]; auto.
      * intros v Hv. unfold upd. destruct (Nat.eqb v (idx s)); auto.
      * intros v. unfold upd. destruct (Nat.eqb v (idx s)); [discriminate|]. apply One.
      * rewrite E, upd_eq, errs_app, ends_app, E0. cbn. split; lia.
      * now apply ordered_app.
      * rewrite errs_app, E0. cbn. lia.
      * rewrite rems_app. cbn. now rewrite Nat.add_0_r.
      * intros _. rewrite errs_app, E0. reflexivity.
      * rewrite E. exact Pd.
  - destruct (rmq s) as [u|] eqn:R; auto. assert (Wt : exists v, dl s = Waiting v) by (destruct (dl s); cbn in Rm; try lia; eauto). destruct Wt as [v Wt].
    rewrite Wt in *. cbn in Rm. assert (R0 : rems (cq s) = 0%nat) by lia. destruct (polls s u) eqn:P.
    + pose proof (One u P) as ->. assert (E0 : errs (cq s) = 0%nat). { destruct (errs (cq s)) eqn:X; auto. rewrite Er in P; [discriminate|lia]. }
      destruct (ent s) eqn:E.
      { destruct Lv; discriminate. }
      2:{ destruct Lv; congruence. }
      destruct Lv as [L1 L2]. rewrite P, E0 in L1. cbn in L1.
      assert (X : forall q, errs q = 1%nat -> ends q = 0%nat -> rems q = 1%nat -> ordered (cq s ++ q) ->
        inv (post q (disarm (idx s) (mkS (ent s) (idx s) (next s) (polls s) None (cq s) (dl s) (pending s) (hist s))))).
      { intros q Q1 Q2 Q3 Q4. constructor; cbn [ent idx next polls rmq cq dl pending hist post disarm]; auto.
        - intros w Hw. unfold upd. destruct (Nat.eqb w (idx s)); auto.
        - intros w. unfold upd. destruct (Nat.eqb w (idx s)); [discriminate|]. apply One.
        - rewrite E, upd_eq, errs_app, ends_app, E0, Q1, Q2. cbn. split; lia.
        - intros _. apply upd_eq.
        - rewrite rems_app, R0, Q3, Wt. reflexivity.
        - rewrite ?Wt; discriminate.
        - rewrite Wt, E. exact Pd. }
      rewrite E, Wt in X. destruct b; apply X; auto.
      * change [Rem Removed; Err (idx s)] with ([Rem Removed] ++ [Err (idx s)]). rewrite app_assoc. apply ordered_app; [now apply ordered_app|]. now rewrite errs_app, E0.
      * change [Err (idx s); Rem Removed] with ([Err (idx s)] ++ [Rem Removed]). rewrite app_assoc. apply ordered_app; [now apply ordered_app|]. exact Logic.I.
    + constructor; cbn [ent idx next polls rmq cq dl pending hist post]; auto.
      * destruct (ent s); [destruct Lv; discriminate| |].
        -- rewrite errs_app, ends_app. cbn. rewrite !Nat.add_0_r. exact Lv.
        -- destruct Lv as [X1 [X2 [X3 X4]]]. rewrite evs_app, X2, errs_app, X3, ?Wt. repeat split; auto; discriminate.
      * now apply ordered_app.
      * rewrite errs_app. cbn. rewrite Nat.add_0_r. exact Er.
      * rewrite rems_app, R0, ?Wt. reflexivity.
      * rewrite ?Wt; discriminate.
  - destruct (rmq s) as [u|] eqn:R; auto. assert (Wt : exists v, dl s = Waiting v) by (destruct (dl s); cbn in Rm; try lia; eauto). destruct Wt as [v Wt].
    rewrite Wt in *. cbn in Rm. assert (R0 : rems (cq s) = 0%nat) by lia. destruct (polls s u) eqn:P; auto.
    constructor; cbn [ent idx next polls rmq cq dl pending hist post]; auto.
    + destruct (ent s); [destruct Lv; discriminate| |].
      * rewrite errs_app, ends_app. cbn. rewrite !Nat.add_0_r. exact Lv.
      * destruct Lv as [X1 [X2 [X3 X4]]]. rewrite evs_app, X2, errs_app, X3, ?Wt. repeat split; auto; discriminate.
    + now apply ordered_app.
    + rewrite errs_app. cbn. rewrite Nat.add_0_r. exact Er.
    + rewrite rems_app, R0, ?Wt. reflexivity.
    + rewrite ?Wt; discriminate.
Qed.

Lemma init_inv : inv init.
Proof. constructor; cbn; auto; try lia; discriminate. Qed.

(** Without failures and without ends of the multishot. *)
Definition isrem (c : cqe) : bool := match c with Rem Removed => true | _ => false end.
Fixpoint sealed (q : list cqe) : Prop :=
  match q with
  | [] => True
  | Rem Removed :: t => evs t = [] /\ sealed t
  | Rem Enoent :: _ => False
  | _ :: t => sealed t
  end.
Lemma sealed_app q c : sealed q -> (match c with Ev _ _ => existsb isrem q = false | Rem Enoent => False | _ => True end) -> sealed (q ++ [c]).
Proof.
  induction q as [|a q IH]; intros O H.
  - destruct c as [u m|u|[]]; cbn; auto.
  - destruct a as [u m|u|[]]; cbn in *; try contradiction; try (apply IH; auto; fail).
    destruct O as [O1 O2]. rewrite evs_app, O1. destruct c as [x y|x|x]; cbn in *; try discriminate; split; auto; apply IH; auto.
Qed.
Definition is_del (e : ev) : bool := match e with Deleted => true | _ => false end.
Lemma quiet_app h e : forall b, quiet b h -> match e with Called => b = false /\ existsb is_del h = false | _ => True end -> quiet b (h ++ [e]).
Proof.
  induction h as [|a h IH]; intros b Q H.
  - destruct e; cbn in *; auto. destruct H; auto.
  - destruct a; cbn in *.
    + destruct Q. split; auto.
    + apply IH; auto.
    + apply IH; auto. destruct e; auto. destruct H; discriminate.
Qed.
Record kin (s : st) : Prop := {
  k_ends : ends (cq s) = 0%nat;
  k_rmq : forall u, rmq s = Some u -> u = idx s /\ polls s u = true;
  k_wait : forall u, dl s = Waiting u -> u = idx s;
  k_seal : sealed (cq s);
  k_gone : (existsb isrem (cq s) = true -> polls s (idx s) = false);
  k_ret : dl s = Returned -> evs (cq s) = [] /\ polls s (idx s) = false;
  k_quiet : quiet false (hist s);
  k_del : existsb is_del (hist s) = match dl s with Returned => true | _ => false end;
  k_busy : In (Rem Ealready) (cq s) -> polls s (idx s) = true
}.
Lemma init_kin : kin init.
Proof. constructor; cbn; auto; try discriminate. Qed.
Lemma rems_none q : rems q = 0%nat -> existsb isrem q = false /\ ~ In (Rem Ealready) q.
Proof.
  induction q as [|a q IH]; cbn; auto. destruct a as [u m|u|r]; cbn; intros H; try (destruct (IH H); split; auto; intros [X|X]; [discriminate|auto]). discriminate.
Qed.
Lemma in_app1 {A} (x : A) l y : In x (l ++ [y]) -> x = y \/ In x l.
Proof. rewrite in_app_iff. cbn. intuition auto. Qed.

Lemma step_kin s l s' : inv s -> kin s -> no_failure l -> no_end l -> step s l = Next s' -> kin s'.
Proof.
  intros I K Nf Ne E. destruct I as [New One Lv Ord Er Rm Bf Pd]. destruct K as [Ed Rq Wt Sl Gn Rt Qu De Bz].
  destruct l as [| | |u m|u|b|]; cbn [step] in E; try contradiction.
  - destruct (ent s) eqn:Eo; try discriminate. injection E as <-. destruct Lv as [L1 [L2 L3]].
    assert (R0 : rmq s = None) by (rewrite L1 in Rm; destruct (rmq s); cbn in Rm; [lia|auto]).
    constructor; cbn [ent idx next polls rmq cq dl pending hist rearm]; auto.
    + rewrite R0. discriminate.
    + rewrite L1. discriminate.
    + rewrite L3. discriminate.
    + rewrite L1. discriminate.
    + rewrite L3. contradiction.
  - destruct (dl s) eqn:D; try discriminate. destruct (ent s) eqn:Eo; try discriminate. injection E as <-. destruct Lv as [L1 L2].
    assert (P1 : polls s (idx s) = true) by (rewrite Bf, Ed in L1 by auto; destruct (polls s (idx s)); auto; discriminate).
    constructor; cbn [ent idx next polls rmq cq dl pending hist]; auto.
    + intros u [= <-]. auto.
    + intros u [= <-]. auto.
    + discriminate.
    + now apply quiet_app.
    + rewrite existsb_app, De. reflexivity.
  - destruct (cq s) as [|c t] eqn:Q; try discriminate. destruct c as [u m|u|r].
    + destruct (ent s) eqn:Eo; try discriminate. destruct m; [|unfold ends in Ed; cbn in Ed; discriminate]. injection E as <-.
      assert (Nr : dl s <> Returned) by (intros X; destruct (Rt X); discriminate).
      constructor; cbn [ent idx next polls rmq cq dl pending hist]; auto.
      * intros X. contradiction.
      * apply quiet_app; auto. split; auto. rewrite De. destruct (dl s); auto. contradiction.
      * rewrite existsb_app, De. cbn. now rewrite Bool.orb_false_r.
      * intros X. apply Bz. now right.
    + destruct (ent s) eqn:Eo; try discriminate. injection E as <-.
      constructor; cbn [ent idx next polls rmq cq dl pending hist]; auto. intros X. apply Bz. now right.
    + destruct (dl s) as [|u|] eqn:D; try discriminate. cbn in Rm. unfold rems in Rm. cbn in Rm. fold (rems t) in Rm.
      assert (R1 : rems t = 0%nat) by lia. destruct (rems_none t R1) as [R2 R3].
      destruct r; injection E as <-; constructor; cbn [ent idx next polls rmq cq dl pending hist]; auto; try discriminate;
        try (cbn in Sl; tauto); try (now rewrite R2); try (now apply quiet_app); try (rewrite existsb_app, De; reflexivity).
      intros w [= <-]. pose proof (Wt u eq_refl). subst u. split; auto. apply Bz. now left.
  - destruct (polls s u) eqn:P; try discriminate. pose proof (One u P) as ->. destruct m; [|contradiction]. injection E as <-.
    assert (G0 : existsb isrem (cq s) = false) by (destruct (existsb isrem (cq s)); auto; rewrite Gn in P; auto; discriminate).
    constructor; cbn [ent idx next polls rmq cq dl pending hist post]; auto.
    + rewrite ends_app, Ed. reflexivity.
    + now apply sealed_app.
    + rewrite existsb_app, G0. discriminate.
    + intros X. destruct (Rt X). congruence.
  - destruct (rmq s) as [u|] eqn:R; try discriminate. destruct (Rq u eq_refl) as [-> P]. rewrite P in E. injection E as <-.
    assert (Dw : wait (dl s) = 1%nat /\ rems (cq s) = 0%nat) by (cbn in Rm; destruct (dl s); cbn in *; lia). destruct Dw as [Dw R1]. destruct (rems_none _ R1) as [R2 R3].
    assert (Dn : dl s <> Returned) by (intros X; rewrite X in Dw; discriminate).
    constructor; cbn [ent idx next polls rmq cq dl pending hist post disarm]; auto; try discriminate.
    + rewrite ends_app, Ed. destruct b; reflexivity.
    + destruct b; [change [Rem Removed; Err (idx s)] with ([Rem Removed] ++ [Err (idx s)]) | change [Err (idx s); Rem Removed] with ([Err (idx s)] ++ [Rem Removed])];
        rewrite app_assoc; (apply sealed_app; [now apply sealed_app | exact Logic.I]).
    + intros _. apply upd_eq.
    + intros X. contradiction.
    + intros X. exfalso. apply in_app_iff in X. destruct X as [X|X]; [contradiction|]. destruct b; cbn in X; intuition discriminate.
  - destruct (rmq s) as [u|] eqn:R; try discriminate. destruct (Rq u eq_refl) as [-> P]. rewrite P in E. injection E as <-.
    assert (Dw : wait (dl s) = 1%nat /\ rems (cq s) = 0%nat) by (cbn in Rm; destruct (dl s); cbn in *; lia). destruct Dw as [Dw R1]. destruct (rems_none _ R1) as [R2 R3].
    assert (Dn : dl s <> Returned) by (intros X; rewrite X in Dw; discriminate).
    constructor; cbn [ent idx next polls rmq cq dl pending hist post]; auto; try discriminate.
    + rewrite ends_app, Ed. reflexivity.
    + now apply sealed_app.
    + rewrite existsb_app, R2. discriminate.
    + intros X. contradiction.
Qed.

Lemma run_inv ls s : Forall no_failure ls -> exec step init ls = Next s -> inv s.
Proof.
  intros F E. revert ls s F E. induction ls as [|l ls IH] using rev_ind; intros s F E; [injection E as <-; apply init_inv|].
  rewrite exec_app in E. destruct (exec step init ls) as [| |s1] eqn:E1; try discriminate. apply Forall_app in F. destruct F as [F1 F2]. inversion_clear F2.
  cbn in E. pose proof (step_inv s1 l (IH s1 F1 eq_refl) H) as X. destruct (step s1 l); try discriminate. injection E as <-. exact X.
Qed.
Lemma run_kin ls s : Forall no_failure ls -> Forall no_end ls -> exec step init ls = Next s -> kin s.
Proof.
  revert s. induction ls as [|l ls IH] using rev_ind; intros s F G E; [injection E as <-; apply init_kin|].
  rewrite exec_app in E. destruct (exec step init ls) as [| |s1] eqn:E1; try discriminate. apply Forall_app in F. destruct F as [F1 F2]. inversion_clear F2.
  apply Forall_app in G. destruct G as [G1 G2]. inversion_clear G2.
  cbn in E. destruct (step s1 l) eqn:E2; try discriminate. injection E as <-. exact (step_kin s1 l s0 (run_inv ls s1 F1 E1) (IH s1 F1 G1 eq_refl) H H1 E2).
Qed.

Lemma upoll_safe_pf ls : Forall no_failure ls -> exec step init ls <> Ub.
Proof.
  induction ls as [|l ls IH] using rev_ind; intros F; [discriminate|].
  apply Forall_app in F. destruct F as [F1 F2]. inversion_clear F2. rewrite exec_app. destruct (exec step init ls) as [| |s1] eqn:E1; try discriminate.
  - now apply IH in F1.
  - cbn. pose proof (step_inv s1 l (run_inv _ _ F1 E1) H) as X. destruct (step s1 l); try discriminate. contradiction.
Qed.
Lemma upoll_armed_pf ls s : Forall no_failure ls -> exec step init ls = Next s -> ent s = Live -> dl s = Before -> cq s = [] ->
  exists u, polls s u = true.
Proof.
  intros F E L D Q. pose proof (run_inv ls s F E) as [New One Lv Ord Er Rm Bf Pd]. rewrite L, Q in Lv. destruct Lv as [X _]. exists (idx s).
  destruct (polls s (idx s)); auto. discriminate.
Qed.
Lemma upoll_quiet_pf ls s : Forall no_failure ls -> Forall no_end ls -> exec step init ls = Next s -> quiet false (hist s).
Proof. intros F G E. apply (run_kin ls s F G E). Qed.
Lemma upoll_freed_pf ls s : Forall no_failure ls -> Forall no_end ls -> exec step init ls = Next s -> dl s = Returned -> cq s = [] ->
  ent s = Freed /\ pending s = 0%Z /\ forall u, polls s u = false.
Proof.
  intros F G E D Q. pose proof (run_inv ls s F E) as [New One Lv Ord Er Rm Bf Pd]. pose proof (run_kin ls s F G E) as [Ed Rq Wt Sl Gn Rt Qu De Bz].
  destruct (Rt D) as [_ P]. rewrite Q, D, P in *. destruct (ent s); try (destruct Lv as [X _]; discriminate).
  repeat split; auto. intros u. destruct (polls s u) eqn:X; auto. rewrite (One u X) in X. congruence.
Qed.
