(** Proofs for PeriodicProps.v. *)
From Verif Require Import Util Conc PeriodicModel PeriodicSpec.
From Coq Require Import Lia Permutation.

Definition run (s : st) : list nat := match mode s with Task p => [p] | _ => [] end.
Definition places (s : st) : list nat := map snd (timers s) ++ rs s ++ run s.

Record I (s : st) : Prop := mk_I {
  i_uds : NoDup (map fst (timers s));
  i_ps : NoDup (places s);
  i_dom : forall p, In p (places s) <-> p < nit s /\ fr s p = false;
  i_map : forall p, im s p = true -> p < nit s /\ fr s p = false /\ rf s p = 2;
  i_fr : forall p, fr s p = true -> p < nit s;
  i_unm : forall p, p < nit s -> im s p = false -> fr s p = false -> rf s p = 1;
  i_v1 : forall ud p, im s p = true -> In (ud, p) (timers s) -> ud = v1 s p;
  i_task : forall p, In p (rs s ++ run s) -> im s p = true;
  i_fib : mode s = Fib -> rs s = [];
  i_can : forall ud p, In (CTimer ud p false) (cq s) -> im s p = false;
  i_rem : forall a b ud q, sq s = a ++ SRemove ud q :: b -> forall p, In (ud, p) (kt s) \/ In (STimer ud p) a -> im s p = false;
  i_leak1 : forall ud p, In (ud, p) (kt s) -> im s p = false -> exists q, In (SRemove ud q) (sq s);
  i_leak2 : forall a b ud p, sq s = a ++ STimer ud p :: b -> im s p = false -> exists q, In (SRemove ud q) b;
  i_dn : forall p, p < nit s -> im s p = false -> dn s p = true \/ (exists ud, In (SRemove ud p) (sq s)) \/ In (CRemoved p) (cq s)
}.

Lemma I_init : I init.
Proof.
  split; cbn; try easy; try lia; [apply NoDup_nil|apply NoDup_nil|].
  intros a b ud q H. now destruct a.
Qed.

Lemma in_places s p : In p (places s) <-> (exists ud, In (ud, p) (timers s)) \/ In p (rs s) \/ In p (run s).
Proof.
  unfold places. rewrite !in_app_iff, in_map_iff. split.
  - intros [([ud q] & E & H)|H]; [cbn in E; subst q; eauto|auto].
  - intros [[ud H]|H]; [left; exists (ud, p); auto|auto].
Qed.
Lemma in_sq_tm ud p l : In (ud, p) (flat_map sq_tm l) <-> In (STimer ud p) l.
Proof.
  rewrite in_flat_map. split.
  - intros ([u q|u q] & H & E); cbn in E; [destruct E as [E|[]]; congruence|easy].
  - intros H. exists (STimer ud p). split; auto. now left.
Qed.
Lemma in_timers s ud p : In (ud, p) (timers s) <-> In (STimer ud p) (sq s) \/ In (ud, p) (kt s) \/ exists b, In (CTimer ud p b) (cq s).
Proof.
  unfold timers. rewrite !in_app_iff, in_sq_tm, in_flat_map. split.
  - intros [H|[H|([u q b|q] & H & E)]]; auto; cbn in E; [destruct E as [E|[]]; right; right; exists b; congruence|easy].
  - intros [H|[H|[b H]]]; auto. right. right. exists (CTimer ud p b). split; auto. now left.
Qed.
Lemma uses_false s ud : uses s ud = false -> ~ In ud (map fst (timers s)).
Proof.
  intros H A. apply in_map_iff in A as (x & E & A). assert (uses s ud = true); [|congruence]. apply existsb_exists. exists x. split; auto. now apply Nat.eqb_eq.
Qed.
Lemma uds_inj s ud p q : NoDup (map fst (timers s)) -> In (ud, p) (timers s) -> In (ud, q) (timers s) -> p = q.
Proof.
  generalize (timers s) as l. induction l as [|[a b] l IH]; [easy|]. cbn. intros ND H1 H2. apply NoDup_cons_iff in ND as [Na ND].
  destruct H1 as [H1|H1], H2 as [H2|H2]; auto; [congruence| |].
  - exfalso. apply Na. apply in_map_iff. exists (ud, q). cbn. split; [congruence|auto].
  - exfalso. apply Na. apply in_map_iff. exists (ud, p). cbn. split; [congruence|auto].
Qed.

(** The list of submissions after one was appended. *)
Lemma snoc_split {A} (l : list A) x a y b : l ++ [x] = a ++ y :: b -> (a = l /\ x = y /\ b = []) \/ exists b', b = b' ++ [x] /\ l = a ++ y :: b'.
Proof.
  destruct b as [|z b _] using rev_ind.
  - intros H. apply app_inj_tail in H as [-> ->]. auto.
  - intros H. right. exists b. change (a ++ y :: b ++ [z]) with (a ++ (y :: b) ++ [z]) in H. rewrite app_assoc in H. apply app_inj_tail in H as [-> ->]. auto.
Qed.

(** [timers] after a timer was appended to the submissions. *)
Lemma timers_app sq1 k c x : Permutation (flat_map sq_tm (sq1 ++ [STimer (fst x) (snd x)]) ++ k ++ c) (x :: flat_map sq_tm sq1 ++ k ++ c).
Proof.
  rewrite flat_map_app. cbn. destruct x as [a b]. cbn. rewrite <- app_assoc. cbn. symmetry. apply Permutation_middle.
Qed.

(** Schedules: AddPeriodic and the rescheduling share this. [s] before, without item [p] in any place. *)
Lemma I_sched s ud p rs' m :
  uses s ud = false -> ~ In p (map snd (timers s)) ->
  NoDup (p :: map snd (timers s) ++ rs' ++ (match m with Task q => [q] | _ => [] end)) ->
  forall nit' im' rf', (forall q, q <> p -> rf' q = rf s q) -> rf' p = 2 -> (forall q, q <> p -> im' q = im s q) -> im' p = true ->
  (forall q, In q (p :: map snd (timers s) ++ rs' ++ (match m with Task q => [q] | _ => [] end)) <-> q < nit' /\ fr s q = false) ->
  (forall q, q < nit' -> q <> p -> q < nit s) -> nit s <= nit' ->
  (forall q, In q (rs' ++ (match m with Task q => [q] | _ => [] end)) -> im' q = true) ->
  (m = Fib -> rs' = []) ->
  I s ->
  I (mk nit' im' rf' (fr s) (upd (v1 s) p ud) (dn s) (sq s ++ [STimer ud p]) (kt s) (cq s) rs' m).
Proof.
  intros Hu Hp ND nit' im' rf' Hr1 Hr2 Hi Hip Hd Hn Hn' Ht Hf [P1 P2 P3 P4 P4' P5 P6 P7 P8 P9 P10 P11 P12 P13].
  assert (T : Permutation (timers (mk nit' im' rf' (fr s) (upd (v1 s) p ud) (dn s) (sq s ++ [STimer ud p]) (kt s) (cq s) rs' m)) ((ud, p) :: timers s)).
  { unfold timers. cbn [sq kt cq]. apply (timers_app (sq s) (kt s) (flat_map cq_tm (cq s)) (ud, p)). }
  set (s' := mk nit' im' rf' (fr s) (upd (v1 s) p ud) (dn s) (sq s ++ [STimer ud p]) (kt s) (cq s) rs' m) in *.
  assert (Tp : Permutation (places s') (p :: map snd (timers s) ++ rs' ++ (match m with Task q => [q] | _ => [] end))).
  { unfold places. apply (Permutation_map snd) in T. rewrite T. reflexivity. }
  assert (Np : forall v q, In (v, q) (timers s) -> q <> p) by (intros v q H ->; apply Hp; apply in_map_iff; exists (v, p); auto).
  split.
  - apply (Permutation_map fst) in T. rewrite T. cbn. constructor; auto. now apply uses_false.
  - now rewrite Tp.
  - intros q. rewrite Tp. apply Hd.
  - cbn [im nit fr rf s']. intros q Hq. destruct (Nat.eq_dec q p) as [->|Hqp].
    + rewrite Hr2. destruct (Hd p) as [X _]. destruct X; [now left|auto].
    + rewrite Hr1 by auto. rewrite Hi in Hq by auto. destruct (P4 q Hq) as (X & Y & Z). split; [lia|auto].
  - cbn [nit fr s']. intros q Hq. apply P4' in Hq. lia.
  - cbn [im nit fr rf s']. intros q Hq Hm Hr. destruct (Nat.eq_dec q p) as [->|Hqp]; [congruence|]. rewrite Hr1 by auto.
    rewrite Hi in Hm by auto. auto.
  - intros v q Hq Hin. rewrite T in Hin. cbn [im v1 s'] in *. destruct Hin as [E|Hin].
    + injection E as <- <-. now rewrite upd_eq.
    + rewrite upd_neq by (eapply Np; eauto). apply P6; auto. rewrite <- Hi; auto. eapply Np; eauto.
  - exact Ht.
  - exact Hf.
  - cbn [cq im s']. intros v q H. assert (q <> p). { apply (Np v). apply in_timers. eauto. } rewrite Hi by auto. eauto.
  - cbn [sq kt im s']. intros a b v r E q Hq. apply snoc_split in E as [(_ & E & _)|(b' & -> & E)]; [discriminate|].
    assert (q <> p). { apply (Np v). apply in_timers. destruct Hq as [Hq|Hq]; [auto|left; rewrite E; apply in_app_iff; auto]. }
    rewrite Hi by auto. eapply P10; eauto.
  - cbn [sq kt im s']. intros v q Hq Hm. assert (q <> p) by (apply (Np v); apply in_timers; auto). rewrite Hi in Hm by auto.
    destruct (P11 v q Hq Hm) as [r Hr]. exists r. apply in_app_iff. auto.
  - cbn [sq im s']. intros a b v q E Hm. apply snoc_split in E as [(_ & E & _)|(b' & -> & E)].
    + injection E as <- <-. congruence.
    + assert (q <> p). { apply (Np v). apply in_timers. left. rewrite E. apply in_app_iff. right. now left. }
      rewrite Hi in Hm by auto. destruct (P12 a b' v q E Hm) as [r Hr]. exists r. apply in_app_iff. auto.
  - cbn [nit im dn sq cq s']. intros q Hq Hm. assert (q <> p) by congruence. rewrite Hi in Hm by auto.
    destruct (P13 q) as [X|[[v X]|X]]; auto. right. left. exists v. apply in_app_iff. auto.
Qed.


Lemma I_add s ud : I s -> match add s ud with Next s' => I s' | Ub => False | Stuck => True end.
Proof.
  intros HI. unfold add. destruct (uses s ud) eqn:Eu; [exact Logic.I|]. cbn zeta. unfold schedule. cbn [nit im rf fr v1 dn sq kt cq].
  assert (Np : ~ In (nit s) (places s)) by (rewrite (i_dom s HI); lia).
  assert (Fr : fr s (nit s) = false) by (destruct (fr s (nit s)) eqn:E; auto; apply (i_fr s HI) in E; lia).
  assert (Lt : forall p, im s p = true -> p < nit s) by (intros p H; apply (i_map s HI p H)).
  apply I_sched; auto.
  - intros A. apply Np. apply in_app_iff. auto.
  - constructor; [exact Np|apply (i_ps s HI)].
  - intros q Hq. now rewrite !upd_neq by auto.
  - now rewrite upd_eq.
  - intros q Hq. now rewrite upd_neq by auto.
  - now rewrite upd_eq.
  - intros q. change (nit s = q \/ In q (places s) <-> q < S (nit s) /\ fr s q = false). rewrite (i_dom s HI).
    split; [intros [<-|[A B]]; split; auto; lia|]. intros [A B]. destruct (Nat.eq_dec q (nit s)); [auto|right; split; [lia|auto]].
  - lia.
  - intros q Hq. apply (i_task s HI) in Hq. apply Lt in Hq as L. now rewrite upd_neq by lia.
  - apply (i_fib s HI).
Qed.

Lemma I_again s ud : I s -> mode s = Sched -> match again s ud with Next s' => I s' | Ub => False | Stuck => True end.
Proof.
  intros HI M. unfold again. destruct (rs s) as [|p r] eqn:Er; [exact Logic.I|]. destruct (uses s ud) eqn:Eu; [exact Logic.I|].
  assert (Ip : In p (places s)) by (apply in_places; right; left; rewrite Er; now left).
  pose proof (proj1 (i_dom s HI p) Ip) as [Lp Fp]. rewrite Fp. unfold schedule.
  assert (Pl : Permutation (places s) (p :: map snd (timers s) ++ r ++ [])).
  { unfold places, run. rewrite Er, M. symmetry. apply (Permutation_middle (map snd (timers s)) (r ++ []) p). }
  assert (ND := i_ps s HI). rewrite Pl in ND.
  assert (Hm : im s p = true) by (apply (i_task s HI); rewrite Er; now left).
  apply I_sched; auto.
  - intros A. apply NoDup_cons_iff in ND as [X _]. apply X. apply in_app_iff. auto.
  - intros q Hq. now rewrite upd_neq by auto.
  - now rewrite upd_eq.
  - intros q. rewrite <- (i_dom s HI). now rewrite Pl.
  - intros q Hq. apply (i_task s HI). rewrite Er. apply in_app_iff in Hq as [Hq|[]]. cbn. rewrite in_app_iff. auto.
  - discriminate.
Qed.

(** The parts of the invariant that only depend on where the timers are, when those stay the same up to order. *)
Lemma I_cancel s p : I s -> mode s = Fib -> match cancel s p with Next s' => I s' | Ub => False | Stuck => True end.
Proof.
  intros [P1 P2 P3 P4 P4' P5 P6 P7 P8 P9 P10 P11 P12 P13] M. unfold cancel. destruct (im s p) eqn:Em; [|exact Logic.I].
  destruct (P4 p Em) as (Lp & Fp & Rp). rewrite Fp.
  set (s' := mk _ _ _ _ _ _ _ _ _ _ _).
  assert (T : timers s' = timers s) by (unfold timers; cbn [sq kt cq s']; rewrite flat_map_app; cbn; now rewrite app_nil_r).
  assert (Pl : places s' = places s) by (unfold places; now rewrite T).
  assert (Rs : rs s = []) by auto. assert (Rn : run s = []) by (unfold run; now rewrite M).
  split.
  - now rewrite T.
  - now rewrite Pl.
  - now rewrite Pl.
  - cbn [im nit fr rf s']. intros q Hq. destruct (Nat.eq_dec q p) as [->|Hn]; [rewrite upd_eq in Hq; discriminate|].
    rewrite upd_neq in Hq by auto. rewrite upd_neq by auto. auto.
  - exact P4'.
  - cbn [im nit fr rf s']. intros q Lq Hq Fq. destruct (Nat.eq_dec q p) as [->|Hn]; [rewrite upd_eq, Rp; reflexivity|].
    rewrite upd_neq in Hq by auto. rewrite upd_neq by auto. auto.
  - rewrite T. cbn [im v1 s']. intros ud q Hq. destruct (Nat.eq_dec q p) as [->|Hn]; [rewrite upd_eq in Hq; discriminate|].
    rewrite upd_neq in Hq by auto. auto.
  - cbn [rs s']. change (run s') with (run s). rewrite Rs, Rn. easy.
  - exact P8.
  - cbn [cq im s']. intros ud q H. destruct (Nat.eq_dec q p) as [->|Hn]; [now rewrite upd_eq|]. rewrite upd_neq by auto. eauto.
  - cbn [sq kt im s']. intros a b ud r E q Hq. destruct (Nat.eq_dec q p) as [->|Hn]; [now rewrite upd_eq|]. rewrite upd_neq by auto.
    apply snoc_split in E as [(-> & E & ->)|(b' & -> & E)]; [|eapply P10; eauto].
    injection E as <- <-. exfalso. assert (A : In (v1 s p, q) (timers s)) by (apply in_timers; tauto).
    assert (Ip : In p (places s)) by (apply P3; auto). apply in_places in Ip as [[ud Ip]|Ip]; [|rewrite Rs, Rn in Ip; destruct Ip as [[]|[]]].
    assert (ud = v1 s p) by auto. subst ud. apply Hn. eapply uds_inj; eauto.
  - cbn [sq kt im s']. intros ud q Hq Hm. destruct (Nat.eq_dec q p) as [->|Hn].
    + exists p. assert (ud = v1 s p) by (apply P6; auto; apply in_timers; auto). subst ud. apply in_app_iff. right. now left.
    + rewrite upd_neq in Hm by auto. destruct (P11 ud q Hq Hm) as [r Hr]. exists r. apply in_app_iff. auto.
  - cbn [sq im s']. intros a b ud q E Hm. apply snoc_split in E as [(_ & E & _)|(b' & -> & E)]; [discriminate|].
    destruct (Nat.eq_dec q p) as [->|Hn].
    + exists p. assert (ud = v1 s p). { apply P6; auto. apply in_timers. left. rewrite E. apply in_app_iff. right. now left. }
      subst ud. apply in_app_iff. right. now left.
    + rewrite upd_neq in Hm by auto. destruct (P12 a b' ud q E Hm) as [r Hr]. exists r. apply in_app_iff. auto.
  - cbn [nit im dn sq cq s']. intros q Lq Hm. destruct (Nat.eq_dec q p) as [->|Hn].
    + right. left. exists (v1 s p). apply in_app_iff. right. now left.
    + rewrite upd_neq in Hm by auto. destruct (P13 q Lq Hm) as [X|[[ud X]|X]]; auto. right. left. exists ud. apply in_app_iff. auto.
Qed.

Lemma filter_perm {A} (f : A -> bool) l : Permutation l (filter f l ++ filter (fun x => negb (f x)) l).
Proof.
  induction l as [|x l IH]; [constructor|]. cbn. destruct (f x); cbn; [now constructor|]. rewrite IH at 1. apply Permutation_middle.
Qed.

(** A step that moves timers between the rings and the kernel. *)
Lemma I_move s sq' kt' cq' : I s ->
  Permutation (flat_map sq_tm sq' ++ kt' ++ flat_map cq_tm cq') (timers s) ->
  (forall ud p, In (CTimer ud p false) cq' -> im s p = false) ->
  (forall a b ud q, sq' = a ++ SRemove ud q :: b -> forall p, In (ud, p) kt' \/ In (STimer ud p) a -> im s p = false) ->
  (forall ud p, In (ud, p) kt' -> im s p = false -> exists q, In (SRemove ud q) sq') ->
  (forall a b ud p, sq' = a ++ STimer ud p :: b -> im s p = false -> exists q, In (SRemove ud q) b) ->
  (forall p, (exists ud, In (SRemove ud p) (sq s)) \/ In (CRemoved p) (cq s) -> (exists ud, In (SRemove ud p) sq') \/ In (CRemoved p) cq') ->
  I (mk (nit s) (im s) (rf s) (fr s) (v1 s) (dn s) sq' kt' cq' (rs s) (mode s)).
Proof.
  intros [P1 P2 P3 P4 P4' P5 P6 P7 P8 P9 P10 P11 P12 P13] T H1 H2 H3 H4 H5.
  set (s' := mk _ _ _ _ _ _ _ _ _ _ _). change (Permutation (timers s') (timers s)) in T.
  assert (Pl : Permutation (places s') (places s)) by (unfold places; apply (Permutation_map snd) in T; now rewrite T).
  split; auto.
  - apply (Permutation_map fst) in T. now rewrite T.
  - now rewrite Pl.
  - intros q. rewrite Pl. apply P3.
  - intros ud p Hp Hin. rewrite T in Hin. now apply P6.
  - intros p Lp Hp. destruct (P13 p Lp Hp) as [X|X]; auto.
Qed.

Lemma I_ktake s b : I s -> match ktake s b with Next s' => I s' | Ub => False | Stuck => True end.
Proof.
  intros HI. unfold ktake. destruct (sq s) as [|[ud p|ud p] r] eqn:Es; [exact Logic.I| |].
  - apply I_move; auto.
    + unfold timers. rewrite Es. cbn. rewrite <- app_assoc. cbn. symmetry.
      rewrite (app_assoc (flat_map sq_tm r) (kt s)). rewrite (app_assoc (flat_map sq_tm r) (kt s)). apply Permutation_middle.
    + apply (i_can s HI).
    + intros a c v q E w Hw. apply (i_rem s HI (STimer ud p :: a) c v q); [rewrite Es, E; reflexivity|].
      rewrite in_app_iff in Hw. destruct Hw as [[Hw|[Hw|[]]]|Hw]; auto; right; [left; congruence|now right].
    + intros v q Hq Hm. apply in_app_iff in Hq as [Hq|[Hq|[]]].
      * destruct (i_leak1 s HI v q Hq Hm) as [w Hw]. exists w. rewrite Es in Hw. destruct Hw; [discriminate|auto].
      * injection Hq as <- <-. apply (i_leak2 s HI [] r ud p); auto.
    + intros a c v q E Hm. apply (i_leak2 s HI (STimer ud p :: a) c v q); auto. rewrite Es, E. reflexivity.
    + intros q [[v Hv]|Hq]; auto. left. exists v. rewrite Es in Hv. destruct Hv; [discriminate|auto].
  - set (hit := filter (fun x => fst x =? ud) (kt s)). set (rest := filter (fun x => negb (fst x =? ud)) (kt s)).
    set (tc := map (fun x => CTimer (fst x) (snd x) false) hit).
    assert (Ftc : flat_map cq_tm tc = hit).
    { unfold tc. clear. induction hit as [|[a c] l IH]; auto. cbn. now rewrite IH. }
    assert (Fc : flat_map cq_tm (if b then CRemoved p :: tc else tc ++ [CRemoved p]) = hit).
    { destruct b; [exact Ftc|]. rewrite flat_map_app, Ftc. cbn. apply app_nil_r. }
    assert (Hh : forall v q, In (v, q) hit <-> v = ud /\ In (v, q) (kt s)).
    { intros v q. unfold hit. rewrite filter_In. cbn. rewrite Nat.eqb_eq. tauto. }
    assert (Hr : forall v q, In (v, q) rest <-> v <> ud /\ In (v, q) (kt s)).
    { intros v q. unfold rest. rewrite filter_In. cbn. rewrite negb_true_iff, Nat.eqb_neq. tauto. }
    apply I_move; auto.
    + unfold timers. rewrite Es. cbn [flat_map sq_tm app]. rewrite flat_map_app, Fc. apply Permutation_app_head.
      rewrite (filter_perm (fun x => fst x =? ud) (kt s)). fold hit rest. rewrite <- app_assoc.
      rewrite (app_assoc rest). rewrite (Permutation_app_comm (rest ++ flat_map cq_tm (cq s)) hit). reflexivity.
    + intros v q H. apply in_app_iff in H as [H|H]; [eapply (i_can s HI); eauto|].
      assert (Hin : In (CTimer v q false) tc).
      { destruct b; [destruct H; [discriminate|auto]|]. apply in_app_iff in H as [H|[H|[]]]; [auto|discriminate]. }
      apply in_map_iff in Hin as ([x y] & E & Hin). cbn in E. injection E as -> ->. apply Hh in Hin as [-> Hin].
      apply (i_rem s HI [] r ud p); auto.
    + intros a c v q E w Hw. apply (i_rem s HI (SRemove ud p :: a) c v q); [rewrite Es, E; reflexivity|].
      destruct Hw as [Hw|Hw]; [left; now apply Hr in Hw|right; now right].
    + intros v q Hq Hm. apply Hr in Hq as [Hn Hq]. destruct (i_leak1 s HI v q Hq Hm) as [w Hw]. exists w. rewrite Es in Hw. destruct Hw; [congruence|auto].
    + intros a c v q E Hm. apply (i_leak2 s HI (SRemove ud p :: a) c v q); auto. rewrite Es, E. reflexivity.
    + intros q [[v Hv]|Hq].
      * rewrite Es in Hv. destruct Hv as [Hv|Hv]; [|left; eauto]. injection Hv as <- <-. right. apply in_app_iff. right.
        destruct b; [now left|]. apply in_app_iff. right. now left.
      * right. apply in_app_iff. auto.
Qed.

Lemma I_kfire s ud : I s -> match kfire s ud with Next s' => I s' | Ub => False | Stuck => True end.
Proof.
  intros HI. unfold kfire. destruct (find _ (kt s)) as [[ud' p]|] eqn:Ef; [|exact Logic.I].
  apply find_some in Ef as [Hin E]. cbn in E. apply Nat.eqb_eq in E. subst ud'.
  set (rest := filter (fun x => negb (fst x =? ud)) (kt s)).
  assert (Hr : forall v q, In (v, q) rest <-> v <> ud /\ In (v, q) (kt s)).
  { intros v q. unfold rest. rewrite filter_In. cbn. rewrite negb_true_iff, Nat.eqb_neq. tauto. }
  assert (Hit : filter (fun x => fst x =? ud) (kt s) = [(ud, p)]).
  { assert (ND : NoDup (map fst (kt s))).
    { assert (X := i_uds s HI). unfold timers in X. rewrite !map_app in X. clear -X.
      induction (map fst (flat_map sq_tm (sq s))) as [|a l IH]; cbn in X.
      - clear -X. induction (map fst (kt s)) as [|a l IH]; [constructor|]. cbn in X. apply NoDup_cons_iff in X as [A B].
        constructor; [intros C; apply A; apply in_app_iff; auto|auto].
      - apply NoDup_cons_iff in X as [_ X]. auto. }
    clear -Hin ND. induction (kt s) as [|[a c] l IH]; [easy|]. cbn in *. apply NoDup_cons_iff in ND as [Na ND]. destruct Hin as [Hin|Hin].
    - injection Hin as -> ->. rewrite Nat.eqb_refl. f_equal. clear -Na. induction l as [|[a c] l IH]; auto. cbn in *.
      destruct (Nat.eqb_spec a ud) as [->|]; [now destruct Na; left|]. apply IH. intros ?. apply Na. auto.
    - destruct (Nat.eqb_spec a ud) as [->|]; [|auto]. exfalso. apply Na. apply in_map_iff. exists (ud, p). auto. }
  apply I_move; auto.
  - unfold timers. apply Permutation_app_head. rewrite flat_map_app. cbn.
    rewrite (filter_perm (fun x => fst x =? ud) (kt s)), Hit. fold rest. cbn. rewrite app_assoc. symmetry. apply Permutation_cons_append.
  - intros v q H. apply in_app_iff in H as [H|[H|[]]]; [eapply (i_can s HI); eauto|discriminate].
  - intros a c v q E w Hw. apply (i_rem s HI a c v q E). destruct Hw as [Hw|Hw]; auto. left. now apply Hr in Hw.
  - intros v q Hq. apply Hr in Hq as [_ Hq]. now apply (i_leak1 s HI).
  - apply (i_leak2 s HI).
  - intros q [Hq|Hq]; auto. right. apply in_app_iff. auto.
Qed.

Lemma I_next1 s : I s -> mode s = Reap -> match next1 s with Next s' => I s' | Ub => False | Stuck => True end.
Proof.
  intros HI M. unfold next1. destruct (cq s) as [|[ud p et|p] r] eqn:Ec; [exact Logic.I| |].
  - pose proof HI as [P1 P2 P3 P4 P4' P5 P6 P7 P8 P9 P10 P11 P12 P13].
    assert (Ip : In (ud, p) (timers s)) by (apply in_timers; right; right; exists et; rewrite Ec; now left).
    destruct (proj1 (P3 p)) as [Lp Fp]; [apply in_places; eauto|]. rewrite Fp.
    assert (Rn : run s = []) by (unfold run; now rewrite M).
    set (tm := flat_map sq_tm (sq s) ++ kt s ++ flat_map cq_tm r).
    assert (T : Permutation (timers s) ((ud, p) :: tm)).
    { unfold timers, tm. rewrite Ec. cbn. symmetry. rewrite !app_assoc. apply Permutation_middle. }
    assert (NDu : NoDup (map fst tm)).
    { apply (Permutation_map fst) in T. rewrite T in P1. now apply NoDup_cons_iff in P1 as [_ P1]. }
    assert (Pl : Permutation (places s) (p :: map snd tm ++ rs s)).
    { unfold places. apply (Permutation_map snd) in T. rewrite T, Rn, app_nil_r. reflexivity. }
    rewrite Pl in P2. apply NoDup_cons_iff in P2 as [Np P2].
    assert (Tin : forall v q, In (v, q) tm -> In (v, q) (timers s)) by (intros v q H; rewrite T; now right).
    assert (Can : forall v q, In (CTimer v q false) r -> im s q = false) by (intros v q H; apply (P9 v); rewrite Ec; now right).
    assert (Dn : forall q, q < nit s -> im s q = false -> dn s q = true \/ (exists u, In (SRemove u q) (sq s)) \/ In (CRemoved q) r).
    { intros q Lq Hq. destruct (P13 q Lq Hq) as [X|[X|X]]; auto. rewrite Ec in X. destruct X; [discriminate|auto]. }
    assert (Not : In p (places s) <-> p < nit s /\ fr s p = false) by apply P3.
    destruct (Nat.leb_spec (rf s p) 1) as [Rp|Rp].
    + assert (Mp : im s p = false). { destruct (im s p) eqn:E; auto. destruct (P4 p E) as (_ & _ & X). lia. }
      set (s' := mk _ _ _ _ _ _ _ _ _ _ _). assert (T' : timers s' = tm) by reflexivity.
      split; rewrite ?T'.
      * exact NDu.
      * unfold places, run. cbn [mode rs s']. rewrite T', app_nil_r. exact P2.
      * intros q. unfold places, run. cbn [mode rs nit fr s']. rewrite T', app_nil_r. destruct (Nat.eq_dec q p) as [->|Hn].
        -- rewrite upd_eq. split; [easy|]. intros [_ X]. discriminate.
        -- rewrite upd_neq by auto. rewrite <- P3, Pl. cbn. split; [auto|]. intros [X|X]; [congruence|auto].
      * cbn [im nit fr rf s']. intros q Hq. rewrite upd_neq by congruence. auto.
      * cbn [nit fr s']. intros q Hq. destruct (Nat.eq_dec q p) as [->|Hn]; [auto|]. rewrite upd_neq in Hq by auto. auto.
      * cbn [im nit fr rf s']. intros q Lq Hm Fq. destruct (Nat.eq_dec q p) as [->|Hn]; [rewrite upd_eq in Fq; discriminate|].
        rewrite upd_neq in Fq by auto. auto.
      * cbn [im v1 s']. eauto.
      * intros q Hq. apply P7. unfold run in *. rewrite M. exact Hq.
      * discriminate.
      * exact Can.
      * exact P10.
      * exact P11.
      * exact P12.
      * exact Dn.
    + assert (Mp : im s p = true). { destruct (im s p) eqn:E; auto. rewrite P5 in Rp; auto; lia. }
      destruct et; cbn [negb].
      2: { assert (im s p = false); [|congruence]. apply (P9 ud). rewrite Ec. now left. }
      set (s' := mk _ _ _ _ _ _ _ _ _ _ _). assert (T' : timers s' = tm) by reflexivity.
      assert (Pl' : Permutation (places s') (p :: map snd tm ++ rs s)).
      { unfold places, run. cbn [mode rs s']. rewrite T', app_assoc. symmetry. apply Permutation_cons_append. }
      split; rewrite ?T'.
      * exact NDu.
      * rewrite Pl'. now constructor.
      * intros q. rewrite Pl', <- Pl. apply P3.
      * exact P4.
      * exact P4'.
      * exact P5.
      * cbn [im v1 s']. eauto.
      * intros q Hq. unfold run in Hq. cbn [mode rs im s'] in *. apply in_app_iff in Hq as [Hq|[<-|[]]]; auto. apply P7. apply in_app_iff. auto.
      * discriminate.
      * exact Can.
      * exact P10.
      * exact P11.
      * exact P12.
      * exact Dn.
  - destruct HI as [P1 P2 P3 P4 P4' P5 P6 P7 P8 P9 P10 P11 P12 P13].
    set (s' := mk _ _ _ _ _ _ _ _ _ _ _).
    assert (T : timers s' = timers s) by (unfold timers; cbn [sq kt cq s']; now rewrite Ec).
    assert (Rn : run s' = run s) by (unfold run; now rewrite M).
    assert (Pl : places s' = places s) by (unfold places; now rewrite T, Rn).
    split; rewrite ?T, ?Pl; auto.
    + rewrite Rn. exact P7.
    + discriminate.
    + cbn [cq im s']. intros v q H. apply (P9 v). rewrite Ec. now right.
    + cbn [nit im dn sq cq s']. intros q Lq Hq. destruct (Nat.eq_dec q p) as [->|Hn]; [left; apply upd_eq|]. rewrite upd_neq by auto.
      destruct (P13 q Lq Hq) as [X|[X|X]]; auto. rewrite Ec in X. destruct X; [congruence|auto].
Qed.

Lemma I_to s rs' m : I s -> Permutation (rs' ++ run (to s rs' m)) (rs s ++ run s) -> (m = Fib -> rs' = []) -> I (to s rs' m).
Proof.
  intros [P1 P2 P3 P4 P4' P5 P6 P7 P8 P9 P10 P11 P12 P13] H Hf.
  assert (Pl : Permutation (places (to s rs' m)) (places s)) by (unfold places; now apply Permutation_app_head).
  split; auto.
  - now rewrite Pl.
  - intros p. rewrite Pl. apply P3.
  - intros p Hp. cbn [rs to] in Hp. rewrite H in Hp. now apply P7.
Qed.

Lemma I_step s l : I s -> match step s l with Next s' => I s' | Ub => False | Stuck => True end.
Proof.
  intros HI. destruct l as [ud|p|b|ud| | | | |ud|]; cbn [step].
  - assert (X := I_add s ud HI). destruct (mode s); auto.
  - destruct (mode s) eqn:M; auto. now apply I_cancel.
  - assert (X := I_ktake s b HI). destruct (mode s); auto.
  - assert (X := I_kfire s ud HI). destruct (mode s); auto.
  - destruct (mode s) eqn:M; auto. apply I_to; auto; [|discriminate]. unfold run. now rewrite M.
  - destruct (mode s) eqn:M; auto. now apply I_next1.
  - destruct (mode s) as [| |p|] eqn:M; auto. apply I_to; auto; [|discriminate]. unfold run. rewrite M. cbn. now rewrite app_nil_r.
  - destruct (mode s) eqn:M; auto. apply I_to; auto; [|discriminate]. unfold run. now rewrite M.
  - destruct (mode s) eqn:M; auto. now apply I_again.
  - destruct (mode s) eqn:M; auto. destruct (rs s) eqn:Er; auto. apply I_to; auto. unfold run. now rewrite M, Er.
Qed.

Lemma periodic_safe_pf : safe step init.
Proof. apply (reach_inv step I init I_step I_init). Qed.
Lemma I_reach s : reachable step init s -> I s.
Proof. apply (reach_inv step I init I_step I_init). Qed.

Lemma periodic_runs_pf s p : reachable step init s -> runs s p -> registered s p /\ ~ deleted s p.
Proof.
  intros R H. apply I_reach in R as HI. assert (M : im s p = true).
  { apply (i_task s HI). apply in_app_iff. right. unfold run. rewrite H. now left. }
  split; auto. unfold deleted. destruct (i_map s HI p M) as (_ & -> & _). discriminate.
Qed.
Lemma periodic_cancelled_pf s l s' p : reachable step init s -> cancelled s p -> step s l = Next s' -> cancelled s' p.
Proof.
  intros R [Lp Hp] E. apply I_reach in R as HI. unfold cancelled.
  assert (X : forall ud, match add s ud with Next s' => p < nit s' /\ im s' p = false | _ => True end).
  { intros ud. unfold add. destruct (uses s ud); auto. cbn. split; [lia|]. now rewrite upd_neq by lia. }
  destruct l as [ud|q|b|ud| | | | |ud|]; cbn [step] in E.
  - specialize (X ud). destruct (mode s); try discriminate; now rewrite E in X.
  - destruct (mode s); try discriminate. unfold cancel in E. destruct (im s q); [|discriminate]. destruct (fr s q); [discriminate|]. injection E as <-. cbn.
    split; auto. destruct (Nat.eq_dec p q) as [->|]; [apply upd_eq|now rewrite upd_neq].
  - assert (E' : ktake s b = Next s') by (destruct (mode s); exact E). unfold ktake in E'. destruct (sq s) as [|[]]; [discriminate| |]; injection E' as <-; auto.
  - assert (E' : kfire s ud = Next s') by (destruct (mode s); exact E). unfold kfire in E'. destruct (find _ _) as [[]|]; [|discriminate]; injection E' as <-; auto.
  - destruct (mode s); try discriminate; injection E as <-; auto.
  - destruct (mode s); try discriminate. unfold next1 in E. destruct (cq s) as [|[]]; [discriminate| |injection E as <-; auto].
    destruct (fr s p0); [discriminate|]. destruct (_ <=? _); [injection E as <-; auto|]. destruct (negb etime); [discriminate|]. injection E as <-; auto.
  - destruct (mode s); try discriminate; injection E as <-; auto.
  - destruct (mode s); try discriminate; injection E as <-; auto.
  - destruct (mode s); try discriminate. unfold again in E. destruct (rs s); [discriminate|]. destruct (uses s ud); [discriminate|]. destruct (fr s n); [discriminate|].
    injection E as <-; auto.
  - destruct (mode s); try discriminate. destruct (rs s); [|discriminate]. injection E as <-; auto.
Qed.
Lemma periodic_quiet_pf s p : reachable step init s -> quiet s ->
  (registered s p -> ticking s p) /\ (cancelled s p -> deleted s p /\ returned s p /\ ~ ticking s p).
Proof.
  intros R (M & Hs & Hc). apply I_reach in R as HI.
  assert (T : timers s = kt s) by (unfold timers; rewrite Hs, Hc; cbn; apply app_nil_r).
  assert (Rs := i_fib s HI M). assert (Rn : run s = []) by (unfold run; now rewrite M).
  assert (Pl : In p (places s) <-> ticking s p).
  { rewrite in_places, T, Rs, Rn. unfold ticking. split; [intros [H|[[]|[]]]; auto|auto]. }
  split.
  - intros H. apply Pl, (i_dom s HI). destruct (i_map s HI p H) as (A & B & _). auto.
  - intros [Lp Hp]. unfold deleted, returned.
    assert (NT : ~ ticking s p). { intros [ud H]. destruct (i_leak1 s HI ud p H Hp) as [q Hq]. now rewrite Hs in Hq. }
    split; [|split; auto].
    + destruct (fr s p) eqn:E; auto. exfalso. apply NT, Pl, (i_dom s HI). auto.
    + destruct (i_dn s HI p Lp Hp) as [X|[[ud X]|X]]; auto; [now rewrite Hs in X|now rewrite Hc in X].
Qed.
Lemma periodic_one_pf s ud1 ud2 p : reachable step init s -> In (ud1, p) (timers s) -> In (ud2, p) (timers s) -> ud1 = ud2.
Proof.
  intros R. apply I_reach in R as HI. assert (X := i_ps s HI). unfold places in X.
  assert (ND : NoDup (map snd (timers s))).
  { clear -X. induction (map snd (timers s)) as [|a l IH]; [constructor|]. cbn in X. apply NoDup_cons_iff in X as [A B].
    constructor; [intros C; apply A; apply in_app_iff; auto|auto]. }
  clear -ND. induction (timers s) as [|[a c] l IH]; [easy|]. cbn in *. apply NoDup_cons_iff in ND as [Na ND]. intros [H1|H1] [H2|H2]; auto.
  - congruence.
  - exfalso. apply Na. apply in_map_iff. exists (ud2, p). cbn. split; [congruence|auto].
  - exfalso. apply Na. apply in_map_iff. exists (ud1, p). cbn. split; [congruence|auto].
Qed.
