(** C74: ProactorPool::GetString. *)
From Verif Require Import Util Conc InternModel.

Record inv (s : st) : Prop := {
  i_fun : forall c p p', In (c, p) (sset s) -> In (c, p') (sset s) -> p = p';
  i_mem : forall c p, In (c, p) (sset s) -> mem s p = Some c;
  i_nd : NoDup (map fst (sset s)) /\ length (sset s) = nextp s;
  i_new : forall p, nextp s <= p -> mem s p = None;
  i_res : forall c p, In (c, Some p) (res s) -> In (c, p) (sset s);
  i_emp : forall c, In (c, None) (res s) -> c = 0;
  i_use : forall t c, th s t = Reading c \/ th s t = Gap c \/ th s t = Writing c -> c <> 0;
  i_zero : forall p, ~ In (0, p) (sset s) }.
Lemma find_some c l p : find c l = Some p -> In (c, p) l.
Proof. induction l as [|[d x] l IH]; cbn; [discriminate|]. destruct (Nat.eqb_spec d c) as [->|]; [intros [= ->]; now left|auto]. Qed.
Lemma find_none c l : find c l = None -> forall p, ~ In (c, p) l.
Proof. induction l as [|[d x] l IH]; cbn; [auto|]. destruct (Nat.eqb_spec d c) as [->|N]; [discriminate|]. intros H p [X|X]; [congruence|exact (IH H p X)]. Qed.
Lemma init_inv : inv init.
Proof. split; cbn; try contradiction; auto; try tauto. - split; [constructor|reflexivity]. - intros t c [X|[X|X]]; discriminate. Qed.
Lemma step_inv s l : inv s -> match step s l with Next s' => inv s' /\ (forall p c, mem s p = Some c -> mem s' p = Some c) | Ub => False | Stuck => True end.
Proof.
  intros [Fn Me Nd Ne Re Em Us Ze]. destruct l as [t c|t|t|t]; cbn [step].
  - destruct (th s t) eqn:Et; auto. destruct (Nat.eqb_spec c 0) as [->|Nc].
    + split; [|auto]. split; cbn; auto.
      * intros d p H. apply in_app_iff in H as [H|[H|[]]]; [auto|discriminate].
      * intros d H. apply in_app_iff in H as [H|[H|[]]]; [auto|congruence].
    + destruct (wr s); auto. split; [|auto]. split; cbn; auto. intros u d. unfold upd. destruct (Nat.eqb u t); [intros [X|[X|X]]; congruence|apply Us].
  - destruct (th s t) as [|c| |] eqn:Et; auto. destruct (find c (sset s)) as [p|] eqn:F; (split; [|auto]); split; cbn; auto.
    + intros d p' H. apply in_app_iff in H as [H|[H|[]]]; [auto|]. injection H as <- <-. now apply find_some.
    + intros d H. apply in_app_iff in H as [H|[H|[]]]; [auto|discriminate].
    + intros u d. unfold upd. destruct (Nat.eqb u t); [intros [X|[X|X]]; discriminate|apply Us].
    + intros u d. unfold upd. destruct (Nat.eqb_spec u t) as [->|]; [|apply Us]. intros [X|[X|X]]; try discriminate. injection X as <-. apply (Us t c). now left.
  - destruct (th s t) as [| |c|] eqn:Et; auto. destruct (_ && _)%bool; auto. split; [|auto]. split; cbn; auto.
    intros u d. unfold upd. destruct (Nat.eqb_spec u t) as [->|]; [|apply Us]. intros [X|[X|X]]; try discriminate. injection X as <-. apply (Us t c). right. now left.
  - destruct (th s t) as [| | |c] eqn:Et; auto. destruct (find c (sset s)) as [p|] eqn:F.
    + split; [|auto]. split; cbn; auto.
      * intros d p' H. apply in_app_iff in H as [H|[H|[]]]; [auto|]. injection H as <- <-. now apply find_some.
      * intros d H. apply in_app_iff in H as [H|[H|[]]]; [auto|discriminate].
      * intros u d. unfold upd. destruct (Nat.eqb u t); [intros [X|[X|X]]; discriminate|apply Us].
    + pose proof (find_none c _ F) as Nf. split; [split; cbn|].
      * intros d p p' [X|X] [Y|Y]; [congruence| | |eauto]; [injection X as <- <-; now apply Nf in Y|injection Y as <- <-; now apply Nf in X].
      * intros d p [X|X]; [injection X as <- <-; apply upd_eq|]. unfold upd. destruct (Nat.eqb_spec p (nextp s)) as [->|]; [|auto]. apply Me in X. rewrite Ne in X by lia. discriminate.
      * destruct Nd as [N1 N2]. split; [constructor; [|exact N1]|lia]. intros H. apply in_map_iff in H as ((d & p) & <- & H). exact (Nf p H).
      * intros p Hp. rewrite upd_neq by lia. apply Ne. lia.
      * intros d p H. apply in_app_iff in H as [H|[H|[]]]; [right; auto|]. left. congruence.
      * intros d H. apply in_app_iff in H as [H|[H|[]]]; [auto|discriminate].
      * intros u d. unfold upd. destruct (Nat.eqb u t); [intros [X|[X|X]]; discriminate|apply Us].
      * intros p [X|X]; [|exact (Ze p X)]. injection X as X _. apply (Us t c); [right; right; exact Et|exact X].
      * cbn. intros p d H. unfold upd. destruct (Nat.eqb_spec p (nextp s)) as [->|]; [|exact H]. rewrite Ne in H by lia. discriminate.
Qed.
Lemma reach_inv' s : reachable step init s -> inv s.
Proof. apply (reach_inv step inv init); [|apply init_inv]. intros s0 l I. pose proof (step_inv s0 l I) as H. destruct (step s0 l); tauto. Qed.

(** The view that is returned has the content of the argument ... *)
Theorem intern_content s c p : reachable step init s -> In (c, Some p) (res s) -> mem s p = Some c.
Proof. intros R H. pose proof (reach_inv' s R) as I. apply (i_mem s I), (i_res s I), H. Qed.
(** ... and goes on having it, whatever is called later. *)
Theorem intern_valid s s' p c : reachable step init s -> reachable step s s' -> mem s p = Some c -> mem s' p = Some c.
Proof.
  intros R R' H. pose proof (reach_inv' s R) as I.
  assert (X : forall s0, reachable step s s0 -> inv s0 /\ mem s0 p = Some c); [|now apply X].
  apply (reach_inv step (fun s0 => inv s0 /\ mem s0 p = Some c) s); [|auto]. intros s0 l [I0 M0]. pose proof (step_inv s0 l I0) as K. destruct (step s0 l); auto. destruct K as [K1 K2]. auto.
Qed.
(** Any two results agree exactly if the arguments do, in all threads. *)
Theorem intern_same s c c' p p' : reachable step init s -> In (c, Some p) (res s) -> In (c', Some p') (res s) -> (p = p' <-> c = c').
Proof.
  intros R H H'. pose proof (reach_inv' s R) as I. split; [intros <-|intros <-].
  - pose proof (intern_content s c p R H) as A. pose proof (intern_content s c' p R H') as B. congruence.
  - eapply (i_fun s I); apply (i_res s I); eauto.
Qed.
(** "Allocates only once for each new string blob": as many allocations as different strings, never for the empty one. *)
Theorem intern_once s : reachable step init s -> NoDup (map fst (sset s)) /\ length (sset s) = nextp s /\ ~ In 0 (map fst (sset s)).
Proof.
  intros R. pose proof (reach_inv' s R) as I. destruct (i_nd s I) as [A B]. split; [exact A|]. split; [exact B|]. intros H. apply in_map_iff in H as ((d & p) & E & H). cbn in E. subst d. exact (i_zero s I p H).
Qed.
(** Only the empty string is returned as it is. *)
Theorem intern_empty s c : reachable step init s -> In (c, None) (res s) -> c = 0.
Proof. intros R. apply (i_emp s (reach_inv' s R)). Qed.

(** The set is not changed while another thread looks into it or changes it. *)
Definition lock_ok (s : st) : Prop :=
  (exists L, NoDup L /\ length L = rds s /\ forall t, In t L <-> exists c, th s t = Reading c) /\
  (forall t c, th s t = Writing c -> wr s = true) /\ (wr s = true -> rds s = 0) /\ (forall t t' c c', th s t = Writing c -> th s t' = Writing c' -> t = t').
Lemma leave (L : list nat) t : NoDup L -> In t L -> exists L', NoDup L' /\ length L = S (length L') /\ forall u, In u L' <-> In u L /\ u <> t.
Proof.
  intros N H. apply in_split in H as (a & b & ->). exists (a ++ b). split; [eapply NoDup_remove_1; eauto|]. split; [rewrite !app_length; cbn; lia|].
  intros u. pose proof (NoDup_remove_2 _ _ _ N) as X. rewrite !in_app_iff in *. cbn. split; [intros [Y|Y]; (split; [auto|intros ->; tauto])|intros [[Y|[Y|Y]] Z]; auto; congruence].
Qed.
Lemma unread (s : st) t x : lock_ok s -> (exists c, th s t = Reading c) -> (forall c, x <> Reading c) -> exists L, NoDup L /\ length L = rds s - 1 /\ forall u, In u L <-> exists c, upd (th s) t x u = Reading c.
Proof.
  intros ((L & N & Le & H) & _) R X. destruct (leave L t N) as (L' & N' & E & K); [now apply H|]. exists L'. split; [exact N'|]. split; [lia|].
  intros u. rewrite K, H. unfold upd. destruct (Nat.eqb_spec u t) as [->|]; [split; [intros [_ Y]; congruence|intros [c Y]; now apply X in Y]|tauto].
Qed.
Lemma same (s : st) t x : lock_ok s -> (forall c, th s t <> Reading c) -> (forall c, x <> Reading c) -> exists L, NoDup L /\ length L = rds s /\ forall u, In u L <-> exists c, upd (th s) t x u = Reading c.
Proof.
  intros ((L & N & Le & H) & _) R X. exists L. split; [exact N|]. split; [exact Le|]. intros u. rewrite H. unfold upd. destruct (Nat.eqb_spec u t) as [->|]; [|tauto].
  split; intros [c Y]; [now apply R in Y|now apply X in Y].
Qed.
Lemma step_lock s l : lock_ok s -> match step s l with Next s' => lock_ok s' | Ub => False | Stuck => True end.
Proof.
  intros K. pose proof K as ((L & N & Le & H) & W1 & W2 & W3). destruct l as [t c|t|t|t]; cbn [step].
  - destruct (th s t) eqn:Et; auto. destruct (Nat.eqb c 0); [exact K|]. destruct (wr s) eqn:Ew; auto. split; [|split; [|split]]; cbn.
    + exists (t :: L). split; [constructor; [|exact N]|]; [intros X; apply H in X as [d X]; congruence|]. split; [cbn; lia|]. intros u. cbn. rewrite H. unfold upd. destruct (Nat.eqb_spec u t) as [->|Nu]; [split; eauto|].
      split; [intros [X|X]; [congruence|exact X]|auto].
    + intros u d. unfold upd. destruct (Nat.eqb u t); [discriminate|]. intros X. apply W1 in X. congruence.
    + congruence.
    + intros u u' d d' X _. unfold upd in X. destruct (Nat.eqb u t); [discriminate|]. apply W1 in X. congruence.
  - destruct (th s t) as [|c| |] eqn:Et; auto.
    assert (G : forall x r, (x = Out \/ x = Gap c) -> lock_ok (mkS (upd (th s) t x) (rds s - 1) (wr s) (sset s) (mem s) (nextp s) r)).
    { intros x r Hx. split; [cbn [th rds]; apply (unread s t); eauto; intros d; destruct Hx; congruence|]. split; [|split]; cbn.
      - intros u d. unfold upd. destruct (Nat.eqb u t); [intros Y; destruct Hx; congruence|apply W1].
      - intros Y. rewrite (W2 Y). reflexivity.
      - intros u u' d d'. unfold upd. destruct (Nat.eqb u t); [intros Y; destruct Hx; congruence|]. destruct (Nat.eqb u' t); [intros _ Y; destruct Hx; congruence|]. apply W3. }
    destruct (find c (sset s)); apply G; auto.
  - destruct (th s t) as [| |c|] eqn:Et; auto. destruct (Nat.eqb_spec (rds s) 0) as [Z|]; cbn [andb]; auto. destruct (wr s) eqn:Ew; cbn [negb]; auto.
    split; [cbn [th rds]; apply (same s t); auto; congruence|]. split; [|split]; cbn; auto.
    intros u u' d d'. unfold upd. destruct (Nat.eqb_spec u t) as [->|]; destruct (Nat.eqb_spec u' t) as [->|]; auto; intros X Y; [apply W1 in Y|apply W1 in X|apply W1 in X]; congruence.
  - destruct (th s t) as [| | |c] eqn:Et; auto.
    assert (G : forall a b d r, lock_ok (mkS (upd (th s) t Out) (rds s) false a b d r)).
    { intros a b d r. split; [cbn [th rds]; apply (same s t); auto; congruence|]. split; [|split]; cbn.
      - intros u e. unfold upd. destruct (Nat.eqb_spec u t) as [->|]; [discriminate|]. intros X. exfalso. apply n. eapply W3; eauto.
      - discriminate.
      - intros u u' e e'. unfold upd. destruct (Nat.eqb u t); [discriminate|]. destruct (Nat.eqb u' t); [discriminate|]. apply W3. }
    destruct (find c (sset s)); apply G.
Qed.
Theorem intern_race_free s t t' c : reachable step init s -> th s t = Writing c -> t' <> t -> (forall d, th s t' <> Reading d) /\ (forall d, th s t' <> Writing d).
Proof.
  intros R E N. assert (K : lock_ok s).
  { revert s R E. intros s R _. revert s R. apply (reach_inv step lock_ok init); [apply step_lock|]. split; [exists []; split; [constructor|]; split; [reflexivity|]; intros u; split; [contradiction|intros [d X]; discriminate]|]. repeat split; discriminate. }
  destruct K as ((L & _ & Le & H) & W1 & W2 & W3). split; intros d X.
  - assert (Y : In t' L) by (apply H; eauto). rewrite (W2 (W1 _ _ E)) in Le. destruct L; [destruct Y|discriminate].
  - apply N. eapply W3; eauto.
Qed.

(** Two threads look for the same new string at the same time. *)
Example intern_race_met : exists s, exec step init [LCall 0 5; LCall 1 5; LLook 0; LLook 1; LLock 1; LInsert 1; LLock 0; LInsert 0; LCall 2 0; LCall 2 7; LLook 2; LLock 2; LInsert 2] = Next s /\
  res s = [(5, Some 0); (5, Some 0); (0, None); (7, Some 1)] /\ nextp s = 2.
Proof. eexists. split; [cbv; reflexivity|]. cbn. auto. Qed.
Print Assumptions intern_content.
Print Assumptions intern_valid.
Print Assumptions intern_same.
Print Assumptions intern_once.
Print Assumptions intern_empty.
Print Assumptions intern_race_free.
