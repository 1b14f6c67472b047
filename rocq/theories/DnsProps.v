(** C76: DnsResolve. *)
From Verif Require Import Util Conc DnsModel.
From Verif Require TlsAsyncProof.

(** ** The global resolver *)
(** If the callback has come to its end when the caller goes on, the result is right: an error or an address. *)
Lemma g_inv fail s : reachable (gstep fail) ginit s ->
  (gcb s <= 3) /\ (gcb s = 3 -> gec s = fail /\ gip s = negb fail) /\ (gp s <> GRet -> gret s = None).
Proof.
  intros (ls & E). revert E. assert (X : forall ls s0 s, ((gcb s0 <= 3) /\ (gcb s0 = 3 -> gec s0 = fail /\ gip s0 = negb fail) /\ (gp s0 <> GRet -> gret s0 = None)) -> exec (gstep fail) s0 ls = Next s ->
    ((gcb s <= 3) /\ (gcb s = 3 -> gec s = fail /\ gip s = negb fail) /\ (gp s <> GRet -> gret s = None))).
  { clear ls s. intros ls. induction ls as [|l ls IH]; intros s0 s H E; cbn [exec] in E; [injection E as <-; exact H|].
    destruct (gstep fail s0 l) as [| |s1] eqn:E1; try discriminate. apply (IH s1 s); [|exact E]. destruct H as (H1 & H2 & H3). destruct s0 as [p c a e i r]. destruct l; cbn in *.
    - destruct c as [|[|[|c]]]; [| | |discriminate]; destruct p; try discriminate; injection E1 as <-; cbn; repeat split; auto; try lia; intros; try discriminate; auto.
    - destruct p; try discriminate. injection E1 as <-. cbn. repeat split; auto; try apply H2; auto. intros _. now apply H3.
    - destruct p; try discriminate. destruct a; [|discriminate]. injection E1 as <-. cbn. repeat split; auto; try apply H2; auto. congruence. }
  apply X. cbn. repeat split; auto; lia.
Qed.
Theorem dns_global_partial fail s s' : reachable (gstep fail) ginit s -> gcb s = 3 -> gstep fail s GResume = Next s' -> gret s' = Some (fail, negb fail).
Proof.
  intros R E H. destruct (g_inv fail s R) as (_ & G & _). cbn in H. destruct (gp s); try discriminate. destruct (gact s); [|discriminate]. injection H as <-. cbn. destruct (G E) as [-> ->]. reflexivity.
Qed.
(** REFUTED "DnsResolve reports failures": the caller is woken before the callback stores the result, and returns success without an address. *)
Theorem dns_global_refuted : exists s, exec (gstep true) ginit [GSuspend; GCb; GCb; GResume] = Next s /\ gret s = Some (false, false).
Proof. eexists. split; reflexivity. Qed.
(** REFUTED "it is memory-safe": the callback writes to the frame of a call that has returned. This is so for every result. *)
Theorem dns_global_uaf_refuted fail : exec (gstep fail) ginit [GSuspend; GCb; GCb; GResume; GCb] = Ub.
Proof. reflexivity. Qed.

(** ** On a proactor *)
(** No socket is opened while the loop goes over the map, at least none that makes it rehash. *)
Definition quiet (l : lab) : Prop := match l with LUpd _ _ r => r = false | _ => True end.

Record inv (s : st) : Prop := {
  i_nd : NoDup (map fst (socks s));
  i_an : NoDup (map aidx (armed s));
  i_lt : forall a, In a (armed s) -> aidx a < nexti s;
  i_live : forall fd k, look fd (socks s) = Some k -> kremoved k = false -> In (mkA (kidx k) fd (kmask k)) (armed s);
  i_arm : forall a, In a (armed s) -> look (afd a) (socks s) = Some (mkK (amask a) false (aidx a));
  i_want : forall fd, want s fd <> 0 <-> exists k, look fd (socks s) = Some k /\ kremoved k = false;
  i_dead : alive s = false -> armed s = [] }.

Lemma look_in fd l k : look fd l = Some k -> In (fd, k) l.
Proof. induction l as [|[d x] l IH]; cbn; [discriminate|]. destruct (Nat.eqb_spec d fd) as [->|]; [intros [= ->]; now left|auto]. Qed.
Lemma look_none fd l : look fd l = None -> ~ In fd (map fst l).
Proof. induction l as [|[d x] l IH]; cbn; [auto|]. destruct (Nat.eqb_spec d fd) as [->|N]; [discriminate|]. intros H [X|X]; [congruence|exact (IH H X)]. Qed.
Lemma look_app fd l x : look fd (l ++ [x]) = match look fd l with Some k => Some k | None => if Nat.eqb (fst x) fd then Some (snd x) else None end.
Proof. induction l as [|[d y] l IH]; cbn; [destruct x; reflexivity|]. destruct (Nat.eqb d fd); auto. Qed.
Lemma put_fst fd k l : map fst (put fd k l) = map fst l.
Proof. unfold put. rewrite map_map. apply map_ext. intros [d x]. cbn. destruct (Nat.eqb_spec d fd) as [->|]; reflexivity. Qed.
Lemma look_put fd k l d : look d (put fd k l) = if Nat.eqb d fd then (match look fd l with Some _ => Some k | None => None end) else look d l.
Proof.
  unfold put. induction l as [|[c x] l IH]; cbn; [now destruct (Nat.eqb d fd)|]. destruct (Nat.eqb_spec c fd) as [->|Nc]; cbn.
  - destruct (Nat.eqb_spec fd d) as [->|]; [now rewrite Nat.eqb_refl|]. rewrite IH. destruct (Nat.eqb_spec d fd); [congruence|reflexivity].
  - rewrite IH. destruct (Nat.eqb_spec c d) as [->|]; [|reflexivity]. destruct (Nat.eqb_spec d fd); [congruence|reflexivity].
Qed.
Lemma has_idx_in i l : has_idx i l = true <-> exists a, In a l /\ aidx a = i.
Proof. unfold has_idx. rewrite existsb_exists. split; intros (a & H & E); exists a; (split; [exact H|]); [now apply Nat.eqb_eq in E|now apply Nat.eqb_eq]. Qed.
Lemma nodup_filter {A} (f : A -> bool) (g : A -> nat) l : NoDup (map g l) -> NoDup (map g (filter f l)).
Proof. induction l as [|a l IH]; cbn; intros H; [exact H|]. inversion_clear H. destruct (f a); cbn; [|auto]. constructor; [|auto]. intros X. apply H0. apply in_map_iff in X as (b & <- & X). apply filter_In in X as [X _]. now apply in_map. Qed.
Lemma init_inv : inv init.
Proof. split; cbn; try contradiction; try discriminate; try (now constructor). intros fd. split; [congruence|]. intros (k & X & _). discriminate. Qed.

Lemma step_inv s l : inv s -> quiet l -> match step s l with Next s' => inv s' | Ub => False | Stuck => True end.
Proof.
  intros I Q. pose proof I as [Nd An Lt Li Ar Wa De]. destruct l as [fd m r| | | |i]; cbn [step].
  - destruct (alive s) eqn:Al; cbn [negb]; auto. destruct (Nat.eqb_spec m 0) as [->|Nm].
    + destruct (Nat.eqb_spec (want s fd) 0) as [|Nw]; auto. apply Wa in Nw as (k & Hk & Rk). rewrite Hk. pose proof (Li _ _ Hk Rk) as Ha.
      replace (has_idx (kidx k) (armed s)) with true by (symmetry; apply has_idx_in; eexists; split; [exact Ha|reflexivity]).
      assert (Kf : forall a, In a (armed s) -> aidx a = kidx k -> afd a = fd).
      { intros a H E. assert (a = mkA (kidx k) fd (kmask k)) as ->; [|reflexivity]. clear -An H Ha E. induction (armed s) as [|b l IH]; [destruct H|]. cbn in An. inversion_clear An.
        destruct H as [->|H], Ha as [X|Ha]; auto; exfalso; apply H0; [rewrite E; change (kidx k) with (aidx (mkA (kidx k) fd (kmask k)))|rewrite X; cbn; rewrite <- E]; now apply in_map. }
      split; cbn.
      * now rewrite put_fst.
      * now apply nodup_filter.
      * intros a H. apply filter_In in H as [H _]. auto.
      * intros d k' H R. rewrite look_put, Hk in H. destruct (Nat.eqb_spec d fd) as [->|N]; [injection H as <-; discriminate|]. apply filter_In. split; [auto|]. cbn.
        destruct (Nat.eqb_spec (kidx k') (kidx k)) as [E|]; [|reflexivity]. exfalso. apply N. apply (Kf _ (Li _ _ H R)). exact E.
      * intros a H. apply filter_In in H as [H N]. rewrite look_put, Hk. destruct (Nat.eqb_spec (afd a) fd) as [E|]; [|auto]. exfalso. pose proof (Ar a H) as X. rewrite E, Hk in X. injection X as X. rewrite X in N. cbn in N. now rewrite Nat.eqb_refl in N.
      * intros d. rewrite look_put, Hk. unfold upd. destruct (Nat.eqb_spec d fd) as [->|]; [|apply Wa]. split; [congruence|]. intros (k' & X & Y). injection X as <-. discriminate.
      * congruence.
    + destruct (look fd (socks s)) as [k|] eqn:Hk.
      * destruct (kremoved k) eqn:Rk.
        -- assert (Na : forall a, In a (armed s) -> afd a <> fd) by (intros a H E; apply Ar in H; rewrite E, Hk in H; injection H as H; rewrite H in Rk; discriminate).
           split; cbn.
           ++ now rewrite put_fst.
           ++ constructor; [|exact An]. intros X. apply in_map_iff in X as (a & E & X). apply Lt in X. lia.
           ++ intros a [<-|H]; [cbn; lia|]. apply Lt in H. lia.
           ++ intros d k' H R. rewrite look_put, Hk in H. destruct (Nat.eqb_spec d fd) as [->|]; [injection H as <-; now left|right; auto].
           ++ intros a [<-|H]; cbn; rewrite look_put, Hk; [now rewrite Nat.eqb_refl|]. destruct (Nat.eqb_spec (afd a) fd) as [E|]; [now apply Na in E|auto].
           ++ intros d. rewrite look_put, Hk. unfold upd. destruct (Nat.eqb_spec d fd) as [->|]; [|apply Wa]. split; [eauto|auto].
           ++ congruence.
        -- split; cbn; auto; try congruence. intros d. unfold upd. destruct (Nat.eqb_spec d fd) as [->|]; [|apply Wa]. split; [eauto|auto].
      * cbn in Q. subst r. rewrite Bool.andb_false_r.
        assert (Na : forall a, In a (armed s) -> afd a <> fd) by (intros a H E; apply Ar in H; rewrite E, Hk in H; discriminate).
        split; cbn.
        -- rewrite map_app. cbn. apply NoDup_rev in Nd. rewrite <- (rev_involutive (map fst (socks s) ++ [fd])). apply NoDup_rev. rewrite rev_app_distr. cbn. constructor; [|exact Nd]. rewrite <- in_rev. now apply look_none.
        -- constructor; [|exact An]. intros X. apply in_map_iff in X as (a & E & X). apply Lt in X. lia.
        -- intros a [<-|H]; [cbn; lia|]. apply Lt in H. lia.
        -- intros d k' H R. rewrite look_app in H. cbn in H. destruct (look d (socks s)) eqn:Hd; [injection H as <-; right; auto|]. destruct (Nat.eqb_spec fd d) as [->|]; [|discriminate]. injection H as <-. now left.
        -- intros a [<-|H]; cbn; rewrite look_app; cbn; [now rewrite Hk, Nat.eqb_refl|]. now rewrite (Ar a H).
        -- intros d. rewrite look_app. cbn. unfold upd. destruct (Nat.eqb_spec d fd) as [->|N]; [rewrite Hk, Nat.eqb_refl; split; [eauto|auto]|]. rewrite Wa. destruct (look d (socks s)); [reflexivity|]. destruct (Nat.eqb_spec fd d); [congruence|]. reflexivity.
        -- congruence.
  - destruct (_ && _); auto. split; auto.
  - destruct (pass s); auto. split; auto.
  - destruct (alive s && negb (pass s))%bool; cbn [andb]; auto. destruct (forallb _ _) eqn:F; auto. split; cbn; auto. intros _. destruct (armed s) as [|a l]; [reflexivity|]. exfalso.
    assert (H : In a (a :: l)) by now left. apply Ar in H. pose proof (look_in _ _ _ H) as X. rewrite forallb_forall in F. apply F in X. cbn in X. apply Nat.eqb_eq in X. apply (proj2 (Wa (afd a))); [|exact X]. eexists. split; [exact H|reflexivity].
  - destruct (has_idx i (armed s)) eqn:H; auto. destruct (alive s) eqn:Al; [exact I|]. apply has_idx_in in H as (a & H & _). rewrite (De eq_refl) in H. destruct H.
Qed.
Lemma run_inv ls : Forall quiet ls -> match exec step init ls with Next s => inv s | Ub => False | Stuck => True end.
Proof. intros F. apply (TlsAsyncProof.exec_pred step inv quiet); [apply step_inv|exact F|apply init_inv]. Qed.

(** No failing CHECK, no foreign callback is disarmed, and none of ours runs after DnsResolve has returned. *)
Theorem dns_safe_partial ls : Forall quiet ls -> exec step init ls <> Ub.
Proof. intros F E. pose proof (run_inv ls F) as X. now rewrite E in X. Qed.
(** A callback is armed exactly for the sockets that c-ares has open, one for each. *)
Theorem dns_armed_partial ls s fd : Forall quiet ls -> exec step init ls = Next s ->
  (want s fd <> 0 <-> In fd (map afd (armed s))) /\ forall a b, In a (armed s) -> In b (armed s) -> afd a = afd b -> a = b.
Proof.
  intros F E. pose proof (run_inv ls F) as X. rewrite E in X. destruct X as [Nd An Lt Li Ar Wa De]. split.
  - rewrite Wa, in_map_iff. split; [intros (k & H & R); eexists; split; [|exact (Li _ _ H R)]; reflexivity|]. intros (a & <- & H). apply Ar in H. eexists. split; [exact H|reflexivity].
  - intros a b Ha Hb Eq. apply Ar in Ha, Hb. rewrite Eq, Hb in Ha. injection Ha as E1 E2. destruct a, b. cbn in *. congruence.
Qed.
(** After the return nothing is armed. *)
Theorem dns_clean_partial ls s : Forall quiet ls -> exec step init ls = Next s -> alive s = false -> armed s = [].
Proof. intros F E. pose proof (run_inv ls F) as X. rewrite E in X. apply (i_dead s X). Qed.
(** REFUTED: a socket that c-ares opens from ares_process_fd (for a retry over TCP, or with the next server) makes the map rehash under the loop. *)
Theorem dns_rehash_refuted : exec step init [LUpd 5 1 false; LPass; LUpd 6 1 true] = Ub.
Proof. reflexivity. Qed.
(** REFUTED "c-ares is told of the events it asked for": a change of the mask of an open socket is skipped. *)
Theorem dns_mask_refuted : exists s, exec step init [LUpd 5 1 false; LUpd 5 3 false] = Next s /\ want s 5 = 3 /\ armed s = [mkA 0 5 1].
Proof. eexists. split; [cbv; reflexivity|]. split; reflexivity. Qed.

(** Two sockets, one closed and opened again in a pass, and the end. *)
Example dns_met : exists s, exec step init [LUpd 5 1 false; LUpd 6 1 false; LEvent 0; LPass; LUpd 5 0 false; LUpd 5 3 false; LPassEnd; LEvent 2; LUpd 5 0 false; LUpd 6 0 false; LReturn] = Next s /\ alive s = false /\ armed s = [].
Proof. eexists. split; [cbv; reflexivity|]. split; reflexivity. Qed.
Example dns_global_met : exists s, exec (gstep false) ginit [GSuspend; GCb; GCb; GCb; GResume] = Next s /\ gret s = Some (false, true).
Proof. eexists. split; reflexivity. Qed.
Print Assumptions dns_global_partial.
Print Assumptions dns_global_refuted.
Print Assumptions dns_global_uaf_refuted.
Print Assumptions dns_safe_partial.
Print Assumptions dns_armed_partial.
Print Assumptions dns_clean_partial.
Print Assumptions dns_rehash_refuted.
Print Assumptions dns_mask_refuted.
