(** Proofs for IdleProps.v. *)
From Verif Require Import Util Conc IdleModel IdleSpec.
From Coq Require Import Lia ZArith.

Notation slot := (option nat * N)%type.
Definition reg (l : list slot) (i t : nat) : Prop := exists ts, nth_error l i = Some (Some t, ts).

Lemma has_trim l i t ts : nth_error (trim l) i = Some (Some t, ts) <-> nth_error l i = Some (Some t, ts).
Proof.
  revert i. induction l as [|[o w] l IH]; intros i; cbn; [tauto|].
  destruct o as [u|].
  - destruct i; cbn; [tauto|apply IH].
  - destruct (trim l) as [|y r] eqn:E.
    + split; intros H; [destruct i; discriminate|]. destruct i; cbn in H; [discriminate|].
      apply IH in H. destruct i; discriminate.
    + destruct i; cbn [nth_error]; [tauto|apply IH].
Qed.
Lemma reg_trim l i t : reg (trim l) i t <-> reg l i t.
Proof. unfold reg. split; intros [w H]; exists w; now apply has_trim. Qed.

(** The last slot, if any, holds a task. *)
Definition good (l : list slot) : Prop := forall i, S i = length l -> exists t, reg l i t.
Lemma good_tl x l : good (x :: l) -> good l.
Proof.
  intros H i Hi. destruct (H (S i)) as [t [ts Ht]]; [cbn; lia|]. exists t, ts. exact Ht.
Qed.
Lemma good_trim_id l : good l -> trim l = l.
Proof.
  induction l as [|[o ts] l IH]; intros H; cbn; [reflexivity|]. rewrite (IH (good_tl _ _ H)).
  destruct o; [reflexivity|]. destruct l as [|y r]; [|reflexivity].
  destruct (H 0) as [t [u Hu]]; [reflexivity|discriminate].
Qed.
Lemma good_trim l : good (trim l).
Proof.
  induction l as [|[o ts] l IH]; intros i; cbn; [discriminate|].
  destruct o as [u|].
  - cbn. intros Hi. destruct i; [exists u, ts; reflexivity|]. destruct (IH i) as [t [w Hw]]; [lia|]. exists t, w. exact Hw.
  - destruct (trim l) as [|y r] eqn:E; [discriminate|]. cbn [length]. intros Hi. destruct i; [cbn in Hi; lia|].
    destruct (IH i) as [t [w Hw]]; [cbn; lia|]. exists t, w. exact Hw.
Qed.
Lemma reg_set l i x j t : j <> i -> reg (set i x l) j t <-> reg l j t.
Proof. intros H. unfold reg. rewrite set_nth_error_neq by auto. tauto. Qed.
Lemma reg_set_none l i ts t : ~ reg (set i (None, ts) l) i t.
Proof.
  intros [w H]. assert (i < length l) by (rewrite <- (set_length i (None, ts) l); apply nth_error_Some; congruence).
  rewrite set_nth_error_eq in H by auto. discriminate.
Qed.
Lemma reg_lt l i t : reg l i t -> i < length l.
Proof. intros [ts H]. apply nth_error_Some. congruence. Qed.
Lemma reg_app l i t x : i < length l -> reg (l ++ [x]) i t <-> reg l i t.
Proof. intros H. unfold reg. rewrite nth_error_app1 by auto. tauto. Qed.
Lemma reg_snoc l t u ts : reg (l ++ [(Some u, ts)]) (length l) t <-> t = u.
Proof.
  unfold reg. rewrite nth_error_app2, Nat.sub_diag by lia. cbn. split; [intros [w H]; congruence|intros ->; eauto].
Qed.
Lemma reg_snoc_any l i t u ts : reg (l ++ [(Some u, ts)]) i t <-> reg l i t \/ i = length l /\ t = u.
Proof.
  destruct (Nat.lt_trichotomy i (length l)) as [H|[->|H]].
  - rewrite reg_app by auto. split; [auto|intros [X|[X _]]; [auto|lia]].
  - rewrite reg_snoc. split; [auto|intros [X|[_ X]]; [apply reg_lt in X; lia|auto]].
  - split; [intros X; apply reg_lt in X; rewrite app_length in X; cbn in X; lia|intros [X|[X _]]; [apply reg_lt in X; lia|lia]].
Qed.
Lemma good_snoc l u ts : good (l ++ [(Some u, ts)]).
Proof. intros i Hi. rewrite app_length in Hi. cbn in Hi. exists u. replace i with (length l) by lia. now apply reg_snoc. Qed.
Lemma good_set l i x : good l -> S i <> length l -> good (set i x l).
Proof.
  intros H Hi j Hj. rewrite set_length in Hj. destruct (H j Hj) as [t Ht]. exists t. apply reg_set; auto. intros ->. auto.
Qed.
(** Changing only the time of a slot. *)
Lemma reg_set_ts l i o w ts j t : nth_error l i = Some (o, w) -> reg (set i (o, ts) l) j t <-> reg l j t.
Proof.
  intros H. destruct (Nat.eq_dec j i) as [->|Hn]; [|now apply reg_set].
  assert (i < length l) by (apply nth_error_Some; congruence). unfold reg. rewrite set_nth_error_eq, H by auto.
  split; intros [z E]; injection E as -> _; eauto.
Qed.
Lemma good_set_ts l i o w ts : nth_error l i = Some (o, w) -> good l -> good (set i (o, ts) l).
Proof. intros H G j Hj. rewrite set_length in Hj. destruct (G j Hj) as [t Ht]. exists t. now apply (reg_set_ts l i o w). Qed.
Lemma nth_removelast (l : list slot) i x : nth_error (removelast l) i = Some x -> nth_error l i = Some x.
Proof.
  revert i. induction l as [|y l IH]; intros i; [auto|]. destruct l as [|z l]; [destruct i; discriminate|].
  change (removelast (y :: z :: l)) with (y :: removelast (z :: l)). destruct i; cbn [nth_error]; [auto|apply IH].
Qed.
Lemma nth_removelast_lt (l : list slot) i : S i < length l -> nth_error (removelast l) i = nth_error l i.
Proof.
  revert i. induction l as [|y l IH]; intros i; [auto|]. destruct l as [|z l]; [cbn; lia|].
  change (removelast (y :: z :: l)) with (y :: removelast (z :: l)). destruct i; cbn [nth_error]; [auto|]. intros H. apply IH. cbn in *. lia.
Qed.

Section P.
  Variables budget slow kmax : N.
  Notation step := (step budget slow kmax).
  Notation cstep := (cstep budget slow kmax).

  Definition okr (s : st) (nm : option ref) : Prop := match nm with Some r => valid s r = true | None => True end.
  Definition jmode (s : st) : Prop :=
    match mode s with
    | Out => True
    | Loop _ _ nm _ => next s < length (arr s) /\ okr s nm
    | Call r t _ cur nm _ => r = mk_r (gen s) (next s) /\ next s < length (arr s) /\ okr s nm /\ t < nid s /\
        (forall i, reg (arr s) i t -> i = next s) /\
        (forall u, reg (arr s) (next s) u -> u = t)
    end.
  Record J (s : st) : Prop := mk_J {
    j_next : next s < length (arr s) \/ arr s = [] /\ next s = 0;
    j_good : good (arr s);
    j_uniq : forall i j t, reg (arr s) i t -> reg (arr s) j t -> i = j;
    j_nid : forall i t, reg (arr s) i t -> t < nid s;
    j_due : forall i t ts, nth_error (arr s) i = Some (Some t, ts) -> ts = due s t;
    j_due0 : forall t, nid s <= t -> due s t = 0%N;
    j_mode : jmode s }.
  Lemma J_init : J init.
  Proof.
    split; cbn; auto; try (intros; apply reg_lt in H; cbn in H; lia).
    - intros i H. cbn in H. lia.
    - intros i t ts H. destruct i; discriminate.
  Qed.

  Lemma okr_valid s s' nm : (length (arr s) <= length (arr s')) -> gen s' = gen s -> okr s nm -> okr s' nm.
  Proof.
    intros H G. destruct nm as [r|]; cbn; auto. unfold valid. rewrite G. intros X. apply andb_prop in X as [X Y].
    rewrite X. cbn. apply Nat.ltb_lt in Y. apply Nat.ltb_lt. lia.
  Qed.

  (** The part of the invariant that does not speak of where the thread is. *)
  Definition J0 (s : st) : Prop := J (mk (arr s) (cap s) (gen s) (next s) Out (nid s) (due s)).
  Lemma J_J0 s : J s -> J0 s.
  Proof. intros [A B C D E E' F]. split; cbn; auto. Qed.

  Lemma leave_J s start cur nm : J0 s -> okr s nm ->
    exists s', leave slow s start cur nm = Next s' /\ J s' /\ arr s' = arr s.
  Proof.
    intros H O. unfold leave. destruct nm as [r|]; [cbn in O; rewrite O, andb_false_r|]; eauto 6.
  Qed.
  Lemma advance_J s start cur nm sp : J0 s -> next s < length (arr s) -> okr s nm ->
    exists s', advance budget slow s start cur nm sp = Next s' /\ J s' /\ arr s' = arr s.
  Proof.
    intros H L O. unfold advance. destruct (Nat.leb_spec (length (arr s)) (S (next s))) as [C|C].
    - apply (leave_J (mk (arr s) (cap s) (gen s) 0 (mode s) (nid s) (due s))); [|auto].
      destruct H; cbn in *. split; cbn; auto. left. lia.
    - assert (X : J (mk (arr s) (cap s) (gen s) (S (next s)) (Loop start cur nm sp) (nid s) (due s))).
      { destruct H; cbn in *. split; cbn; auto. }
      destruct (_ <? budget)%N; [eauto|]. apply (leave_J (mk (arr s) (cap s) (gen s) (S (next s)) (Loop start cur nm sp) (nid s) (due s))); [now apply J_J0|].
      eapply (okr_valid s); cbn; auto.
  Qed.

  Lemma reg_nth l i t : reg l i t -> exists ts, nth_error l i = Some (Some t, ts).
  Proof. auto. Qed.

  Lemma step_J s l : J s -> calm s l = true -> match step s l with Next s' => J s' | Ub => False | Stuck => True end.
  Proof.
    intros HJ C. pose proof HJ as [A B U D E E' F]. unfold jmode in F. destruct l as [|id|now| |level now]; cbn [IdleModel.step].
    - (* Add *)
      assert (K : match mode s with Call _ _ _ _ _ _ => length (arr s) < cap s | _ => True end).
      { cbn in C. destruct (mode s); auto. now apply Nat.ltb_lt. }
      destruct (mode s) as [|? ? ? ?|r t start cur nm sp] eqn:Em; [|exact I|].
      all: split; cbn [add arr next nid due mode cap gen].
      all: try (left; rewrite app_length; cbn; destruct A as [A|[A1 A2]]; [lia|rewrite A2; lia]).
      all: try apply good_snoc.
      all: try (intros i j v X Y; apply reg_snoc_any in X as [X|[-> ->]]; apply reg_snoc_any in Y as [Y|[-> Y]]; eauto; subst;
                try (apply D in X; lia); try (apply D in Y; lia)).
      all: try (intros i v X; apply reg_snoc_any in X as [X|[_ ->]]; [apply D in X; lia|lia]).
      all: try (intros i v ts X; destruct (Nat.lt_trichotomy i (length (arr s))) as [Q|[->|Q]];
                [rewrite nth_error_app1 in X by auto; eauto|
                 rewrite nth_error_app2, Nat.sub_diag in X by lia; injection X as <- <-; symmetry; apply E'; lia|
                 rewrite (proj2 (nth_error_None _ i)) in X; [discriminate|rewrite app_length; cbn; lia]]).
      all: try (intros v Hv; apply E'; lia).
      + red. cbn. now rewrite Em.
      + red. cbn [add mode gen next arr]. rewrite Em. destruct F as (-> & F1 & F2 & F3 & F4 & F5).
        assert (Q : (length (arr s) =? cap s) = false) by (apply Nat.eqb_neq; lia).
        unfold add. rewrite Q. cbn [gen next arr nid]. split; auto. rewrite app_length. cbn [length]. split; [lia|]. split; [|split; [lia|split]].
        * eapply (okr_valid s); cbn; auto. rewrite app_length. lia.
        * intros i X. apply reg_snoc_any in X as [X|[-> X]]; [auto|lia].
        * intros u X. apply F5. now rewrite reg_app in X by auto.
    - (* Remove *)
      cbn [calm] in C. apply negb_true_iff, Nat.eqb_neq in C.
      assert (K : match mode s with Loop _ _ _ _ => True | _ => J (remove s id) end);
        [|destruct (mode s); exact K || exact I].
      unfold remove. destruct (nth_error (arr s) id) as [[[t|] ts]|] eqn:Hn; try (destruct (mode s); exact HJ || exact I).
      rewrite good_trim_id by (now apply good_set).
      assert (L : length (set id (None, ts) (arr s)) = length (arr s)) by apply set_length.
      assert (S1 : forall i v, reg (set id (None, ts) (arr s)) i v -> reg (arr s) i v).
      { intros i v X. destruct (Nat.eq_dec i id) as [->|Hi]; [now apply reg_set_none in X|now apply reg_set in X]. }
      destruct (mode s) as [|? ? ? ?|r tt start cur nm sp] eqn:Em; [|exact I|].
      all: split; cbn [arr next nid due]; rewrite ?L.
      all: try (destruct A as [A|[A1 A2]]; [now left|rewrite A1 in Hn; destruct id; discriminate]).
      all: try (now apply good_set).
      all: try (intros i j v X Y; apply S1 in X; apply S1 in Y; eauto).
      all: try (intros i v X; apply S1 in X; eauto).
      all: try (intros i v w X; destruct (Nat.eq_dec i id) as [->|Hi];
                [rewrite set_nth_error_eq in X by (apply nth_error_Some; congruence); discriminate|rewrite set_nth_error_neq in X by auto; eauto]).
      all: auto.
      + red. cbn. rewrite L. destruct F as (F0 & F1 & F2 & F3 & F4 & F5). split; auto. split; auto. split; [|split; [auto|split]].
        * eapply (okr_valid s); cbn; auto. now rewrite L.
        * intros i X. apply S1 in X. auto.
        * intros u X. apply S1 in X. auto.
    - destruct (mode s) eqn:Em; auto. destruct (arr s) as [|x r] eqn:Ea; [exact HJ|].
      destruct A as [A|[A _]]; [|discriminate]. split; cbn; auto.
    - (* Iter *)
      destruct (mode s) as [|start cur nm sp|] eqn:Em; auto. destruct F as [F1 F2]. unfold IdleModel.iter.
      destruct (nth_error (arr s) (next s)) as [[[t|] ts]|] eqn:Hn.
      + destruct (N.leb_spec ts cur).
        * cbv beta iota. split; cbn; auto. assert (R : reg (arr s) (next s) t) by (red; eauto).
          split; auto. split; auto. split; [destruct nm; auto|]. split; [eauto|]. split; [eauto|].
          intros u [w X]. congruence.
        * destruct (advance_J s start cur nm sp (J_J0 _ HJ) F1 F2) as (s' & -> & X & _). exact X.
      + destruct (advance_J s start cur nm sp (J_J0 _ HJ) F1 F2) as (s' & -> & X & _). exact X.
      + apply nth_error_None in Hn. lia.
    - (* Ret *)
      destruct (mode s) as [| |r t start cur nm sp] eqn:Em; auto. destruct F as (-> & F1 & F2 & F3 & F4 & F5). unfold ret.
      assert (V : valid s (mk_r (gen s) (next s)) = true).
      { unfold valid. cbn. rewrite Nat.eqb_refl. now apply Nat.ltb_lt. }
      cbn [ridx]. destruct (nth_error (arr s) (next s)) as [[o w]|] eqn:Hn; [|apply nth_error_None in Hn; lia].
      destruct (level <? 0)%Z.
      + rewrite V. cbn [negb].
        assert (L : length (set (next s) (None, w) (arr s)) = length (arr s)) by apply set_length.
        assert (S1 : forall i v, reg (set (next s) (None, w) (arr s)) i v -> reg (arr s) i v).
        { intros i v X. destruct (Nat.eq_dec i (next s)) as [->|Hi]; [now apply reg_set_none in X|now apply reg_set in X]. }
        assert (S2 : forall i v ts, nth_error (set (next s) (None, w) (arr s)) i = Some (Some v, ts) -> nth_error (arr s) i = Some (Some v, ts)).
        { intros i v ts X. destruct (Nat.eq_dec i (next s)) as [->|Hi]; [rewrite set_nth_error_eq in X by auto; discriminate|rewrite set_nth_error_neq in X by auto; auto]. }
        destruct (Nat.eqb_spec (S (next s)) (length (arr s))) as [Q|Q].
        * set (a := set (next s) (None, w) (arr s)) in *.
          assert (T2 : forall i v ts, nth_error (trim (removelast a)) i = Some (Some v, ts) -> nth_error (arr s) i = Some (Some v, ts)).
          { intros i v ts X. apply S2. apply nth_removelast. now apply has_trim. }
          assert (T1 : forall i v, reg (trim (removelast a)) i v -> reg (arr s) i v) by (intros i v [z X]; exists z; auto).
          destruct (leave_J (mk (trim (removelast a)) (cap s) (gen s) 0 (mode s) (nid s) (due s)) start cur None) as (s' & Hs & X & _); [|exact I|rewrite Hs; exact X].
          split; cbn.
          -- destruct (trim (removelast a)) eqn:Et; [now right|left; cbn; lia].
          -- apply good_trim.
          -- intros i j v X Y. apply T1 in X. apply T1 in Y. eauto.
          -- intros i v X. apply T1 in X. eauto.
          -- intros i v ts X. apply T2 in X. eauto.
          -- exact E'.
          -- exact I.
        * set (a := set (next s) (None, w) (arr s)) in *.
          destruct (advance_J (mk a (cap s) (gen s) (next s) (mode s) (nid s) (due s)) start cur None sp) as (s' & -> & X & _); [|cbn; lia|exact I|exact X].
          split; cbn; rewrite ?L; auto; try (now left); try (intros; apply S1 in H; apply S1 in H0; now eauto); try (intros; apply S1 in H; now eauto).
          -- now apply good_set.
          -- intros i v ts X. apply S2 in X. eauto.
      + destruct (max_level <=? level)%Z.
        * destruct (advance_J s start now (Some (mk_r (gen s) (next s))) true (J_J0 _ HJ) F1 V) as (s' & -> & X & _). exact X.
        * rewrite (proj2 (Nat.ltb_lt _ _) F1), V. cbn [negb]. set (ts := ((now + _) mod two64)%N).
          destruct (advance_J (mk (set (next s) (o, ts) (arr s)) (cap s) (gen s) (next s) (mode s) (nid s) (upd (due s) t ts)) start now (Some (mk_r (gen s) (next s))) sp) as (s' & -> & X & _); [| |
            |exact X].
          -- split; cbn; rewrite ?set_length; auto; try (now left).
             ++ now apply (good_set_ts (arr s) (next s) o w).
             ++ intros i j v X Y. apply (reg_set_ts (arr s) (next s) o w ts) in X; auto. apply (reg_set_ts (arr s) (next s) o w ts) in Y; auto. eauto.
             ++ intros i v X. apply (reg_set_ts (arr s) (next s) o w ts) in X; auto. eauto.
             ++ intros i v z X. destruct (Nat.eq_dec i (next s)) as [->|Hi].
                ** rewrite set_nth_error_eq in X by auto. injection X as -> <-. rewrite (F5 v) by (red; eauto). now rewrite upd_eq.
                ** rewrite set_nth_error_neq in X by auto. rewrite upd_neq; [eauto|]. intros ->. apply Hi. apply F4. red; eauto.
             ++ intros v Hv. rewrite upd_neq by lia. auto.
          -- cbn. now rewrite set_length.
          -- cbn. unfold valid in *. cbn in *. now rewrite set_length.
  Qed.

  Lemma cstep_J s l : J s -> match cstep s l with Next s' => J s' | Ub => False | Stuck => True end.
  Proof. intros H. unfold IdleSpec.cstep. destruct (calm s l) eqn:E; [now apply step_J|exact I]. Qed.
  Lemma idle_safe_pf : safe cstep init.
  Proof. apply (reach_inv cstep J init cstep_J J_init). Qed.
  Lemma J_reach s : reachable cstep init s -> J s.
  Proof. apply (reach_inv cstep J init cstep_J J_init). Qed.

  Lemma idle_add_pf s s' : step s Add = Next s' ->
    free_id s (add_result s) /\ (exists t, registered s' (add_result s) t) /\ same_but (add_result s) s s'.
  Proof.
    intros E. assert (s' = add s) as -> by (cbn in E; destruct (mode s); try discriminate E; now injection E).
    unfold add_result. split; [|split].
    - intros t X. apply (reg_lt (arr s)) in X. lia.
    - exists (nid s). apply (reg_snoc (arr s)). reflexivity.
    - intros i t Hi. change (reg (arr s ++ [(Some (nid s), 0%N)]) i t <-> reg (arr s) i t). rewrite reg_snoc_any. tauto.
  Qed.
  Lemma idle_remove_pf s id s' : step s (Remove id) = Next s' ->
    free_id s' id /\ same_but id s s' /\ (remove_result s id = true <-> exists t, registered s id t).
  Proof.
    intros E. assert (s' = remove s id) as -> by (cbn in E; destruct (mode s); try discriminate E; now injection E).
    unfold remove, remove_result, free_id, same_but, registered. destruct (nth_error (arr s) id) as [[[t|] ts]|] eqn:Hn; cbn [arr].
    - split; [|split].
      + intros u X. change (reg (trim (set id (None, ts) (arr s))) id u) in X. rewrite reg_trim in X. now apply reg_set_none in X.
      + intros i u Hi. change (reg (trim (set id (None, ts) (arr s))) i u <-> reg (arr s) i u). rewrite reg_trim. now apply reg_set.
      + split; eauto.
    - split; [|split]; [|tauto|].
      + intros u [w X]. rewrite Hn in X. discriminate.
      + split; [discriminate|intros (? & ? & ?); discriminate].
    - split; [|split]; [|tauto|].
      + intros u [w X]. rewrite Hn in X. discriminate.
      + split; [discriminate|intros (? & ? & ?); discriminate].
  Qed.

  Lemma leave_arr s start cur nm s' : leave slow s start cur nm = Next s' -> arr s' = arr s /\ due s' = due s /\ next s' = next s /\ mode s' = Out.
  Proof.
    unfold leave. destruct nm as [r|]; [destruct (_ && _); [discriminate|]|]; intros E; injection E as <-; auto.
  Qed.
  Lemma advance_arr s start cur nm sp s' : advance budget slow s start cur nm sp = Next s' ->
    arr s' = arr s /\ due s' = due s /\ (forall r t a b c d, mode s' <> Call r t a b c d) /\
    next s' = (if length (arr s) <=? S (next s) then 0 else S (next s)).
  Proof.
    unfold advance. destruct (length (arr s) <=? S (next s)).
    - intros E. apply leave_arr in E as (A & B & C & D). cbn in *. rewrite D. repeat split; auto. discriminate.
    - destruct (_ <? budget)%N; intros E.
      + injection E as <-. cbn. repeat split; auto. discriminate.
      + apply leave_arr in E as (A & B & C & D). cbn in *. rewrite D. repeat split; auto. discriminate.
  Qed.

  Lemma idle_calls_pf s s' id t : reachable cstep init s -> step s Iter = Next s' -> running s' id t ->
    registered s id t /\ (due s t <= clock s')%N.
  Proof.
    intros R E (r & start & cur & nm & sp & M & Hr). apply J_reach in R as HJ. cbn [IdleModel.step] in E.
    destruct (mode s) as [|start0 cur0 nm0 sp0|] eqn:Em; try discriminate E. unfold IdleModel.iter in E.
    destruct (nth_error (arr s) (next s)) as [[[u|] ts]|] eqn:Hn; try discriminate E.
    - destruct (N.leb_spec ts cur0).
      + injection E as <-. cbn in M. injection M as <- <- <- <- <- <-. cbn in Hr. subst id. split; [exists ts; auto|].
        unfold clock. cbn. now rewrite <- (j_due s HJ _ _ _ Hn).
      + apply advance_arr in E as (_ & _ & X & _). now apply X in M.
    - apply advance_arr in E as (_ & _ & X & _). now apply X in M.
  Qed.

  Lemma idle_ret_pf s s' id t level now : reachable cstep init s -> running s id t -> step s (Ret level now) = Next s' ->
    ((level < 0)%Z -> (forall i, ~ registered s' i t) /\ same_but id s s') /\
    ((0 <= level)%Z -> forall i u, registered s' i u <-> registered s i u) /\
    ((0 <= level < 21)%Z -> due s' t = ((now + N.shiftr kmax (Z.to_N level)) mod two64)%N).
  Proof.
    intros R (r & start & cur & nm & sp & M & Hr) E. apply J_reach in R as HJ. cbn [IdleModel.step] in E.
    pose proof (j_mode s HJ) as F. unfold jmode in F. rewrite M in E, F. destruct F as (-> & F1 & F2 & F3 & F4 & F5).
    cbn in Hr. subst id. unfold ret in E.
    assert (V : valid s (mk_r (gen s) (next s)) = true).
    { unfold valid. cbn. rewrite Nat.eqb_refl. now apply Nat.ltb_lt. }
    cbn [ridx] in E. destruct (nth_error (arr s) (next s)) as [[o w]|] eqn:Hn; [|apply nth_error_None in Hn; lia].
    rewrite V in E. cbn [negb] in E. destruct (Z.ltb_spec level 0) as [Hl|Hl].
    - split; [|split; [lia|lia]]. intros _.
      assert (K : forall i u, reg (arr s') i u <-> i <> next s /\ reg (arr s) i u).
      { assert (K0 : forall i u, reg (set (next s) (None, w) (arr s)) i u <-> i <> next s /\ reg (arr s) i u).
        { intros i u. destruct (Nat.eq_dec i (next s)) as [->|Hi]; [split; [intros X; now apply reg_set_none in X|now intros [X _]]|].
          rewrite reg_set by auto. tauto. }
        destruct (Nat.eqb_spec (S (next s)) (length (arr s))) as [Q|Q].
        - apply leave_arr in E as (E & _). cbn in E. intros i u. rewrite E, reg_trim, <- K0.
          assert (L : length (set (next s) (None, w) (arr s)) = length (arr s)) by apply set_length.
          destruct (Nat.lt_ge_cases (S i) (length (arr s))) as [C|C].
          + unfold reg. rewrite nth_removelast_lt by (rewrite L; auto). tauto.
          + split; intros X.
            * destruct X as [z X]. exists z. now apply nth_removelast.
            * exfalso. pose proof (reg_lt _ _ _ X) as Y. apply K0 in X. lia.
        - apply advance_arr in E as (E & _). cbn in E. intros i u. now rewrite E. }
      split.
      + intros i X. apply (K i t) in X as [X Y]. auto.
      + intros i u Hi. change (reg (arr s') i u <-> reg (arr s) i u). rewrite K. tauto.
    - assert (K : (forall i u, reg (arr s') i u <-> reg (arr s) i u) /\ ((level < 21)%Z -> due s' t = ((now + N.shiftr kmax (Z.to_N level)) mod two64)%N)).
      { unfold max_level in E. destruct (Z.leb_spec 21 level) as [H2|H2].
        - apply advance_arr in E as (E & _). rewrite E. split; [tauto|lia].
        - rewrite (proj2 (Nat.ltb_lt _ _) F1) in E. apply advance_arr in E as (E & D & _). cbn in E, D. rewrite E, D. split.
          + intros i u. now apply (reg_set_ts _ _ _ w).
          + intros _. now rewrite upd_eq. }
      destruct K as [K1 K2]. split; [lia|]. split; [intros _; exact K1|]. intros [_ X]. auto.
  Qed.

  (** ** Round robin *)
  Definition meas (s : st) (i : nat) : nat := if next s <=? i then i - next s else length (arr s) - next s + i.
  Definition calling (s : st) : bool := match mode s with Call _ _ _ _ _ _ => true | _ => false end.
  Lemma meas_adv s s' i t : next s < length (arr s) -> reg (arr s') i t -> (forall u, reg (arr s') i u -> reg (arr s) i u) ->
    next s <> i -> next s' = (if length (arr s) <=? S (next s) then 0 else S (next s)) ->
    (next s' <> 0 -> length (arr s') = length (arr s)) -> S (meas s' i) <= meas s i.
  Proof.
    intros L R K N E Q. apply reg_lt in R as R1. apply K, reg_lt in R as R2. unfold meas. rewrite E in *.
    destruct (Nat.leb_spec (length (arr s)) (S (next s))).
    - cbn [Nat.leb]. destruct (Nat.leb_spec (next s) i); lia.
    - rewrite Q by lia. destruct (Nat.leb_spec (next s) i), (Nat.leb_spec (S (next s)) i); lia.
  Qed.

  Lemma turn i t : forall ls s s', J s -> registered s i t -> (calling s = true -> next s <> i) ->
    forallb (fun l => negb (is_change l)) ls = true -> exec step s ls = Next s' ->
    meas s i < length (filter is_iter ls) + (if calling s then 1 else 0) ->
    exists ls1 ls2 s1, ls = ls1 ++ Iter :: ls2 /\ exec step s ls1 = Next s1 /\ next s1 = i /\ registered s1 i t.
  Proof.
    induction ls as [|l ls IH]; intros s s' HJ HR HC HL E HM.
    - cbn in HM. unfold meas in HM. destruct (calling s); [|lia]. specialize (HC eq_refl).
      exfalso. pose proof (reg_lt (arr s) i t HR). destruct (j_next s HJ) as [X|[X _]]; [|rewrite X in *; cbn in *; lia].
      destruct (Nat.leb_spec (next s) i); lia.
    - cbn in HL. apply andb_prop in HL as [HL1 HL]. cbn [exec] in E. destruct (step s l) as [| |s1] eqn:E1; try discriminate E.
      assert (J1 : J s1). { pose proof (step_J s l HJ) as X. rewrite E1 in X. apply X. destruct l; auto; discriminate. }
      assert (Next1 : forall (X : registered s1 i t) (Y : calling s1 = true -> next s1 <> i)
        (Z : meas s1 i < length (filter is_iter ls) + (if calling s1 then 1 else 0)),
        exists ls1 ls2 s1, l :: ls = ls1 ++ Iter :: ls2 /\ exec step s ls1 = Next s1 /\ next s1 = i /\ registered s1 i t).
      { intros X Y Z. destruct (IH s1 s' J1 X Y HL E Z) as (a & b & s2 & -> & H2 & H3). exists (l :: a), b, s2. cbn. rewrite E1. auto. }
      destruct l as [|id|now| |level now]; try discriminate HL1; cbn [IdleModel.step] in E1.
      + destruct (mode s) eqn:Em; try discriminate E1. assert (s1 = s \/ s1 = mk (arr s) (cap s) (gen s) (next s) (Loop now now None false) (nid s) (due s)) as [->| ->].
        { destruct (arr s); injection E1 as <-; auto. }
        * apply Next1; [exact HR|exact HC|exact HM].
        * apply Next1; [exact HR|discriminate|]. cbn in HM. unfold calling, meas in *. rewrite Em in *. cbn. lia.
      + destruct (Nat.eq_dec (next s) i) as [Hi|Hi]; [exists [], ls, s; auto|].
        destruct (mode s) as [|start cur nm sp|] eqn:Em; try discriminate E1.
        pose proof (j_mode s HJ) as F. unfold jmode in F. rewrite Em in F. destruct F as [F1 _].
        assert (Cs : calling s = false) by (unfold calling; now rewrite Em). rewrite Cs in HM. cbn in HM.
        assert (Adv : advance budget slow s start cur nm sp = Next s1 ->
          exists ls1 ls2 s1, Iter :: ls = ls1 ++ Iter :: ls2 /\ exec step s ls1 = Next s1 /\ next s1 = i /\ registered s1 i t).
        { intros X. apply advance_arr in X as (X1 & X2 & X3 & X4).
          assert (C1 : calling s1 = false). { unfold calling. destruct (mode s1) eqn:Q; auto. exfalso. eapply X3; eauto. }
          assert (R1 : registered s1 i t) by (unfold registered in *; now rewrite X1).
          apply Next1; auto; [congruence|]. rewrite C1.
          assert (S (meas s1 i) <= meas s i); [|lia]. eapply (meas_adv s s1 i t); auto; rewrite ?X1; auto. }
        unfold IdleModel.iter in E1. destruct (nth_error (arr s) (next s)) as [[[u|] ts]|] eqn:Hn; auto; [|discriminate E1].
        destruct (ts <=? cur)%N; [|auto]. injection E1 as <-. apply Next1; [exact HR|auto|]. cbn. unfold meas in *. cbn. lia.
      + destruct (mode s) as [| |r u start cur nm sp] eqn:Em; try discriminate E1.
        pose proof (j_mode s HJ) as F. unfold jmode in F. rewrite Em in F. destruct F as (-> & F1 & F2 & F3 & F4 & F5).
        assert (Cs : calling s = true) by (unfold calling; now rewrite Em). rewrite Cs in HM. specialize (HC Cs). cbn in HM.
        unfold ret in E1. assert (V : valid s (mk_r (gen s) (next s)) = true).
        { unfold valid. cbn. rewrite Nat.eqb_refl. now apply Nat.ltb_lt. }
        cbn [ridx] in E1. destruct (nth_error (arr s) (next s)) as [[o w]|] eqn:Hn; [|apply nth_error_None in Hn; lia].
        rewrite V in E1. cbn [negb] in E1.
        assert (Adv : forall s2 c m b, next s2 = next s -> length (arr s2) = length (arr s) -> (forall v, reg (arr s2) i v <-> reg (arr s) i v) ->
          advance budget slow s2 start c m b = Next s1 ->
          exists ls1 ls2 s1, Ret level now :: ls = ls1 ++ Iter :: ls2 /\ exec step s ls1 = Next s1 /\ next s1 = i /\ registered s1 i t).
        { intros s2 c m b Hn2 Hl2 Hr2 X. apply advance_arr in X as (X1 & X2 & X3 & X4). rewrite Hn2, Hl2 in X4.
          assert (C1 : calling s1 = false). { unfold calling. destruct (mode s1) eqn:Q; auto. exfalso. eapply X3; eauto. }
          assert (R1 : registered s1 i t). { change (reg (arr s1) i t). rewrite X1. now apply Hr2. }
          apply Next1; auto; [congruence|]. rewrite C1.
          assert (S (meas s1 i) <= meas s i); [|lia]. apply (meas_adv s s1 i t); auto.
          - intros v. rewrite X1. apply Hr2.
          - intros _. now rewrite X1. }
        destruct (level <? 0)%Z.
        * destruct (Nat.eqb_spec (S (next s)) (length (arr s))) as [Q|Q].
          -- apply leave_arr in E1 as (X1 & _ & X3 & X4). cbn in X1, X3.
             assert (C1 : calling s1 = false) by (unfold calling; now rewrite X4).
             assert (R0 : forall v, reg (arr s1) i v <-> reg (arr s) i v).
             { intros v. rewrite X1, reg_trim. assert (L : length (set (next s) (None, w) (arr s)) = length (arr s)) by apply set_length.
               destruct (Nat.lt_ge_cases (S i) (length (arr s))) as [C|C].
               - unfold reg. rewrite nth_removelast_lt by (rewrite L; auto). change (reg (set (next s) (None, w) (arr s)) i v <-> reg (arr s) i v). apply reg_set; auto.
               - pose proof (reg_lt (arr s) i t HR). lia. }
             assert (R1 : registered s1 i t) by (now apply R0).
             apply Next1; auto; [congruence|]. rewrite C1.
             assert (S (meas s1 i) <= meas s i); [|lia]. apply (meas_adv s s1 i t); auto.
             ++ intros v. apply R0.
             ++ rewrite (proj2 (Nat.leb_le _ _)) by lia. auto.
             ++ intros X. now rewrite X3 in X.
          -- eapply (Adv (mk (set (next s) (None, w) (arr s)) (cap s) (gen s) (next s) (mode s) (nid s) (due s))); [reflexivity|apply set_length| |exact E1].
             intros v. apply reg_set; auto.
        * destruct (max_level <=? level)%Z.
          -- eapply (Adv s); eauto. tauto.
          -- rewrite (proj2 (Nat.ltb_lt _ _) F1) in E1.
             eapply Adv; [| | |exact E1]; [reflexivity|apply set_length|]. intros v. now apply (reg_set_ts _ _ _ w).
  Qed.

  Lemma idle_turn_pf s s' ls i t : reachable cstep init s -> mode s = Out -> registered s i t ->
    forallb (fun l => negb (is_change l)) ls = true -> exec step s ls = Next s' ->
    length (arr s) <= length (filter is_iter ls) ->
    exists ls1 ls2 s1, ls = ls1 ++ Iter :: ls2 /\ exec step s ls1 = Next s1 /\ next s1 = i /\ registered s1 i t.
  Proof.
    intros R M HR HL E HM. apply J_reach in R as HJ. eapply turn; eauto.
    - unfold calling. rewrite M. discriminate.
    - unfold calling. rewrite M. pose proof (reg_lt (arr s) i t HR). destruct (j_next s HJ) as [X|[X _]]; [|rewrite X in *; cbn in *; lia].
      unfold meas. destruct (Nat.leb_spec (next s) i); lia.
  Qed.
End P.
