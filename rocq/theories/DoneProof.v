From Verif Require Import Util Conc EcModel EcProof AwaitModel AwaitSpec AwaitProof DoneModel.

Section Gen.
  Context {X : Type} (cond : nat -> X -> bool) (take : nat -> X -> X) (op : nat -> X -> X * bool) (all : bool).
  Context (menu : nat -> nat -> option call) (waiter : nat -> bool) (NT : nat).
  Hypothesis Hnt : (N.of_nat NT < two32)%N.
  Hypothesis Hop : forall g x k, cond k (fst (op g x)) = true -> cond k x = true \/ snd (op g x) = true.
  Hypothesis Htake : forall j x k, cond j x = true -> cond k (take j x) = true -> cond k x = true.
  Hypothesis Hall : all = true \/ exists w0, forall t, waiter t = true -> t = w0.
  Notation astep := (step NT (acode cond take op all menu waiter)).
  Lemma await_wakeup_gen x0 ls s t k : exec astep (ainit x0) ls = Next s -> timely astep (ainit x0) ls ->
    suspended_on s t k -> cond k (cs s) = true -> exists u, notifying s u.
  Proof.
    intros R A [tm E] Hc.
    destruct (await_no_lost_wakeup_pf cond take op all menu waiter NT Hnt Hop Htake Hall x0 s t k tm) as [u H]; auto.
    - now exists ls.
    - apply (await_window_pf cond take op all menu waiter NT Hnt Hop Htake Hall x0 ls s R).
      intros n s1 u l ky E1 P K. apply N.nle_gt. intros B. apply (A n s1 u E1). exists l, ky. auto.
    - exists u. unfold notifying. destruct H as [->|[->| ->]]; exact I.
  Qed.
End Gen.

Lemma done_single_pf NT menu waiter w0 ls s t k : (N.of_nat NT < two32)%N -> (forall t, waiter t = true -> t = w0) ->
  exec (step NT (done_code menu waiter)) done_init ls = Next s -> timely (step NT (done_code menu waiter)) done_init ls ->
  suspended_on s t k -> cs s = true -> exists u, notifying s u.
Proof.
  intros Hn Hw. apply (await_wakeup_gen done_cond (fun _ x => x) done_op false menu waiter NT Hn); eauto.
  intros [|g] x j; simpl; auto.
Qed.

Definition FI (x : fut) : Prop :=
  match resolved x with
  | None => has_value x = false /\ got x = []
  | Some v => value x = v /\ (forall b w, In (b, w) (got x) -> w = v) /\
              length (filter fst (got x)) + (if has_value x then 1 else 0) <= 1
  end.
Lemma FI_op g x : FI x -> FI (fst (fut_op g x)).
Proof.
  unfold FI, fut_op. destruct (resolved x) eqn:E; simpl. now rewrite E.
  intros [A B]. rewrite B. simpl. repeat split; auto. intros _ _ [].
Qed.
Lemma FI_take k x : FI x -> fut_cond k x = true -> FI (fut_take k x).
Proof.
  unfold FI, fut_cond. intros I H. destruct k; simpl; destruct (resolved x); try (destruct I; congruence).
  - destruct I as (A & B & C). split; auto. split.
    + intros b w Hi. apply in_app_or in Hi. destruct Hi as [Hi|[[= <- <-]|[]]]; eauto.
    + rewrite filter_app, app_length. simpl. rewrite H in C. lia.
  - destruct I as (A & B & C). split; auto. split.
    + intros b w Hi. apply in_app_or in Hi. destruct Hi as [Hi|[[= <- <-]|[]]]; eauto.
    + rewrite filter_app, app_length. simpl. lia.
Qed.
Lemma fut_inv NT menu waiter s : reachable (step NT (fut_code menu waiter)) fut_init s -> FI (cs s).
Proof.
  intros R. refine (await_cs_inv _ _ _ _ _ _ _ FI _ _ _ _ _ R).
  - intros. now apply FI_op.
  - intros. now apply FI_take.
  - split; reflexivity.
Qed.
Lemma fut_value_pf NT menu waiter s b v : reachable (step NT (fut_code menu waiter)) fut_init s ->
  In (b, v) (got (cs s)) -> resolved (cs s) = Some v.
Proof.
  intros R H. pose proof (fut_inv _ _ _ _ R) as I. unfold FI in I. destruct (resolved (cs s)) as [w|].
  - destruct I as (_ & I & _). f_equal. symmetry. eauto.
  - destruct I as [_ I]. rewrite I in H. destruct H.
Qed.
Lemma fut_once_pf NT menu waiter s : reachable (step NT (fut_code menu waiter)) fut_init s ->
  length (filter fst (got (cs s))) <= 1.
Proof.
  intros R. pose proof (fut_inv _ _ _ _ R) as I. unfold FI in I. destruct (resolved (cs s)) as [w|].
  - lia.
  - destruct I as [_ ->]. simpl. lia.
Qed.
Lemma fut_pending_pf NT menu waiter s : reachable (step NT (fut_code menu waiter)) fut_init s ->
  has_value (cs s) = true -> exists v, resolved (cs s) = Some v.
Proof.
  intros R H. pose proof (fut_inv _ _ _ _ R) as I. unfold FI in I. destruct (resolved (cs s)); eauto. destruct I; congruence.
Qed.
(** The only way has_value goes away is a Get. *)
Definition FJ (x : fut) : Prop := forall v, resolved x = Some v -> has_value x = true \/ In (true, v) (got x).
Lemma FJ_reach NT menu waiter s : reachable (step NT (fut_code menu waiter)) fut_init s -> FJ (cs s).
Proof.
  intros R. assert (FI (cs s) /\ FJ (cs s)) as [_ H]; auto.
  refine (await_cs_inv _ _ _ _ _ _ _ (fun x => FI x /\ FJ x) _ _ _ _ _ R).
  - intros g x [I H]. split. now apply FI_op. unfold fut_op, FJ in *. destruct (resolved x) eqn:E; simpl.
    now rewrite E. auto.
  - intros k x [I H] C. split. now apply FI_take. intros v E. destruct k; simpl in *; unfold FI in I; rewrite E in I.
    + right. apply in_or_app. right. left. f_equal. apply I.
    + left. exact C.
  - split; [split; reflexivity|]. intros v H0. discriminate H0.
Qed.
Lemma fut_single_pf NT menu waiter w0 ls s t k v : (N.of_nat NT < two32)%N -> (forall t, waiter t = true -> t = w0) ->
  exec (step NT (fut_code menu waiter)) fut_init ls = Next s -> timely (step NT (fut_code menu waiter)) fut_init ls ->
  suspended_on s t k -> resolved (cs s) = Some v -> (exists u, notifying s u) \/ In (true, v) (got (cs s)).
Proof.
  intros Hn Hw E T S R.
  destruct (FJ_reach NT menu waiter s (ex_intro _ ls E) v R) as [H|H]; auto. left.
  eapply (await_wakeup_gen fut_cond fut_take fut_op false menu waiter NT Hn) with (k := k); eauto.
  - intros g x j. unfold fut_op, fut_cond. destruct (resolved x); simpl; auto.
Qed.
