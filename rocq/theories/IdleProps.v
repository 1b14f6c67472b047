(** C36: on-idle tasks. Every history of registrations, removals and runs, from outside and from
    within tasks, for every behaviour of the clock and every value of the time constants. *)
From Verif Require Import Util Conc IdleModel IdleSpec IdleProof.
From Coq Require Import ZArith Lia.

Section Props.
  Variables budget slow kmax : N.
  Notation step := (step budget slow kmax).
  Notation cstep := (cstep budget slow kmax).

  (** AddOnIdleTask hands out an id under which nothing was registered and registers one task there. *)
  Theorem idle_add s s' : step s Add = Next s' ->
    free_id s (add_result s) /\ (exists t, registered s' (add_result s) t) /\ same_but (add_result s) s s'.
  Proof. exact (idle_add_pf budget slow kmax s s'). Qed.

  (** RemoveOnIdleTask(id) unregisters what is registered under id and nothing else; it says so. *)
  Theorem idle_remove s id s' : step s (Remove id) = Next s' ->
    free_id s' id /\ same_but id s s' /\ (remove_result s id = true <-> exists t, registered s id t).
  Proof. exact (idle_remove_pf budget slow kmax s id s'). Qed.

  (** In the use that the code supports no slot outside of the registered range and no dead
      reference is ever accessed. Full property: [safe step init]; it is false, see below. *)
  Theorem idle_safe_partial : safe cstep init.
  Proof. exact (idle_safe_pf budget slow kmax). Qed.

  (** What is called is registered, and is not called before the time it asked for. *)
  Theorem idle_calls s s' id t : reachable cstep init s -> step s Iter = Next s' -> running s' id t ->
    registered s id t /\ (due s t <= clock s')%N.
  Proof. exact (idle_calls_pf budget slow kmax s s' id t). Qed.

  (** A task that returns a negative level is unregistered, and no other; otherwise nothing is; a level
      below the maximum puts the next call off by kIdleMaxCycles >> level. *)
  Theorem idle_ret s s' id t level now : reachable cstep init s -> running s id t -> step s (Ret level now) = Next s' ->
    ((level < 0)%Z -> (forall i, ~ registered s' i t) /\ same_but id s s') /\
    ((0 <= level)%Z -> forall i u, registered s' i u <-> registered s i u) /\
    ((0 <= level < 21)%Z -> due s' t = ((now + N.shiftr kmax (Z.to_N level)) mod two64)%N).
  Proof. exact (idle_ret_pf budget slow kmax s s' id t level now). Qed.

  (** Round robin: while nothing is added or removed, every registered task has its turn within as
      many loop iterations as there are slots, however they are spread over runs. *)
  Theorem idle_turn s s' ls i t : reachable cstep init s -> mode s = Out -> registered s i t ->
    forallb (fun l => negb (is_change l)) ls = true -> exec step s ls = Next s' ->
    length (arr s) <= length (filter is_iter ls) ->
    exists ls1 ls2 s1, ls = ls1 ++ Iter :: ls2 /\ exec step s ls1 = Next s1 /\ next s1 = i /\ registered s1 i t.
  Proof. exact (idle_turn_pf budget slow kmax s s' ls i t). Qed.

  (** Finding. Two tasks; a run stops after the first because its time is up; the second is removed;
      the next run reads past the end of the vector. *)
  Theorem idle_safe_refuted : (budget < two64)%N -> ~ safe step init.
  Proof.
    intros Hb H. apply (H [Add; Add; Begin 0%N; Iter; Ret 21 budget; Remove 1; Begin 0%N; Iter]).
    assert (E : sub64 budget 0 = budget).
    { unfold sub64. rewrite N.sub_0_r. replace (budget + two64)%N with (budget + 1 * two64)%N by lia.
      rewrite N.mod_add by discriminate. now apply N.mod_small. }
    cbn -[sub64 two64 N.leb N.ltb]. change (0 <=? 0)%N with true. cbn -[sub64 two64 N.leb N.ltb].
    unfold advance. cbn -[sub64 two64 N.leb N.ltb]. rewrite E, N.ltb_irrefl.
    unfold leave. cbn -[sub64 two64 N.leb N.ltb]. rewrite andb_false_r. reflexivity.
  Qed.

  (** Finding. A task that removes itself, registers another one and returns -1 unregisters the other. *)
  Theorem idle_ret_refuted : exists s s' id t u, reachable step init s /\ running s id t /\
    step s (Ret (-1) 0%N) = Next s' /\ u <> t /\ (exists i, registered s i u) /\ forall i, ~ registered s' i u.
  Proof.
    assert (X : exists s, reachable step init s /\ (arr s, next s, gen s, mode s) = ([(Some 1, 0%N)], 0, 1, Call (mk_r 1 0) 0 0 0 None false)).
    { apply (reach_obs step (fun s => (arr s, next s, gen s, mode s)) init [Add; Begin 0%N; Iter; Remove 0; Add]). reflexivity. }
    destruct X as (s & R & E). injection E as E1 E2 E3 E4.
    destruct (step s (Ret (-1) 0%N)) as [| |s'] eqn:E5;
      cbn -[sub64 N.leb N.ltb] in E5; rewrite E4 in E5; unfold ret, valid, leave in E5; cbn -[sub64 N.leb N.ltb] in E5; rewrite E1, E2, E3 in E5;
      cbn -[sub64 N.leb N.ltb] in E5; try discriminate E5.
    exists s, s', 0, 0, 1. split; [exact R|]. split; [exists (mk_r 1 0), 0%N, 0%N, None, false; auto|].
    split. { cbn -[sub64 N.leb N.ltb]. rewrite E4. unfold ret, valid, leave. cbn -[sub64 N.leb N.ltb]. rewrite E1, E2, E3. exact E5. }
    split; [discriminate|]. split; [exists 0, 0%N; now rewrite E1|].
    injection E5 as <-. intros i [ts Y]. cbn in Y. destruct i; discriminate.
  Qed.

  (** Finding. Ids are not unique: the id of a task that ended by itself comes to denote another. *)
  Theorem idle_unique_refuted : exists ls1 ls2 s1 s2, exec step init ls1 = Next s1 /\ exec step s1 ls2 = Next s2 /\
    forallb (fun l => match l with Remove _ => false | _ => true end) ls2 = true /\
    registered s1 0 0 /\ registered s2 0 1.
  Proof.
    eexists [Add], [Begin 0%N; Iter; Ret (-1) 0%N; Add], _, _. split; [reflexivity|]. split; [reflexivity|]. split; [reflexivity|].
    split; eexists; reflexivity.
  Qed.
End Props.
Print Assumptions idle_add.
Print Assumptions idle_remove.
Print Assumptions idle_safe_partial.
Print Assumptions idle_calls.
Print Assumptions idle_ret.
Print Assumptions idle_turn.
Print Assumptions idle_safe_refuted.
Print Assumptions idle_ret_refuted.
Print Assumptions idle_unique_refuted.

(** Budget 10, slow 100, kmax 1000. Three tasks; the first run stops in the middle; task 0 is removed
    from within task 1; task 2 returns -1. *)
Definition ex1 : list lab := [Add; Add; Add; Begin 5%N; Iter; Ret 3 7%N; Iter; Ret 21 20%N; Begin 30%N; Iter; Ret 0 31%N].
Example idle_met : exists s, reachable (cstep 10 100 1000) init s /\ mode s = Out /\ registered s 2 2 /\ registered s 0 0 /\
  due s 0 = 132%N /\ due s 2 = 1031%N /\ next s = 0.
Proof.
  destruct (reach_obs (cstep 10 100 1000) (fun s => (mode s, arr s, due s 0, due s 2, next s)) init ex1
    (Out, [(Some 0, 132%N); (Some 1, 0%N); (Some 2, 1031%N)], 132%N, 1031%N, 0)) as (s & R & E); [vm_compute; reflexivity|].
  injection E as E1 E2 E3 E4 E5. exists s. unfold registered. rewrite E1, E2, E3, E4, E5. repeat split; eauto; eexists; reflexivity.
Qed.
Example idle_ret_met : exists s s', reachable (cstep 10 100 1000) init s /\ running s 1 1 /\ ~ registered s 0 0 /\
  step 10 100 1000 s (Ret (-1) 2%N) = Next s' /\ registered s 1 1 /\ registered s' 2 2.
Proof.
  destruct (exec (cstep 10 100 1000) init (ex1 ++ [Begin 40%N; Iter; Iter; Remove 0])) as [| |s] eqn:E; try (vm_compute in E; discriminate E).
  exists s. destruct (step 10 100 1000 s (Ret (-1) 2%N)) as [| |s'] eqn:E'; try (vm_compute in E; injection E as <-; vm_compute in E'; discriminate E').
  exists s'. split; [exists (ex1 ++ [Begin 40%N; Iter; Iter; Remove 0]); exact E|].
  vm_compute in E. injection E as <-. vm_compute in E'. injection E' as <-. unfold running, registered.
  split; [eexists _, _, _, _, _; split; reflexivity|]. split; [intros [ts X]; discriminate|]. repeat split; eauto; eexists; reflexivity.
Qed.
(** A run of all three tasks within one call. *)
Example idle_turn_met : exists s s', reachable (cstep 10 100 1000) init s /\ mode s = Out /\ registered s 1 1 /\
  exec (step 10 100 1000) s [Begin 2000%N; Iter; Ret 3 2001%N; Iter; Ret 5 2002%N; Iter; Ret (-1) 2003%N] = Next s' /\ length (arr s) = 3 /\ length (arr s') = 2.
Proof.
  destruct (exec (cstep 10 100 1000) init ex1) as [| |s] eqn:E; try (vm_compute in E; discriminate E).
  eexists s, _. split; [exists ex1; exact E|]. vm_compute in E. injection E as <-. split; [reflexivity|].
  split; [exists 0%N; reflexivity|]. split; [vm_compute; reflexivity|]. split; reflexivity.
Qed.
