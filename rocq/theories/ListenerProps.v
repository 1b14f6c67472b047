(** C47, C52: ListenerInterface. Every interleaving of accepts, closes, migrations and traversals, up to [n]
    connections and [m] traversals at a time, [n] and [m] below 2^32. *)
From Verif Require Import Util Conc ListenerModel ListenerSpec ListenerProof.
From Coq Require Import Lia.

Section L.
  Variable n m : nat.
  Variable mx : N.
  Hypothesis Hn : (N.of_nat n + 1 < two32)%N.
  Hypothesis Hm : (N.of_nat m < two32)%N.
  Hypothesis Hx : (mx < two32)%N.

  (** While a traversal goes over its list, no connection is changing threads. *)
  Theorem listener_excl s i c : reachable step (init n m mx) s -> traversing s i -> ~ relinking s c.
  Proof. exact (listener_excl_pf n m mx Hn Hm Hx s i c). Qed.
  (** The number of connections served never exceeds the largest limit that was set. *)
  Theorem listener_limit B ls s : exec step (init n m mx) ls = Next s -> (mx <= B)%N -> (forall k, In (SetMax k) ls -> (k <= B)%N) ->
    (N.of_nat (served s) <= B)%N.
  Proof. exact (listener_limit_pf n m mx Hn Hm Hx B ls s). Qed.
  (** A new connection is served if and only if fewer than max_clients are, so that with it there are no more. *)
  Theorem listener_accept s c t s' : reachable step (init n m mx) s -> step s (Accept c t) = Next s' ->
    (served s' = S (served s) /\ (N.of_nat (served s') <= maxc s)%N) \/ (served s' = served s /\ (maxc s <= N.of_nat (served s))%N).
  Proof. exact (listener_accept_pf n m mx Hn Hm Hx s c t s'). Qed.
  (** When nobody has the lock or waits for it, it is free: a migration or a traversal gets it at once. *)
  Theorem listener_idle s : reachable step (init n m mx) s -> idle s ->
    (forall c d t, nth_error (conns s) c = Some (Serve t) -> t <> d -> exists s', step s (Migrate c d) = Next s' /\ nth_error (conns s') c = Some (Hold t d)) /\
    (forall i t, i < m -> exists s', step s (Trav i t) = Next s' /\ traversing s' i).
  Proof. exact (listener_idle_pf n m mx Hn Hm Hx s). Qed.
  (** A traversal calls back exactly once for each of the connections of its thread. *)
  Theorem listener_visit s i s' t : nth_error (travs s) i = Some (TRun t) -> step s (Visit i) = Next s' ->
    exists l, vlog s' = vlog s ++ map (fun c => (i, c)) l /\ NoDup l /\ forall c, In c l <-> listed s c t.
  Proof. exact (listener_visit_pf s i s' t). Qed.

  (** C52, what holds: a connection that does not migrate and does not close during the call is visited exactly once. *)
  Theorem listener_visits_partial s ls s' c t : reachable step (init n m mx) s -> whole_call m s ls -> exec step s ls = Next s' ->
    nth_error (conns s) c = Some (Serve t) -> t < m -> forallb (still c) ls = true -> calls s' c = calls s c + 1.
  Proof. exact (listener_visits_partial_pf n m mx Hn Hm Hx s ls s' c t). Qed.
End L.
(** C52, refuted: one that migrates from a thread that was not visited yet to one that was is not visited. *)
Theorem listener_visits_refuted : ~ visits_once.
Proof. exact listener_visits_refuted_pf. Qed.
Print Assumptions listener_excl.
Print Assumptions listener_limit.
Print Assumptions listener_accept.
Print Assumptions listener_idle.
Print Assumptions listener_visit.
Print Assumptions listener_visits_partial.
Print Assumptions listener_visits_refuted.

(** A traversal waits for a migration, the next migration has to roll back. *)
Example listener_met : exists s, reachable step (init 3 2 2) s /\ traversing s 0 /\ served s = 2 /\ nth_error (conns s) 1 = Some (Back 1 0).
Proof.
  destruct (reach_obs step (fun s => (travs s, conns s)) (init 3 2 2)
    [Accept 0 0; Link 0; Accept 1 1; Link 1; Accept 2 1; Reject; Migrate 0 1; Trav 0 0; Spin 0; Move 0; Move 0; Spin 0; Move 0; Spin 0; Migrate 1 0]
    ([TRun 0; TOut], [Serve 1; Back 1 0; Free])) as (s & R & E); [vm_compute; reflexivity|]. injection E as E1 E2. exists s.
  unfold traversing, served. rewrite E1, E2. cbn. repeat split; eauto.
Qed.
Example listener_relink_met : exists s, reachable step (init 3 2 2) s /\ relinking s 0.
Proof.
  destruct (reach_obs step conns (init 3 2 2) [Accept 0 0; Link 0; Migrate 0 1; Move 0] [Gone 1; Free; Free]) as (s & R & E); [vm_compute; reflexivity|].
  exists s. split; auto. exists 0, 1. rewrite E. auto.
Qed.
Example listener_idle_met : exists s, reachable step (init 3 2 2) s /\ idle s /\ nth_error (conns s) 0 = Some (Serve 1).
Proof.
  destruct (reach_obs step (fun s => (travs s, conns s)) (init 3 2 2) [Accept 0 0; Link 0; Migrate 0 1; Move 0; Move 0; Move 0]
    ([TOut; TOut], [Serve 1; Free; Free])) as (s & R & E); [vm_compute; reflexivity|]. injection E as E1 E2. exists s. split; auto. unfold idle. rewrite E1, E2. split; auto. split.
  - intros [|[|[|c]]] x H; cbn in H; try (destruct c; discriminate); now injection H as <-.
  - intros [|[|i]] x H; cbn in H; try (destruct i; discriminate); now injection H as <-.
Qed.
Example listener_visits_met : exists s ls s', reachable step (init 2 2 5) s /\ whole_call 2 s ls /\ exec step s ls = Next s' /\
  nth_error (conns s) 0 = Some (Serve 1) /\ forallb (still 0) ls = true /\ In (Migrate 1 0) ls /\ calls s' 0 = 1.
Proof.
  destruct (reach_obs step (fun s => s) (init 2 2 5) [Accept 0 1; Link 0; Accept 1 1; Link 1] (mk [Serve 1; Serve 1] [TOut; TOut] AWait 0 2 5 5 [])) as (s & R & ->);
    [vm_compute; reflexivity|].
  eexists. exists [Trav 0 0; Visit 0; Leave 0; Migrate 1 0; Trav 1 1; Move 1; Move 1; Move 1; Spin 1; Visit 1; Leave 1].
  exists (mk [Serve 1; Serve 0] [TOut; TOut] AWait 0 2 5 5 [(1, 0)]). split; [exact R|]. split.
  - intros [|[|t]] L; [split; reflexivity|split; reflexivity|lia].
  - split; [vm_compute; reflexivity|]. cbn. auto 10.
Qed.
