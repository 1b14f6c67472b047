(** C54: Compact() keeps the map. Property 54 of properties.jsonl.

    [exec cstep (init n) ls = Next s]: [s] is a map after the calls [ls]: those of CuckooProps.v and Compact() with what it
    returned; [cafter ls] is the finite map after the same calls, Compact() does not change it. [compact s ns] tries the numbers
    of buckets [ns]. The full property also asks for the map after Compact() returned false: it is refuted below. *)
From Verif Require Import Util Conc CuckooModel CuckooSpec CompactModel CompactSpec CompactProof.
From Coq Require Import Permutation.
Arguments lookup {V}. Arguments step {V}. Arguments init {V}. Arguments get {V}.
Arguments fill {V}. Arguments fresh {V}. Arguments entries {V}. Arguments compact {V}. Arguments cstep {V}. Arguments cafter {V}. Arguments csmall {V}. Arguments yes {V}.

Section V.
  Variable V : Type.
  (** As long as Compact() returns true the map is the finite map. *)
  Theorem compact_map_partial n (ls : list (clab V)) s : 2 <= n -> fits n -> Forall csmall ls -> Forall yes ls -> exec cstep (init n) ls = Next s ->
    (forall k, lookup s k = get (cafter ls) k) /\ size s = length (cafter ls) /\ NoDup (map fst (cafter ls)).
  Proof. exact (compact_map_partial_pf V n ls s). Qed.
  (** Compact() returns: no CHECK fails, no empty slot is displaced, its search ends. If it returns true the map is the same, and
      has one of the sizes tried or is small and not touched. *)
  Theorem compact_returns n (ls : list (clab V)) s ns : 2 <= n -> fits n -> Forall csmall ls -> Forall yes ls -> exec cstep (init n) ls = Next s ->
    length ns = 10 -> Forall (fun n => fits n /\ 2 <= n) ns ->
    exists s' res, compact s ns = Next (s', res) /\ size s' = length (cafter ls) /\
      (res = true -> (forall k, lookup s' k = get (cafter ls) k) /\ (length (tab s) < 128 /\ s' = s \/ In (length (tab s')) ns)).
  Proof. exact (compact_returns_pf V n ls s ns). Qed.
End V.
Print Assumptions compact_map_partial.
Print Assumptions compact_returns.
(** 45 keys in 131 buckets. Compact(1.07) tries the primes from 17 to 53 and returns false: keys are gone, size() still counts them. *)
Theorem compact_refuted : exists (ls : list (lab N)) s s' k v, exec step (init 131) ls = Next s /\ length ls = 45 /\
  compact s [17; 19; 23; 29; 31; 37; 41; 43; 47; 53] = Next (s', false) /\ lookup s k = Some v /\ lookup s' k = None /\ size s' = 45.
Proof. exact compact_refuted_pf. Qed.
Print Assumptions compact_refuted.
(** Compact() gives up although the keys fit: with the last number of buckets tried, a map holds all of them if they come in
    another order (Insert with no number to grow to: it does not grow). *)
Theorem compact_search_refuted : exists ks ks' s s' s1, Permutation ks ks' /\ exec step (init 131) (map (fun k => Insert k k []) ks) = Next s /\
  compact s [17; 19; 23; 29; 31; 37; 41; 43; 47; 53] = Next (s', false) /\
  exec step (init 53) (map (fun k => Insert k k []) ks') = Next s1 /\ length (tab s1) = 53.
Proof. exact compact_search_refuted_pf. Qed.
Print Assumptions compact_search_refuted.

(** Non-vacuity: 62 keys are compacted from 131 buckets to 17, six of them by searching; 250 keys to 67 buckets; then another is
    inserted, for which the map grows again. *)
Example compact_run (n m : N) (ns : list nat) (more : list (clab N)) : option (nat * bool * option N * option N) :=
  match exec cstep (init 131) (map (fun i => Call (Insert (N.of_nat i * m)%N (N.of_nat i) [])) (seq 1 (N.to_nat n)) ++ Compact ns true :: more) with
  | Next s => Some (length (tab s), forallb (fun i => match lookup s (N.of_nat i * m)%N with Some v => (v =? N.of_nat i)%N | None => false end) (seq 1 (N.to_nat n)), lookup s 5000%N, lookup s 1%N)
  | _ => None
  end.
Example compact_met : compact_run 62 13 [17; 19; 23; 29; 31; 37; 41; 43; 47; 53] [] = Some (17, true, None, None) /\
  compact_run 250 9 [67; 71; 73; 79; 83; 89; 97; 101; 103; 107] [] = Some (67, true, None, None) /\
  compact_run 250 9 [67; 71; 73; 79; 83; 89; 97; 101; 103; 107] [Call (Insert 5000%N 7%N [131])] = Some (131, true, Some 7%N, None).
Proof. repeat split; vm_compute; reflexivity. Qed.
Example compact_met_small : csmall (Compact [17; 19; 23; 29; 31; 37; 41; 43; 47; 53] true : clab N) /\ fits 131.
Proof. split; [|discriminate]. cbn [csmall]. repeat (constructor; [split; [discriminate|lia]|]). constructor. Qed.
(** Six keys find no empty slot when 62 are copied to 17 buckets. *)
Example compact_met_search : match exec step (init 131) (map (fun i => Insert (N.of_nat i * 13)%N i []) (seq 1 62)) with
  | Next s => match fill (shifts_limit 17 * 2) (fresh 17) 0 (entries (tab s)) [] with Filled _ _ bad => length bad | FBad => 0 end | _ => 0 end = 6.
Proof. vm_compute. reflexivity. Qed.
