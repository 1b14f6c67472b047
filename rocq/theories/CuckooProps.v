(** C33: CuckooMap is a finite map. Property 33 of properties.jsonl.

    [exec step (init n) ls = Next s]: [s] is a map after the calls [ls] (Insert with any key and value, Reserve, Clear), with any
    sizes chosen by Grow(); [after ls] is the finite map of CuckooSpec.v after the same calls; [lookup] is find() followed by
    FromDenseId(). At most 2^30 buckets: beyond, two slots have the same dense id. *)
From Verif Require Import Util Conc CuckooModel CuckooSpec CuckooProof.
Arguments find {V}. Arguments insert {V}. Arguments lookup {V}. Arguments step {V}. Arguments from_dense {V}. Arguments init {V}.
Arguments get {V}. Arguments after {V}. Arguments small {V}.

Section V.
  Variable V : Type.
  (** find() sees the finite map, size() is the number of keys. *)
  Theorem cuckoo_map n (ls : list (lab V)) s : 2 <= n -> fits n -> Forall small ls -> exec step (init n) ls = Next s ->
    (forall k, lookup s k = get (after ls) k) /\ size s = length (after ls) /\ NoDup (map fst (after ls)).
  Proof. exact (cuckoo_map_pf V n ls s). Qed.
  (** Insert() says whether the key is new, and where it is: with its first value. *)
  Theorem cuckoo_insert n (ls : list (lab V)) s k v ns s' d new : 2 <= n -> fits n -> Forall small ls -> exec step (init n) ls = Next s -> Forall fits ns ->
    insert s k v ns = Next (s', (d, new)) ->
    new = (match get (after ls) k with None => true | Some _ => false end) /\
    exists p v', d = Some p /\ from_dense (tab s') p = Some (k, v') /\ v' = match get (after ls) k with Some w => w | None => v end.
  Proof. exact (cuckoo_insert_pf V n ls s k v ns s' d new). Qed.
  (** The dense ids below Capacity() that are not empty are the entries. *)
  Theorem cuckoo_iter n (ls : list (lab V)) s : 2 <= n -> fits n -> Forall small ls -> exec step (init n) ls = Next s ->
    forall k v, get (after ls) k = Some v <-> exists d, (d < N.of_nat (4 * length (tab s)))%N /\ from_dense (tab s) d = Some (k, v).
  Proof. exact (cuckoo_iter_pf V n ls s). Qed.
  (** An empty slot is never evicted. *)
  Theorem cuckoo_defined n (ls : list (lab V)) : 2 <= n -> fits n -> Forall small ls -> exec step (init n) ls <> Ub.
  Proof. exact (cuckoo_defined_pf V n ls). Qed.
End V.
Print Assumptions cuckoo_map.
Print Assumptions cuckoo_insert.
Print Assumptions cuckoo_iter.
Print Assumptions cuckoo_defined.
(** Dense ids are computed in 32 bits. *)
Theorem cuckoo_dense_refuted : exists b i, ~ fits (S b) /\ to_dense (b, i) = to_dense (0, 0) /\ b <> 0.
Proof. exact cuckoo_dense_refuted_pf. Qed.
Print Assumptions cuckoo_dense_refuted.

(** Non-vacuity: 23 keys in four buckets: the 17th does not fit and the table grows to 6 buckets, the 23rd displaces another. *)
Example cuckoo_keys (m : N) (ns : list nat) : list (lab N) := map (fun i => Insert (N.of_nat i * m)%N (N.of_nat i) ns) (seq 1 23).
Example cuckoo_met : exists s s0, exec step (init 4) (cuckoo_keys 7 [6] ++ [Insert 7%N 99%N []; Reserve 100 [32]]) = Next s /\
  size s = 23 /\ lookup s 7 = Some 1%N /\ lookup s 161 = Some 23%N /\ lookup s 162 = None /\ length (tab s) = 32 /\
  exec step (init 4) (firstn 22 (cuckoo_keys 7 [6])) = Next s0 /\
  exists s1, insert s0 161 23%N [] = Next (s1, (Some 17%N, true)) /\ rnd s1 = (rnd s0 + 2)%N /\ from_dense (tab s0) 17 <> None /\ from_dense (tab s1) 17 = Some (161%N, 23%N).
Proof. eexists. eexists. split; [vm_compute; reflexivity|]. repeat (split; [vm_compute; reflexivity|]). eexists. split; [vm_compute; reflexivity|]. split; [reflexivity|]. split; [discriminate|reflexivity]. Qed.
(** Nine keys in the same two buckets of four: growing to 5 buckets fails, growing to 16 succeeds. *)
Example cuckoo_met_grow : exists s, exec step (init 4) (firstn 9 (cuckoo_keys 60 [5; 16])) = Next s /\ length (tab s) = 16 /\ lookup s 60 = Some 1%N /\ size s = 9.
Proof. eexists. split; [vm_compute; reflexivity|]. repeat split. Qed.
Example cuckoo_met_small : Forall small (cuckoo_keys 60 [5; 16]) /\ fits 4.
Proof. split; [|discriminate]. unfold cuckoo_keys. repeat (constructor; [repeat (constructor; [discriminate|]); constructor|]). constructor. Qed.
