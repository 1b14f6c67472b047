(** C03, C04, C05 - SegmentPool and the registered buffers of the uring proactor. *)
From Verif Require Import Util SegmentPoolModel SegmentPoolSpec SegmentPoolProof.
Open Scope N_scope.

(** C03. Non-zero requests, returns of held segments, growth below 2^32: no undefined behaviour,
    held segments are pairwise disjoint and inside the pool. *)
Theorem segpool_disjoint : forall s h, s < two32 -> plegal 1 (NewPool s, []) h ->
  exists p held, prun (NewPool s, []) h = Some (p, held) /\
    psize p = grown s h /\ pairwise_disjoint held /\ inside (psize p) held.
Proof. exact segpool_disjoint_pf. Qed.
Print Assumptions segpool_disjoint.

(** C03 at the byte level: UringProactor::RequestBuffer / RequestRegisteredSlice. *)
Theorem uring_buffers_disjoint : forall size h,
  size <= 4096 * (two32 - 1) ->
  let p0 := RegisterBuffers size (NewPool 0) in
  blegal (p0, []) h ->
  exists p held, brun (p0, []) h = Some (p, held) /\
    pairwise_disjoint held /\
    inside (4096 * ((size + 4095) / 4096)) held /\
    (forall n, 0 < n -> n <= 4096 * (two32 - 1) ->
       forall r, fst (RequestBuffer n p) = Some r ->
         n <= snd r < n + 4096 /\ fst r + snd r <= 4096 * ((size + 4095) / 4096) /\
         forall x, In x held -> disjoint r x).
Proof. exact uring_buffers_disjoint_pf. Qed.
Print Assumptions uring_buffers_disjoint.

(** C04. Once nothing is held, the whole pool can be requested at once. *)
Theorem segpool_fully_free : forall s h p, s < two32 -> plegal 1 (NewPool s, []) h ->
  prun (NewPool s, []) h = Some (p, []) ->
  fst (Request (grown s h) p) = Some 0 /\ (forall n, n <= grown s h -> fst (Request n p) = Some 0).
Proof. exact segpool_fully_free_pf. Qed.
Print Assumptions segpool_fully_free.

(** C05 is false of the code: with zero-length requests allowed, a legal history ends with two
    overlapping non-empty segments held at once. *)
Theorem segpool_zero_request_refuted : exists h p held,
  plegal 0 (NewPool 7, []) h /\ prun (NewPool 7, []) h = Some (p, held) /\
  held = [(0, 7); (3, 4)] /\ ~ pairwise_disjoint held.
Proof.
  exists [Req 3; Req 4; Ret 0 3; Req 0; Req 2; Ret 1 2; Ret 3 0; Req 7], (Pool 7 [(0, 7)]), [(0, 7); (3, 4)].
  split; [|split; [vm_compute; reflexivity|split; [reflexivity|]]].
  - repeat (split; [vm_compute; intuition discriminate|]; intros st' E; vm_compute in E; inversion E; subst st'; clear E).
    exact I.
  - intros H. specialize (H 0%nat 1%nat (0, 7) (3, 4) ltac:(discriminate) eq_refl eq_refl).
    vm_compute in H. intuition discriminate.
Qed.
Print Assumptions segpool_zero_request_refuted.

(** The same through the proactor, RequestBuffer(0). *)
Theorem uring_zero_buffer_refuted : exists h p,
  brun (RegisterBuffers (7 * 4096) (NewPool 0), []) h = Some (p, [(0, 7 * 4096); (3 * 4096, 4 * 4096)]).
Proof.
  exists [BReq 12288; BReq 16384; BRet 0 12288; BReq 0; BReq 8192; BRet 4096 8192; BRet 12288 0; BReq 28672].
  eexists. vm_compute. reflexivity.
Qed.
Print Assumptions uring_zero_buffer_refuted.

(** A request of 16 TB is truncated to one 4 KB segment while claiming 16 TB + 4 KB: the bound on
    sizes in [uring_buffers_disjoint] is needed. *)
Example huge_request_truncated :
  fst (RequestBuffer (4096 * two32 + 1) (RegisterBuffers 4096 (NewPool 0))) = Some (0, 4096 * two32 + 4096).
Proof. vm_compute. reflexivity. Qed.

(** Non-trivial legal histories: out of order returns, a blocked middle segment, growth. *)
Example segpool_demo :
  let h := [Req 3; Req 4; Req 2; Ret 3 4; Req 1; Ret 0 3; Gro 5; Req 4; Req 3] in
  plegal 1 (NewPool 9, []) h /\
  prun (NewPool 9, []) h = Some (Pool 14 [(0, 3); (3, 4); (7, 2)], [(0, 3); (3, 4); (7, 2)]).
Proof.
  split; [|vm_compute; reflexivity].
  repeat (split; [vm_compute; intuition discriminate|]; intros st' E; vm_compute in E; inversion E; subst st'; clear E).
  exact I.
Qed.
Example segpool_free_demo :
  let h := [Req 3; Req 4; Req 2; Ret 3 4; Ret 7 2; Ret 0 3] in
  plegal 1 (NewPool 9, []) h /\ prun (NewPool 9, []) h = Some (NewPool 9, []).
Proof.
  split; [|vm_compute; reflexivity].
  repeat (split; [vm_compute; intuition discriminate|]; intros st' E; vm_compute in E; inversion E; subst st'; clear E).
  exact I.
Qed.
Example uring_demo :
  let h := [BReq 5000; BReq 1; BRet 0 8192; BReq 4096] in
  blegal (RegisterBuffers 12288 (NewPool 0), []) h /\
  option_map snd (brun (RegisterBuffers 12288 (NewPool 0), []) h) = Some [(4096, 4096); (8192, 4096)].
Proof.
  split; [|vm_compute; reflexivity].
  repeat (split; [vm_compute; intuition discriminate|]; intros st' E; vm_compute in E; inversion E; subst st'; clear E).
  exact I.
Qed.
