(** C29, C30: base::Histogram. Every way to make one with Add, Merge and Decay, every rounding of the arithmetic. *)
From Verif Require Import Util HistModel HistSpec HistProof.
From Coq Require Import Permutation.

(** ** C29 *)
Section C29.
  Variable rnd : Q -> Q.
  (** count() is the number of samples, modulo 2^64. *)
  Theorem hist_count e : no_decay e = true -> num (run rnd e) = (total (samples e) mod two64)%N.
  Proof. exact (hist_count_pf rnd e). Qed.
  (** Each counter has the number of samples that belong in its bucket; each sample belongs in exactly one. *)
  Theorem hist_bucket e b n : no_decay e = true -> tally b (samples e) n -> counter (run rnd e) b = (n mod two64)%N.
  Proof. exact (hist_bucket_pf rnd e b n). Qed.
  (** count() is the sum of the counters, modulo 2^64, also after Decay. *)
  Theorem hist_total e : num (run rnd e) = (sumN (bks (run rnd e)) mod two64)%N.
  Proof. exact (hist_total_pf rnd e). Qed.
  (** The order of additions, and how they are distributed over histograms that are merged, make no difference. *)
  Theorem hist_same e f : no_decay e = true -> no_decay f = true -> Permutation (samples e) (samples f) -> same (run rnd e) (run rnd f).
  Proof. exact (hist_same_pf rnd e f). Qed.
  (** min() and max() are those of the samples, if these are between 0 and 1e200. *)
  Theorem hist_range e lo hi : no_decay e = true -> in_range (samples e) -> least lo (samples e) -> greatest hi (samples e) ->
    hmin (run rnd e) == lo /\ hmax (run rnd e) == hi.
  Proof. exact (hist_range_pf rnd e lo hi). Qed.
  (** sum() is exact for integers, as long as the sum of the absolute values is at most 2^53. *)
  Theorem hist_sum e l : rounding rnd -> no_decay e = true -> samples e = as_samples l -> (iabs l <= 2 ^ 53)%Z -> hsum (run rnd e) == inject_Z (isum l).
  Proof. intros H N. exact (hist_sum_pf rnd H e N l). Qed.
End C29.
Theorem hist_falls v : exists b, falls v b /\ forall c, falls v c -> c = b.
Proof. exists (bucket v). split; [apply bucket_falls|]. intros c H. apply (falls_unique v); auto. apply bucket_falls. Qed.
Print Assumptions hist_count.
Print Assumptions hist_bucket.
Print Assumptions hist_total.
Print Assumptions hist_same.
Print Assumptions hist_range.
Print Assumptions hist_sum.
Print Assumptions hist_falls.

(** ** C30: up to 2^63 samples *)
Section C30.
  Variable rnd : Q -> Q.
  Hypothesis HR : rounding rnd.
  (** No undefined conversion. *)
  Theorem hist_percentile_safe e p : (sumN (bks (run rnd e)) <= 2 ^ 63)%N -> 0 <= p -> p <= 100 -> exists r, percentile rnd (run rnd e) p = Some r.
  Proof. exact (hist_percentile_safe_pf rnd HR e p). Qed.
  (** A larger p does not give a smaller value, also after Decay. *)
  Theorem hist_monotone e p q r r' : (sumN (bks (run rnd e)) <= 2 ^ 63)%N -> 0 <= p -> p <= q -> q <= 100 ->
    percentile rnd (run rnd e) p = Some r -> percentile rnd (run rnd e) q = Some r' -> r <= r'.
  Proof. exact (hist_monotone_pf rnd HR e p q r r'). Qed.
  (** Values are between min() and max(), also after Decay. *)
  Theorem hist_minmax e p r : (sumN (bks (run rnd e)) <= 2 ^ 63)%N -> (num (run rnd e) <> 0)%N -> hmin (run rnd e) <= hmax (run rnd e) -> 0 <= p -> p <= 100 ->
    percentile rnd (run rnd e) p = Some r -> hmin (run rnd e) <= r /\ r <= hmax (run rnd e).
  Proof. exact (hist_minmax_pf rnd HR e p r). Qed.
  (** Values are between the smallest and the largest sample, if the samples are between 0 and 1e200. *)
  Theorem hist_percentile_partial e p r lo hi : no_decay e = true -> (0 < total (samples e) <= 2 ^ 63)%N -> in_range (samples e) -> 0 <= p -> p <= 100 ->
    percentile rnd (run rnd e) p = Some r -> least lo (samples e) -> greatest hi (samples e) -> lo <= r /\ r <= hi.
  Proof. exact (hist_percentile_pf rnd HR e p r lo hi). Qed.
  (** Percentiles(..) gives what Percentile gives for each. *)
  Theorem hist_percentiles e ps : (sumN (bks (run rnd e)) <= 2 ^ 63)%N -> Forall okp ps -> asc ps ->
    exists rs, percentiles rnd (run rnd e) ps = Some rs /\ Forall2 (fun p r => percentile rnd (run rnd e) p = Some r) ps rs.
  Proof. exact (hist_percentiles_pf rnd HR e ps). Qed.
End C30.
(** Refuted for negative samples: max() is then 0, and percentiles can be above all samples. *)
Theorem hist_within_refuted : ~ within_samples.
Proof. exact hist_within_refuted_pf. Qed.
Print Assumptions hist_percentile_safe.
Print Assumptions hist_monotone.
Print Assumptions hist_minmax.
Print Assumptions hist_percentile_partial.
Print Assumptions hist_percentiles.
Print Assumptions hist_within_refuted.

(** A rounding other than the identity: to a multiple of 1/1024, upwards. *)
Definition up (x : Q) : Q := Qceiling (x * 1024) # 1024.
Lemma up_le x y : x <= y -> up x <= up y.
Proof.
  intros H. unfold up, Qle. cbn [Qnum Qden]. apply Z.mul_le_mono_nonneg_r; [discriminate|]. apply Qceiling_resp_le. apply Qmult_le_compat_r; auto. discriminate.
Qed.
Lemma up_int z : up (inject_Z z) == inject_Z z.
Proof.
  unfold up. assert (E : Qceiling (inject_Z z * 1024) = (z * 1024)%Z).
  { rewrite (Qceiling_comp _ (inject_Z (z * 1024))); [apply Qceiling_Z|]. rewrite inject_Z_mult. reflexivity. }
  rewrite E. unfold Qeq. cbn [Qnum Qden inject_Z]. rewrite Z.mul_1_r. reflexivity.
Qed.
Example rounding_met : rounding up.
Proof. split; intros; try apply up_int. now apply up_le. Qed.

Definition ex : history := MergeTo (AddTo (AddTo New 7 3) (3 # 2) 1) (AddTo (AddTo New 1000 2) 11 1).
Example hist_met : no_decay ex = true /\ total (samples ex) = 7%N /\ in_range (samples ex) /\ least (3 # 2) (samples ex) /\ greatest 1000 (samples ex).
Proof.
  split; [reflexivity|]. split; [reflexivity|]. split; [|split].
  - intros v c H. cbn in H. repeat (destruct H as [H|H]; [injection H as <- <-; split; vm_compute; discriminate|]). easy.
  - split; [exists 1%N; vm_compute; auto|]. intros v c H. cbn in H. repeat (destruct H as [H|H]; [injection H as <- <-; vm_compute; discriminate|]). easy.
  - split; [exists 2%N; vm_compute; auto 10|]. intros v c H. cbn in H. repeat (destruct H as [H|H]; [injection H as <- <-; vm_compute; discriminate|]). easy.
Qed.
Example hist_pct_met : sumN (bks (run up ex)) = 7%N /\ exists a b c, percentiles up (run up ex) [10; 50; 99] = Some [a; b; c] /\ ltb a b = true /\ ltb b c = true.
Proof. split; [vm_compute; reflexivity|]. do 3 eexists. split; [vm_compute; reflexivity|]. split; vm_compute; reflexivity. Qed.
Example hist_sum_met : samples (AddTo (AddTo New 7 3) (-5) 2) = as_samples [((-5)%Z, 2%N); (7%Z, 3%N)] /\ (iabs [((-5)%Z, 2%N); (7%Z, 3%N)] <= 2 ^ 53)%Z.
Proof. split; [reflexivity|]. vm_compute. discriminate. Qed.
