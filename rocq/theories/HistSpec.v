(** What users of base::Histogram rely on. *)
From Verif Require Import Util HistModel.
From Coq Require Import Permutation.

(** What the theorems assume of rounding: it is monotone, and leaves alone the integers up to 2^53 and 2^63. Rounding of
    doubles in any direction is like this, as long as there is no overflow. *)
Record rounding (rnd : Q -> Q) : Prop := {
  rnd_le : forall x y, x <= y -> rnd x <= rnd y;
  rnd_int : forall z, (Z.abs z <= 2 ^ 53)%Z -> rnd (inject_Z z) == inject_Z z;
  rnd_63 : rnd (inject_Z (2 ^ 63)) == inject_Z (2 ^ 63)
}.

(** The samples added, directly or to a histogram that was merged, with their numbers. *)
Fixpoint samples (e : history) : list (Q * N) :=
  match e with
  | New => []
  | AddTo e v c => (v, c) :: samples e
  | MergeTo e o => samples e ++ samples o
  | DecayOf e => samples e
  end.
Fixpoint no_decay (e : history) : bool :=
  match e with New => true | AddTo e _ _ => no_decay e | MergeTo e o => no_decay e && no_decay o | DecayOf _ => false end.
Definition total (l : list (Q * N)) : N := fold_right (fun p a => (snd p + a)%N) 0%N l.
(** [v] belongs in bucket [b]: not below its lower limit (the first has none), below its upper limit (the last has none). *)
Definition falls (v : Q) (b : nat) : Prop :=
  (b < 154)%nat /\ (b <> 0%nat -> limit (b - 1) <= v) /\ (b <> 153%nat -> v < limit b).
(** [c] of the samples in [l] belong in bucket [b]. *)
Inductive tally (b : nat) : list (Q * N) -> N -> Prop :=
  | tally_nil : tally b [] 0
  | tally_in v c l n : falls v b -> tally b l n -> tally b ((v, c) :: l) (c + n)
  | tally_out v c l n : ~ falls v b -> tally b l n -> tally b ((v, c) :: l) n.
Definition sumN (l : list N) : N := fold_right N.add 0%N l.
(** The smallest and the largest sample. *)
Definition least (x : Q) (l : list (Q * N)) : Prop := (exists c, In (x, c) l) /\ forall v c, In (v, c) l -> x <= v.
Definition greatest (x : Q) (l : list (Q * N)) : Prop := (exists c, In (x, c) l) /\ forall v c, In (v, c) l -> v <= x.
Definition counter (h : hist) (b : nat) : N := nth b (bks h) 0%N.
(** The same histogram, leaving sum() aside. *)
Definition same (h k : hist) : Prop := hmin h == hmin k /\ hmax h == hmax k /\ num h = num k /\ forall b, counter h b = counter k b.
(** Samples in the range of the table. *)
Definition in_range (l : list (Q * N)) : Prop := forall v c, In (v, c) l -> 0 <= v /\ v <= inject_Z top.
(** C30, for any samples *)
Definition within_samples : Prop := forall rnd e p r lo hi, rounding rnd -> no_decay e = true -> (0 < total (samples e) <= 2 ^ 63)%N ->
  0 <= p -> p <= 100 -> percentile rnd (run rnd e) p = Some r -> least lo (samples e) -> greatest hi (samples e) -> lo <= r /\ r <= hi.
(** Samples that are integers: their sum, and the sum of the absolute values. *)
Definition as_samples (l : list (Z * N)) : list (Q * N) := map (fun p => (inject_Z (fst p), snd p)) l.
Definition isum (l : list (Z * N)) : Z := fold_right (fun p a => fst p * Z.of_N (snd p) + a)%Z 0%Z l.
Definition iabs (l : list (Z * N)) : Z := fold_right (fun p a => Z.abs (fst p) * Z.of_N (snd p) + a)%Z 0%Z l.
(** Percentiles(..) wants numbers between 0 and 100, in ascending order. *)
Definition okp (p : Q) : Prop := 0 <= p /\ p <= 100.
Fixpoint asc (ps : list Q) : Prop := match ps with p :: (q :: _) as r => p <= q /\ asc r | _ => True end.
