(** The period of Xoroshiro128p, for C89. *)
From Coq Require Import Bool NArith ZArith List Lia ZifyBool ZifyN ZifyNat.
Import ListNotations.
From Verif Require Import RngModel RngPrime RngSpec RngProof.
Open Scope N_scope.
Transparent powm ev mulm jpoly jump_words x_after it.

Definition inverses : list N := [0x28ad2cf3e09d85f0dc40f461d2c2c7d8; 0xbe5308ec69514dc2ca8939e8bb7cc7f3; 0xb033aadb8e620d5380760c3edaa7db8; 0x30e5aaf1d16d836bb08347f6b98df9d6; 0x6ec2b2abc5012855a81493c7e42b2476; 0x3c13da96bdf060b8b178dd43e7c56a9e; 0x37430ca27c542004fe3ea4c3ea9f5ebc; 0xfbf5d1e791cb791fc6077daa37669ed5; 0x55db575fb05489582681f5f2a0a72912].
Lemma part_check : forallb (fun pi => match (2 ^ 128 - 1) / fst pi with Npos e => unit (N.lxor (powm 2 e) 1) (snd pi) | _ => false end) (combine factors inverses) = true.
Proof. vm_compute. reflexivity. Qed.
Lemma period : forall k v, valid v -> v <> O2 -> it k v = v -> (2 ^ 128 - 1 | k).
Proof.
  intros k v Hv Hz H. pose proof (it_full v Hv) as Hf. pose proof factors_prod as Fp. pose proof part_check as Pc. pose proof full_pos as Hp.
  set (n := 2 ^ 128 - 1) in *. clearbody n.
  assert (Hg : it (N.gcd n k) v = v).
  { destruct (N.gcd_bezout_pos n k Hp) as (a & b & E). assert (it (N.gcd n k + b * k) v = v) by (rewrite <- E; apply it_mul; exact Hf).
    rewrite it_add, (it_mul k b v H) in H0. exact H0. }
  destruct (N.gcd_divide_l n k) as [e E].
  destruct (N.eq_dec e 1) as [->|He]. { rewrite N.mul_1_l in E. rewrite E. apply N.gcd_divide_r. }
  exfalso. destruct (has_factor e factors simple_factors) as (p & Hi & e' & D); [rewrite Fp; exists (N.gcd n k); lia|exact He|].
  assert (exists b, In (p, b) (combine factors inverses)) as [b Hb].
  { clear - Hi. unfold factors, inverses in *. cbn [In combine] in *. repeat (destruct Hi as [<-|Hi]; [eexists; repeat (try (left; reflexivity); right)|]). contradiction. }
  rewrite forallb_forall in Pc. specialize (Pc (p, b) Hb). cbn [fst snd] in Pc.
  assert (Hq : n / p = e' * N.gcd n k). { rewrite E at 1. rewrite D. replace (e' * p * N.gcd n k) with (e' * N.gcd n k * p) by lia. apply N.div_mul. intros ->. lia. }
  assert (Hi2 : it (n / p) v = v) by (rewrite Hq; apply it_mul; exact Hg).
  destruct (n / p) as [|q]; [discriminate|]. rewrite it_powm in Hi2 by exact Hv. apply Hz. apply (unit_kills _ b v Pc Hv).
  rewrite ev_lxor, Hi2, ev_1. apply vx_self.
Qed.
Theorem x_period_pf : forall k st, proper st -> (x_after k st = st <-> (2 ^ 128 - 1 | k)).
Proof.
  intros k st H. apply proper_valid in H. destruct H as [Hv Hz]. destruct (x_after_X k st Hv) as [-> _]. split; [apply period; assumption|].
  intros D. apply (it_div _ k st D). apply it_full. exact Hv.
Qed.
Lemma it_inj : forall a b v, valid v -> v <> O2 -> it a v = it b v -> a < 2 ^ 128 - 1 -> b < 2 ^ 128 - 1 -> a = b.
Proof.
  intros a b v Hv Hz. pose proof (period) as Pd. pose proof (it_full v Hv) as Hf.
  set (n := 2 ^ 128 - 1) in *. clearbody n.
  assert (A : forall a b, it a v = it b v -> a < n -> b < n -> a <= b -> a = b).
  { clear a b. intros a b H Ha Hb L. apply (f_equal (it (n - a))) in H. rewrite <- !it_add in H. replace (n - a + a) with n in H by lia. rewrite Hf in H.
    symmetry in H. apply Pd in H; [|exact Hv|exact Hz]. replace (n - a + b) with (b - a + n) in H by lia.
    rewrite N.add_comm in H. apply (N.divide_add_cancel_r n n (b - a) (N.divide_refl n)) in H.
    destruct H as [k Hk]. assert (B : b - a < n) by lia. destruct (N.eq_dec k 0) as [->|K]; [lia|].
    exfalso. assert (n <= k * n) by (rewrite <- (N.mul_1_l n) at 1; apply N.mul_le_mono_r; lia). lia. }
  intros H Ha Hb. destruct (N.le_ge_cases a b); [apply A; assumption|symmetry; apply A; auto].
Qed.

(** A one-to-one map of a finite set into itself reaches all of it. *)
Lemma pigeon : forall n f, (forall i, (i < n)%nat -> (1 <= f i <= n)%nat) -> (forall i j, (i < n)%nat -> (j < n)%nat -> f i = f j -> i = j) ->
  forall y, (1 <= y <= n)%nat -> exists i, (i < n)%nat /\ f i = y.
Proof.
  intros n f H1 H2 y Hy.
  assert (ND : NoDup (map f (seq 0 n))).
  { clear Hy y. assert (G : forall l, NoDup l -> (forall i, In i l -> (i < n)%nat) -> NoDup (map f l)).
    { induction l as [|x l IH]; intros Hn Hl; cbn [map]; [constructor|]. inversion Hn; subst. constructor.
      - rewrite in_map_iff. intros (z & E & Hz). apply H2 in E; [subst z; contradiction|apply Hl; right; exact Hz|apply Hl; left; reflexivity].
      - apply IH; [assumption|]. intros i Hi. apply Hl. right. exact Hi. }
    apply G; [apply seq_NoDup|]. intros i Hi. apply in_seq in Hi. lia. }
  assert (I : incl (seq 1 n) (map f (seq 0 n))).
  { apply NoDup_length_incl; [exact ND|rewrite map_length, !seq_length; lia|]. intros x Hx. apply in_map_iff in Hx. destruct Hx as (i & <- & Hi).
    apply in_seq in Hi. apply in_seq. specialize (H1 i). lia. }
  specialize (I y). rewrite in_seq in I. specialize (I ltac:(lia)). apply in_map_iff in I. destruct I as (i & E & Hi). apply in_seq in Hi.
  exists i. split; [lia|exact E].
Qed.
Definition code (v : V) : N := fst v + 2 ^ 64 * snd v.
Lemma code_inj : forall v w, valid v -> valid w -> code v = code w -> v = w.
Proof. intros [a b] [c d] [H1 H2] [H3 H4] E. unfold code in E. cbn [fst snd] in *. assert (b = d) by nia. subst d. f_equal. lia. Qed.
Lemma code_range : forall v, valid v -> v <> O2 -> 1 <= code v /\ code v <= 2 ^ 128 - 1.
Proof.
  intros [a b] [H1 H2] Hz. unfold code. cbn [fst snd] in *. assert (a <> 0 \/ b <> 0). { destruct (N.eq_dec a 0), (N.eq_dec b 0); subst; auto. }
  change (2 ^ 128) with (2 ^ 64 * 2 ^ 64). nia.
Qed.
Theorem x_all_pf : forall st st', proper st -> proper st' -> exists k, k < 2 ^ 128 - 1 /\ x_after k st = st'.
Proof.
  intros v w Hv Hw. apply proper_valid in Hv, Hw. destruct Hv as [Hv Vz], Hw as [Hw Wz].
  pose proof (fun a b => it_inj a b v Hv Vz) as Inj. pose proof code_range as Cr.
  assert (A : exists k, k < 2 ^ 128 - 1 /\ code (it k v) = code w).
  { set (n := 2 ^ 128 - 1) in *. clearbody n.
    destruct (pigeon (N.to_nat n) (fun i => N.to_nat (code (it (N.of_nat i) v)))) with (y := N.to_nat (code w)) as (i & Hi & E).
    - intros i Hi. destruct (Cr (it (N.of_nat i) v)); [apply it_valid; exact Hv|apply it_nz; assumption|]. lia.
    - intros i j Hi Hj E. apply N2Nat.inj in E. apply code_inj in E; try (apply it_valid; exact Hv). apply Inj in E; lia.
    - destruct (Cr w Hw Wz). lia.
    - exists (N.of_nat i). split; [lia|]. apply N2Nat.inj. exact E. }
  destruct A as (k & Hk & E). exists k. split; [exact Hk|]. destruct (x_after_X k v Hv) as [-> _]. apply code_inj; [apply it_valid; exact Hv|exact Hw|exact E].
Qed.

