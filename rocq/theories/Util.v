(** Shared helpers: list slices indexed by [N], list update, arithmetic set-up.
    Nothing here models code; the models cite /repo themselves. *)
From Coq Require Export NArith ZArith List Bool Lia.
From Coq Require Export ZifyBool ZifyNat ZifyN.
Export ListNotations.
Ltac Zify.zify_post_hook ::= Z.div_mod_to_equations.

(** [take n l] / [drop n l]: the first [n] elements of [l] / the rest. *)
Definition take {A} (n : N) (l : list A) : list A := firstn (N.to_nat n) l.
Definition drop {A} (n : N) (l : list A) : list A := skipn (N.to_nat n) l.
(** Length as a binary number. *)
Definition len {A} (l : list A) : N := N.of_nat (length l).
Arguments take : simpl never.
Arguments drop : simpl never.
Arguments len : simpl never.
(** [set i x l]: [l] with the element at index [i] replaced (unchanged if out of range). *)
Fixpoint set {A} (i : nat) (x : A) (l : list A) : list A :=
  match l, i with
  | [], _ => []
  | _ :: t, O => x :: t
  | h :: t, S i' => h :: set i' x t
  end.

Lemma len_app {A} (a b : list A) : len (a ++ b) = (len a + len b)%N.
Proof. unfold len. rewrite app_length. lia. Qed.
Lemma len_take {A} n (l : list A) : len (take n l) = N.min n (len l).
Proof. unfold len, take. rewrite firstn_length. lia. Qed.
Lemma len_drop {A} n (l : list A) : len (drop n l) = (len l - n)%N.
Proof. unfold len, drop. rewrite skipn_length. lia. Qed.
Lemma len_nil {A} : len (@nil A) = 0%N. Proof. reflexivity. Qed.
Lemma len_cons {A} (x : A) l : len (x :: l) = (1 + len l)%N.
Proof. unfold len. simpl length. lia. Qed.
Lemma len_map {A B} (f : A -> B) l : len (map f l) = len l.
Proof. unfold len. now rewrite map_length. Qed.
Lemma len_repeat {A} (x : A) n : len (repeat x n) = N.of_nat n.
Proof. unfold len. now rewrite repeat_length. Qed.
Lemma take_drop {A} n (l : list A) : take n l ++ drop n l = l.
Proof. apply firstn_skipn. Qed.
Lemma take_all {A} n (l : list A) : (len l <= n)%N -> take n l = l.
Proof. unfold take, len. intros. apply firstn_all2. lia. Qed.
Lemma drop_all {A} n (l : list A) : (len l <= n)%N -> drop n l = [].
Proof. unfold drop, len. intros. apply skipn_all2. lia. Qed.
Lemma take_app_le {A} n (a b : list A) : (n <= len a)%N -> take n (a ++ b) = take n a.
Proof.
  unfold take, len. intros. rewrite firstn_app.
  replace (N.to_nat n - length a)%nat with O by lia. simpl. now rewrite app_nil_r.
Qed.
Lemma drop_app_le {A} n (a b : list A) : (n <= len a)%N -> drop n (a ++ b) = drop n a ++ b.
Proof.
  unfold drop, len. intros. rewrite skipn_app.
  replace (N.to_nat n - length a)%nat with O by lia. reflexivity.
Qed.
Lemma take_app_eq {A} n (a b : list A) : n = len a -> take n (a ++ b) = a.
Proof. intros ->. rewrite take_app_le by lia. apply take_all. lia. Qed.
Lemma drop_app_eq {A} n (a b : list A) : n = len a -> drop n (a ++ b) = b.
Proof. intros ->. rewrite drop_app_le by lia. now rewrite drop_all by lia. Qed.
Lemma drop_drop {A} a b (l : list A) : drop a (drop b l) = drop (b + a)%N l.
Proof.
  unfold drop. replace (N.to_nat (b + a)) with (N.to_nat b + N.to_nat a)%nat by lia.
  generalize (N.to_nat a) (N.to_nat b). clear. intros n m; revert l.
  induction m; simpl; intros; auto. destruct l; simpl; auto. now rewrite skipn_nil.
Qed.
Lemma take_take {A} a b (l : list A) : take a (take b l) = take (N.min a b) l.
Proof. unfold take. rewrite firstn_firstn. f_equal. lia. Qed.
Lemma drop_take {A} a b (l : list A) : drop a (take b l) = take (b - a)%N (drop a l).
Proof.
  unfold drop, take. rewrite skipn_firstn_comm. f_equal. lia.
Qed.
Lemma take_map {A B} (f : A -> B) n l : take n (map f l) = map f (take n l).
Proof. unfold take. now rewrite firstn_map. Qed.
Lemma drop_map {A B} (f : A -> B) n l : drop n (map f l) = map f (drop n l).
Proof. unfold drop. now rewrite skipn_map. Qed.
Lemma take_0 {A} (l : list A) : take 0%N l = []. Proof. reflexivity. Qed.
Lemma drop_0 {A} (l : list A) : drop 0%N l = l. Proof. reflexivity. Qed.
Lemma len_zero {A} (l : list A) : len l = 0%N -> l = [].
Proof. destruct l; auto. rewrite len_cons. lia. Qed.

Lemma set_length {A} i (x : A) l : length (set i x l) = length l.
Proof. revert i; induction l; destruct i; simpl; auto. Qed.
Lemma set_nth_eq {A} i (x d : A) l : (i < length l)%nat -> nth i (set i x l) d = x.
Proof. revert i; induction l; destruct i; simpl; intros; try lia; auto. apply IHl; lia. Qed.
Lemma set_nth_neq {A} i j (x d : A) l : i <> j -> nth j (set i x l) d = nth j l d.
Proof. revert i j; induction l; destruct i, j; simpl; intros; try congruence; auto. Qed.
Lemma set_nth_error_eq {A} i (x : A) l : (i < length l)%nat -> nth_error (set i x l) i = Some x.
Proof. revert i; induction l; destruct i; simpl; intros; try lia; auto. apply IHl; lia. Qed.
Lemma set_nth_error_neq {A} i j (x : A) l : i <> j -> nth_error (set i x l) j = nth_error l j.
Proof. revert i j; induction l; destruct i, j; simpl; intros; try congruence; auto. Qed.
Lemma set_out {A} i (x : A) l : (length l <= i)%nat -> set i x l = l.
Proof. revert i; induction l; destruct i; simpl; intros; try lia; auto. f_equal; apply IHl; lia. Qed.

(** Function update at a natural-number key, used for per-thread local states. *)
Definition upd {A} (f : nat -> A) (i : nat) (v : A) : nat -> A :=
  fun j => if Nat.eqb j i then v else f j.
Lemma upd_eq {A} (f : nat -> A) i v : upd f i v i = v.
Proof. unfold upd. now rewrite Nat.eqb_refl. Qed.
Lemma upd_neq {A} (f : nat -> A) i j v : j <> i -> upd f i v j = f j.
Proof. unfold upd. intros. destruct (Nat.eqb_spec j i); congruence. Qed.

Definition two32 : N := 4294967296%N.
Definition two64 : N := 18446744073709551616%N.
