(** Proofs about FiberReadFile. *)
From Verif Require Import Util Conc FibFileModel FibFileSpec.
From Verif Require TlsAsyncProof.

Lemma rd_length b p n : length (rd b p n) = n.
Proof. unfold rd. now rewrite map_length, seq_length. Qed.
Lemma rd_nth b p n i : i < n -> nth i (rd b p n) 0 = b (p + i).
Proof. intros H. unfold rd. rewrite (nth_indep _ 0 (b 0)) by (rewrite map_length, seq_length; exact H). rewrite map_nth, seq_nth by exact H. reflexivity. Qed.
Lemma wr_in b p l i : i < length l -> wr b p l (p + i) = nth i l 0.
Proof. intros H. unfold wr. replace (Nat.leb p (p + i)) with true by (symmetry; apply Nat.leb_le; lia). replace (Nat.ltb (p + i) (p + length l)) with true by (symmetry; apply Nat.ltb_lt; lia). cbn [andb]. f_equal. lia. Qed.
Lemma wr_out b p l i : i < p \/ p + length l <= i -> wr b p l i = b i.
Proof. intros H. unfold wr. destruct (Nat.leb_spec p i); destruct (Nat.ltb_spec i (p + length l)); cbn [andb]; try reflexivity. lia. Qed.

Section P.
Variable file : list nat.
Variable B : nat.
Hypothesis Bpos : 0 < B.
Notation step := (step file B).
Notation size := (length file).

Lemma pread_length o n : length (pread file o n) = Nat.min n (size - o).
Proof. unfold pread. rewrite firstn_length, skipn_length. reflexivity. Qed.
Lemma nth_firstn (l : list nat) n i : i < n -> nth i (firstn n l) 0 = nth i l 0.
Proof. revert l i. induction n as [|n IH]; intros l i H; [lia|]. destruct l; [now destruct i|]. destruct i; [reflexivity|]. cbn. apply IH. lia. Qed.
Lemma nth_skipn (l : list nat) n i : nth i (skipn n l) 0 = nth (n + i) l 0.
Proof. revert l. induction n as [|n IH]; intros l; [reflexivity|]. destruct l; [now destruct i|]. cbn. apply IH. Qed.
Lemma pread_nth o n i : i < n -> nth i (pread file o n) 0 = nth (o + i) file 0.
Proof. intros H. unfold pread. now rewrite nth_firstn, nth_skipn by exact H. Qed.

(** The buffer holds at [p] the [k] bytes of the file from [o] on. *)
Definition holds (b : nat -> nat) (p k o : nat) : Prop := o + k <= size /\ forall i, i < k -> b (p + i) = nth (o + i) file 0.
Lemma holds_rd b p k o n : holds b p k o -> n <= k -> rd b p n = slice file o n.
Proof.
  intros [H1 H2] Hn. apply (nth_ext _ _ 0 0).
  - rewrite rd_length. change (slice file o n) with (pread file o n). rewrite pread_length. lia.
  - intros i. rewrite rd_length. intros Hi. rewrite rd_nth by exact Hi. change (slice file o n) with (pread file o n). rewrite pread_nth by exact Hi. apply H2. lia.
Qed.
Lemma holds_drop b p k o n : holds b p k o -> n <= k -> holds b (p + n) (k - n) (o + n).
Proof. intros [H1 H2] Hn. split; [lia|]. intros i Hi. rewrite <- !Nat.add_assoc. apply H2. lia. Qed.
Lemma skip2 (l : list nat) o a : skipn a (skipn o l) = skipn (o + a) l.
Proof. revert l. induction o as [|o IH]; intros l; [reflexivity|]. destruct l; [now rewrite !skipn_nil|]. apply IH. Qed.
Lemma slice_app o a b : slice file o a ++ slice file (o + a) b = slice file o (a + b).
Proof.
  unfold slice. replace (skipn (o + a) file) with (skipn a (skipn o file)) by apply skip2.
  generalize (skipn o file). intros l. revert l. induction a as [|a IH]; intros l; [reflexivity|]. destruct l; cbn; [now rewrite firstn_nil|]. now rewrite IH.
Qed.
Lemma slice_length o n : length (slice file o n) = Nat.min n (size - o).
Proof. apply pread_length. Qed.
Lemma slice_over o n m : size - o <= n -> n <= m -> slice file o n = slice file o m.
Proof. intros H K. unfold slice. rewrite (firstn_all2 (n:=n)) by (rewrite skipn_length; lia). rewrite (firstn_all2 (n:=m)) by (rewrite skipn_length; lia). reflexivity. Qed.

(** The answers that were given so far. *)
Definition good (h : list (nat * nat * result)) : Prop :=
  forall o l d, In (o, l, ROk d) h -> right file o l d /\ (2 <= B -> d = slice file o l).
(** Where the last read ended. *)
Definition ends (h : list (nat * nat * result)) (x : option nat) : Prop :=
  match h with (o, l, ROk d) :: _ => x = Some (o + length d) | _ => False end.
Definition cached (s : st) : bool := (has (ptr s) || negb (empty (pl s)))%bool.

(** What the prefetch, and what it has left, are. [k]: the length of prefetch_. *)
Definition pf (s : st) (k : nat) : Prop :=
  match ptr s, task s with
  | None, None => ready s = false
  | Some p, Some (q, n, o) => ready s = false /\ q = p /\ ps s + k = p /\ p + n = B /\ exists f, fpo s = Some f /\ o = f + k
  | Some p, None => ready s = true /\ ps s + k = p /\ exists f r, fpo s = Some f /\ pres s = Some r /\ p + r <= B /\ (r = 0 \/ holds (buf s) p r (f + k))
  | None, Some _ => False
  end.
Definition dat (s : st) (k : nat) : Prop :=
  ps s + k <= B /\ (k = 0 \/ exists f, fpo s = Some f /\ holds (buf s) (ps s) k f).
Definition body (s : st) : Prop := good (hist s) /\ exists k, pl s = Fin k /\ dat s k /\ pf s k.
Definition ctl (s : st) : Prop :=
  match fib s with
  | Idle => cached s = true -> ends (hist s) (fpo s)
  | InWait off len => 0 < len /\ cached s = true /\ ends (hist s) (fpo s) /\ (ptr s = None -> fpo s <> Some off)
  | InClose => ptr s <> None
  | Closed | Gone => ptr s = None
  end.
Definition inv (s : st) : Prop := body s /\ ctl s.
Definition okn (r : outcome st) : Prop := match r with Next s' => inv s' | Ub => False | Stuck => True end.

Lemma good_cons o l r h : good h -> (forall d, r = ROk d -> right file o l d /\ (2 <= B -> d = slice file o l)) -> good ((o, l, r) :: h).
Proof. intros G H o' l' d [X|X]; [|exact (G _ _ _ X)]. injection X as <- <- X. now apply H. Qed.

(** What [rest] needs: no prefetch is going on, [d] is what comes first, and prefetch_ is what comes next. *)
Lemma rest_ok off len d e s k : good (hist s) -> 0 < len -> pl s = Fin k -> ptr s = None -> task s = None -> ready s = false -> k <= B ->
  d = slice file off (length d) -> length d <= len -> (length d < len -> k = 0) ->
  (length d = len -> fpo s = Some (off + len) /\ (k = 0 \/ holds (buf s) 0 k (off + len))) ->
  okn (rest file B off len d e s).
Proof.
  intros G L Ek Ep Et Er Kb Ed Ld Hk Hf. unfold rest. rewrite Ek. cbn [hist]. destruct (Nat.ltb_spec (length d) len) as [Hlt|Hge].
  - unfold races. cbn [task]. rewrite Et. rewrite (Hk Hlt) in *. rewrite Nat.sub_0_r. destruct e.
    + cbn [okn]. split; [split|].
      * cbn. apply good_cons; [exact G|discriminate].
      * exists 0. cbn. split; [reflexivity|]. split; [split; [cbn; lia|now left]|]. unfold pf. cbn. rewrite ?Ep, ?Et. assumption.
      * unfold ctl, cached. cbn. rewrite Ep. discriminate.
    + set (want := len - length d). set (got := pread file (off + length d) (want + B)).
      assert (Lg : length got = Nat.min (want + B) (size - (off + length d))) by apply pread_length.
      destruct (Nat.leb_spec (length got) want) as [Hs|Hm]; cbn [okn].
      * assert (E : d ++ got = slice file off len).
        { rewrite Ed at 1. unfold got. change (pread file) with (slice file). rewrite slice_app. symmetry. apply slice_over; unfold want in *; lia. }
        split; [split|].
        -- cbn. apply good_cons; [exact G|]. intros d' [= <-]. split; [|intros _; exact E]. split; [exists len; split; [lia|exact E]|].
           rewrite E. intros Z. apply (f_equal (@length nat)) in Z. rewrite slice_length in Z. cbn in Z. lia.
        -- exists 0. cbn. split; [reflexivity|]. split; [split; [cbn; lia|now left]|]. unfold pf. cbn. rewrite ?Ep, ?Et. assumption.
        -- unfold ctl, cached. cbn. rewrite Ep. discriminate.
      * assert (E : d ++ firstn want got = slice file off len).
        { rewrite Ed at 1. unfold got, pread. rewrite firstn_firstn, Nat.min_l by lia. fold (slice file (off + length d) want). rewrite slice_app. f_equal. unfold want. lia. }
        assert (Lm : length (skipn want got) = length got - want) by apply skipn_length.
        split; [split|].
        -- cbn. apply good_cons; [exact G|]. intros d' [= <-]. split; [|intros _; exact E]. split; [exists len; split; [lia|exact E]|].
           rewrite E. intros Z. apply (f_equal (@length nat)) in Z. rewrite slice_length in Z. cbn in Z. lia.
        -- exists (length (skipn want got)). cbn [pl ret]. split; [reflexivity|]. split.
           ++ split; [cbn [ps ret]; lia|]. right. exists (off + length d + want). cbn [fpo buf ps ret]. split; [reflexivity|]. split; [lia|].
              intros i Hi. rewrite wr_in by exact Hi. rewrite nth_skipn. unfold got. rewrite pread_nth by lia. f_equal. lia.
           ++ unfold pf. cbn. rewrite ?Ep, ?Et. assumption.
        -- unfold ctl, cached. cbn. intros _. f_equal. rewrite E, slice_length. unfold want in *. lia.
  - assert (El : length d = len) by lia. destruct (Hf El) as [Ef Hh]. cbn [fpo]. rewrite Ef. cbn [okn]. split; [split|].
    + cbn. apply good_cons; [exact G|]. intros d' [= <-]. rewrite El in Ed. split; [|intros _; exact Ed]. split; [exists len; split; [lia|exact Ed]|]. intros Z. rewrite Z in El. cbn in El. lia.
    + exists k. cbn. split; [reflexivity|]. split.
      * split; [cbn; lia|]. cbn. destruct Hh as [Z|Z]; [now left|right; eexists; split; [first [exact Ef | reflexivity]|exact Z]].
      * unfold pf. cbn. split; [exact Er|]. repeat (split; [lia || reflexivity|]). eexists. split; [first [exact Ef|reflexivity]|reflexivity].
    + unfold ctl, cached. cbn. intros _. rewrite El. first [exact Ef|reflexivity].
Qed.

Lemma cache_ok off len e s k : good (hist s) -> 0 < len -> pl s = Fin k -> ps s + k <= B -> (forall f, fpo s = Some f -> k = 0 \/ holds (buf s) (ps s) k f) -> pf s k ->
  (ptr s <> None -> fpo s = Some off /\ len <= k) -> (fpo s = Some off -> ptr s = None -> 0 < k) -> okn (cache file B off len e s).
Proof.
  intros G L Ek D1 D2 P Ha Hk. unfold cache.
  assert (Z : ptr s = None -> fpo s <> Some off -> okn (rest file B off len [] e (mkS (buf s) 0 (Fin 0) (fpo s) (ptr s) (task s) (pres s) (ready s) (fib s) (hist s)))).
  { intros Ep Nf. unfold pf in P. rewrite Ep in P. destruct (task s) as [[[q0 n0] o0]|] eqn:Et; [destruct P|].
    apply rest_ok with (k := 0); cbn; auto; try lia. }
  destruct (fpo s) as [f|] eqn:Ef.
  2:{ apply Z; [|discriminate]. destruct (ptr s); [|reflexivity]. destruct Ha as [X _]; discriminate. }
  destruct (Nat.eqb_spec off f) as [->|Nf].
  2:{ apply Z; [|congruence]. destruct (ptr s); [|reflexivity]. destruct Ha as [X _]; [discriminate|congruence]. }
  rewrite Ek. set (n := Nat.min k len). replace (Nat.ltb B (ps s + n)) with false by (symmetry; apply Nat.ltb_ge; lia).
  assert (Hd : rd (buf s) (ps s) n = slice file f n).
  { destruct (D2 f eq_refl) as [->|Y]; [replace n with 0 by lia; reflexivity|]. apply (holds_rd _ _ k); [exact Y|lia]. }
  assert (Hn : holds (buf s) (ps s + n) (k - n) (f + n) \/ k - n = 0).
  { destruct (D2 f eq_refl) as [->|Y]; [right; lia|]. left. apply holds_drop; [exact Y|lia]. }
  destruct (ptr s) as [p|] eqn:Ep; cbn [FibFileModel.ptr].
  - destruct Ha as [_ Hl]; [discriminate|]. assert (n = len) as En by lia. rewrite En in *.
    assert (Hr : races s (ps s) len = false).
    { unfold races, pf in *. rewrite Ep in P. destruct (task s) as [[[q m] o]|]; [|reflexivity]. destruct P as (_ & -> & P & _). destruct (Nat.ltb_spec p (ps s + len)); [lia|reflexivity]. }
    rewrite Hr. rewrite ?Ep. cbn [okn]. split; [split|].
    + cbn. apply good_cons; [exact G|]. intros d [= <-]. split; [|intros _; exact Hd]. split; [exists len; split; [lia|exact Hd]|]. intros X. apply (f_equal (@length nat)) in X. rewrite rd_length in X. cbn in X. lia.
    + exists (k - len). cbn. split; [reflexivity|]. split.
      * split; [cbn; lia|]. cbn. destruct Hn as [X|X]; [right; eexists; split; [reflexivity|exact X]|now left].
      * unfold pf in *. cbn. rewrite Ep in *. destruct (task s) as [[[q m] o]|].
        -- destruct P as (P1 & P2 & P3 & P4 & f' & P5 & P6). rewrite Ef in P5. injection P5 as <-. repeat (split; [assumption || lia|]). exists (f + len). split; [reflexivity|lia].
        -- destruct P as (P1 & P3 & f' & r & P5 & P6 & P7 & P8). rewrite Ef in P5. injection P5 as <-. split; [assumption|]. split; [lia|]. exists (f + len), r. split; [reflexivity|]. split; [assumption|]. split; [assumption|].
           replace (f + len + (k - len)) with (f + k) by lia. exact P8.
    + unfold ctl, cached. cbn. intros _. now rewrite rd_length.
  - specialize (Hk eq_refl eq_refl). unfold pf in P. rewrite Ep in P. destruct (task s) as [[[q0 n0] o0]|] eqn:Et; [destruct P|].
    unfold races at 1. rewrite Et. rewrite ?Ep. destruct (Nat.leb_spec (Nat.div2 B) (k - n)) as [Hb|Hb].
    + cbn [okn]. split; [split|].
      * cbn. apply good_cons; [exact G|]. intros d [= <-]. split.
        -- split; [exists n; split; [lia|exact Hd]|]. intros X. apply (f_equal (@length nat)) in X. rewrite rd_length in X. cbn in X. lia.
        -- intros B2. rewrite Hd. f_equal. assert (0 < Nat.div2 B) by (destruct B as [|[|b]]; cbn; lia). lia.
      * exists (k - n). cbn. split; [reflexivity|]. split.
        -- split; [cbn; lia|]. cbn. destruct Hn as [X|X]; [right; eexists; split; [reflexivity|exact X]|now left].
        -- unfold pf. cbn. rewrite ?Ep, ?Et. exact P.
      * unfold ctl, cached. cbn. intros _. now rewrite rd_length.
    + destruct (k - n) as [|k'] eqn:Ekn.
      * apply rest_ok with (k := 0); cbn; rewrite ?rd_length; auto; try lia; intros X; (split; [now rewrite X|now left]).
      * unfold races. cbn [task]. rewrite ?Et. apply rest_ok with (k := S k'); cbn [hist pl FibFileModel.ptr task ready fpo buf ps]; rewrite ?rd_length; auto; try lia.
        intros X. split; [now rewrite X|]. right. destruct Hn as [Hn|Hn]; [|lia]. rewrite X in *. destruct Hn as [H1 H2]. split; [exact H1|].
        intros i Hi. rewrite wr_in by (rewrite rd_length; exact Hi). rewrite rd_nth by exact Hi. apply H2. exact Hi.
Qed.

Lemma step_ok s l : inv s -> nofail l = true -> (polite l = true \/ fib s = Closed) -> okn (step s l).
Proof.
  intros [[G (k & Ek & D & P)] C] Nf Po. destruct l as [off len e|e|fail| |]; cbn [FibFileModel.step].
  - destruct (fib s) eqn:Ei; cbn [okn]; auto. destruct (Nat.eqb_spec len 0) as [|L]; cbn [okn]; auto. unfold ctl in C. rewrite Ei in C. unfold cached in C.
    destruct (has (ptr s) || negb (empty (pl s)))%bool eqn:Ec.
    + destruct ((longer len (pl s) && has (ptr s)) || negb (at_fpo off s))%bool eqn:Es.
      * cbn [okn]. split; [split; [exact G|]; exists k; split; [exact Ek|]; split; [exact D|exact P]|]. unfold ctl, cached. cbn. split; [lia|]. split; [exact Ec|]. split; [auto|].
        intros Ep Ef. rewrite Ep in Es. unfold at_fpo in Es. rewrite Ef, Nat.eqb_refl, Bool.andb_comm in Es. discriminate.
      * apply Bool.orb_false_iff in Es as [Es1 Es2]. apply Bool.negb_false_iff in Es2. unfold at_fpo in Es2.
        assert (D3 : forall f, fpo s = Some f -> k = 0 \/ holds (buf s) (ps s) k f) by (intros f Ef; destruct D as [_ [D|(f' & X & D)]]; [now left|right; congruence]).
        apply (cache_ok off len e s k G ltac:(lia) Ek (proj1 D) D3 P).
        -- intros Np. split; [destruct (fpo s); [f_equal; symmetry; now apply Nat.eqb_eq|discriminate]|]. rewrite Ek in Es1. destruct (ptr s); [|congruence]. cbn in Es1. rewrite Bool.andb_true_r in Es1. now apply Nat.ltb_ge.
        -- intros _ Ep. rewrite Ep, Ek in Ec. cbn in Ec. destruct k; [discriminate|lia].
    + apply Bool.orb_false_iff in Ec as [Ec1 Ec2]. apply Bool.negb_false_iff in Ec2. rewrite Ek in Ec2. destruct k; [|discriminate]. destruct (ptr s) eqn:Ep; [discriminate|].
      unfold pf in P. rewrite Ep in P. destruct (task s) as [[[q n] o]|] eqn:Et; [destruct P|]. apply rest_ok with (k := 0); cbn; auto; try lia.
  - destruct (ready s) eqn:Er; cbn [okn]; auto. destruct (fib s) as [|off len| | |] eqn:Ei; cbn [okn]; auto; unfold ctl in C; rewrite Ei in C.
    + unfold pf in P. rewrite Er in P. destruct (ptr s) as [p|] eqn:Ep; destruct (task s) as [[[q n] o]|] eqn:Et; try (destruct P; discriminate); try discriminate; try contradiction.
      destruct P as (_ & P2 & f & r & P3 & P4 & P5 & P6). destruct C as (L & _ & Ce & _). destruct D as [D1 D2]. unfold handle, unready. cbn [FibFileModel.ptr pres pl FibFileModel.ps fpo]. rewrite Ep, P4, Ek.
      destruct r as [|r].
      * apply cache_ok with (k := k); unfold pf; cbn; rewrite ?Et; auto; try discriminate; try congruence.
      * destruct P6 as [P6|P6]; [discriminate|].
        assert (Dk : ps s + k = p /\ (k = 0 \/ holds (buf s) (ps s) k f)) by (split; [exact P2|]; destruct D2 as [D2|(f' & X & D2)]; [now left|right; congruence]). destruct Dk as [_ Dk].
        destruct k as [|k].
        -- apply cache_ok with (k := S r); unfold pf; cbn; rewrite ?Et; auto; try congruence; try lia. intros f' X. right. rewrite Nat.add_0_r in P6. congruence.
        -- rewrite P2, Nat.eqb_refl. apply cache_ok with (k := S k + S r); unfold pf; rewrite ?Et; cbn [hist pl FibFileModel.ptr task ready fpo buf FibFileModel.ps]; auto; try congruence; try lia.
           intros f' X. right. assert (f' = f) as -> by congruence. destruct Dk as [Dk|[Dk1 Dk2]]; [discriminate|]. destruct P6 as [Q1 Q2]. split; [lia|].
           intros i Hi. destruct (Nat.lt_ge_cases i (S k)) as [Hl|Hl]; [now apply Dk2|]. replace (ps s + i) with (p + (i - S k)) by lia. rewrite Q2 by lia. f_equal. lia.
    + split; [split; [exact G|]; exists k; cbn; split; [exact Ek|]|reflexivity]. split; [exact D|]. unfold pf in *. cbn. rewrite Er in P.
      destruct (ptr s) as [p|]; destruct (task s) as [[[q n] o]|]; auto; try (destruct P; discriminate).
  - destruct fail; [discriminate|]. destruct (task s) as [[[q n] o]|] eqn:Et; cbn [okn]; auto. unfold pf in P. rewrite Et in P. destruct (ptr s) as [p|] eqn:Ep; [|destruct P].
    destruct P as (P1 & -> & P3 & P4 & f & P5 & P6).
    assert (K : inv (mkS (wr (buf s) p (pread file o n)) (ps s) (pl s) (fpo s) (Some p) None (Some (length (pread file o n))) true (fib s) (hist s))).
    { pose proof (pread_length o n) as Lp. split; [split; [exact G|]; exists k; cbn [pl]; split; [exact Ek|]; split|].
      - destruct D as [D1 D2]. split; [exact D1|]. destruct D2 as [D2|(f' & X & Y1 & Y2)]; [now left|]. right. exists f'. split; [exact X|]. split; [exact Y1|]. cbn. intros i Hi. rewrite wr_out by lia. now apply Y2.
      - unfold pf. cbn [FibFileModel.ptr task ready FibFileModel.ps fpo pres buf]. split; [reflexivity|]. split; [exact P3|]. exists f, (length (pread file o n)). split; [exact P5|]. split; [reflexivity|]. split; [lia|].
        subst o. destruct (Nat.eq_dec (length (pread file (f + k) n)) 0) as [Z|Z]; [now left|]. right. split; [lia|].
        intros i Hi. rewrite wr_in by exact Hi. apply pread_nth. lia.
      - unfold ctl in *. cbn. unfold cached in *. cbn. rewrite Ep in C. cbn in C. destruct (fib s); auto; try congruence; destruct C as (C1 & C2 & C3 & C4); repeat split; auto; discriminate. }
    destruct (fib s) eqn:Ei; cbn [okn]; rewrite ?Ep, ?Ei in *; try exact K; unfold ctl in C; rewrite ?Ei in C; congruence.
  - destruct (fib s) eqn:Ei; cbn [okn]; auto. split; [split; [exact G|]; exists k; split; [exact Ek|]; split; [exact D|exact P]|]. unfold ctl, setfib. cbn. destruct (ptr s); cbn; [discriminate|reflexivity].
  - destruct Po as [Po|Po]; [discriminate|]. rewrite Po. cbn [okn]. split; [split; [exact G|]; exists k; split; [exact Ek|]; split; [exact D|exact P]|]. unfold ctl in *. rewrite Po in C. exact C.
Qed.

Lemma init_inv : inv init.
Proof.
  split; [split; [intros o l d []|]|].
  - exists 0. split; [reflexivity|]. split; [split; [cbn; lia|now left]|reflexivity].
  - unfold ctl, cached. cbn. discriminate.
Qed.
Definition calm (l : lab) : Prop := nofail l = true /\ polite l = true.
Lemma run_ok ls : Forall calm ls -> match exec step init ls with Next s => inv s | Ub => False | Stuck => True end.
Proof. intros F. apply (TlsAsyncProof.exec_pred step inv calm); [|exact F|apply init_inv]. intros s l I [H1 H2]. pose proof (step_ok s l I H1 (or_introl H2)) as X. exact X. Qed.
Lemma run_inv ls s : Forall calm ls -> exec step init ls = Next s -> inv s.
Proof. intros F E. pose proof (run_ok ls F) as X. now rewrite E in X. Qed.

(** Each read that gets there answers. *)
Definition answers (off len : nat) (e : bool) (h : list (nat * nat * result)) (r : outcome st) : Prop :=
  match r with Next s' => fib s' = Idle /\ exists x, hist s' = (off, len, x) :: h /\ (e = false -> x <> RErr) | Ub => True | Stuck => False end.
Lemma rest_answers off len d e s : answers off len e (hist s) (rest file B off len d e s).
Proof.
  unfold rest. destruct (pl s); [|exact I]. destruct (Nat.ltb (length d) len).
  - destruct (races _ _ _); [exact I|]. destruct e; [cbn; split; [reflexivity|eexists; split; [reflexivity|discriminate]]|].
    destruct (Nat.leb _ _); cbn; (split; [reflexivity|eexists; split; [reflexivity|discriminate]]).
  - cbn [fpo]. destruct (fpo s); [|exact I]. cbn. split; [reflexivity|eexists; split; [reflexivity|discriminate]].
Qed.
Lemma cache_answers off len e s : answers off len e (hist s) (cache file B off len e s).
Proof.
  unfold cache. destruct (fpo s) as [o|]; [|exact (rest_answers off len _ e (mkS _ _ _ _ _ _ _ _ _ (hist s)))]. destruct (Nat.eqb off o); [|exact (rest_answers off len _ e (mkS _ _ _ _ _ _ _ _ _ (hist s)))].
  destruct (Nat.ltb B _); [exact I|]. destruct (races _ _ _); [exact I|]. cbn [FibFileModel.ptr].
  match goal with |- answers _ _ _ _ (if ?b then _ else _) => destruct b end.
  - cbn. split; [reflexivity|eexists; split; [reflexivity|discriminate]].
  - destruct (pl s) as [k|]; [|exact (rest_answers off len _ e (mkS _ _ _ _ _ _ _ _ _ (hist s)))]. destruct (k - _); [exact (rest_answers off len _ e (mkS _ _ _ _ _ _ _ _ _ (hist s)))|]. destruct (races _ _ _); [exact I|exact (rest_answers off len _ e (mkS _ _ _ _ _ _ _ _ _ (hist s)))].
Qed.
Lemma handle_hist s s' : handle s = Next s' -> hist s' = hist s.
Proof.
  unfold handle. destruct (ptr s); [|discriminate]. destruct (pres s) as [[|r]|].
  - now intros [= <-].
  - destruct (pl s) as [[|k]|]; [now intros [= <-]| |discriminate]. destruct (Nat.eqb _ _); [now intros [= <-]|discriminate].
  - destruct (pl s) as [[|k]|]; [now intros [= <-]| |discriminate]. destruct (Nat.eqb _ _); [now intros [= <-]|discriminate].
Qed.
Lemma wake_answers s off len e : fib s = InWait off len -> ready s = true -> answers off len e (hist s) (step s (LWake e)).
Proof.
  intros Ei Er. cbn [FibFileModel.step]. rewrite Er, Ei. destruct (handle (unready s)) as [| |s'] eqn:Eh; [|exact I|].
  - exfalso. revert Eh. unfold handle. destruct (ptr _); [|discriminate]. destruct (pres _) as [[|r]|]; [discriminate| |]; (destruct (pl _) as [[|k]|]; [discriminate| |discriminate]); destruct (Nat.eqb _ _); discriminate.
  - apply handle_hist in Eh. pose proof (cache_answers off len e s') as X. unfold answers in *. rewrite Eh in X. exact X.
Qed.

Theorem ffile_safe_pf ls : Forall calm ls -> exec step init ls <> Ub.
Proof. intros F E. pose proof (run_ok ls F) as X. now rewrite E in X. Qed.
Theorem ffile_right_pf ls s o l d : Forall calm ls -> exec step init ls = Next s -> In (o, l, ROk d) (hist s) -> right file o l d.
Proof. intros F E H. destruct (run_inv ls s F E) as [[G _] _]. exact (proj1 (G o l d H)). Qed.
Theorem ffile_exact_pf ls s o l d : 2 <= B -> Forall calm ls -> exec step init ls = Next s -> In (o, l, ROk d) (hist s) -> d = slice file o l.
Proof. intros B2 F E H. destruct (run_inv ls s F E) as [[G _] _]. exact (proj2 (G o l d H) B2). Qed.
Theorem ffile_error_pf ls s o l : Forall (fun x => nodisk x = true) ls -> exec step init ls = Next s -> ~ In (o, l, RErr) (hist s).
Proof.
  intros F. refine (TlsAsyncProof.exec_pred2 step (fun s => ~ In (o, l, RErr) (hist s)) (fun x => nodisk x = true) _ ls init s F _); [|cbn; tauto].
  clear ls s F. intros s x s' N Hx. assert (A : forall off len r, answers off len false (hist s) r -> r = Next s' -> ~ In (o, l, RErr) (hist s')).
  { intros off len r A ->. destruct A as (_ & y & -> & A). intros [X|X]; [|exact (N X)]. injection X as _ _ X. exact (A eq_refl X). }
  destruct x as [off len e|e|fail| |]; cbn in Hx.
  - destruct e; [discriminate|]. cbn [FibFileModel.step]. destruct (fib s); try discriminate. destruct (Nat.eqb len 0); [discriminate|]. destruct (has (ptr s) || negb (empty (pl s)))%bool.
    + destruct (_ || _)%bool; [intros [= <-]; exact N|]. apply (A off len), cache_answers.
    + apply (A off len), rest_answers.
  - destruct e; [discriminate|]. destruct (fib s) as [|off len| | |] eqn:Ei; destruct (ready s) eqn:Er.
    2: now cbn [FibFileModel.step]; rewrite Er.
    2: exact (A off len _ (wake_answers s off len false Ei Er)).
    all: cbn [FibFileModel.step]; rewrite Er, ?Ei; try discriminate. intros [= <-]. exact N.
  - cbn [FibFileModel.step]. destruct (task s) as [[[q n] f]|]; [|discriminate]. destruct (fib s); try discriminate; intros [= <-]; exact N.
  - cbn [FibFileModel.step]. destruct (fib s); try discriminate. intros [= <-]. exact N.
  - cbn [FibFileModel.step]. destruct (fib s); try discriminate; intros [= <-]; exact N.
Qed.

(** A wait for a prefetch that exists ends. *)
Lemma wait_ends s off len (e : bool) : inv s -> fib s = InWait off len -> ptr s <> None -> exists ls s' x, Forall calm ls /\ exec step s ls = Next s' /\ fib s' = Idle /\ hist s' = (off, len, x) :: hist s.
Proof.
  intros I Ei Np. pose proof I as [[_ (k & _ & _ & P)] _]. unfold pf in P. destruct (ptr s) as [p|] eqn:Ep; [|congruence].
  assert (W : forall s, inv s -> fib s = InWait off len -> ready s = true -> exists s' x, step s (LWake e) = Next s' /\ fib s' = Idle /\ hist s' = (off, len, x) :: hist s).
  { intros s1 I1 E1 R1. pose proof (wake_answers s1 off len e E1 R1) as X. pose proof (step_ok s1 (LWake e) I1 eq_refl (or_introl eq_refl)) as Y. destruct (step s1 (LWake e)) as [| |s']; [destruct X|destruct Y|]. destruct X as (X1 & x & X2 & _). eauto. }
  destruct (task s) as [[[q n] o]|] eqn:Et.
  - pose proof (step_ok s (LTask false) I eq_refl (or_introl eq_refl)) as Y. cbn [FibFileModel.step] in Y. rewrite Et, Ei in Y. cbn [okn] in Y.
    destruct (W _ Y eq_refl eq_refl) as (s' & x & W1 & W2 & W3). exists [LTask false; LWake e], s', x. split; [repeat constructor|]. cbn [exec FibFileModel.step]. rewrite Et, Ei.
    cbn [FibFileModel.step] in W1. rewrite W1. auto.
  - destruct (W s I Ei) as (s' & x & W1 & W2 & W3); [tauto|]. exists [LWake e], s', x. split; [repeat constructor|]. cbn [exec]. rewrite W1. auto.
Qed.
Theorem ffile_returns_pf ls s off len e : Forall calm ls -> exec step init ls = Next s -> fib s = Idle -> 0 < len ->
  match hist s with (o, _, ROk d) :: _ => off = o + length d | _ => True end ->
  exists ls' s' x, Forall calm ls' /\ exec step s (LRead off len e :: ls') = Next s' /\ fib s' = Idle /\ hist s' = (off, len, x) :: hist s.
Proof.
  intros F E Ei L Hs. pose proof (run_inv ls s F E) as I. pose proof (step_ok s (LRead off len e) I eq_refl (or_introl eq_refl)) as Y.
  pose proof I as [_ C]. unfold ctl in C. rewrite Ei in C. cbn [exec].
  assert (A : forall r, step s (LRead off len e) = r -> answers off len e (hist s) r -> exists ls' s' x, Forall calm ls' /\ match r with Next s1 => exec step s1 ls' | Ub => Ub | Stuck => Stuck end = Next s' /\ fib s' = Idle /\ hist s' = (off, len, x) :: hist s).
  { intros r <- X. destruct (step s (LRead off len e)) as [| |s']; [destruct X|destruct Y|]. destruct X as (X1 & x & X2 & _). exists [], s', x. cbn. auto. }
  cbn [FibFileModel.step] in *. rewrite Ei in *. destruct (Nat.eqb_spec len 0) as [|_]; [lia|]. unfold cached in C. destruct (has (ptr s) || negb (empty (pl s)))%bool.
  - destruct (_ || _)%bool eqn:Es; [|exact (A _ eq_refl (cache_answers off len e s))].
    cbn [okn] in Y. specialize (C eq_refl). unfold ends in C. destruct (hist s) as [|[[o l] [|d]] h] eqn:Eh; try contradiction. subst off.
    destruct (wait_ends _ (o + length d) len e Y eq_refl) as (ls' & s' & x & W1 & W2 & W3 & W4).
    { cbn. intros Ep. rewrite Ep in Es. unfold at_fpo in Es. rewrite C, Nat.eqb_refl, Bool.andb_comm in Es. discriminate. }
    exists ls', s', x. cbn in W4. rewrite Eh in W4. auto.
  - exact (A _ eq_refl (rest_answers off len [] e s)).
Qed.
Theorem ffile_close_pf ls s ls' : Forall calm ls -> exec step init ls = Next s -> fib s = Closed -> task s = None /\ exec step s (LDestroy :: ls') <> Ub.
Proof.
  intros F E Ec. destruct (run_inv ls s F E) as [[_ (k & _ & _ & P)] C]. unfold ctl in C. rewrite Ec in C. unfold pf in P. rewrite C in P.
  destruct (task s) as [[[q n] o]|] eqn:Et; [destruct P|]. split; [reflexivity|]. cbn [exec FibFileModel.step]. rewrite Ec.
  destruct ls' as [|x ls']; [discriminate|]. cbn [exec]. destruct x; cbn; rewrite ?Et; try discriminate; destruct (ready s); discriminate.
Qed.
(** Close waits for the pool's task only. *)
Theorem ffile_closes_pf ls s : Forall calm ls -> exec step init ls = Next s -> fib s = Idle -> exists ls' s', Forall calm ls' /\ exec step s (LClose :: ls') = Next s' /\ fib s' = Closed.
Proof.
  intros F E Ei. destruct (run_inv ls s F E) as [[_ (k & _ & _ & P)] C]. unfold pf in P. cbn [exec FibFileModel.step]. rewrite Ei. unfold setfib. destruct (ptr s) as [p|] eqn:Ep.
  - destruct (task s) as [[[q n] o]|] eqn:Et.
    + exists [LTask false; LWake false]. eexists. split; [repeat constructor|]. cbn. rewrite ?Et. cbn. split; reflexivity.
    + destruct P as [P _]. exists [LWake false]. eexists. split; [repeat constructor|]. cbn. rewrite ?P. split; reflexivity.
  - exists []. eexists. split; [constructor|]. cbn. split; reflexivity.
Qed.
(** A seek. *)
Theorem ffile_seek_refuted_pf off len off2 len2 e : 0 < len -> off + len < size -> off2 <> off + len -> 0 < len2 ->
  exists s, exec step init [LRead off len false; LRead off2 len2 e] = Next s /\ fib s = InWait off2 len2 /\ forall l, step s l = Stuck.
Proof.
  intros L Hs No L2. pose proof (pread_length off (len + B)) as Lp.
  assert (E1 : exists b m, 0 < m /\ step init (LRead off len false) = Next (mkS b 0 (Fin m) (Some (off + len)) None None (Some 0) false Idle [(off, len, ROk (firstn len (pread file off (len + B))))])).
  { cbn [FibFileModel.step]. unfold init, rest, races. cbn [fib FibFileModel.ptr pl has empty orb negb length buf fpo task pres ready hist FibFileModel.ps].
    destruct (Nat.eqb_spec len 0) as [|_]; [lia|]. replace (Nat.ltb 0 len) with true by (symmetry; apply Nat.ltb_lt; lia).
    rewrite !Nat.sub_0_r, !Nat.add_0_r. destruct (Nat.leb_spec (length (pread file off (len + B))) len) as [|Hm]; [lia|]. unfold ret. cbn.
    do 2 eexists. split; [|reflexivity]. rewrite skipn_length. lia. }
  destruct E1 as (b & m & Hm & E1). cbn [exec]. rewrite E1. destruct m as [|m]; [lia|]. cbn [FibFileModel.step]. unfold at_fpo. cbn [fib FibFileModel.ptr pl has empty orb negb fpo longer].
  destruct (Nat.eqb_spec len2 0) as [|_]; [lia|]. destruct (Nat.eqb_spec off2 (off + len)) as [|_]; [congruence|]. cbn [negb]. rewrite Bool.orb_true_r.
  eexists. split; [reflexivity|]. split; [reflexivity|]. intros [o l d|d|d| |]; reflexivity.
Qed.
End P.
