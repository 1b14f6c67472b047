From Verif Require Import Util Conc LogSpec LogModel.
Local Open Scope Z_scope.
Ltac fcbn := cbn [f_fp f_len f_since f_next f_buf f_disk f_link f_opened f_wrote f_said] in *.

Lemma size_app a b : size (a ++ b) = size a + size b.
Proof. unfold size. rewrite app_length. lia. Qed.
Lemma size_nonneg a : 0 <= size a. Proof. unfold size. lia. Qed.
Lemma size_skipn n a : size (skipn n a) <= size a.
Proof. unfold size. rewrite skipn_length. lia. Qed.
Lemma body_app p a b : body p (a ++ b) = body p a ++ body p b.
Proof. unfold body, lines_of. now rewrite filter_app, map_app, concat_app. Qed.
Lemma body_one p t q n d : body p [Entry t q n d] = if p =? q then d else [].
Proof. unfold body, lines_of. cbn. rewrite (Z.eqb_sym p q). destruct (q =? p); cbn; now rewrite ?app_nil_r. Qed.
Lemma take_eq data n : size (firstn n data) = size data -> firstn n data = data.
Proof. unfold size. rewrite firstn_length. intros. apply firstn_all2. lia. Qed.
Lemma begins_refl a : begins a a. Proof. exists []. now rewrite app_nil_r. Qed.
Lemma begins_app a b c : begins a b -> begins a (b ++ c).
Proof. intros [x ->]. exists (x ++ c). now rewrite app_assoc. Qed.
Lemma begins_trans a b c : begins a b -> begins b c -> begins a c.
Proof. intros H [x ->]. now apply begins_app. Qed.
Lemma onto_eq d p b q : onto d p b q = if q =? p then d q ++ b else d q. Proof. reflexivity. Qed.
Lemma onto_begins d p b q : begins (d q) (onto d p b q).
Proof. rewrite onto_eq. destruct (q =? p). exists b. reflexivity. apply begins_refl. Qed.

Definition live (f : lfile) : option Z := match f_fp f with FLive p => Some p | _ => None end.
Lemma held_none f q : live f = None -> held f q = [].
Proof. unfold live, held. destruct (f_fp f); easy. Qed.

(** ** The elementary moves of a file *)
Definition wr (t : nat) (p : Z) (data : bytes) (n : nat) (a : ans) (f : lfile) : lfile :=
  LF (FLive p) (f_len f + size data) (f_since f + size data) (f_next f)
     (skipn n (f_buf f ++ data)) (onto (f_disk f) p (firstn n (f_buf f ++ data))) (f_link f)
     (f_opened f) (f_wrote f ++ [Entry t p (a_now a) data]) (f_said f).
Definition fl (p secs : Z) (a : ans) (f : lfile) : lfile :=
  LF (FLive p) (f_len f) 0 (a_after a + secs * second) [] (onto (f_disk f) p (f_buf f)) (f_link f) (f_opened f) (f_wrote f) (f_said f).
Definition nofl (p : Z) (n : nat) (k : option nat) (f : lfile) : lfile :=
  LF FDead 0 0 (f_next f) [] (onto (onto (f_disk f) p (firstn n (f_buf f))) p (upto k (skipn n (f_buf f)))) (f_link f)
     (f_opened f) (f_wrote f) (S (f_said f)).
(** What must hold right after a write for the flush to be skipped. *)
Definition lazy (level sev : Z) (a : ans) (f : lfile) : Prop := sev <= level /\ f_since f < kFlushBytes /\ a_now a < f_next f.

Inductive mv (base : bool) (limit secs : Z) (a : ans) (f : lfile) : lfile -> Prop :=
| M_rot p : f_fp f = FLive p -> mv base limit secs a f
    (LF FNull 0 0 (f_next f) [] (onto (f_disk f) p (upto (a_rot a) (f_buf f))) (f_link f) (f_opened f) (f_wrote f) (f_said f))
| M_off : f_fp f = FNull -> base = false -> mv base limit secs a f (die f)
| M_noopen : f_fp f = FNull -> base = true -> mv base limit secs a f (die (say f))
| M_open : f_fp f = FNull -> base = true -> mv base limit secs a f
    (LF (FLive (a_name a / second)) 0 0 (a_reset a + secs * second) [] (f_disk f)
        (if a_link a then Some (a_name a / second) else None) (f_opened f ++ [a_name a / second]) (f_wrote f) (f_said f))
| M_write p t data n level sev : f_fp f = FLive p -> f_len f < limit -> lazy level sev a (wr t p data n a f) ->
    mv base limit secs a f (wr t p data n a f)
| M_wflush p t data n : f_fp f = FLive p -> f_len f < limit -> mv base limit secs a f (fl p secs a (wr t p data n a f))
| M_wnoflush p t data n m k : f_fp f = FLive p -> f_len f < limit -> mv base limit secs a f (nofl p m k (wr t p data n a f))
| M_short p data n k : f_fp f = FLive p -> mv base limit secs a f
    (LF FDead 0 0 (f_next f) [] (onto (onto (f_disk f) p (firstn n (f_buf f ++ data))) p (upto k (skipn n (f_buf f ++ data)))) (f_link f)
        (f_opened f) (f_wrote f) (S (f_said f)))
| M_flush p : f_fp f = FLive p -> mv base limit secs a f (fl p secs a f)
| M_noflush p n k : f_fp f = FLive p -> mv base limit secs a f (nofl p n k f).

(** At most three moves, with one set of answers. *)
Inductive mvs (base : bool) (limit secs : Z) (a : ans) : lfile -> lfile -> Prop :=
| Mv0 f : mvs base limit secs a f f
| MvF f f1 : mv base limit secs a f f1 -> mvs base limit secs a f f1
| MvS f f1 f2 : mv base limit secs a f f1 -> f_wrote f1 = f_wrote f -> (live f1 = None \/ f_next f1 = a_reset a + secs * second) ->
    mvs base limit secs a f1 f2 -> mvs base limit secs a f f2.
(** Opening: rotate, then a new file. *)
Inductive pre (base : bool) (limit secs : Z) (a : ans) : lfile -> lfile -> Prop :=
| Pr0 f : pre base limit secs a f f
| PrS f f1 f2 : mv base limit secs a f f1 -> f_wrote f1 = f_wrote f -> (live f1 = None \/ f_next f1 = a_reset a + secs * second) ->
    pre base limit secs a f1 f2 -> pre base limit secs a f f2.

Lemma flush_mv secs a f p : f_fp f = FLive p -> exists f', flush_locked secs a f = Some f' /\
  (f' = fl p secs a f \/ exists n k, f' = nofl p n k f).
Proof.
  intros P. unfold flush_locked. rewrite P. destruct (a_flush a) as [n|].
  - cbn. eexists. split; [reflexivity|]. right. exists n, (a_close a). unfold nofl. reflexivity.
  - eexists. split; [reflexivity|]. left. unfold fl, reset. fcbn. now rewrite ?P.
Qed.
(** What a write does. *)
Lemma write_mv t data sev level secs a f p : f_fp f = FLive p ->
  exists f', write t data sev level secs a f = Some f' /\
  ((exists n, f' = wr t p data n a f /\ lazy level sev a f') \/
   (exists n, f' = fl p secs a (wr t p data n a f)) \/
   (exists n m k, f' = nofl p m k (wr t p data n a f)) \/
   (exists d n k, f' = LF FDead 0 0 (f_next f) [] (onto (onto (f_disk f) p (firstn n (f_buf f ++ d))) p (upto k (skipn n (f_buf f ++ d)))) (f_link f)
        (f_opened f) (f_wrote f) (S (f_said f)))).
Proof.
  intros P. unfold write. rewrite P.
  set (took := match a_take a with None => data | Some n => firstn n data end).
  destruct (size took =? size data) eqn:T; cbn [negb].
  - apply Z.eqb_eq in T.
    assert (took = data) as ET. { unfold took in *. destruct (a_take a); auto. now apply take_eq. }
    rewrite ET. fold (wr t p data (a_spill a) a f).
    replace (LF (FLive p) (f_len f + size data) (f_since f + size data) (f_next f) (skipn (a_spill a) (f_buf f ++ data))
      (onto (f_disk f) p (firstn (a_spill a) (f_buf f ++ data))) (f_link f) (f_opened f) (f_wrote f ++ [Entry t p (a_now a) data]) (f_said f))
      with (wr t p data (a_spill a) a f) by reflexivity.
    cbn zeta.
    destruct ((level <? sev) || (kFlushBytes <=? f_since (wr t p data (a_spill a) a f)) || (f_next (wr t p data (a_spill a) a f) <=? a_now a)) eqn:Q.
    + destruct (flush_mv secs a (wr t p data (a_spill a) a f) p eq_refl) as (f' & H1 & [->|(n & k & ->)]); eexists; (split; [exact H1|]); eauto 8.
    + eexists. split; [reflexivity|]. left. exists (a_spill a). split; [reflexivity|].
      unfold lazy. apply orb_false_elim in Q as [Q Q3]. apply orb_false_elim in Q as [Q1 Q2]. lia.
  - cbn. eexists. split; [reflexivity|]. right. right. right. exists took, (a_spill a), (a_close a). reflexivity.
Qed.
Lemma write_mvs t data sev level base limit secs a f p : f_fp f = FLive p -> f_len f < limit ->
  exists f', write t data sev level secs a f = Some f' /\ mvs base limit secs a f f'.
Proof.
  intros P Hl. destruct (write_mv t data sev level secs a f p P) as (f' & E & H). exists f'. split; [exact E|].
  eapply MvF.
  destruct H as [(n & -> & H)|[(n & ->)|[(n & m & k & ->)|(d & n & k & ->)]]].
  - econstructor; eassumption.
  - now constructor.
  - now constructor.
  - now constructor.
Qed.
(** Open leaves a new file or the mark. *)
Lemma pre_app base limit secs a f g h : pre base limit secs a f g -> mvs base limit secs a g h -> mvs base limit secs a f h.
Proof. induction 1; intros; auto. eapply MvS; eauto. Qed.
Lemma open_mvs base limit secs a f : f_fp f <> FDead -> exists f' b, openf base secs a f = Some (f', b) /\ pre base limit secs a f f' /\
  f_wrote f' = f_wrote f /\ (b = true -> live f' = Some (a_name a / second) /\ f_len f' = 0 /\ f_said f' = f_said f) /\
  (b = false -> f_fp f' = FDead).
Proof.
  intros D. unfold openf.
  assert (exists g, (match f_fp f with FNull => Some f | _ => close false (a_rot a) f end) = Some g /\ pre base limit secs a f g /\ f_fp g = FNull
     /\ f_wrote g = f_wrote f /\ f_said g = f_said f) as (g & -> & M & G & W & Sd).
  { destruct (f_fp f) as [| |p] eqn:P; try congruence.
    - exists f. repeat split; auto. constructor.
    - unfold close. rewrite P. eexists. split; [reflexivity|]. split; [|auto].
      eapply PrS; [| | |apply Pr0]. now constructor. reflexivity. now left. }
  assert (forall h, mv base limit secs a g h -> f_wrote h = f_wrote g -> (live h = None \/ f_next h = a_reset a + secs * second) ->
    pre base limit secs a f h) as K.
  { intros h Hh. clear -M Hh. intros H1 H2. induction M. eapply PrS; [eassumption|auto|auto|apply Pr0]. econstructor; eauto. }
  destruct base; cbn [negb].
  - destruct (a_open a); cbn [negb].
    + eexists _, true. split; [reflexivity|]. unfold reset. fcbn. repeat split; try easy. apply K. now apply M_open. reflexivity. now right.
    + eexists _, false. split; [reflexivity|]. repeat split; try easy. apply K. now apply M_noopen. reflexivity. now left.
  - eexists _, false. split; [reflexivity|]. repeat split; try easy. apply K. now apply M_off. reflexivity. now left.
Qed.

Lemma send_mvs t data sev level secs limit base a f : 0 < limit ->
  exists f', send_file t data sev level secs limit base a f = Some f' /\ mvs base limit secs a f f'.
Proof.
  intros L. unfold send_file. destruct (f_fp f) as [| |p] eqn:P.
  2:{ eexists. split; [reflexivity|constructor]. }
  all: destruct (needs_open limit f) eqn:O; [|unfold needs_open in O; rewrite P in O].
  2: discriminate.
  1,2: destruct (open_mvs base limit secs a f) as (g & b & -> & M & _ & Ht & Hf); [congruence|];
    destruct b; [|eexists; split; [reflexivity|eapply pre_app; [exact M|constructor]]];
    destruct (Ht eq_refl) as (X & Y & _); assert (f_fp g = FLive (a_name a / second)) as G
      by (unfold live in X; destruct (f_fp g); congruence);
    destruct (write_mvs t data sev level base limit secs a g _ G) as (h & H1 & H2); [lia|];
    exists h; split; [exact H1|]; eapply pre_app; eassumption.
  apply write_mvs with (p := p); auto. lia.
Qed.
Lemma flush_mvs base limit secs a f : exists f', flush_file secs a f = Some f' /\ mvs base limit secs a f f'.
Proof.
  unfold flush_file. destruct (f_fp f) as [| |p] eqn:P; try (eexists; split; [reflexivity|constructor]).
  destruct (flush_mv secs a f p P) as (f' & H1 & H2). exists f'. split; [exact H1|]. eapply MvF.
  destruct H2 as [->|(n & k & ->)]; now constructor.
Qed.
Lemma destroy_mvs base limit secs a f : exists f', destroy_file a f = Some f' /\ mvs base limit secs a f f' /\ live f' = None.
Proof.
  unfold destroy_file, close, live. destruct (f_fp f) as [| |p] eqn:P; try (eexists; repeat split; [constructor|now rewrite P]).
  eexists. split; [reflexivity|]. split; [|reflexivity]. eapply MvF. now constructor.
Qed.

(** ** From files to the sink *)
Definition start (s : sink) : Prop := exists e d m l c, s = init e d m l c.
Definition limit_of (s : sink) : Z := Z.shiftl (s_mb s) 20.
Lemma answers_app i a b : answers i (a ++ b) = answers i a ++ answers i b.
Proof. unfold answers. apply flat_map_app. Qed.
Lemma updf_same {A} (m : nat -> A) i x : updf m i x i = x.
Proof. unfold updf. now rewrite Nat.eqb_refl. Qed.
Lemma updf_other {A} (m : nat -> A) i x j : j <> i -> updf m i x j = m j.
Proof. unfold updf. intros H. apply Nat.eqb_neq in H. now rewrite H. Qed.

Definition rest (s : sink) : Prop :=
  0 <= s_mb s /\ (s_base s = true <-> s_mb s <> 0) /\
  forall t, match s_ops s t with Some (OSend sev _ j) => s_mb s <> 0 /\ 0 <= sev <= 2 /\ Z.of_nat j <= sev | Some (OFlush j) => (j <= 2)%nat | None => True end.

Lemma limit_pos mb : 0 < mb -> 0 < Z.shiftl mb 20.
Proof. intros. rewrite Z.shiftl_mul_pow2 by lia. change (2 ^ 20) with 1048576. lia. Qed.
Lemma clamp_range sev : 0 <= Z.of_nat (clamp sev) <= 2. Proof. unfold clamp. lia. Qed.

Definition moved (s s' : sink) (l : label) (i : nat) : Prop :=
  match answers i [l] with
  | [] => s_files s' i = s_files s i
  | [a] => mvs (s_base s) (limit_of s) (s_secs s) a (s_files s i) (s_files s' i)
  | _ => False
  end.
Lemma rest_init e d m l c : rest (init e d m l c).
Proof. unfold rest, init. destruct e; [|destruct d]; cbn [s_mb s_base s_ops]; repeat split; try lia; try easy. Qed.
Lemma rest_step s l : rest s ->
  match step s l with
  | Ub => False
  | Stuck => True
  | Next s' => rest s' /\ s_mb s' = s_mb s /\ s_base s' = s_base s /\ forall i, moved s s' l i
  end.
Proof.
  intros (R1 & R2 & R3). unfold step. destruct (s_gone s); auto. destruct l as [t sev data|t|t i a|level secs|a0 a1 a2].
  - destruct (s_ops s t) eqn:O; auto. destruct (s_mb s =? 0) eqn:M.
    + repeat split; auto; try apply R2.
    + repeat split; auto; try apply R2. intros u. unfold set_op. cbn [s_ops s_mb].
      destruct (Nat.eq_dec u t) as [->|N]; [rewrite updf_same|rewrite updf_other by auto; apply R3].
      pose proof (clamp_range sev). lia.
  - destruct (s_ops s t) eqn:O; auto. repeat split; auto; try apply R2. intros u. unfold set_op. cbn [s_ops s_mb].
    destruct (Nat.eq_dec u t) as [->|N]; [rewrite updf_same; lia|rewrite updf_other by auto; apply R3].
  - destruct (s_ops s t) as [[sev data j|j]|] eqn:O; auto; destruct (Nat.eqb i j) eqn:J; cbn [negb]; auto; apply Nat.eqb_eq in J; subst j; pose proof (R3 t) as R4; rewrite O in R4.
    + destruct (send_mvs t data sev (s_level s) (s_secs s) (Z.shiftl (s_mb s) 20) (s_base s) a (s_files s i)) as (f & -> & M).
      { apply limit_pos. lia. }
      repeat split; auto; try apply R2.
      * intros u. unfold set_op, set_file. cbn [s_ops s_mb]. destruct (Nat.eq_dec u t) as [->|N]; [rewrite updf_same|rewrite updf_other by auto; apply R3].
        destruct i; auto. lia.
      * intros k. unfold moved, answers. cbn [flat_map app]. unfold set_op, set_file. cbn [s_files].
        destruct (Nat.eqb i k) eqn:K; cbn [app].
        -- apply Nat.eqb_eq in K. subst k. now rewrite updf_same.
        -- apply Nat.eqb_neq in K. rewrite updf_other by auto. reflexivity.
    + destruct (flush_mvs (s_base s) (limit_of s) (s_secs s) a (s_files s i)) as (f & -> & M).
      repeat split; auto; try apply R2.
      * intros u. unfold set_op, set_file. cbn [s_ops s_mb]. destruct (Nat.eq_dec u t) as [->|N]; [rewrite updf_same|rewrite updf_other by auto; apply R3].
        destruct (Nat.ltb i 2) eqn:K; auto. apply Nat.ltb_lt in K. lia.
      * intros k. unfold moved, answers. cbn [flat_map app]. unfold set_op, set_file. cbn [s_files].
        destruct (Nat.eqb i k) eqn:K; cbn [app].
        -- apply Nat.eqb_eq in K. subst k. now rewrite updf_same.
        -- apply Nat.eqb_neq in K. rewrite updf_other by auto. reflexivity.
  - repeat split; auto; try apply R2.
  - destruct (destroy_mvs (s_base s) (limit_of s) (s_secs s) a0 (s_files s 0%nat)) as (f0 & -> & M0 & _).
    destruct (destroy_mvs (s_base s) (limit_of s) (s_secs s) a1 (s_files s 1%nat)) as (f1 & -> & M1 & _).
    destruct (destroy_mvs (s_base s) (limit_of s) (s_secs s) a2 (s_files s 2%nat)) as (f2 & -> & M2 & _).
    repeat split; auto; try apply R2. intros k. unfold moved, answers. cbn [flat_map app]. cbn [s_files].
    destruct k as [|[|[|k]]]; cbn; try rewrite app_nil_r; auto. destruct k; reflexivity.
Qed.

Lemma log_safe_pf e d m l c : safe step (init e d m l c).
Proof.
  apply (reach_inv step rest); [|apply rest_init]. intros s x R. pose proof (rest_step s x R) as H.
  destruct (step s x); tauto.
Qed.

(** A trace invariant of one file. *)
Definition secs_ok (ok : Z -> Prop) (ls : list label) : Prop := Forall (fun l => match l with LFlags _ c => ok c | _ => True end) ls.
Section Trace.
  Variable base : bool.
  Variable limit : Z.
  Variable ok : Z -> Prop.
  Variable J : list ans -> lfile -> Prop.
  Hypothesis J0 : J [] file0.
  Hypothesis J1 : forall al a f f' c, ok c -> J al f -> mvs base limit c a f f' -> J (al ++ [a]) f'.
  Lemma trace_from i ls : forall s s' al, rest s -> s_base s = base -> limit_of s = limit -> ok (s_secs s) -> secs_ok ok ls ->
    J al (s_files s i) -> exec step s ls = Next s' -> J (al ++ answers i ls) (s_files s' i) /\ rest s' /\ s_base s' = base /\ limit_of s' = limit.
  Proof.
    induction ls as [|l ls IH]; intros s s' al R B Lm C F H E.
    - injection E as <-. cbn. now rewrite app_nil_r.
    - cbn [exec] in E. pose proof (rest_step s l R) as K. destruct (step s l) as [| |s1] eqn:S1; try discriminate.
      destruct K as (K1 & K2 & K3 & K4). inversion F as [|? ? F1 F2]; subst.
      change (l :: ls) with ([l] ++ ls). rewrite answers_app, app_assoc.
      apply (IH s1 s'); auto.
      + unfold limit_of. now rewrite K2.
      + assert (s_secs s1 = s_secs s \/ ok (s_secs s1)) as [->|]; auto.
        unfold step in S1. destruct (s_gone s); try discriminate.
        destruct l; repeat (match type of S1 with context[match ?x with _ => _ end] => destruct x end; try discriminate);
          injection S1 as <-; auto.
      + specialize (K4 i). unfold moved in K4. destruct (answers i [l]) as [|a [|? ?]]; try easy.
        * rewrite app_nil_r, K4. exact H.
        * eapply J1; eauto.
  Qed.
  Lemma trace_inv i e d m l c ls s : s_base (init e d m l c) = base -> limit_of (init e d m l c) = limit -> ok c -> secs_ok ok ls ->
    exec step (init e d m l c) ls = Next s -> J (answers i ls) (s_files s i).
  Proof.
    intros B Lm C F E. apply (trace_from i ls (init e d m l c) s []); auto.
    - apply rest_init.
    - unfold init. now destruct e, d.
    - unfold init. now destruct e, d.
  Qed.
End Trace.
(** Invariants that do not depend on the order of the moves. *)
Lemma trace_simple i e d m l c ls s (P : ans -> Prop) (J : lfile -> Prop) :
  J file0 ->
  (forall a f f' k, P a -> J f -> mv (s_base (init e d m l c)) (limit_of (init e d m l c)) k a f f' -> J f') ->
  exec step (init e d m l c) ls = Next s -> Forall P (answers i ls) -> J (s_files s i).
Proof.
  intros H0 H1 E F.
  apply (trace_inv (s_base (init e d m l c)) (limit_of (init e d m l c)) (fun _ => True) (fun al f => Forall P al -> J f)) with (i := i) (e := e) (d := d) (m := m) (l := l) (c := c) (ls := ls); auto.
  - intros al a f f' k _ HJ M FA. apply Forall_app in FA as [FA1 FA2]. inversion FA2; subst. specialize (HJ FA1). clear -H1 HJ M H3. induction M; eauto.
  - apply Forall_forall. intros x _. now destruct x.
Qed.

(** ** What is in the files *)
Definition ag (a b : bytes) : Prop := begins a b \/ begins b a.
Lemma begins_ag x b d : begins x (b ++ d) -> ag x b.
Proof.
  intros [c E]. unfold ag. destruct (Nat.le_gt_cases (length x) (length b)) as [L|L].
  - left. exists (skipn (length x) b). assert (firstn (length x) (b ++ d) = x) as F.
    { rewrite E, firstn_app, firstn_all, Nat.sub_diag. cbn. apply app_nil_r. }
    rewrite firstn_app in F. replace (length x - length b)%nat with 0%nat in F by lia. cbn [firstn] in F. rewrite app_nil_r in F.
    transitivity (firstn (length x) b ++ skipn (length x) b); [now rewrite firstn_skipn|now rewrite F].
  - right. exists (skipn (length b) x). assert (firstn (length b) (x ++ c) = b) as F.
    { rewrite <- E, firstn_app, firstn_all, Nat.sub_diag. cbn. apply app_nil_r. }
    rewrite firstn_app in F. replace (length b - length x)%nat with 0%nat in F by lia. cbn [firstn] in F. rewrite app_nil_r in F.
    transitivity (firstn (length b) x ++ skipn (length b) x); [now rewrite firstn_skipn|now rewrite F].
Qed.
Lemma begins_upto k x : begins (upto k x) x.
Proof. destruct k; cbn. exists (skipn n x). now rewrite firstn_skipn. apply begins_refl. Qed.
Lemma begins_app_l a b c : begins b c -> begins (a ++ b) (a ++ c).
Proof. intros [x ->]. exists x. now rewrite app_assoc. Qed.

Record FC (f : lfile) : Prop := {
  fc_body : f_said f = 0%nat -> forall q, f_disk f q ++ held f q = body q (f_wrote f);
  fc_said : (0 < f_said f)%nat -> f_fp f = FDead;
  fc_ag : forall q, ag (f_disk f q) (body q (f_wrote f)) }.
Lemma fc_live f : FC f -> f_fp f <> FDead -> f_said f = 0%nat.
Proof. intros H N. destruct (f_said f) eqn:E; auto. exfalso. apply N. apply (fc_said f H). lia. Qed.
Lemma fc_0 : FC file0. Proof. split; cbn; try easy. left. apply begins_refl. Qed.
Lemma held_live f p q : f_fp f = FLive p -> held f q = if q =? p then f_buf f else [].
Proof. unfold held. now intros ->. Qed.
Lemma ag_body f : (forall q, f_disk f q ++ held f q = body q (f_wrote f)) -> forall q, ag (f_disk f q) (body q (f_wrote f)).
Proof. intros H q. left. exists (held f q). now rewrite H. Qed.
Lemma fc_wr t p data n a f : f_fp f = FLive p -> FC f -> FC (wr t p data n a f).
Proof.
  intros P H. pose proof (fc_live f H ltac:(congruence)) as Z0. pose proof (fc_body f H Z0) as B.
  assert (forall q, f_disk (wr t p data n a f) q ++ held (wr t p data n a f) q = body q (f_wrote (wr t p data n a f))) as B'.
  { intros q. specialize (B q). rewrite (held_live f p q P) in B. unfold wr, held. fcbn. rewrite body_app, body_one, onto_eq.
    destruct (q =? p).
    - rewrite <- app_assoc, firstn_skipn, app_assoc, B. reflexivity.
    - rewrite B. now rewrite !app_nil_r. }
  split; auto. unfold wr. fcbn. lia. now apply ag_body.
Qed.
Lemma fc_nofl p n k f : f_fp f = FLive p -> FC f -> FC (nofl p n k f).
Proof.
  intros P H. pose proof (fc_live f H ltac:(congruence)) as Z0. pose proof (fc_body f H Z0) as B.
  split; unfold nofl; fcbn; try lia; auto. intros q. specialize (B q). rewrite (held_live f p q P) in B. rewrite !onto_eq.
  left. destruct (q =? p).
  - rewrite <- B, <- app_assoc. apply begins_app_l. rewrite <- (firstn_skipn n (f_buf f)) at 3. apply begins_app_l, begins_upto.
  - rewrite app_nil_r in B. rewrite B. apply begins_refl.
Qed.
Lemma fc_fl p secs a f : f_fp f = FLive p -> FC f -> FC (fl p secs a f).
Proof.
  intros P H. pose proof (fc_live f H ltac:(congruence)) as Z0. pose proof (fc_body f H Z0) as B.
  assert (forall q, f_disk (fl p secs a f) q ++ held (fl p secs a f) q = body q (f_wrote (fl p secs a f))) as B'.
  { intros q. specialize (B q). rewrite (held_live f p q P) in B. unfold fl, held. fcbn. rewrite onto_eq. destruct (q =? p); rewrite ?app_nil_r in *; auto. }
  split; auto. unfold fl. fcbn. lia. now apply ag_body.
Qed.
Lemma fc_mv base limit secs a f f' : a_rot a = None -> FC f -> mv base limit secs a f f' -> FC f'.
Proof.
  intros A H M. destruct M.
  - pose proof (fc_live f H ltac:(congruence)) as Z0. pose proof (fc_body f H Z0) as B. rewrite A.
    assert (forall q, onto (f_disk f) p (f_buf f) q ++ [] = body q (f_wrote f)) as B'.
    { intros q. specialize (B q). rewrite (held_live f p q H0) in B. rewrite onto_eq. destruct (q =? p); rewrite app_nil_r; auto. now rewrite app_nil_r in B. }
    split; unfold held; fcbn; auto; try lia. intros q. left. rewrite <- B', app_nil_r. apply begins_refl.
  - destruct H as [X Y Z]. split; unfold die, held in *; fcbn; auto. rewrite H0 in X. auto.
  - destruct H as [X Y Z]. split; unfold die, say, held in *; fcbn; auto. lia.
  - destruct H as [X Y Z]. pose proof H0 as P. split; unfold held in *; fcbn; auto.
    + rewrite H0 in X. intros E q. rewrite <- X; auto. now destruct (q =? _).
    + intros E. specialize (Y E). congruence.
  - now apply fc_wr.
  - apply fc_fl; [reflexivity|]. now apply fc_wr.
  - apply fc_nofl; [reflexivity|]. now apply fc_wr.
  - pose proof (fc_live f H ltac:(congruence)) as Z0. pose proof (fc_body f H Z0) as B.
    split; fcbn; try lia; auto. intros q. specialize (B q). rewrite (held_live f p q H0) in B. rewrite !onto_eq. destruct (q =? p).
    + apply begins_ag with (d := data). rewrite <- B, <- !app_assoc. apply begins_app_l.
      rewrite <- (firstn_skipn n (f_buf f ++ data)) at 3. apply begins_app_l, begins_upto.
    + rewrite app_nil_r in B. rewrite B. left. apply begins_refl.
  - now apply fc_fl.
  - now apply fc_nofl.
Qed.
Lemma fc_all i e d m l c ls s : exec step (init e d m l c) ls = Next s -> closes_ok i ls -> FC (s_files s i).
Proof. intros E C. apply (trace_simple i e d m l c ls s (fun a => a_rot a = None) FC fc_0); auto. intros. eapply fc_mv; eauto. Qed.
Lemma log_contents_pf e d m l c ls s i q : exec step (init e d m l c) ls = Next s -> closes_ok i ls ->
  (f_said (s_files s i) = 0%nat -> f_disk (s_files s i) q ++ held (s_files s i) q = body q (f_wrote (s_files s i))) /\
  (begins (f_disk (s_files s i) q) (body q (f_wrote (s_files s i))) \/ begins (body q (f_wrote (s_files s i))) (f_disk (s_files s i) q)).
Proof. intros E C. pose proof (fc_all i e d m l c ls s E C) as [A B D]. split; auto. apply D. Qed.

(** ** Buffer, size, link *)
Record FI (base : bool) (limit : Z) (f : lfile) : Prop := {
  fi_since : live f <> None -> size (f_buf f) <= f_since f < kFlushBytes;
  fi_dead : base = true -> f_fp f = FDead -> (0 < f_said f)%nat;
  fi_off : base = false -> f_opened f = [] /\ live f = None /\ f_wrote f = [];
  fi_open : forall p, live f = Some p -> exists o, f_opened f = o ++ [p];
  fi_in : Forall (fun e => In (en_file e) (f_opened f)) (f_wrote f);
  fi_len : NoDup (f_opened f) -> forall p, live f = Some p -> f_len f = size (body p (f_wrote f));
  fi_size : NoDup (f_opened f) -> forall q, lines_of q (f_wrote f) <> [] -> size (concat (removelast (lines_of q (f_wrote f)))) < limit }.
Lemma lines_snoc q w t p n d : lines_of q (w ++ [Entry t p n d]) = lines_of q w ++ (if p =? q then [d] else []).
Proof. unfold lines_of. rewrite filter_app, map_app. cbn. destruct (p =? q); reflexivity. Qed.
Lemma body_none q w : ~ In q (map en_file w) -> body q w = [].
Proof.
  intros H. unfold body, lines_of. assert (filter (fun e => en_file e =? q) w = []) as ->; [|reflexivity].
  induction w as [|x w IH]; auto. cbn in *. destruct (en_file x =? q) eqn:Q; [|tauto]. apply Z.eqb_eq in Q. tauto.
Qed.
Lemma nodup_snoc (o : list Z) p : NoDup (o ++ [p]) -> NoDup o /\ ~ In p o.
Proof. intros H. apply NoDup_remove in H. now rewrite app_nil_r in H. Qed.
(** Right after a write, the first item need not hold yet. *)
Record FW (base : bool) (limit : Z) (f : lfile) : Prop := {
  fw_dead : base = true -> f_fp f = FDead -> (0 < f_said f)%nat;
  fw_off : base = false -> f_opened f = [] /\ live f = None /\ f_wrote f = [];
  fw_open : forall p, live f = Some p -> exists o, f_opened f = o ++ [p];
  fw_in : Forall (fun e => In (en_file e) (f_opened f)) (f_wrote f);
  fw_len : NoDup (f_opened f) -> forall p, live f = Some p -> f_len f = size (body p (f_wrote f));
  fw_size : NoDup (f_opened f) -> forall q, lines_of q (f_wrote f) <> [] -> size (concat (removelast (lines_of q (f_wrote f)))) < limit }.
Lemma fi_fw base limit f : FW base limit f -> (live f <> None -> size (f_buf f) <= f_since f < kFlushBytes) -> FI base limit f.
Proof. intros [A B C D E F] H. now split. Qed.
Lemma fw_fi base limit f : FI base limit f -> FW base limit f.
Proof. intros [A B C D E F]. now split. Qed.
Lemma fw_wr base limit t p data n a f : f_fp f = FLive p -> f_len f < limit -> FW base limit f -> FW base limit (wr t p data n a f).
Proof.
  intros P Hl [C D E F G H]. unfold live in *. rewrite P in *. destruct (E p eq_refl) as (o & Ho).
  split; unfold live, wr; fcbn; auto; try discriminate.
  - intros B. destruct (D B) as (_ & X & _). discriminate.
  - apply Forall_app. split; auto. constructor; [|constructor]. cbn. rewrite Ho. apply in_or_app. right. now left.
  - intros ND q [= <-]. rewrite body_app, body_one, Z.eqb_refl, size_app, (G ND p eq_refl). reflexivity.
  - intros ND q. rewrite lines_snoc. destruct (p =? q) eqn:Q.
    + apply Z.eqb_eq in Q. subst q. intros _. rewrite removelast_last. fold (body p (f_wrote f)). rewrite <- (G ND p eq_refl). exact Hl.
    + rewrite app_nil_r. apply H. exact ND.
Qed.
Lemma fi_mv base limit secs a f f' : FI base limit f -> mv base limit secs a f f' -> FI base limit f'.
Proof.
  intros H M. pose proof (fw_fi _ _ _ H) as W. destruct M.
  - destruct W. apply fi_fw; [|easy]. split; unfold live in *; fcbn; auto; try easy.
    intros B. destruct (fw_off0 B) as (_ & X & _). now rewrite H0 in X.
  - destruct W. apply fi_fw; [|easy]. split; unfold live, die in *; fcbn; auto; try easy.
    + congruence.
    + intros B. destruct (fw_off0 B) as (X1 & _ & X2). auto.
  - destruct W. apply fi_fw; [|easy]. split; unfold live, die, say in *; fcbn; auto; try easy; try lia. congruence.
  - destruct W as [C D E F G K]. apply fi_fw.
    + split; unfold live in *; fcbn; try easy; try congruence.
      * intros p [= <-]. now exists (f_opened f).
      * eapply Forall_impl; [|exact F]. intros x X. apply in_or_app. now left.
      * intros ND p [= <-]. apply nodup_snoc in ND as [_ ND]. rewrite body_none; [reflexivity|].
        intros X. apply in_map_iff in X as (x & X1 & X2). rewrite Forall_forall in F. apply F in X2. congruence.
      * intros ND. apply nodup_snoc in ND as [ND _]. auto.
    + intros _. fcbn. unfold size, kFlushBytes. cbn. lia.
  - apply fi_fw; [now apply fw_wr|]. intros _. destruct H2 as (_ & H2 & _). destruct H as [S1 _ _ _ _ _ _].
    unfold live in S1. rewrite H0 in S1. specialize (S1 ltac:(discriminate)). unfold wr in *. fcbn.
    pose proof (size_skipn n (f_buf f ++ data)). rewrite size_app in *. lia.
  - pose proof (fw_wr base limit t p data n a f H0 H1 W) as [C D E F G K]. apply fi_fw; [now split|].
    intros _. unfold fl. fcbn. unfold size, kFlushBytes. cbn. lia.
  - pose proof (fw_wr base limit t p data n a f H0 H1 W) as [C D E F G K].
    apply fi_fw; [|easy]. split; unfold live, nofl in *; fcbn; auto; try easy; try lia.
    intros B. destruct (D B) as (_ & X & _). discriminate.
  - destruct W as [C D E F G K]. apply fi_fw; [|easy]. split; unfold live in *; fcbn; auto; try easy; try lia.
    intros B. destruct (D B) as (_ & X & _). now rewrite H0 in X.
  - destruct W as [C D E F G K]. apply fi_fw.
    + split; unfold live, fl in *; fcbn; rewrite H0 in *; auto; try easy.
    + intros _. unfold fl. fcbn. unfold size, kFlushBytes. cbn. lia.
  - destruct W as [C D E F G K]. apply fi_fw; [|easy]. split; unfold live, nofl in *; fcbn; auto; try easy; try lia.
    intros B. destruct (D B) as (_ & X & _). now rewrite H0 in X.
Qed.
Lemma fi_0 base limit : FI base limit file0.
Proof. split; cbn; try easy. Qed.
Lemma fi_all i e d m l c ls s : exec step (init e d m l c) ls = Next s -> FI (s_base (init e d m l c)) (limit_of (init e d m l c)) (s_files s i).
Proof.
  intros E. apply (trace_simple i e d m l c ls s (fun _ => True) _ (fi_0 _ _)); auto.
  - intros. eapply fi_mv; eauto.
  - apply Forall_forall. auto.
Qed.
Lemma log_buffer_pf e d m l c ls s i q : exec step (init e d m l c) ls = Next s -> size (held (s_files s i) q) < 1000000.
Proof.
  intros E. pose proof (fi_since _ _ _ (fi_all i e d m l c ls s E)) as H. unfold live, held, kFlushBytes in *.
  destruct (f_fp (s_files s i)); try (cbn; lia). destruct (q =? p); [|cbn; lia]. assert (Some p <> None) by discriminate. tauto || (specialize (H H0); lia).
Qed.
Lemma log_size_pf d m l c ls s i q : exec step (init false d m l c) ls = Next s -> d <> [] -> NoDup (f_opened (s_files s i)) ->
  lines_of q (f_wrote (s_files s i)) <> [] ->
  size (concat (removelast (lines_of q (f_wrote (s_files s i))))) < Z.max 1 m * 1048576.
Proof.
  intros E D N L. pose proof (fi_size _ _ _ (fi_all i false d m l c ls s E) N q L) as H.
  unfold limit_of, init in H. destruct d; [easy|]. cbn [s_mb] in H. rewrite Z.shiftl_mul_pow2 in H by lia. exact H.
Qed.
Lemma log_off_pf e d m l c ls s i : exec step (init e d m l c) ls = Next s -> e = true \/ d = [] ->
  f_opened (s_files s i) = [] /\ f_wrote (s_files s i) = [].
Proof.
  intros E D. assert (s_base (init e d m l c) = false) as B. { unfold init. destruct D as [->| ->]; [|destruct e]; reflexivity. }
  destruct (fi_off _ _ _ (fi_all i e d m l c ls s E) B) as (X & _ & Y). auto.
Qed.
(** The link. *)
Lemma log_link_pf e d m l c ls s i : exec step (init e d m l c) ls = Next s -> links_ok i ls ->
  f_link (s_files s i) = match f_opened (s_files s i) with [] => None | o => Some (last o 0) end.
Proof.
  intros E F. apply (trace_simple i e d m l c ls s (fun a => a_link a = true)
    (fun f => f_link f = match f_opened f with [] => None | o => Some (last o 0) end)); auto.
  intros a f f' k A H M. destruct M; unfold wr, fl, nofl, die, say; fcbn; auto.
  rewrite A. destruct (f_opened f) as [|z o]; [reflexivity|]. cbn [app].
  match goal with |- context[last (?z :: ?o ++ ?x)] => change (z :: o ++ x) with ((z :: o) ++ x) end. now rewrite last_last.
Qed.

(** ** Nothing is undone *)
Definition grew (f f' : lfile) : Prop := (exists w, f_wrote f' = f_wrote f ++ w) /\ forall q, begins (f_disk f q) (f_disk f' q).
Lemma grew_refl f : grew f f. Proof. split. exists []. now rewrite app_nil_r. intros. apply begins_refl. Qed.
Lemma grew_trans f g h : grew f g -> grew g h -> grew f h.
Proof.
  intros [[w1 A] B] [[w2 C] D]. split. exists (w1 ++ w2). now rewrite C, A, app_assoc. intros. eapply begins_trans; eauto.
Qed.
Lemma grew_mv base limit secs a f f' : mv base limit secs a f f' -> grew f f'.
Proof.
  intros M. destruct M; (split; [try (exists []; rewrite app_nil_r; reflexivity); eexists; reflexivity|]); intros q; unfold wr, fl, nofl, die, say; fcbn;
    first [apply begins_refl | apply onto_begins | (eapply begins_trans; [apply onto_begins|apply onto_begins])
           | (eapply begins_trans; [apply onto_begins|eapply begins_trans; apply onto_begins])].
Qed.
Lemma grew_mvs base limit secs a f f' : mvs base limit secs a f f' -> grew f f'.
Proof.
  induction 1; eauto using grew_refl, grew_trans, grew_mv.
Qed.
Lemma dead_mvs base limit secs a f f' : mvs base limit secs a f f' -> f_fp f = FDead -> f' = f.
Proof. intros M D. destruct M; auto; match goal with H : mv _ _ _ _ _ _ |- _ => destruct H; congruence end. Qed.
Lemma grew_step s l s' i : rest s -> step s l = Next s' -> grew (s_files s i) (s_files s' i) /\ (f_fp (s_files s i) = FDead -> f_fp (s_files s' i) = FDead).
Proof.
  intros R E. pose proof (rest_step s l R) as H. rewrite E in H. destruct H as (_ & _ & _ & H). specialize (H i). unfold moved in H.
  destruct (answers i [l]) as [|a [|? ?]]; try easy.
  - rewrite H. split; [apply grew_refl|auto].
  - split; [eapply grew_mvs; eauto|]. intros D. now rewrite (dead_mvs _ _ _ _ _ _ H D).
Qed.

(** ** The messages of a thread *)
Lemma send_effect t data sev level secs limit base a f f' : 0 < limit ->
  send_file t data sev level secs limit base a f = Some f' ->
  (f' = f /\ f_fp f = FDead) \/
  (f_fp f <> FDead /\ exists p, f_wrote f' = f_wrote f ++ [Entry t p (a_now a) data] /\ (level < sev -> live f' <> None -> f_buf f' = [])) \/
  (f_wrote f' = f_wrote f /\ f_fp f' = FDead).
Proof.
  intros L E.
  assert (forall g p, f_fp g = FLive p -> f_wrote g = f_wrote f -> write t data sev level secs a g = Some f' ->
    (f_fp g <> FDead /\ exists p, f_wrote f' = f_wrote f ++ [Entry t p (a_now a) data] /\ (level < sev -> live f' <> None -> f_buf f' = [])) \/
    (f_wrote f' = f_wrote f /\ f_fp f' = FDead)) as K.
  { intros g p P W X. destruct (write_mv t data sev level secs a g p P) as (h & H1 & H2). rewrite X in H1. injection H1 as <-.
    destruct H2 as [(n & -> & H)|[(n & ->)|[(n & m & k & ->)|(d & n & k & ->)]]].
    - left. split; [congruence|]. exists p. split; [unfold wr; fcbn; now rewrite W|]. intros. destruct H. lia.
    - left. split; [congruence|]. exists p. split; [unfold fl, wr; fcbn; now rewrite W|]. reflexivity.
    - left. split; [congruence|]. exists p. split; [unfold nofl, wr; fcbn; now rewrite W|]. reflexivity.
    - right. auto. }
  unfold send_file in E. destruct (f_fp f) as [| |p] eqn:P.
  2:{ injection E as <-. auto. }
  all: right; destruct (needs_open limit f) eqn:O.
  2: unfold needs_open in O; rewrite P in O; discriminate.
  3: destruct (K f p P eq_refl E) as [[_ X]|X]; [left; split; [discriminate|exact X]|right; exact X].
  all: destruct (open_mvs base limit secs a f) as (g & b & EO & M & W & Ht & Hf); [congruence|]; rewrite EO in E; destruct b;
    [|injection E as <-; auto].
  all: destruct (Ht eq_refl) as (X & _ & _); unfold live in X; destruct (f_fp g) as [| |q] eqn:G; try discriminate;
    destruct (K g q G W E) as [[_ Y]|Y]; [left; split; [discriminate|exact Y]|right; exact Y].
Qed.
Lemma of_thread_snoc u t p n d w : of_thread u (w ++ [Entry t p n d]) = of_thread u w ++ (if Nat.eqb t u then [d] else []).
Proof. unfold of_thread. rewrite filter_app, map_app. cbn. destruct (Nat.eqb t u); reflexivity. Qed.
Lemma sent_app t i a b : sent t i (a ++ b) = sent t i a ++ sent t i b.
Proof. unfold sent. apply flat_map_app. Qed.
Definition pend (o : option op) (i : nat) : list bytes :=
  match o with Some (OSend _ data j) => if Nat.leb i j then [data] else [] | _ => [] end.
Lemma belongs_clamp sev i : (i < 3)%nat -> belongs sev i = Nat.leb i (clamp sev).
Proof. intros H. unfold belongs, clamp. destruct (Nat.leb i (Z.to_nat (Z.min (Z.max sev 0) 2))) eqn:E; lia. Qed.
Definition Ord (ls : list label) (s : sink) : Prop :=
  forall t i, (i < 3)%nat -> exists rs, sent t i ls = of_thread t (f_wrote (s_files s i)) ++ rs /\
    (f_fp (s_files s i) <> FDead -> rs = pend (s_ops s t) i).
Lemma wrote_flush secs a f f' : flush_file secs a f = Some f' -> f_wrote f' = f_wrote f /\ (live f' <> None -> f_buf f' = []) /\ (f_fp f' <> FDead -> f_fp f' = f_fp f).
Proof.
  unfold flush_file, live. destruct (f_fp f) as [| |p] eqn:P; try (intros [= <-]; rewrite P; tauto).
  intros E. destruct (flush_mv secs a f p P) as (g & E1 & [->|(n & k & ->)]); rewrite E in E1; injection E1 as ->; cbn; tauto.
Qed.
Lemma wrote_destroy a f f' : destroy_file a f = Some f' -> f_wrote f' = f_wrote f /\ live f' = None /\ (f_fp f = FDead -> f_fp f' = FDead).
Proof.
  unfold destroy_file, close, live. destruct (f_fp f) as [| |p] eqn:P; intros [= <-]; rewrite ?P; auto. split; auto. split; auto. discriminate.
Qed.
Lemma ord_step ls s l s' : rest s -> s_mb s <> 0 -> Ord ls s -> step s l = Next s' -> Ord (ls ++ [l]) s'.
Proof.
  intros R Mb H E u k Hk. pose proof (grew_step s l s' k R E) as [_ Dd]. destruct (H u k Hk) as (rs & H1 & H2).
  rewrite sent_app, H1. clear H1. unfold step in E. destruct (s_gone s); try discriminate. destruct l as [t sev data|t|t i a|level secs|a0 a1 a2].
  - destruct (s_ops s t) eqn:O; try discriminate. destruct (s_mb s =? 0) eqn:M0; [lia|]. injection E as <-. unfold set_op. cbn [s_files s_ops].
    unfold sent. cbn [flat_map app]. rewrite app_nil_r. rewrite belongs_clamp by auto. eexists. rewrite <- app_assoc. split; [reflexivity|].
    intros N. specialize (H2 N). destruct (Nat.eq_dec u t) as [->|NE].
    + rewrite updf_same, Nat.eqb_refl, H2, O. cbn. reflexivity.
    + rewrite updf_other by auto. apply Nat.neq_sym, Nat.eqb_neq in NE. rewrite NE. cbn. now rewrite app_nil_r.
  - destruct (s_ops s t) eqn:O; try discriminate. injection E as <-. unfold set_op. cbn [s_files s_ops]. cbn [sent flat_map]. rewrite app_nil_r.
    exists rs. split; auto. intros N. specialize (H2 N). destruct (Nat.eq_dec u t) as [->|NE]; [rewrite updf_same|rewrite updf_other by auto; auto].
    now rewrite O in H2.
  - cbn [sent flat_map]. rewrite app_nil_r. destruct (s_ops s t) as [[sev data j|j]|] eqn:O; try discriminate;
      (destruct (Nat.eqb i j) eqn:J; cbn [negb] in E; try discriminate); apply Nat.eqb_eq in J; subst j.
    + destruct (send_file t data sev (s_level s) (s_secs s) (Z.shiftl (s_mb s) 20) (s_base s) a (s_files s i)) as [f|] eqn:SF; try discriminate.
      injection E as <-. apply send_effect in SF; [|apply limit_pos; destruct R; lia].
      unfold set_op, set_file in *. cbn [s_files s_ops] in *.
      destruct (Nat.eq_dec k i) as [->|NK].
      * rewrite updf_same in *. destruct SF as [(-> & D)|[(ND & p & W & _)|(W & D)]].
        -- exists rs. split; auto. congruence.
        -- rewrite W, of_thread_snoc. destruct (Nat.eq_dec u t) as [->|NE].
           ++ rewrite updf_same, Nat.eqb_refl, O in *. cbn [pend] in H2. rewrite Nat.leb_refl in H2.
              destruct (f_fp (s_files s i)) eqn:FP.
              ** rewrite H2 by discriminate. exists []. split; [now rewrite app_nil_r|]. intros _. destruct i; auto. cbn [pend]. now rewrite (proj2 (Nat.leb_gt (S i) i)) by lia.
              ** congruence.
              ** rewrite H2 by discriminate. exists []. split; [now rewrite app_nil_r|]. intros _. destruct i; auto. cbn [pend]. now rewrite (proj2 (Nat.leb_gt (S i) i)) by lia.
           ++ rewrite updf_other by auto. apply Nat.neq_sym, Nat.eqb_neq in NE. rewrite NE, app_nil_r. exists rs. split; auto.
        -- rewrite W. exists rs. split; auto. congruence.
      * rewrite updf_other in * by auto. exists rs. split; auto. intros N. specialize (H2 N).
        destruct (Nat.eq_dec u t) as [->|NE]; [rewrite updf_same|rewrite updf_other by auto; auto].
        rewrite H2, O. destruct i; cbn [pend].
        -- now rewrite (proj2 (Nat.leb_gt k 0)) by lia.
        -- destruct (Nat.leb k (S i)) eqn:X, (Nat.leb k i) eqn:Y; auto; lia.
    + destruct (flush_file (s_secs s) a (s_files s i)) as [f|] eqn:SF; try discriminate.
      injection E as <-. apply wrote_flush in SF as (W & _). unfold set_op, set_file in *. cbn [s_files s_ops] in *. exists rs.
      assert (f_wrote (updf (s_files s) i f k) = f_wrote (s_files s k)) as ->.
      { destruct (Nat.eq_dec k i) as [->|NK]; [now rewrite updf_same|now rewrite updf_other]. }
      split; auto. intros N. assert (f_fp (s_files s k) <> FDead) as N2 by auto. specialize (H2 N2).
      destruct (Nat.eq_dec u t) as [->|NE]; [rewrite updf_same|rewrite updf_other by auto; auto].
      rewrite H2, O. now destruct (Nat.ltb i 2).
  - injection E as <-. cbn [s_files s_ops]. cbn [sent flat_map]. rewrite app_nil_r. eauto.
  - cbn [sent flat_map]. rewrite app_nil_r.
    destruct (destroy_file a0 (s_files s 0%nat)) as [f0|] eqn:D0; try discriminate.
    destruct (destroy_file a1 (s_files s 1%nat)) as [f1|] eqn:D1; try discriminate.
    destruct (destroy_file a2 (s_files s 2%nat)) as [f2|] eqn:D2; try discriminate. injection E as <-. cbn [s_files s_ops] in *.
    apply wrote_destroy in D0 as (W0 & _). apply wrote_destroy in D1 as (W1 & _). apply wrote_destroy in D2 as (W2 & _).
    exists rs. split.
    + destruct k as [|[|[|k]]]; cbn; rewrite ?W0, ?W1, ?W2; auto; lia.
    + intros N. apply H2. auto.
Qed.

Lemma exec_snoc_inv s ls l s' : exec step s (ls ++ [l]) = Next s' -> exists s1, exec step s ls = Next s1 /\ step s1 l = Next s'.
Proof. rewrite exec_app. destruct (exec step s ls) as [| |s1]; try discriminate. cbn. intros H. exists s1. split; auto. destruct (step s1 l); congruence. Qed.
Lemma rest_all e d m l c ls s : exec step (init e d m l c) ls = Next s -> rest s /\ s_mb s = s_mb (init e d m l c) /\ s_base s = s_base (init e d m l c).
Proof.
  revert s. induction ls as [|x ls IH] using rev_ind; intros s E.
  - injection E as <-. split; auto. apply rest_init.
  - apply exec_snoc_inv in E as (s1 & E1 & E2). destruct (IH s1 E1) as (A & B & C). pose proof (rest_step s1 x A) as K. rewrite E2 in K.
    destruct K as (K1 & K2 & K3 & _). rewrite K2, K3. auto.
Qed.
Lemma mb_on d m l c : d <> [] -> s_mb (init false d m l c) <> 0 /\ s_base (init false d m l c) = true.
Proof. unfold init. destruct d; [easy|]. intros _. cbn [s_mb s_base]. split; auto. lia. Qed.
Lemma ord_all d m l c ls s : d <> [] -> exec step (init false d m l c) ls = Next s -> Ord ls s.
Proof.
  intros D. revert s. induction ls as [|x ls IH] using rev_ind; intros s E.
  - injection E as <-. intros t i _. exists []. split; auto. unfold init. destruct d; auto. unfold init. now destruct d.
  - apply exec_snoc_inv in E as (s1 & E1 & E2). destruct (rest_all _ _ _ _ _ _ _ E1) as (A & B & _).
    eapply ord_step; eauto. rewrite B. now apply mb_on.
Qed.
Lemma log_order_pf d m l c ls s t i : d <> [] -> exec step (init false d m l c) ls = Next s -> (i < 3)%nat ->
  exists rs, sent t i ls = of_thread t (f_wrote (s_files s i)) ++ rs /\
    (f_said (s_files s i) = 0%nat -> s_ops s t = None -> rs = []).
Proof.
  intros D E I3. destruct (ord_all d m l c ls s D E t i I3) as (rs & H1 & H2). exists rs. split; auto. intros Z0 O. rewrite O in H2. cbn in H2.
  apply H2. intros FD. pose proof (fi_dead _ _ _ (fi_all i _ _ _ _ _ _ _ E) (proj2 (mb_on d m l c D)) FD). lia.
Qed.

(** ** When messages reach the disk *)
Lemma closes_app i a b : closes_ok i (a ++ b) -> closes_ok i a.
Proof. unfold closes_ok. rewrite answers_app. intros H. now apply Forall_app in H. Qed.
Lemma level_kept s ls s' : flags_kept ls -> exec step s ls = Next s' -> s_level s' = s_level s.
Proof.
  revert s. induction ls as [|l ls IH]; intros s F E; [now injection E as <-|]. inversion F; subst. cbn [exec] in E.
  destruct (step s l) as [| |s1] eqn:S1; try discriminate. rewrite (IH s1 H2 E). clear -S1 H1.
  unfold step in S1. destruct (s_gone s); try discriminate.
  destruct l; try easy; repeat (match type of S1 with context[match ?x with _ => _ end] => destruct x end; try discriminate);
    injection S1 as <-; auto.
Qed.
Definition durable (f : lfile) (t : nat) (data : bytes) : Prop :=
  exists w1 e w2, f_wrote f = w1 ++ e :: w2 /\ en_who e = t /\ en_text e = data /\ begins (body (en_file e) (w1 ++ [e])) (f_disk f (en_file e)).
Lemma durable_grew f f' t data : grew f f' -> durable f t data -> durable f' t data.
Proof.
  intros [[w W] D] (w1 & e & w2 & A & B & C & F). exists w1, e, (w2 ++ w). repeat split; auto.
  - rewrite W, A, <- app_assoc. reflexivity.
  - eapply begins_trans; eauto.
Qed.
Lemma fc_durable f q : FC f -> f_fp f <> FDead -> (live f <> None -> f_buf f = []) -> f_disk f q = body q (f_wrote f).
Proof.
  intros H N B. rewrite <- (fc_body f H (fc_live f H N) q). unfold held, live in *. destruct (f_fp f); rewrite ?app_nil_r; auto.
  rewrite B by discriminate. destruct (q =? p); now rewrite app_nil_r.
Qed.
(** Where thread [t] is on its way through the files. *)
Lemma urgent_step s l s' t sev data j i :
  rest s -> s_ops s t = Some (OSend sev data j) -> (i <= j)%nat -> s_level s < sev ->
  step s l = Next s' -> (match l with LSend u _ _ | LFlush u => u <> t | _ => True end) -> FC (s_files s' i) ->
  (exists j', s_ops s' t = Some (OSend sev data j') /\ (i <= j')%nat) \/ f_fp (s_files s' i) = FDead \/ durable (s_files s' i) t data.
Proof.
  intros R O Hij Hl E Q C. pose proof (grew_step s l s' i R E) as G. pose proof (R) as (R1 & _ & R3). pose proof (R3 t) as R4. rewrite O in R4.
  unfold step in E. destruct (s_gone s); try discriminate. destruct l as [u v x|u|u k a|level secs|a0 a1 a2].
  - destruct (s_ops s u) eqn:O2; try discriminate. destruct (s_mb s =? 0); injection E as <-; left; exists j; split; auto.
    unfold set_op. cbn. now rewrite updf_other by auto.
  - destruct (s_ops s u) eqn:O2; try discriminate. injection E as <-; left; exists j; split; auto.
    unfold set_op. cbn. now rewrite updf_other by auto.
  - destruct (Nat.eq_dec t u) as [<-|NE].
    + rewrite O in E. destruct (Nat.eqb k j) eqn:J; cbn [negb] in E; try discriminate. apply Nat.eqb_eq in J. subst k.
      destruct (send_file t data sev (s_level s) (s_secs s) (Z.shiftl (s_mb s) 20) (s_base s) a (s_files s j)) as [f|] eqn:SF; try discriminate.
      injection E as <-. apply send_effect in SF; [|apply limit_pos; lia]. unfold set_op, set_file in *. cbn [s_files s_ops] in *.
      destruct (Nat.eq_dec i j) as [->|NI].
      * rewrite (updf_same (s_files s) j f) in *. right. destruct SF as [(Ef & D)|[(ND & p & W & B)|(W & D)]]; [left; congruence| |now left].
        destruct (f_fp f) eqn:FP; auto; right; (exists (f_wrote (s_files s j)), (Entry t p (a_now a) data), []; repeat split; auto; cbn [en_file];
          rewrite <- W, <- fc_durable; auto; [apply begins_refl|congruence]).
      * left. destruct j; [lia|]. exists j. rewrite updf_same. split; auto. lia.
    + left. exists j. split; auto. destruct (s_ops s u) as [[v x n|n]|]; try discriminate; destruct (Nat.eqb k n); cbn [negb] in E; try discriminate.
      * match type of E with match ?x with _ => _ end = _ => destruct x end; try discriminate. injection E as <-. unfold set_op, set_file. cbn. now rewrite updf_other by auto.
      * match type of E with match ?x with _ => _ end = _ => destruct x end; try discriminate. injection E as <-. unfold set_op, set_file. cbn. now rewrite updf_other by auto.
  - injection E as <-. left. exists j. auto.
  - destruct (destroy_file a0 (s_files s 0%nat)), (destroy_file a1 (s_files s 1%nat)), (destroy_file a2 (s_files s 2%nat)); try discriminate. injection E as <-. left. exists j. auto.
Qed.
Lemma log_urgent_pf d m l c ls1 t sev data ls2 s i : d <> [] ->
  exec step (init false d m l c) (ls1 ++ LSend t sev data :: ls2) = Next s -> quiet t ls2 -> s_ops s t = None ->
  flags_kept (ls1 ++ LSend t sev data :: ls2) -> l < Z.min sev 2 -> (i < 3)%nat -> belongs sev i = true ->
  closes_ok i (ls1 ++ LSend t sev data :: ls2) -> f_said (s_files s i) = 0%nat ->
  exists w1 e w2, f_wrote (s_files s i) = w1 ++ e :: w2 /\ en_who e = t /\ en_text e = data /\
    begins (body (en_file e) (w1 ++ [e])) (f_disk (s_files s i) (en_file e)).
Proof.
  intros D E Q O F Hl I3 Bl C Z0. rewrite belongs_clamp in Bl by auto. apply Nat.leb_le in Bl.
  destruct (mb_on d m l c D) as [Mb Bs].
  assert (0 <= s_mb (init false d m l c)) as _ by apply rest_init.
  assert ((exists j', s_ops s t = Some (OSend (Z.of_nat (clamp sev)) data j') /\ (i <= j')%nat) \/ f_fp (s_files s i) = FDead \/ durable (s_files s i) t data) as K.
  { clear O Z0. revert s E. induction ls2 as [|x ls2 IH] using rev_ind; intros s E.
    - apply exec_snoc_inv in E as (s1 & E1 & E2). destruct (rest_all _ _ _ _ _ _ _ E1) as (R & R2 & _).
      unfold step in E2. destruct (s_gone s1); try discriminate. destruct (s_ops s1 t); try discriminate.
      destruct (s_mb s1 =? 0) eqn:X; [lia|]. injection E2 as <-. left. exists (clamp sev). unfold set_op. cbn. rewrite updf_same. auto.
    - assert (ls1 ++ LSend t sev data :: ls2 ++ [x] = (ls1 ++ LSend t sev data :: ls2) ++ [x]) as EQ by (rewrite <- app_assoc; reflexivity).
      rewrite EQ in *. pose proof E as E0. apply exec_snoc_inv in E as (s1 & E1 & E2). destruct (rest_all _ _ _ _ _ _ _ E1) as (R & R2 & _).
      apply Forall_app in Q as [Q1 Q2]. inversion Q2; subst. unfold flags_kept in F. apply Forall_app in F as [F1 F2].
      destruct (IH Q1 F1 (closes_app _ _ _ C) s1 E1) as [(j & O & J)|[X|X]].
      + eapply urgent_step; eauto.
        * rewrite (level_kept _ _ _ F1 E1). unfold init. destruct d; cbn [s_level]; unfold clamp; lia.
        * eapply fc_all; eauto.
      + right. left. destruct (grew_step s1 x s i R E2). auto.
      + right. right. eapply durable_grew; [|exact X]. now apply (grew_step s1 x s i R E2). }
  destruct K as [(j & K & _)|[K|K]]; [congruence| |exact K].
  pose proof (fi_dead _ _ _ (fi_all i _ _ _ _ _ _ _ E) Bs K). lia.
Qed.

(** Flush. *)
Lemma flushing_step s l s' t j i :
  rest s -> s_ops s t = Some (OFlush j) -> (j <= i)%nat -> (i < 3)%nat ->
  step s l = Next s' -> (match l with LSend u _ _ | LFlush u => u <> t | _ => True end) -> FC (s_files s' i) ->
  (exists j', s_ops s' t = Some (OFlush j') /\ (j' <= i)%nat) \/ f_fp (s_files s' i) = FDead \/ (forall q, f_disk (s_files s' i) q = body q (f_wrote (s_files s' i))).
Proof.
  intros R O Hij I3 E Q C.
  unfold step in E. destruct (s_gone s); try discriminate. destruct l as [u v x|u|u k a|level secs|a0 a1 a2].
  - destruct (s_ops s u) eqn:O2; try discriminate. destruct (s_mb s =? 0); injection E as <-; left; exists j; split; auto.
    unfold set_op. cbn. now rewrite updf_other by auto.
  - destruct (s_ops s u) eqn:O2; try discriminate. injection E as <-; left; exists j; split; auto.
    unfold set_op. cbn. now rewrite updf_other by auto.
  - destruct (Nat.eq_dec t u) as [<-|NE].
    + rewrite O in E. destruct (Nat.eqb k j) eqn:J; cbn [negb] in E; try discriminate. apply Nat.eqb_eq in J. subst k.
      destruct (flush_file (s_secs s) a (s_files s j)) as [f|] eqn:SF; try discriminate.
      injection E as <-. apply wrote_flush in SF as (W & B & _). unfold set_op, set_file in *. cbn [s_files s_ops] in *.
      destruct (Nat.eq_dec i j) as [->|NI].
      * rewrite (updf_same (s_files s) j f) in *. right. destruct (f_fp f) eqn:FP; auto; right; intros q; apply fc_durable; auto; congruence.
      * left. exists (S j). rewrite updf_same. assert (Nat.ltb j 2 = true) as -> by (apply Nat.ltb_lt; lia). split; auto. lia.
    + left. exists j. split; auto. destruct (s_ops s u) as [[v x n|n]|]; try discriminate; destruct (Nat.eqb k n); cbn [negb] in E; try discriminate.
      * match type of E with match ?x with _ => _ end = _ => destruct x end; try discriminate. injection E as <-. unfold set_op, set_file. cbn. now rewrite updf_other by auto.
      * match type of E with match ?x with _ => _ end = _ => destruct x end; try discriminate. injection E as <-. unfold set_op, set_file. cbn. now rewrite updf_other by auto.
  - injection E as <-. left. exists j. auto.
  - destruct (destroy_file a0 (s_files s 0%nat)), (destroy_file a1 (s_files s 1%nat)), (destroy_file a2 (s_files s 2%nat)); try discriminate. injection E as <-. left. exists j. auto.
Qed.
Lemma log_flush_pf d m l c ls1 s1 t ls2 s i q : d <> [] ->
  exec step (init false d m l c) ls1 = Next s1 -> exec step s1 (LFlush t :: ls2) = Next s -> quiet t ls2 -> s_ops s t = None ->
  (i < 3)%nat -> closes_ok i (ls1 ++ LFlush t :: ls2) -> f_said (s_files s i) = 0%nat ->
  begins (body q (f_wrote (s_files s1 i))) (f_disk (s_files s i) q).
Proof.
  intros D E1 E Q O I3 C Z0. destruct (mb_on d m l c D) as [Mb Bs].
  assert (exec step (init false d m l c) (ls1 ++ LFlush t :: ls2) = Next s) as EE by (rewrite exec_app, E1; exact E).
  assert (grew (s_files s1 i) (s_files s i) /\ ((exists j', s_ops s t = Some (OFlush j') /\ (j' <= i)%nat) \/ f_fp (s_files s i) = FDead \/
     begins (body q (f_wrote (s_files s1 i))) (f_disk (s_files s i) q))) as [_ K].
  { clear O Z0 E. revert s EE. induction ls2 as [|x ls2 IH] using rev_ind; intros s E.
    - apply exec_snoc_inv in E as (s2 & E0 & E2). rewrite E1 in E0. injection E0 as <-. destruct (rest_all _ _ _ _ _ _ _ E1) as (R & R2 & _).
      split; [now apply (grew_step s1 (LFlush t) s i R E2)|].
      unfold step in E2. destruct (s_gone s1); try discriminate. destruct (s_ops s1 t); try discriminate.
      injection E2 as <-. left. exists 0%nat. unfold set_op. cbn. rewrite updf_same. split; auto. lia.
    - assert (ls1 ++ LFlush t :: ls2 ++ [x] = (ls1 ++ LFlush t :: ls2) ++ [x]) as EQ by (rewrite <- app_assoc; reflexivity).
      rewrite EQ in *. pose proof E as E0. apply exec_snoc_inv in E as (s2 & E3 & E2). destruct (rest_all _ _ _ _ _ _ _ E3) as (R & R2 & _).
      apply Forall_app in Q as [Q1 Q2]. inversion Q2; subst.
      destruct (IH Q1 (closes_app _ _ _ C) s2 E3) as [Gr K]. pose proof (grew_step s2 x s i R E2) as [Gr2 Dd].
      assert (grew (s_files s1 i) (s_files s i)) as Gr3 by (eapply grew_trans; eauto). split; auto.
      destruct K as [(j & O & J)|[X|X]].
      + destruct (flushing_step s2 x s t j i R O J I3 E2 H1 (fc_all _ _ _ _ _ _ _ _ E0 C)) as [Y|[Y|Y]]; auto.
        right. right. rewrite Y. destruct Gr3 as [[w W] _]. rewrite W, body_app. apply begins_app, begins_refl.
      + auto.
      + right. right. eapply begins_trans; [exact X|]. apply Gr2. }
  destruct K as [(j & K & _)|[K|K]]; [congruence| |exact K].
  pose proof (fi_dead _ _ _ (fi_all i _ _ _ _ _ _ _ EE) Bs K). lia.
Qed.
(** The destructor. *)
Lemma log_destroy_pf e d m l c ls s i q : exec step (init e d m l c) ls = Next s -> s_gone s = true -> (i < 3)%nat ->
  closes_ok i ls -> f_said (s_files s i) = 0%nat -> f_disk (s_files s i) q = body q (f_wrote (s_files s i)).
Proof.
  intros E G I3 C Z0. pose proof (fc_all _ _ _ _ _ _ _ _ E C) as H. rewrite <- (fc_body _ H Z0 q).
  rewrite held_none; [now rewrite app_nil_r|]. clear -E G I3.
  destruct ls as [|x ls _] using rev_ind. { injection E as <-. unfold init in G. destruct e; [|destruct d]; discriminate. }
  apply exec_snoc_inv in E as (s1 & _ & E). unfold step in E. destruct (s_gone s1) eqn:G1; try discriminate.
  destruct x as [u v x|u|u k a|level secs|a0 a1 a2].
  5:{ destruct (destroy_file a0 (s_files s1 0%nat)) as [f0|] eqn:D0; try discriminate. destruct (destroy_file a1 (s_files s1 1%nat)) as [f1|] eqn:D1; try discriminate.
      destruct (destroy_file a2 (s_files s1 2%nat)) as [f2|] eqn:D2; try discriminate. injection E as <-. cbn [s_files].
      apply wrote_destroy in D0 as (_ & W0 & _). apply wrote_destroy in D1 as (_ & W1 & _). apply wrote_destroy in D2 as (_ & W2 & _).
      destruct i as [|[|[|i]]]; auto. lia. }
  all: exfalso; repeat (match type of E with context[match ?x with _ => _ end] => destruct x end; try discriminate); injection E as <-; cbn in G; congruence.
Qed.

(** ** How long messages wait *)
Definition clk (al : list ans) : list Z := flat_map (fun a => [a_name a; a_reset a; a_now a; a_after a]) al.
Lemma ascending_app a b : ascending (a ++ b) -> ascending a /\ ascending b /\ forall x y, In x a -> In y b -> x <= y.
Proof.
  induction a as [|z a IH]; cbn; intros H; [tauto|]. destruct H as [H1 H2]. apply Forall_app in H1 as [H1 H3].
  destruct (IH H2) as (A & B & C). repeat split; auto. intros x y [->|X] Y; [|auto]. rewrite Forall_forall in H3. auto.
Qed.
Definition waits (c : Z) (f : lfile) : Prop :=
  exists w1 w2, f_wrote f = w1 ++ w2 /\ (forall q, begins (body q w1) (f_disk f q)) /\
    Forall (fun e => en_time e < f_next f <= en_time e + c * second) w2.
Definition FA (c : Z) (rd : list Z) (f : lfile) : Prop :=
  FC f /\ (f_said f = 0%nat -> (live f <> None -> exists r, In r rd /\ f_next f = r + c * second) /\ waits c f).
Lemma waits_all c f : (forall q, f_disk f q = body q (f_wrote f)) -> waits c f.
Proof. intros H. exists (f_wrote f), []. rewrite app_nil_r. repeat split; auto. intros q. rewrite H. apply begins_refl. Qed.
Lemma fa_mv base limit c a rd f f' : a_rot a = None -> (forall r, In r rd -> r <= a_now a) -> FA c rd f -> mv base limit c a f f' ->
  FA c (rd ++ [a_reset a; a_now a; a_after a]) f' /\ ((live f' = None \/ f_next f' = a_reset a + c * second) -> FA c (rd ++ [a_reset a]) f').
Proof.
  intros A B [C H] M. pose proof (fc_mv _ _ _ _ _ _ A C M) as C'.
  assert (forall rd', (live f' = None \/ (forall q, held f' q = [])) -> (live f' <> None -> exists r, In r rd' /\ f_next f' = r + c * second) -> FA c rd' f') as K.
  { intros rd' L X. split; auto. intros Z0. split; auto. apply waits_all. intros q. rewrite <- (fc_body f' C' Z0 q).
    destruct L as [L|L]; [rewrite held_none by auto|rewrite L]; now rewrite app_nil_r. }
  assert (forall g p, f_buf g = [] -> f_fp g = FLive p -> forall q, held g q = []) as KH.
  { intros g p X Y q. unfold held. rewrite Y, X. now destruct (q =? p). }
  destruct M.
  - split; [|intros _]; (apply K; [now left|intros X; exfalso; now apply X]).
  - split; [|intros _]; (apply K; [now left|intros X; exfalso; now apply X]).
  - split; [|intros _]; (apply K; [now left|intros X; exfalso; now apply X]).
  - split; [|intros _]; (apply K; [right; eapply KH; reflexivity|]); intros _; exists (a_reset a); (split; [apply in_or_app; right; now left|reflexivity]).
  - pose proof (fc_live f C ltac:(congruence)) as Z0. destruct (H Z0) as [H3 (w1 & w2 & W1 & W2 & W3)].
    destruct (H3 ltac:(unfold live; rewrite H0; discriminate)) as (r & Hr1 & Hr2). clear K.
    assert (forall rd', FA c (rd ++ rd') (wr t p data n a f)) as K; [|split; [apply K|intros _; apply K]].
    intros rd'. split; auto. intros _. split.
    + intros _. exists r. split; [apply in_or_app; now left|]. exact Hr2.
    + exists w1, (w2 ++ [Entry t p (a_now a) data]). unfold wr. fcbn. repeat split.
      * rewrite W1, app_assoc. reflexivity.
      * intros q. eapply begins_trans; [apply W2|]. apply onto_begins.
      * apply Forall_app. split; auto. constructor; [|constructor]. cbn [en_time]. destruct H2 as (_ & _ & H2). unfold wr in H2. fcbn.
        specialize (B r Hr1). lia.
  - split; intros; (apply K; [right; eapply KH; reflexivity|]); intros _.
    + exists (a_after a). split; [apply in_or_app; right; right; right; now left|reflexivity].
    + destruct H2 as [H2|H2]; [discriminate|]. exists (a_reset a). split; [apply in_or_app; right; now left|exact H2].
  - split; [|intros _]; (apply K; [now left|intros X; exfalso; now apply X]).
  - split; [|intros _]; (apply K; [now left|intros X; exfalso; now apply X]).
  - split; intros; (apply K; [right; eapply KH; reflexivity|]); intros _.
    + exists (a_after a). split; [apply in_or_app; right; right; right; now left|reflexivity].
    + destruct H1 as [H1|H1]; [discriminate|]. exists (a_reset a). split; [apply in_or_app; right; now left|exact H1].
  - split; [|intros _]; (apply K; [now left|intros X; exfalso; now apply X]).
Qed.
Lemma fa_more c rd rd' f : (forall r, In r rd -> In r rd') -> FA c rd f -> FA c rd' f.
Proof. intros S1 [A B]. split; auto. intros Z0. destruct (B Z0) as [C D]. split; auto. intros N. destruct (C N) as (r & X & Y). eauto. Qed.
Lemma fa_mvs base limit c a rd f f' : a_rot a = None -> (forall r, In r rd -> r <= a_now a) -> a_reset a <= a_now a -> FA c rd f ->
  mvs base limit c a f f' -> FA c (rd ++ [a_reset a; a_now a; a_after a]) f'.
Proof.
  intros A B R H M. revert rd B H. induction M; intros rd B HF.
  - eapply fa_more; [|exact HF]. intros. apply in_or_app. auto.
  - eapply fa_mv; eauto.
  - eapply fa_more; [|apply (IHM (rd ++ [a_reset a]))].
    + intros r X. rewrite <- app_assoc in X. apply in_app_or in X as [X|X]; apply in_or_app; auto. right. cbn in *. tauto.
    + intros r X. apply in_app_or in X as [X|X]; auto. destruct X as [<-|[]]. exact R.
    + eapply fa_mv; eauto.
Qed.
Lemma log_age_pf e d m l c ls s i w1 e1 w2 e2 : exec step (init e d m l c) ls = Next s -> closes_ok i ls -> flags_kept ls ->
  ascending (clock i ls) -> f_said (s_files s i) = 0%nat ->
  f_wrote (s_files s i) = w1 ++ e1 :: w2 ++ [e2] -> en_time e1 + c * 1000000000 <= en_time e2 ->
  begins (body (en_file e1) (w1 ++ [e1])) (f_disk (s_files s i) (en_file e1)).
Proof.
  intros E C F As Z0 W T.
  assert (Forall (fun a => a_rot a = None) (answers i ls) -> ascending (clk (answers i ls)) -> FA c (clk (answers i ls)) (s_files s i)) as K.
  { apply (trace_inv (s_base (init e d m l c)) (limit_of (init e d m l c)) (fun k => k = c)
      (fun al f => Forall (fun a => a_rot a = None) al -> ascending (clk al) -> FA c (clk al) f)) with (e := e) (d := d) (m := m) (l := l) (c := c); auto.
    - intros _ _. split; [apply fc_0|]. intros _. split; [easy|]. apply waits_all. reflexivity.
    - intros al a f f' k -> HJ M F1 A1. apply Forall_app in F1 as [F1 F2]. inversion F2; subst. unfold clk in *. rewrite flat_map_app in A1 |- *.
      pose proof A1 as A2. apply ascending_app in A1 as (A1 & A3 & A4). cbn [flat_map app] in *.
      eapply fa_more; [|eapply (fa_mvs _ _ c a _ f f' H1); [|cbn in A3; destruct A3 as [_ [A3 _]]; inversion A3; auto|apply (HJ F1 A1)|exact M]].
      + intros r X. apply in_app_or in X as [X|X]; apply in_or_app; auto. right. cbn in *. tauto.
      + intros r X. apply (A4 r (a_now a)); auto. cbn. tauto.
    - eapply Forall_impl; [|exact F]. intros x X. destruct x; easy. }
  destruct (K C As) as [FCf H]. destruct (H Z0) as [_ (v1 & v2 & V1 & V2 & V3)].
  destruct v2 as [|x v2] using rev_ind.
  - rewrite app_nil_r in V1. rewrite <- V1, W in V2. eapply begins_trans; [|apply V2].
    replace (w1 ++ e1 :: w2 ++ [e2]) with ((w1 ++ [e1]) ++ w2 ++ [e2]) by (rewrite <- !app_assoc; reflexivity). rewrite (body_app _ (w1 ++ [e1])). apply begins_app, begins_refl.
  - clear IHv2. rewrite W in V1. replace (w1 ++ e1 :: w2 ++ [e2]) with ((w1 ++ [e1] ++ w2) ++ [e2]) in V1 by (rewrite <- !app_assoc; reflexivity).
    rewrite (app_assoc v1) in V1. apply app_inj_tail in V1 as [V1 <-]. apply Forall_app in V3 as [V3 V4]. inversion V4 as [|? ? V5 _]; subst.
    fold second in T.
    assert (~ In e1 v2) as NI. { intros X. rewrite Forall_forall in V3. specialize (V3 _ X). lia. }
    assert (exists y, v1 = (w1 ++ [e1]) ++ y) as [y ->].
    { clear -V1 NI. revert w1 V1. induction v1 as [|z v1 IH]; intros w1 V1.
      - exfalso. apply NI. cbn in V1. rewrite <- V1. apply in_or_app. right. now left.
      - destruct w1 as [|z' w1]; cbn in V1; injection V1 as -> V1. now exists v1. destruct (IH w1 V1) as [y ->]. now exists y. }
    eapply begins_trans; [|apply V2]. rewrite (body_app _ (w1 ++ [e1])). apply begins_app, begins_refl.
Qed.

(** ** The directory *)
Lemma probe_spec ok d : match probe ok (Some d) with Some r => usable ok d /\ with_slash d r | None => ~ usable ok d end.
Proof.
  unfold probe, usable, with_slash, slash. destruct d as [|x d]; [tauto|]. set (y := x :: d). assert (y <> []) as Y by discriminate. clearbody y.
  destruct (ok y).
  - destruct (N.eqb (last y 0%N) 47) eqn:L.
    + apply N.eqb_eq in L. auto.
    + rewrite last_last. auto.
  - intros [_ X]. discriminate.
Qed.
Definition picks (ok : list N -> bool) (cs : list (list N)) (r : list N) : Prop :=
  (r = [] /\ Forall (fun d => ~ usable ok d) cs) \/
  exists b d a, cs = b ++ d :: a /\ Forall (fun d => ~ usable ok d) b /\ usable ok d /\ with_slash d r.
Lemma picks_cons ok d cs k : picks ok cs k -> picks ok (d :: cs) (match probe ok (Some d) with Some r => r | None => k end).
Proof.
  intros H. pose proof (probe_spec ok d) as P. destruct (probe ok (Some d)) as [r|].
  - right. exists [], d, cs. split; [reflexivity|]. split; [constructor|exact P].
  - destruct H as [[-> H]|(b & x & a & -> & H1 & H2)].
    + left. auto.
    + right. exists (d :: b), x, a. split; auto.
Qed.
Lemma picks_opt ok o cs k : picks ok cs k -> picks ok (opt o ++ cs) (match probe ok o with Some r => r | None => k end).
Proof. destruct o as [d|]; [apply picks_cons|auto]. Qed.
Lemma log_dir_pf ok flag tmpdir tmp :
  let r := find_dir ok flag tmpdir tmp in
  (r = [] /\ Forall (fun d => ~ usable ok d) (candidates flag tmpdir tmp)) \/
  exists b d a, candidates flag tmpdir tmp = b ++ d :: a /\ Forall (fun d => ~ usable ok d) b /\ usable ok d /\ with_slash d r.
Proof.
  cbn zeta. change (picks ok (candidates flag tmpdir tmp) (find_dir ok flag tmpdir tmp)). unfold find_dir, candidates.
  assert (picks ok [] []) as P0 by (left; auto).
  destruct flag as [|x f].
  - apply picks_opt, picks_opt. do 2 apply picks_cons. exact P0.
  - apply picks_cons. exact P0.
Qed.

(** ** Concrete runs *)
Definition A (now : Z) : ans := Ans now now now now true true None 0 None None None.
Definition dir1 : list N := [47%N].
Lemma ascending_dec l : (fix go l := match l with [] => true | x :: l' => forallb (Z.leb x) l' && go l' end) l = true -> ascending l.
Proof.
  induction l as [|x l IH]; cbn; auto. intros H. apply andb_prop in H as [H1 H2]. split; auto.
  rewrite forallb_forall in H1. apply Forall_forall. intros y Y. specialize (H1 y Y). lia.
Qed.
Lemma obs_val {B} (g : sink -> B) s0 ls s v : exec step s0 ls = Next s -> obs g (exec step s0 ls) = Some v -> g s = v.
Proof. intros ->. cbn. congruence. Qed.
Lemma exec_ok s0 ls : obs (fun _ => tt) (exec step s0 ls) = Some tt -> exists s, exec step s0 ls = Next s.
Proof. destruct (exec step s0 ls); try discriminate. eauto. Qed.
Definition hour : Z := 3600 * second.
Definition age_run : list label :=
  [LSend 0 1 [87%N]; LFile 0 1 (A second); LFile 0 0 (A second); LSend 0 0 [73%N]; LFile 0 0 (A hour)].
Lemma log_age_refuted_pf : exists ls s e1 e2,
  exec step (init false dir1 200 1 30) ls = Next s /\ flags_kept ls /\
  (forall i, (i < 3)%nat -> closes_ok i ls /\ ascending (clock i ls) /\ f_said (s_files s i) = 0%nat) /\
  f_wrote (s_files s 1%nat) = [e1] /\ In e2 (f_wrote (s_files s 0%nat)) /\
  en_time e1 + 30 * 1000000000 <= en_time e2 /\ en_text e1 <> [] /\
  f_disk (s_files s 1%nat) (en_file e1) = [].
Proof.
  exists age_run. destruct (exec_ok (init false dir1 200 1 30) age_run) as (s & E); [vm_compute; reflexivity|].
  exists s, (Entry 0 1 second [87%N]), (Entry 0 1 hour [73%N]). split; [exact E|]. split; [repeat constructor|]. split; [|split; [|split; [|split; [|split]]]].
  - intros i Hi. split; [|split].
    + destruct i as [|[|[|i]]]; try lia; repeat constructor.
    + destruct i as [|[|[|i]]]; try lia; apply ascending_dec; reflexivity.
    + destruct i as [|[|[|i]]]; try lia.
      * apply (obs_val (fun s => f_said (s_files s 0%nat)) _ _ _ _ E). vm_compute. reflexivity.
      * apply (obs_val (fun s => f_said (s_files s 1%nat)) _ _ _ _ E). vm_compute. reflexivity.
      * apply (obs_val (fun s => f_said (s_files s 2%nat)) _ _ _ _ E). vm_compute. reflexivity.
  - apply (obs_val (fun s => f_wrote (s_files s 1%nat)) _ _ _ _ E). vm_compute. reflexivity.
  - rewrite (obs_val (fun s => f_wrote (s_files s 0%nat)) _ _ _ [Entry 0 1 second [87%N]; Entry 0 1 hour [73%N]] E) by (vm_compute; reflexivity). right. left. reflexivity.
  - unfold hour, second. cbn. lia.
  - discriminate.
  - apply (obs_val (fun s => f_disk (s_files s 1%nat) 1) _ _ _ _ E). vm_compute. reflexivity.
Qed.
Definition lost_run : list label :=
  [LSend 0 0 [73%N]; LFile 0 0 (A second);
   LDestroy (Ans 0 0 0 0 true true None 0 None (Some 0%nat) None) (A second) (A second)].
Lemma log_close_refuted_pf : exists ls s,
  exec step (init false dir1 200 0 30) ls = Next s /\ s_gone s = true /\
  (forall i, (i < 3)%nat -> f_said (s_files s i) = 0%nat) /\
  body 1 (f_wrote (s_files s 0%nat)) = [73%N] /\ f_disk (s_files s 0%nat) 1 = [].
Proof.
  exists lost_run. destruct (exec_ok (init false dir1 200 0 30) lost_run) as (s & E); [vm_compute; reflexivity|].
  exists s. split; [exact E|]. split; [|split; [|split]].
  - apply (obs_val s_gone _ _ _ _ E). vm_compute. reflexivity.
  - intros i Hi. destruct i as [|[|[|i]]]; try lia.
      * apply (obs_val (fun s => f_said (s_files s 0%nat)) _ _ _ _ E). vm_compute. reflexivity.
      * apply (obs_val (fun s => f_said (s_files s 1%nat)) _ _ _ _ E). vm_compute. reflexivity.
      * apply (obs_val (fun s => f_said (s_files s 2%nat)) _ _ _ _ E). vm_compute. reflexivity.
  - apply (obs_val (fun s => body 1 (f_wrote (s_files s 0%nat))) _ _ _ _ E). vm_compute. reflexivity.
  - apply (obs_val (fun s => f_disk (s_files s 0%nat) 1) _ _ _ _ E). vm_compute. reflexivity.
Qed.
(** Large messages within one second: the file is rotated onto itself. *)
Lemma big_send b f : 1048576 <= size b -> (f_fp f = FNull \/ f_fp f = FLive 1 /\ 1048576 <= f_len f) ->
  exists f', send_file 0 b 0 0 30 1048576 true (A second) f = Some f' /\ f_fp f' = FLive 1 /\ 1048576 <= f_len f' /\
    f_wrote f' = f_wrote f ++ [Entry 0 1 second b] /\ f_said f' = f_said f.
Proof.
  intros Hb Hf. unfold send_file.
  assert (needs_open 1048576 f = true) as ->. { unfold needs_open. destruct Hf as [->|[-> H]]; auto. lia. }
  assert (exists g, openf true 30 (A second) f = Some (g, true) /\ f_fp g = FLive 1 /\ f_wrote g = f_wrote f /\ f_said g = f_said f /\ f_len g = 0) as (g & -> & G1 & G2 & G3 & G4).
  { unfold openf, close. destruct Hf as [->|[-> H]]; cbn [A a_open negb]; eexists; (split; [reflexivity|]); repeat split. }
  assert (exists f', write 0 b 0 0 30 (A second) g = Some f' /\ f_fp f' = FLive 1 /\ 1048576 <= f_len f' /\
    f_wrote f' = f_wrote f ++ [Entry 0 1 second b] /\ f_said f' = f_said f) as W.
  { unfold write. rewrite G1. cbn [A a_take a_spill a_now a_close]. rewrite Z.eqb_refl. cbn [negb]. cbn zeta. fcbn.
    destruct ((0 <? 0) || (kFlushBytes <=? f_since g + size b) || (f_next g <=? second)).
    - unfold flush_locked. fcbn. cbn [A a_flush]. eexists. split; [reflexivity|]. unfold reset. fcbn. rewrite G2, G3, G4. repeat split; auto; lia.
    - eexists. split; [reflexivity|]. fcbn. rewrite G2, G3, G4. repeat split; auto; lia. }
  destruct Hf as [->|[-> _]]; exact W.
Qed.
Definition big_run (n : nat) (b : bytes) : list label := concat (repeat [LSend 0 0 b; LFile 0 0 (A second)] n).
Lemma big_exec b n : 1048576 <= size b -> exists s, exec step (init false dir1 1 0 30) (big_run n b) = Next s /\
  (f_fp (s_files s 0%nat) = FNull \/ f_fp (s_files s 0%nat) = FLive 1 /\ 1048576 <= f_len (s_files s 0%nat)) /\
  f_wrote (s_files s 0%nat) = repeat (Entry 0 1 second b) n /\ f_said (s_files s 0%nat) = 0%nat /\
  s_ops s 0%nat = None /\ s_mb s = 1 /\ s_base s = true /\ s_level s = 0 /\ s_secs s = 30 /\ s_gone s = false.
Proof.
  intros Hb. induction n as [|n (s & E & H1 & H2 & H3 & H4 & H5 & H6 & H7 & H8 & H9)].
  - eexists. split; [reflexivity|]. cbn. repeat split; auto.
  - destruct (big_send b (s_files s 0%nat) Hb H1) as (f & F1 & F2 & F3 & F4 & F5).
    exists (set_op (set_file (set_op s 0 (Some (OSend 0 b 0))) 0 f) 0 None).
    assert (big_run (S n) b = big_run n b ++ [LSend 0 0 b; LFile 0 0 (A second)]) as ->.
    { unfold big_run. cbn [repeat]. rewrite repeat_cons, concat_app. reflexivity. }
    rewrite exec_app, E. split.
    + cbn [exec]. unfold step at 1. rewrite H9, H4, H5. cbn [Z.eqb]. change (clamp 0) with 0%nat. change (Z.of_nat 0) with 0.
      unfold step. unfold set_op at 1. cbn [s_gone s_ops s_level s_secs s_base s_files s_mb]. rewrite H9. unfold set_op at 1. cbn [s_ops]. rewrite updf_same. cbn [Nat.eqb negb].
      change (s_level (set_op s 0 (Some (OSend 0 b 0)))) with (s_level s). change (s_secs (set_op s 0 (Some (OSend 0 b 0)))) with (s_secs s).
      change (s_mb (set_op s 0 (Some (OSend 0 b 0)))) with (s_mb s). change (s_base (set_op s 0 (Some (OSend 0 b 0)))) with (s_base s).
      change (s_files (set_op s 0 (Some (OSend 0 b 0)))) with (s_files s).
      rewrite H5, H6, H7, H8. change (Z.shiftl 1 20) with 1048576. rewrite F1. reflexivity.
    + unfold set_op, set_file. cbn [s_files s_ops s_mb s_base s_level s_secs s_gone]. rewrite !updf_same. rewrite F4, H2, F5. repeat split; auto.
      change ([Entry 0 1 second b]) with (repeat (Entry 0 1 second b) 1). rewrite <- repeat_app. now rewrite Nat.add_1_r.
Qed.
Lemma size_body_repeat b n : size (body 1 (repeat (Entry 0 1 second b) n)) = Z.of_nat n * size b.
Proof.
  induction n as [|n IH]; [reflexivity|]. cbn [repeat]. change (Entry 0 1 second b :: repeat (Entry 0 1 second b) n) with ([Entry 0 1 second b] ++ repeat (Entry 0 1 second b) n).
  rewrite body_app, size_app, IH, body_one. cbn [Z.eqb Pos.eqb]. lia.
Qed.
Lemma log_size_refuted_pf : forall n, exists ls s q,
  exec step (init false dir1 1 0 30) ls = Next s /\ closes_ok 0 ls /\ f_said (s_files s 0%nat) = 0%nat /\
  (length (lines_of q (f_wrote (s_files s 0%nat))) > n)%nat /\
  Z.of_nat n * 1048576 <= size (f_disk (s_files s 0%nat) q).
Proof.
  intros n. assert (exists b, size b = 1048576) as [b Hb].
  { exists (repeat 120%N (N.to_nat 1048576)). unfold size. rewrite repeat_length. rewrite N_nat_Z. reflexivity. }
  destruct (big_exec b (S n)) as (s & E & _ & W & Z0 & _); [lia|].
  exists (big_run (S n) b), s, 1.
  assert (closes_ok 0 (big_run (S n) b)) as C.
  { unfold closes_ok, big_run. generalize (S n). intros k. induction k; cbn [repeat concat]; [constructor|]. rewrite answers_app. apply Forall_app. split; auto. repeat constructor. }
  repeat split; auto.
  - rewrite W. unfold lines_of. rewrite map_length.
    assert (forall k, length (filter (fun e => en_file e =? 1) (repeat (Entry 0 1 second b) k)) = k) as ->; [|lia].
    induction k; auto. cbn. now rewrite IHk.
  - pose proof (log_buffer_pf _ _ _ _ _ _ _ 0 1 E) as H. destruct (log_contents_pf _ _ _ _ _ _ _ 0 1 E C) as [H1 _]. specialize (H1 Z0).
    apply (f_equal size) in H1. rewrite size_app, W, size_body_repeat in H1. lia.
Qed.
