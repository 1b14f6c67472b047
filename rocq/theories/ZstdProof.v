(** Proofs for ZstdProps.v. *)
From Verif Require Import Util ZstdModel ZstdSpec.
From Coq Require Import Lia.

Section Z.
  Variable D : Type.
  Variable dec : D -> list N -> nat -> option (D * nat * list N).
  Variable F : list N -> list N.
  Variable d0 : D.
  Variable R : D -> list N -> list N -> Prop.
  Hypothesis R0 : R d0 [] [].
  Hypothesis RF : forall d x y, R d x y -> prefix y (F x).
  Hypothesis Rdec : forall d x y i k d' c o, R d x y -> dec d i k = Some (d', c, o) ->
      c <= length i /\ length o <= k /\ R d' (x ++ firstn c i) (y ++ o) /\ (length o < k -> c = length i /\ y ++ o = F (x ++ i)).

  (** [y] was made, [x] taken, of the input [X]; [fl]: the decoder has no more. *)
  Definition inv (X : list N) (fl : bool) (z : zst D) (y : list N) : Prop :=
    exists x, R (st z) x y /\ X = x ++ buf z ++ content (up z) /\ honest (up z) = true /\ (fl = true -> buf z = [] /\ y = F x).
  Definition good (X : list N) (k : nat) (y0 acc : list N) (again : Prop) (z' : zst D) (r : result) : Prop :=
    r = Error \/ exists o fl, r = Got o /\ inv X fl z' (y0 ++ o) /\ length o <= k /\ prefix acc o /\
      (length o < k -> buf z' = [] /\ content (up z') = [] /\ (again \/ o <> acc -> fl = true)).
  Lemma loop_ok X k y0 : forall fuel z acc fl, inv X fl z (y0 ++ acc) -> length acc <= k -> length (up z) + (if buf z then 0 else 1) < fuel ->
    forall z' r, loop D dec fuel z k acc = (z', r) -> good X k y0 acc (fl = true \/ buf z <> [] \/ content (up z) <> []) z' r.
  Proof.
    induction fuel as [|f IH]; intros z acc fl I La Lf z' r E; [lia|]. cbn [loop] in E.
    assert (Dec : forall z fl, inv X fl z (y0 ++ acc) -> length (up z) < f -> forall P : Prop,
      match dec (st z) (buf z) (k - length acc) with
      | None => (z, Error)
      | Some (d, c, o) => let z := Z d (skipn c (buf z)) (up z) in let out := acc ++ o in
          if negb (length (buf z) =? 0) && negb (length out =? k) then (z, CheckFailed) else if length out <? k then loop D dec f z k out else (z, Got out)
      end = (z', r) -> good X k y0 acc P z' r).
    { clear z fl I Lf E. intros z fl (x & Rx & EX & H & _) L1 P E. destruct (dec (st z) (buf z) (k - length acc)) as [[[d c] o]|] eqn:Ed; [|injection E as <- <-; now left].
      destruct (Rdec _ _ _ _ _ _ _ _ Rx Ed) as (Hc & Ho & R' & Hf). cbn [buf up st] in E. cbv zeta in E. rewrite app_length in E. rewrite <- app_assoc in R', Hf.
      destruct (Nat.ltb_spec (length acc + length o) k) as [L|L].
      - destruct Hf as [-> Hf]; [lia|]. rewrite firstn_all in R'. rewrite skipn_all in E. cbn [length Nat.eqb negb andb] in E.
        assert (I' : inv X true (Z d [] (up z)) (y0 ++ acc ++ o)). { exists (x ++ buf z). cbn [st buf up app]. rewrite <- app_assoc. auto. }
        destruct (IH _ _ _ I' ltac:(rewrite app_length; lia) ltac:(cbn [up buf]; lia) _ _ E) as [-> |(o' & fl' & -> & I2 & L' & [t Pt] & Hs)]; [now left|]. right. exists o', fl'.
        split; auto. split; auto. split; auto. split; [exists (o ++ t); rewrite app_assoc; auto|]. intros Ls. destruct (Hs Ls) as (B & C & Fl). auto 8.
      - replace (length acc + length o) with k in E by lia. rewrite Nat.eqb_refl in E. cbn [negb] in E. rewrite andb_false_r in E. injection E as <- <-. right. exists (acc ++ o), false.
        split; auto. split; [|split; [rewrite app_length; lia|split; [now exists o|rewrite app_length; lia]]].
        exists (x ++ firstn c (buf z)). cbn [st buf up]. split; auto. split; [|split; [auto|discriminate]]. rewrite EX, <- app_assoc. f_equal. rewrite app_assoc, firstn_skipn. reflexivity. }
    destruct (buf z) as [|b bs] eqn:Eb.
    - destruct I as (x & Rx & EX & H & Fl). rewrite Eb in EX, Fl. destruct (up z) as [|[|[|b l]] up'] eqn:Eu.
      + injection E as <- <-. right. exists acc, fl. split; auto. split; [exists x; rewrite Eb, Eu; auto|]. split; auto. split; [exists []; now rewrite app_nil_r|].
        intros _. rewrite Eu. split; auto. split; auto. intros [[H1|[H1|H1]]|H1]; cbn in *; congruence.
      + discriminate H.
      + injection E as <- <-. destruct up' as [|]; [|discriminate H]. right. exists acc, fl. split; auto. split; [exists x; cbn [st buf up]; auto|]. split; auto.
        split; [exists []; now rewrite app_nil_r|]. intros _. split; auto. split; auto. intros [[H1|[H1|H1]]|H1]; cbn in *; congruence.
      + cbn [length] in Lf. eapply (Dec (Z (st z) (b :: l) up') false); [|cbn [up]; lia|exact E].
        exists x. cbn [st buf up]. split; auto. split; [rewrite EX; reflexivity|]. split; [exact H|discriminate].
    - eapply (Dec z fl I); [lia|exact E].
  Qed.

  Lemma read_ok X fl z y k z' r : inv X fl z y -> read_some D dec z k = (z', r) ->
    r = Error \/ exists o fl', r = Got o /\ inv X fl' z' (y ++ o) /\ length o <= k /\ (length o < k -> buf z' = [] /\ content (up z') = [] /\ (o <> [] -> fl' = true)).
  Proof.
    intros I E. unfold read_some in E. destruct (loop_ok X k y (2 + length (up z)) z [] fl ltac:(now rewrite app_nil_r) ltac:(cbn; lia) ltac:(destruct (buf z); lia) _ _ E) as [-> |(o & fl' & -> & I' & L & _ & Hs)]; [now left|].
    right. exists o, fl'. split; auto. split; auto. split; auto. intros Ls. destruct (Hs Ls) as (A & B & C). auto.
  Qed.
  (** The answers up to the first error. *)
  Lemma reads_ok X : forall ks fl z y z' rs, inv X fl z y -> reads D dec z ks = (z', rs) ->
    Forall (fun r => r <> CheckFailed /\ r <> Fuel) (firstn 1 rs) /\
    (forallb fine rs = true -> exists fl', inv X fl' z' (y ++ delivered rs)).
  Proof.
    induction ks as [|k ks IH]; intros fl z y z' rs I E; cbn [reads] in E.
    - injection E as <- <-. split; [constructor|]. intros _. exists fl. cbn. now rewrite app_nil_r.
    - destruct (read_some D dec z k) as [z1 r] eqn:E1. destruct (reads D dec z1 ks) as [z2 rs2] eqn:E2. injection E as <- <-.
      destruct (read_ok X fl z y k z1 r I E1) as [-> |(o & fl' & -> & I' & L & Hs)].
      + split; [repeat constructor; discriminate|]. intros H. discriminate H.
      + split; [repeat constructor; discriminate|]. intros H. cbn [forallb fine andb] in H. destruct (IH _ _ _ _ _ I' E2) as [_ X2]. destruct (X2 H) as (fl2 & I2). exists fl2. cbn [delivered]. now rewrite app_assoc.
  Qed.
  Lemma inv0 a : honest a = true -> inv (content a) false (Z d0 [] a) [].
  Proof. intros H. exists []. cbn [st buf up app]. repeat split; auto; discriminate. Qed.
  Lemma reads_app ks1 : forall ks2 z, reads D dec z (ks1 ++ ks2) = let '(z1, r1) := reads D dec z ks1 in let '(z2, r2) := reads D dec z1 ks2 in (z2, r1 ++ r2).
  Proof.
    induction ks1 as [|k ks1 IH]; intros ks2 z; cbn [app reads].
    - now destruct (reads D dec z ks2).
    - destruct (read_some D dec z k) as [z1 r]. rewrite IH. destruct (reads D dec z1 ks1) as [z2 r2]. now destruct (reads D dec z2 ks2).
  Qed.
  Lemma reads_len ks : forall z z' rs, reads D dec z ks = (z', rs) -> length rs = length ks.
  Proof.
    induction ks as [|k ks IH]; intros z z' rs E; cbn [reads] in E; [now injection E as <- <-|]. destruct (read_some D dec z k) as [z1 r]. destruct (reads D dec z1 ks) as [z2 r2] eqn:E2.
    injection E as <- <-. cbn. f_equal. eauto.
  Qed.

  Hypothesis Fmono : forall x y, prefix x y -> prefix (F x) (F y).
  Lemma prefix_trans a b c : prefix a b -> prefix b c -> prefix a c.
  Proof. intros [u ->] [v ->]. exists (u ++ v). now rewrite app_assoc. Qed.
  Lemma inv_prefix X fl z y : inv X fl z y -> prefix y (F X).
  Proof. intros (x & Rx & -> & _). eapply prefix_trans; [apply (RF _ _ _ Rx)|]. apply Fmono. eexists. reflexivity. Qed.
  Lemma zstd_sound_pf0 a ks z rs : honest a = true -> reads D dec (Z d0 [] a) ks = (z, rs) -> forallb fine rs = true -> prefix (delivered rs) (F (content a)).
  Proof. intros H E Hf. destruct (reads_ok (content a) ks false _ [] z rs (inv0 a H) E) as [_ X]. destruct (X Hf) as (fl & I). apply inv_prefix in I. exact I. Qed.
  Lemma zstd_short_pf0 a ks k z rs o : honest a = true -> reads D dec (Z d0 [] a) (ks ++ [k]) = (z, rs ++ [Got o]) -> forallb fine rs = true -> 0 < length o < k ->
    delivered (rs ++ [Got o]) = F (content a).
  Proof.
    intros H E Hf Lo. rewrite reads_app in E. destruct (reads D dec (Z d0 [] a) ks) as [z1 r1] eqn:E1. cbn [reads] in E. destruct (read_some D dec z1 k) as [z2 r] eqn:E2.
    injection E as <- E. apply app_inj_tail in E as [-> ->]. destruct (reads_ok (content a) ks false _ [] z1 rs (inv0 a H) E1) as [_ X]. destruct (X Hf) as (fl & I).
    destruct (read_ok _ _ _ _ _ _ _ I E2) as [?|(o' & fl' & [= <-] & I' & L & Hs)]; [discriminate|]. destruct (Hs ltac:(lia)) as (B & C & Fl). destruct I' as (x & Rx & EX & _ & Hfl).
    rewrite B, C in EX. cbn in EX. rewrite app_nil_r in EX. destruct Hfl as [_ Hy]; [apply Fl; destruct o; [cbn in Lo; lia|discriminate]|].
    rewrite EX. rewrite <- Hy. cbn. clear. induction rs as [|[] rs IH]; cbn; rewrite ?app_nil_r; auto. rewrite IH. now rewrite app_assoc.
  Qed.
  Lemma zstd_defined_pf0 a : forall ks z rs, honest a = true -> reads D dec (Z d0 [] a) ks = (z, rs) -> forall i, forallb fine (firstn i rs) = true -> nth_error rs i <> Some CheckFailed /\ nth_error rs i <> Some Fuel.
  Proof.
    intros ks z rs H E i Hf. rewrite <- (firstn_skipn i ks) in E. rewrite reads_app in E. destruct (reads D dec (Z d0 [] a) (firstn i ks)) as [z1 r1] eqn:E1.
    destruct (reads D dec z1 (skipn i ks)) as [z2 r2] eqn:E2. injection E as <- <-. assert (L1 := reads_len _ _ _ _ E1). rewrite firstn_length in L1.
    destruct (Nat.le_gt_cases i (length ks)) as [Li|Li].
    - assert (Li1 : length r1 = i) by lia. rewrite <- Li1 in Hf at 1. rewrite firstn_app, firstn_all, Nat.sub_diag in Hf. cbn [firstn] in Hf. rewrite app_nil_r in Hf.
      destruct (reads_ok (content a) _ false _ [] z1 r1 (inv0 a H) E1) as [_ X]. destruct (X Hf) as (fl & I). destruct (reads_ok _ _ _ _ _ _ _ I E2) as [Y _].
      rewrite nth_error_app2 by lia. rewrite Li1, Nat.sub_diag. destruct r2 as [|r r2]; [split; discriminate|]. cbn in *. inversion Y as [|? ? [Y1 Y2] _]; subst. split; congruence.
    - rewrite skipn_all2 in E2 by lia. injection E2 as <- <-. rewrite app_nil_r. assert (N : nth_error r1 i = None) by (apply nth_error_None; lia). rewrite N. split; discriminate.
  Qed.
End Z.

(** ** Refutation: a decoder that makes two bytes of each. Its state is the byte it has yet to put out. *)
Definition double (d : option N) (i : list N) (k : nat) : option (option N * nat * list N) :=
  let fix go (d : option N) (i : list N) (c : nat) (k : nat) (o : list N) : option N * nat * list N :=
    match k with
    | O => (d, c, o)
    | S k => match d with
             | Some b => go None i c k (o ++ [b])
             | None => match i with [] => (None, c, o) | b :: i => go (Some b) i (S c) k (o ++ [b]) end
             end
    end in Some (go d i 0 k []).
Fixpoint twice (x : list N) : list N := match x with [] => [] | b :: x => b :: b :: twice x end.
Fixpoint double_go (d : option N) (i : list N) (c : nat) (k : nat) (o : list N) : option N * nat * list N :=
    match k with
    | O => (d, c, o)
    | S k => match d with
             | Some b => double_go None i c k (o ++ [b])
             | None => match i with [] => (None, c, o) | b :: i => double_go (Some b) i (S c) k (o ++ [b]) end
             end
    end.
Lemma double_eq d i k : double d i k = Some (double_go d i 0 k []).
Proof. reflexivity. Qed.
Definition pend (d : option N) : list N := match d with Some b => [b] | None => [] end.
Lemma twice_app x y : twice (x ++ y) = twice x ++ twice y.
Proof. induction x; cbn; congruence. Qed.
Lemma double_go_ok k : forall d i c o x y, twice x = y ++ o ++ pend d -> forall d' c' o', double_go d i c k o = (d', c', o') ->
  c <= c' /\ c' <= c + length i /\ length o' <= length o + k /\ twice (x ++ firstn (c' - c) i) = y ++ o' ++ pend d' /\ (length o' < length o + k -> c' = c + length i /\ d' = None).
Proof.
  induction k as [|k IH]; intros d i c o x y H d' c' o' E; cbn [double_go] in E.
  - injection E as <- <- <-. rewrite Nat.sub_diag. cbn [firstn]. rewrite app_nil_r. repeat split; auto; lia.
  - destruct d as [b|].
    + apply (IH None i c (o ++ [b]) x y) in E; [|cbn [pend] in *; rewrite app_nil_r; rewrite H; reflexivity]. destruct E as (A & B & C & Hx & Fl). rewrite app_length in *. cbn [length] in *. repeat split; auto; try lia; apply Fl; lia.
    + destruct i as [|b i].
      * injection E as <- <- <-. rewrite Nat.sub_diag. cbn [firstn]. rewrite app_nil_r. cbn [length]. repeat split; auto; lia.
      * apply (IH (Some b) i (S c) (o ++ [b]) (x ++ [b]) y) in E; [|cbn [pend] in *; rewrite twice_app, H, !app_nil_r; cbn; rewrite <- !app_assoc; reflexivity].
        destruct E as (A & B & C & Hx & Fl). rewrite app_length in *. cbn [length] in *. repeat split; try lia; try (apply Fl; lia).
        rewrite <- Hx, <- app_assoc. f_equal. f_equal. replace (c' - c) with (S (c' - S c)) by lia. reflexivity.
Qed.
Lemma double_contract : contract (option N) double twice None.
Proof.
  exists (fun d x y => twice x = y ++ pend d). split; [reflexivity|]. split; [intros d x y ->; eexists; reflexivity|].
  intros d x y i k d' c o Rx E. rewrite double_eq in E. destruct (double_go d i 0 k []) as [[d1 c1] o1] eqn:E1. injection E as <- <- <-.
  destruct (double_go_ok k d i 0 [] x y Rx _ _ _ E1) as (_ & B & C & Hx & Fl). rewrite Nat.sub_0_r in Hx. cbn [length Nat.add] in *. repeat split; auto.
  - rewrite <- app_assoc. exact Hx.
  - now apply Fl.
  - destruct (Fl H) as [-> ->]. rewrite firstn_all in Hx. rewrite Hx. cbn. now rewrite app_nil_r.
Qed.
Lemma twice_mono x y : prefix x y -> prefix (twice x) (twice y).
Proof. intros [c ->]. rewrite twice_app. eexists. reflexivity. Qed.
Lemma zstd_refuted_pf : ~ entire (option N) double twice None.
Proof.
  intros H. specialize (H [Bytes [5%N; 6%N]; Bytes []] [3] 3 (Z (Some 6%N) [] []) [Got [5%N; 5%N; 6%N]] eq_refl eq_refl ltac:(lia) ltac:(repeat constructor) eq_refl). discriminate H.
Qed.
