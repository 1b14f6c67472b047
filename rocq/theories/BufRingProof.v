From Verif Require Import Util Conc BufRingModel BufRingSpec.
Open Scope N_scope.

Lemma setN_eq {A} (f : N -> A) i v : setN f i v i = v. Proof. unfold setN. now rewrite N.eqb_refl. Qed.
Lemma setN_neq {A} (f : N -> A) i j v : j <> i -> setN f i v j = f j.
Proof. unfold setN. intros H. now apply N.eqb_neq in H as ->. Qed.

Lemma mod_inj a b c : 0 < c -> a < b -> b < a + c -> a mod c <> b mod c.
Proof.
  intros Hc H1 H2 E. pose proof (N.div_mod a c ltac:(lia)) as A. pose proof (N.div_mod b c ltac:(lia)) as B. rewrite E in A.
  assert (Q : a / c < b / c \/ b / c <= a / c) by lia. destruct Q as [Q|Q].
  - assert (c * (a / c + 1) <= c * (b / c)) by (apply N.mul_le_mono_l; lia). lia.
  - assert (c * (b / c) <= c * (a / c)) by (apply N.mul_le_mono_l; lia). lia.
Qed.

Lemma write_frame bs : forall m a x, x < a \/ a + len bs <= x -> write m a bs x = m x.
Proof.
  induction bs as [|b bs IH]; intros m a x H; cbn [write]; auto. rewrite len_cons in H. rewrite IH by lia. apply setN_neq. lia.
Qed.

Section Ring.
  Variables (n es : N) (inc : bool).
  Hypothesis RO : ring_ok n es.
  Notation C := (n * es).
  Lemma n_pos : 0 < n. Proof. destruct RO as [[e [-> _]] _]. assert (2 ^ e <> 0) by (apply N.pow_nonzero; lia). lia. Qed.
  Lemma es_pos : 0 < es. Proof. destruct RO as [_ [H _]]. exact H. Qed.
  Lemma C_pos : 0 < C. Proof. pose proof n_pos. pose proof es_pos. apply N.mul_pos_pos; auto. Qed.
  Lemma n_div : exists c, 65536 = n * c.
  Proof.
    destruct RO as [[e [-> H]] _]. exists (2 ^ (16 - e)). rewrite <- N.pow_add_r. replace (e + (16 - e)) with 16 by lia. reflexivity.
  Qed.
  Lemma mod16 a : (a mod 65536) mod n = a mod n.
  Proof.
    destruct n_div as [c E]. pose proof n_pos. assert (c <> 0) by (intros ->; lia). rewrite E, N.mod_mul_r by lia.
    rewrite N.mul_comm, N.mod_add by lia. apply N.mod_mod. lia.
  Qed.
  Lemma addr h o : o < es -> (h * es + o) mod C = (h mod n) * es + o.
  Proof.
    intros Ho. pose proof n_pos. pose proof es_pos. rewrite (N.div_mod h n) at 1 by lia. rewrite N.mul_add_distr_r.
    replace (n * (h / n) * es + h mod n * es + o) with (h mod n * es + o + (h / n) * C) by lia. rewrite N.mod_add by lia.
    apply N.mod_small. pose proof (N.mod_upper_bound h n ltac:(lia)).
    assert ((h mod n + 1) * es <= n * es) by (apply N.mul_le_mono_r; lia). lia.
  Qed.
  Lemma mul32 b : b < n -> (b * es) mod two32 = b * es.
  Proof. intros H. apply N.mod_small. destruct RO as [_ [P Q]]. assert ((b + 1) * es <= n * es) by (apply N.mul_le_mono_r; lia). lia. Qed.
  Lemma mod_n h : h mod n < n. Proof. pose proof n_pos. apply N.mod_upper_bound. lia. Qed.

  (** The bytes at position [p] of the unrolled storage. *)
  Fixpoint holds (m : N -> N) (p : N) (bs : list N) : Prop :=
    match bs with [] => True | b :: t => m (p mod C) = b /\ holds m (p + 1) t end.
  Lemma holds_app m a b : forall p, holds m p (a ++ b) <-> holds m p a /\ holds m (p + len a) b.
  Proof.
    induction a as [|x a IH]; intros p; cbn [app holds].
    - rewrite len_nil, N.add_0_r. tauto.
    - rewrite IH, len_cons. replace (p + 1 + len a) with (p + (1 + len a)) by lia. tauto.
  Qed.
  Lemma holds_eq m m' bs : forall p, (forall q, p <= q -> q < p + len bs -> m' (q mod C) = m (q mod C)) -> holds m p bs -> holds m' p bs.
  Proof.
    induction bs as [|b bs IH]; intros p H; cbn [holds]; auto. rewrite len_cons in H. intros [H1 H2]. split.
    - rewrite H by lia. exact H1.
    - apply IH; auto. intros q Q1 Q2. apply H; lia.
  Qed.
  Lemma read_holds m h bs : forall o, o + len bs <= es -> holds m (h * es + o) bs -> read m (h mod n * es + o) (length bs) = bs.
  Proof.
    induction bs as [|b bs IH]; intros o L; cbn [holds length read]; auto. rewrite len_cons in L. intros [H1 H2].
    rewrite addr in H1 by lia. rewrite H1. f_equal. rewrite <- N.add_assoc in *. apply IH; [lia|]. now rewrite N.add_assoc in *.
  Qed.
  Lemma write_holds h bs : forall m o, o + len bs <= es -> holds (write m (h mod n * es + o) bs) (h * es + o) bs.
  Proof.
    induction bs as [|b bs IH]; intros m o L; cbn [holds write]; auto. rewrite len_cons in L. split.
    - rewrite addr by lia. rewrite write_frame by lia. apply setN_eq.
    - rewrite <- !N.add_assoc. apply IH. lia.
  Qed.
  Lemma write_far h o bs m q : o + len bs <= es -> q < h * es + o -> h * es + o + len bs <= q + C ->
    write m (h mod n * es + o) bs (q mod C) = m (q mod C).
  Proof.
    intros L Q1 Q2. destruct (N.eq_dec (len bs) 0) as [Z|Z]. { apply len_zero in Z. subst bs. reflexivity. }
    apply write_frame. destruct (N.lt_ge_cases (q mod C) (h mod n * es + o)) as [|G]; [now left|]. right.
    destruct (N.lt_ge_cases (q mod C) (h mod n * es + o + len bs)) as [G2|]; auto. exfalso.
    set (i := q mod C - (h mod n * es + o)). assert (Ei : q mod C = h mod n * es + (o + i)) by (unfold i; lia).
    rewrite <- addr in Ei by lia. revert Ei. apply mod_inj; [apply C_pos | lia | lia].
  Qed.

  (** Positions of proactor and kernel: buffer and offset. The kernel may have dropped the rest of a buffer. *)
  Definition lag (h o h' o' : N) : Prop := (h = h' /\ o = o') \/ (h' = h + 1 /\ o' = 0 /\ 0 < o /\ n <> 1).
  (** Where handling a completion of [res] bytes leads. *)
  Inductive walk : N -> N -> N -> bool -> N -> N -> Prop :=
  | w_keep h o res : 0 < res -> o + res < es -> inc = true -> walk h o res true h (o + res)
  | w_drop h o res fl : 0 < res -> o + res < es -> inc && fl = false -> walk h o res fl (h + 1) 0
  | w_full h o res fl : 0 < res -> o + res = es -> walk h o res fl (h + 1) 0
  | w_next h o res fl h' o' : o < es -> es < o + res -> walk (h + 1) 0 (o + res - es) true h' o' -> walk h o res fl h' o'.
  Lemma walk_le h o res fl h' o' : walk h o res fl h' o' -> o < es -> h * es + o + res <= h' * es + o' /\ o' < es /\ 0 < res.
  Proof.
    intros W. induction W as [h o res A B I | h o res fl A B I | h o res fl A B | h o res fl h' o' A B W IH]; intros Ho; pose proof es_pos.
    - split; [lia|]. auto.
    - rewrite N.mul_add_distr_r. split; [lia|]. auto.
    - rewrite N.mul_add_distr_r. split; [lia|]. auto.
    - rewrite N.mul_add_distr_r in IH. destruct (IH ltac:(lia)) as [X [Y Z]]. split; [lia|]. split; [exact Y|lia].
  Qed.

  Fixpoint chain (m : N -> N) (kh ko h o : N) (q : list cqe) (bss : list (nat * list N)) : Prop :=
    match q with
    | [] => bss = [] /\ lag h o kh ko
    | Fin _ _ :: q => chain m kh ko h o q bss
    | Data k bid res bm _ :: q =>
      match bss with
      | [] => False
      | (k', bs) :: bss =>
        k' = k /\ len bs = res /\ exists h1 o1 h2 o2, lag h o h1 o1 /\ o1 < es /\ bid = h1 mod n /\ holds m (h1 * es + o1) bs /\
          walk h1 o1 res bm h2 o2 /\ chain m kh ko h2 o2 q bss
      end
    end.
  Lemma lag_le h o h' o' : lag h o h' o' -> o < es -> h * es + o <= h' * es + o'.
  Proof. intros [[-> ->]|(-> & -> & _)] Ho; [lia|]. rewrite N.mul_add_distr_r. lia. Qed.
  Lemma chain_le m kh ko q : forall h o bss, o < es -> chain m kh ko h o q bss -> h * es + o <= kh * es + ko.
  Proof.
    induction q as [|[k bid res bm more|k e] q IH]; intros h o bss Ho; cbn [chain].
    - intros [_ L]. now apply lag_le.
    - destruct bss as [|[k' bs] bss]; [contradiction|]. intros (_ & _ & h1 & o1 & h2 & o2 & L & H1 & _ & _ & W & Ch).
      apply lag_le in L; auto. apply walk_le in W as (W1 & W2 & _); auto. specialize (IH _ _ _ W2 Ch). lia.
    - apply IH. exact Ho.
  Qed.
  (** The kernel writes only beyond its position. *)
  Lemma chain_mem m m' kh ko q : forall h o bss, o < es ->
    (forall p, h * es + o <= p -> p < kh * es + ko -> m' (p mod C) = m (p mod C)) -> chain m kh ko h o q bss -> chain m' kh ko h o q bss.
  Proof.
    induction q as [|[k bid res bm more|k e] q IH]; intros h o bss Ho HM; cbn [chain]; auto.
    - destruct bss as [|[k' bs] bss]; [contradiction|]. intros (K & Lb & h1 & o1 & h2 & o2 & L & H1 & Bd & Hd & W & Ch).
      pose proof (lag_le _ _ _ _ L Ho) as Q1. destruct (walk_le _ _ _ _ _ _ W H1) as (Q2 & Q3 & _). pose proof (chain_le _ _ _ _ _ _ _ Q3 Ch) as Q4.
      split; [exact K|]. split; [exact Lb|]. exists h1, o1, h2, o2. repeat split; auto.
      + apply (holds_eq m); auto. intros p P1 P2. apply HM; lia.
      + apply IH; auto. intros p P1 P2. apply HM; lia.
  Qed.
  Lemma chain_snoc m kh ko kh' ko' k res bm more bs h2 o2 : ko < es -> len bs = res -> holds m (kh * es + ko) bs -> walk kh ko res bm h2 o2 -> lag h2 o2 kh' ko' ->
    forall q h o bss, o < es -> chain m kh ko h o q bss -> chain m kh' ko' h o (q ++ [Data k (kh mod n) res bm more]) (bss ++ [(k, bs)]).
  Proof.
    intros Hk Lb Hd W Lg. induction q as [|[k1 bid1 res1 bm1 more1|k1 e1] q IH]; intros h o bss Ho; cbn [chain app].
    - intros [-> L]. cbn [app]. split; auto. split; auto. exists kh, ko, h2, o2. repeat split; auto.
    - destruct bss as [|[k' bs'] bss]; [contradiction|]. cbn [app]. intros (K & Lb' & h1 & o1 & h3 & o3 & L & H1 & Bd & Hd' & W' & Ch).
      split; auto. split; auto. exists h1, o1, h3, o3. repeat split; auto. apply IH; auto. eapply walk_le; eauto.
    - apply IH. exact Ho.
  Qed.
  Lemma chain_fin m kh ko k e q : forall h o bss, chain m kh ko h o q bss -> chain m kh ko h o (q ++ [Fin k e]) bss.
  Proof.
    induction q as [|[k1 bid1 res1 bm1 more1|k1 e1] q IH]; intros h o bss; cbn [chain app]; auto.
    destruct bss as [|[k' bs'] bss]; [contradiction|]. intros (K & Lb' & h1 & o1 & h3 & o3 & L & H1 & Bd & Hd' & W' & Ch).
    split; auto. split; auto. exists h1, o1, h3, o3. repeat split; auto.
  Qed.

  (** The kernel. *)
  Definition entry (h o : N) : ent := mkE ((h mod n) * es + o) (es - o) (h mod n).
  Lemma kfill_spec tl en : forall f m h o bs m' h' part, o < es -> tl <= h + n ->
    (forall x, h <= x -> x < tl -> en (x mod n) = entry x (if x =? h then o else 0)) -> bs <> [] -> h <= tl ->
    kfill n f m h en tl bs = Some (m', h', part) ->
    let o' := if h' =? h then o + part else part in
    holds m' (h * es + o) bs /\
    (forall q, q < h * es + o -> tl * es <= q + C -> m' (q mod C) = m (q mod C)) /\
    h <= h' /\ h' <= tl /\ o' < es /\ (0 < part -> h' < tl) /\ (part = 0 -> h < h') /\
    (part = 0 -> forall fl, walk h o (len bs) fl h' 0) /\
    (0 < part -> h' = h -> len bs = part) /\
    (0 < part -> h < h' -> forall fl, if inc then walk h o (len bs) fl h' o' else walk h o (len bs) fl (h' + 1) 0).
  Proof.
    induction f as [|f IH]; intros m h o bs m' h' part Ho Ht He Nb Hh; cbn [kfill]; [discriminate|].
    destruct (N.eqb_spec h tl) as [|Ne]; [discriminate|]. rewrite He by lia. rewrite N.eqb_refl. unfold entry. cbn [e_len e_addr].
    assert (Lp : 0 < len bs). { destruct bs; [congruence|]. rewrite len_cons. lia. }
    destruct (N.ltb_spec (len bs) (es - o)) as [Hl|Hl].
    - intros [= <- <- <-]. rewrite N.eqb_refl. cbn zeta.
      split; [apply write_holds; lia|]. split; [|repeat split; intros; try lia].
      intros q Q1 Q2. apply write_far; [lia|exact Q1|]. assert ((h + 1) * es <= tl * es) by (apply N.mul_le_mono_r; lia). lia.
    - assert (Lt : len (take (es - o) bs) = es - o) by (rewrite len_take; lia).
      assert (W1 : holds (write m (h mod n * es + o) (take (es - o) bs)) (h * es + o) (take (es - o) bs)) by (apply write_holds; lia).
      assert (W2 : forall q, q < h * es + o -> tl * es <= q + C -> write m (h mod n * es + o) (take (es - o) bs) (q mod C) = m (q mod C)).
      { intros q Q1 Q2. apply write_far; [lia|exact Q1|]. assert ((h + 1) * es <= tl * es) by (apply N.mul_le_mono_r; lia). lia. }
      destruct (drop (es - o) bs) as [|b r] eqn:D.
      + intros [= <- <- <-]. assert (Lb : len bs = es - o). { pose proof (len_drop (es - o) bs) as X. rewrite D, len_nil in X. lia. }
        rewrite take_all in * by lia. replace (h + 1 =? h) with false by (symmetry; apply N.eqb_neq; lia). cbn zeta.
        split; [exact W1|]. split; [exact W2|]. repeat split; intros; try lia.
        * apply w_full; lia.
      + intros K. set (m1 := write m (h mod n * es + o) (take (es - o) bs)) in *.
        assert (Lr : len (b :: r) = len bs - (es - o)) by (rewrite <- D; apply len_drop). assert (Lr0 : 0 < len (b :: r)) by (rewrite len_cons; lia).
        assert (Eq : (h + 1) * es + 0 = h * es + o + (es - o)) by lia.
        specialize (IH m1 (h + 1) 0 (b :: r) m' h' part es_pos ltac:(lia)).
        destruct IH as (A1 & A2 & A3 & A4 & A5 & A6 & A7 & A8 & A9 & A10); auto.
        * intros x X1 X2. rewrite He by lia. replace (x =? h) with false by (symmetry; apply N.eqb_neq; lia). now destruct (x =? h + 1).
        * discriminate.
        * lia.
        * replace (h' =? h) with false by (symmetry; apply N.eqb_neq; lia). cbn zeta. rewrite Eq in A1, A2.
          assert (A5' : part < es). { destruct (h' =? h + 1); [rewrite N.add_0_l in A5|]; exact A5. }
          assert (Hw : forall h2 o2 fl, walk (h + 1) 0 (len (b :: r)) true h2 o2 -> walk h o (len bs) fl h2 o2).
          { intros h2 o2 fl X. apply w_next; [lia|lia|]. replace (o + len bs - es) with (len (b :: r)) by lia. exact X. }
          split; [|split; [|repeat split; try lia]].
          -- rewrite <- (take_drop (es - o) bs), D. apply holds_app. rewrite Lt. split; [|exact A1].
             apply (holds_eq m1); auto. intros q Q1 Q2. rewrite Lt in Q2. apply A2; [lia|].
             assert (tl * es <= (h + n) * es) by (apply N.mul_le_mono_r; lia). lia.
          -- intros q Q1 Q2. rewrite A2 by lia. apply W2; auto.
          -- intros P0 fl. apply Hw. apply A8. exact P0.
          -- intros P0 _ fl. destruct (N.eq_dec h' (h + 1)) as [->|Nh].
             ++ destruct inc eqn:Ei.
                ** apply Hw. rewrite (A9 P0 eq_refl). replace part with (0 + part) at 2 by lia. apply w_keep; auto.
                ** apply Hw. rewrite (A9 P0 eq_refl). apply w_drop; auto. now rewrite Ei.
             ++ specialize (A10 P0 ltac:(lia) true). replace (h' =? h + 1) with false in A10 by (symmetry; apply N.eqb_neq; lia).
                destruct inc; apply Hw; exact A10.
  Qed.

  (** The shared ring: the proactor is at buffer [H], the kernel at offset [ko] of its head. *)
  Record ring (H ko : N) (s : st) : Prop := {
    r_chead : chead s = H mod 65536;
    r_tail : tail s = H + n;
    r_head : khead s <= tail s;
    r_ko : ko < es;
    r_empty : khead s = tail s -> ko = 0;
    r_bids : forall i, i < n -> e_bid (ents s i) = i;
    r_ents : forall x, khead s <= x -> x < tail s -> ents s (x mod n) = entry x (if x =? khead s then ko else 0) }.
  Definition items (s : st) : list cqe :=
    match cur s with Some w => [Data (w_sock w) (w_bid w) (w_res w) (w_incr w) (w_more w)] | None => [] end ++ cq s.
  Record inv (s : st) : Prop := {
    i_all : exists H ko bss, ring H ko s /\ ioff s < es /\ chain (mem s) (khead s) ko H (ioff s) (items s) bss /\
      (forall k, received k (karr s) = given k (hist s) ++ received k bss) /\
      match seg s with
      | None => True
      | Some (a, l) => exists w, cur s = Some w /\ w_bid w = H mod n /\ a = H mod n * es + ioff s /\ l = N.min (w_res w) (es - ioff s)
      end;
    i_reg : forall k, regms s k = false }.

  Lemma cur_bid H ko s : ring H ko s -> e_bid (current n s) = H mod n.
  Proof. intros R. unfold current. rewrite (r_chead _ _ _ R), mod16. apply (r_bids _ _ _ R). apply mod_n. Qed.
  Lemma advance_ring H ko s : ring H ko s -> H < khead s -> ring (H + 1) ko (advance n es s).
  Proof.
    intros R Hk. pose proof (cur_bid _ _ _ R) as Cb. destruct R as [Ch Tl Hd Ko Em Bi En]. pose proof n_pos as Np.
    assert (Im : (tail s + 0) mod n = H mod n). { rewrite N.add_0_r, Tl. replace (H + n) with (H + 1 * n) by lia. apply N.mod_add. lia. }
    constructor; unfold advance; cbn [chead tail khead ents]; unfold add_to_ring; rewrite ?Im, ?Cb.
    - rewrite Ch. apply N.add_mod_idemp_l. lia.
    - lia.
    - lia.
    - exact Ko.
    - intros X. lia.
    - intros i Hi. destruct (N.eq_dec i (H mod n)) as [->|Ni]; [now rewrite setN_eq|]. rewrite setN_neq by auto. now apply Bi.
    - intros x X1 X2. destruct (N.eq_dec x (H + n)) as [->|Nx].
      + assert (Hm : (H + n) mod n = H mod n) by (rewrite <- Tl, <- (N.add_0_r (tail s)); exact Im). rewrite Hm, setN_eq. unfold entry. rewrite Hm.
        rewrite mul32 by apply mod_n. assert (Z : (if H + n =? khead s then ko else 0) = 0).
        { destruct (N.eqb_spec (H + n) (khead s)) as [E|]; auto. apply Em. lia. } rewrite Z. f_equal; lia.
      + rewrite setN_neq; [apply En; lia|]. intros E. symmetry in E. revert E. apply mod_inj; lia.
  Qed.

  Lemma chain_pos m kh ko h o q bss : ko < es -> o < es -> chain m kh ko h o q bss -> h <= kh.
  Proof.
    intros Hk Ho Ch. apply chain_le in Ch; auto. destruct (N.le_gt_cases h kh); auto. assert ((kh + 1) * es <= h * es) by (apply N.mul_le_mono_r; lia). lia.
  Qed.
  Lemma received_app k a b : received k (a ++ b) = received k a ++ received k b.
  Proof. unfold received. now rewrite filter_app, map_app, concat_app. Qed.
  Lemma given_app k a b : given k (a ++ b) = given k a ++ given k b.
  Proof. unfold given. now rewrite map_app, concat_app. Qed.
  Lemma received_cons k j bs t : received k ((j, bs) :: t) = (if Nat.eqb j k then bs else []) ++ received k t.
  Proof. unfold received. cbn. destruct (Nat.eqb j k); reflexivity. Qed.

  Lemma fill_ring_spec k : N.of_nat k <= n -> forall i, i < N.of_nat k -> fill_ring n es k i = mkE (i * es) es i.
  Proof.
    induction k as [|k IH]; intros Hk i Hi; [lia|]. cbn [fill_ring]. unfold add_to_ring. rewrite N.add_0_l, N.mod_small by lia.
    destruct (N.eq_dec i (N.of_nat k)) as [->|Ni].
    - rewrite setN_eq, mul32 by lia. reflexivity.
    - rewrite setN_neq by auto. apply IH; lia.
  Qed.
  Lemma init_inv : inv (init n es).
  Proof.
    pose proof n_pos. pose proof es_pos. constructor; [|reflexivity]. exists 0, 0, []. split; [|split; [|split; [|split]]]; cbn; auto.
    - constructor; cbn [chead tail khead ents init]; auto; try lia.
      + intros i Hi. rewrite fill_ring_spec; [reflexivity| |]; rewrite N2Nat.id; lia.
      + intros x _ Hx. rewrite N.mod_small by lia. rewrite fill_ring_spec; [|rewrite N2Nat.id; lia|rewrite N2Nat.id; lia]. unfold entry. rewrite N.mod_small by lia.
        destruct (x =? 0); f_equal; lia.
    - split; auto. left. auto.
  Qed.

  Lemma step_inv s l : inv s -> match step n es inc s l with Next s' => inv s' | Ub => False | Stuck => True end.
  Proof.
    intros [(H & ko & bss & R & Io & Ch & St & Sg) Rg]. unfold step. destruct (dead s) eqn:Dd; auto. destruct l as [k|k| | | |k bs keep bm more|k e].
    - rewrite Rg. destruct (armed s k); auto. constructor; [|exact Rg]. exists H, ko, bss. destruct R. repeat split; auto.
    - rewrite Rg. constructor; [|exact Rg]. exists H, ko, bss. split; [destruct R; constructor; auto|]. split; [exact Io|]. split; [exact Ch|].
      split; [|exact Sg]. intros j. cbn [karr hist put]. rewrite given_app. cbn. rewrite app_nil_r. apply St.
    - destruct (cur s) as [w|] eqn:Cu; auto. destruct (cq s) as [|[k bid res bm more|k e] q] eqn:Q; auto.
      + constructor; [|exact Rg]. exists H, ko, bss. split; [destruct R; constructor; auto|]. split; [exact Io|]. split; [|split; [exact St|exact Logic.I]].
        unfold items in *. rewrite Cu, Q in Ch. cbn [cur cq put w_sock w_bid w_res w_incr w_more app] in *. exact Ch.
      + unfold items in Ch. rewrite Cu, Q in Ch. cbn [app chain] in Ch.
        assert (X : forall d v, (forall j, given j [v] = []) -> inv (put s (armed s) q None None d (hist s ++ [v]))).
        { intros d v Hv. constructor; [|exact Rg]. exists H, ko, bss. split; [destruct R; constructor; auto|]. split; [exact Io|]. split; [exact Ch|].
          split; [|exact Logic.I]. intros j. cbn [karr hist put]. rewrite given_app, Hv, app_nil_r. apply St. }
        destruct (e =? ENOBUFS); [apply X; reflexivity|]. destruct (e =? 0); apply X; reflexivity.
    - destruct (cur s) as [w|] eqn:Cu; auto. destruct (seg s) as [[a l]|] eqn:Sgq; auto.
      unfold items in Ch. rewrite Cu in Ch. cbn [app chain] in Ch. destruct bss as [|[k' bs] bss]; [contradiction|].
      destruct Ch as (K & Lb & h1 & o1 & h2 & o2 & L & O1 & Bd & Hd & W & Ct).
      (* the proactor's position is made that of the completion *)
      assert (Sy : exists s1, (if e_bid (current n s) =? w_bid w then s else advance n es s) = s1 /\ ring h1 ko s1 /\ ioff s1 = o1 /\
        mem s1 = mem s /\ khead s1 = khead s /\ cq s1 = cq s /\ cur s1 = cur s /\ seg s1 = seg s /\ karr s1 = karr s /\ hist s1 = hist s /\ regms s1 = regms s /\ armed s1 = armed s).
      { rewrite (cur_bid _ _ _ R), Bd. destruct L as [[<- <-]|(-> & -> & P0 & N1)].
        - rewrite N.eqb_refl. exists s. repeat split; auto; apply R.
        - pose proof n_pos. destruct (N.eqb_spec (H mod n) ((H + 1) mod n)) as [E|_]; [exfalso; revert E; apply mod_inj; lia|].
          exists (advance n es s). split; [reflexivity|]. split; [|repeat split].
          apply advance_ring; auto. destruct (walk_le _ _ _ _ _ _ W O1) as (W1 & W2 & _).
          pose proof (chain_pos _ _ _ _ _ _ _ (r_ko _ _ _ R) W2 Ct). destruct (N.le_gt_cases (H + 1) h2); [lia|].
          assert (h2 * es + es <= (H + 1) * es) by (rewrite <- N.mul_succ_l; apply N.mul_le_mono_r; lia). lia. }
      destruct Sy as (s1 & E1 & R1 & I1 & M1 & Kh1 & Q1 & C1 & S1 & Ka1 & Hi1 & Rg1 & Ar1).
      unfold get_buf. rewrite E1. rewrite (cur_bid _ _ _ R1), Bd, N.eqb_refl. pose proof (mod_n h1) as Mn.
      replace (h1 mod n <? n) with true by (symmetry; apply N.ltb_lt; exact Mn). cbn [andb]. rewrite mul32 by exact Mn. rewrite I1.
      assert (Lm : (if es <? w_res w + o1 then es - o1 else w_res w) = N.min (w_res w) (es - o1)) by (destruct (N.ltb_spec es (w_res w + o1)); lia).
      rewrite Lm. assert (Fit : h1 mod n * es + o1 + N.min (w_res w) (es - o1) <=? es * n = true).
      { apply N.leb_le. assert ((h1 mod n + 1) * es <= n * es) by (apply N.mul_le_mono_r; lia). lia. }
      rewrite Fit. constructor; [|cbn; rewrite Rg1; exact Rg]. exists h1, ko, ((k', bs) :: bss).
      split; [destruct R1; constructor; auto|]. cbn [ioff mem khead karr hist seg cur put]. rewrite I1, M1, Kh1, Ka1, Hi1, C1. split; [exact O1|]. split; [|split; [exact St|]].
      + unfold items. cbn [cur cq put]. rewrite ?C1, ?Q1, ?Cu. cbn [app chain]. split; auto. split; auto. exists h1, o1, h2, o2. repeat split; auto. left. auto.
      + exists w. auto.
    - destruct (cur s) as [w|] eqn:Cu; auto. destruct (seg s) as [[a l]|] eqn:Sgq; auto. destruct Sg as (w' & [= <-] & Wb & -> & ->).
      unfold items in Ch. rewrite Cu in Ch. cbn [app chain] in Ch. destruct bss as [|[k' bs] bss]; [contradiction|].
      destruct Ch as (K & Lb & h1 & o1 & h2 & o2 & L & O1 & Bd & Hd & W & Ct). pose proof n_pos as Np.
      destruct L as [[<- <-]|(-> & -> & P0 & N1)].
      2:{ exfalso. rewrite Wb in Bd. revert Bd. apply mod_inj; lia. }
      set (l := N.min (w_res w) (es - ioff s)) in *.
      destruct (walk_le _ _ _ _ _ _ W Io) as (W1 & W2 & W3). pose proof (chain_pos _ _ _ _ _ _ _ (r_ko _ _ _ R) W2 Ct) as Hp.
      assert (Ltk : len (take l bs) = l) by (rewrite len_take; lia).
      assert (Rd : read (mem s) (H mod n * es + ioff s) (N.to_nat l) = take l bs).
      { replace (N.to_nat l) with (length (take l bs)) by (unfold len in Ltk; lia). apply read_holds; [lia|].
        rewrite <- (take_drop l bs) in Hd. apply holds_app in Hd. apply Hd. }
      rewrite Rd. unfold track. rewrite (cur_bid _ _ _ R), Wb, N.eqb_refl.
      assert (Stm : forall k, received k (karr s) = given k (hist s ++ [Got (w_sock w) (take l bs)]) ++ received k ((k', drop l bs) :: bss)).
      { intros k. rewrite St, given_app, !received_cons. subst k'. unfold given at 3. cbn [map concat]. rewrite app_nil_r. destruct (Nat.eqb (w_sock w) k); [|now rewrite app_nil_r].
        rewrite <- !app_assoc. f_equal. rewrite app_assoc, take_drop. reflexivity. }
      destruct (inc && w_incr w && (ioff s + l <? es)) eqn:Cd.
      + apply andb_prop in Cd as [Cd C3]. apply andb_prop in Cd as [C1 C2]. apply N.ltb_lt in C3.
        assert (El : l = w_res w) by lia. rewrite El, N.sub_diag. cbn [N.eqb].
        assert (Hw : h2 = H /\ o2 = ioff s + w_res w).
        { rewrite C2 in W. inversion W; subst; auto; try lia. rewrite C1 in *. discriminate. }
        destruct Hw as [-> ->]. constructor; [|cbn; exact Rg]. exists H, ko, bss. split; [destruct R; constructor; auto|]. cbn [ioff mem khead karr hist seg cur put].
        split; [lia|]. split; [|split; [|exact Logic.I]].
        * unfold items. cbn [cur cq put app]. exact Ct.
        * intros k. rewrite Stm, received_cons. rewrite drop_all by lia. rewrite El. destruct (Nat.eqb k' k); reflexivity.
      + (* the buffer is given back *)
        assert (Hk : H < h2 /\ (w_res w = l -> h2 = H + 1 /\ o2 = 0) /\ (l < w_res w -> walk (H + 1) 0 (w_res w - l) true h2 o2)).
        { clear Stm Rd Ltk St Hd. inversion W as [h o res A B I Eh | h o res fl A B I Eh | h o res fl A B Eh | h o res fl h' o' A B W' Eh]; subst h o res; subst.
          - exfalso. assert (Z : w_incr w = true) by congruence. rewrite I, Z in Cd. cbn [andb] in Cd. apply N.ltb_ge in Cd. lia.
          - repeat split; lia.
          - repeat split; lia.
          - destruct (walk_le _ _ _ _ _ _ W' ltac:(lia)) as (X1 & X2 & X3). split; [|split; [lia|]].
            + destruct (N.le_gt_cases (H + 1) h2); [lia|]. assert (h2 * es + es <= (H + 1) * es) by (rewrite <- N.mul_succ_l; apply N.mul_le_mono_r; lia). lia.
            + intros _. replace (w_res w - l) with (ioff s + w_res w - es) by lia. exact W'. }
        destruct Hk as (K1 & K2 & K3). assert (R1 : ring (H + 1) ko (advance n es s)) by (apply advance_ring; auto; lia).
        rewrite (cur_bid _ _ _ R1). destruct (N.eqb_spec (w_res w - l) 0) as [Ez|Ez].
        * destruct (K2 ltac:(lia)) as [-> ->]. constructor; [|cbn; exact Rg]. exists (H + 1), ko, bss. split; [destruct R1; constructor; auto|].
          cbn [ioff mem khead karr hist seg cur put advance]. split; [apply es_pos|]. split; [|split; [|exact Logic.I]].
          -- unfold items. cbn [cur cq put app advance]. exact Ct.
          -- intros k. rewrite Stm, received_cons. rewrite drop_all by lia. destruct (Nat.eqb k' k); reflexivity.
        * constructor; [|cbn; exact Rg]. exists (H + 1), ko, ((k', drop l bs) :: bss). split; [destruct R1; constructor; auto|].
          cbn [ioff mem khead karr hist seg cur put advance]. split; [apply es_pos|]. split; [|split; [exact Stm|exact Logic.I]].
          unfold items. cbn [cur cq put app advance w_sock w_bid w_res w_incr w_more chain]. split; auto. split; [rewrite len_drop; lia|].
          exists (H + 1), 0, h2, o2. split; [left; auto|]. split; [apply es_pos|]. split; [reflexivity|]. split; [|split; [apply K3; lia|exact Ct]].
          rewrite <- (take_drop l bs) in Hd. apply holds_app in Hd. destruct Hd as [_ Hd]. rewrite Ltk in Hd. replace ((H + 1) * es + 0) with (H * es + ioff s + l) by lia. exact Hd.
    - destruct (armed s k); auto. destruct bs as [|b bs']; auto. set (bs := b :: bs') in *. destruct (kfill n (length bs) (mem s) (khead s) (ents s) (tail s) bs) as [[[m h] part]|] eqn:Kf; auto.
      destruct (((if 0 <? part then h + 1 else h) =? khead s + 1) && negb (Bool.eqb bm (inc && keep && (0 <? part)))) eqn:Gd; auto.
      pose proof (chain_pos _ _ _ _ _ _ _ (r_ko _ _ _ R) Io Ch) as Hp. pose proof (r_head _ _ _ R) as Hh. pose proof (r_tail _ _ _ R) as Ht.
      assert (Nb : bs <> []) by discriminate.
      assert (Tn : tail s <= khead s + n) by lia.
      pose proof (kfill_spec (tail s) (ents s) _ _ _ ko _ _ _ _ (r_ko _ _ _ R) Tn (r_ents _ _ _ R) Nb Hh Kf) as (A1 & A2 & A3 & A4 & A5 & A6 & A7 & A8 & A9 & A10).
      set (o' := if h =? khead s then ko + part else part) in *.
      set (kept := inc && keep && (0 <? part)) in *. set (used := if 0 <? part then h + 1 else h) in *.
      (* the completion and the kernel's new position *)
      assert (Wk : exists h2 o2, walk (khead s) ko (len bs) bm h2 o2 /\ lag h2 o2 (if kept then h else used) (if kept then o' else 0)).
      { destruct (N.ltb_spec 0 part) as [Pp|Pp]; cbn [kept used] in *.
        - destruct (N.eq_dec h (khead s)) as [->|Nh].
          + (* one buffer *)
            rewrite N.eqb_refl in Gd. cbn [andb] in Gd. apply Bool.negb_false_iff, Bool.eqb_prop in Gd. rewrite (A9 Pp eq_refl).
            unfold o' in *. rewrite N.eqb_refl in *. subst bm. unfold kept in *. rewrite Bool.andb_true_r in *. destruct inc eqn:Ei; cbn [andb] in *.
            * destruct keep.
              -- exists (khead s), (ko + part). split; [apply w_keep; auto|left; auto].
              -- exists (khead s + 1), 0. split; [apply w_drop; auto; now rewrite Bool.andb_false_r|left; auto].
            * exists (khead s + 1), 0. split; [apply w_drop; auto; now rewrite Ei|left; auto].
          + specialize (A10 Pp ltac:(lia) bm). unfold kept. rewrite Bool.andb_true_r. destruct inc eqn:Ei; cbn [andb].
            * exists h, o'. split; [exact A10|]. destruct keep; [left; auto|]. right. repeat split.
              -- unfold o'. destruct (h =? khead s); lia.
              -- pose proof (A6 Pp). lia.
            * exists (h + 1), 0. split; [exact A10|left; auto].
        - assert (part = 0) by lia. exists h, 0. split; [apply A8; assumption|]. unfold kept. rewrite Bool.andb_false_r. left. auto. }
      destruct Wk as (h2 & o2 & W & Lg).
      constructor; [|exact Rg]. exists H, (if kept then o' else 0), (bss ++ [(k, bs)]). cbn [ioff mem khead karr hist seg cur].
      split; [|split; [exact Io|split; [|split]]].
      + assert (Kp : kept = true -> 0 < part) by (unfold kept; intros X; apply andb_prop in X as [_ X]; now apply N.ltb_lt in X).
        assert (Us : used <= tail s /\ (0 < part -> used = h + 1) /\ khead s < used).
        { unfold used. destruct (N.ltb_spec 0 part) as [X|X]; [specialize (A6 X)|specialize (A7 ltac:(lia))]; repeat split; lia. }
        destruct Us as (U1 & U2 & U3).
        constructor; cbn [chead tail khead ents].
        * apply (r_chead _ _ _ R).
        * exact Ht.
        * destruct kept; lia.
        * destruct kept; [exact A5|apply es_pos].
        * intros E. destruct kept; [|reflexivity]. specialize (A6 (Kp eq_refl)). lia.
        * intros i Hi. destruct kept eqn:Ek; [|now apply (r_bids _ _ _ R)]. destruct (N.eq_dec i (h mod n)) as [->|Ni]; [rewrite setN_eq|rewrite setN_neq by auto]; cbn [e_bid]; apply (r_bids _ _ _ R); auto.
        * intros x X1 X2. destruct kept eqn:Ek.
          -- specialize (Kp eq_refl). specialize (A6 Kp). destruct (N.eq_dec x h) as [->|Nx].
             ++ rewrite setN_eq, N.eqb_refl. rewrite (r_ents _ _ _ R) by lia. unfold entry, o'. cbn [e_addr e_len e_bid]. destruct (h =? khead s); f_equal; lia.
             ++ rewrite setN_neq by (pose proof n_pos; intros E; symmetry in E; revert E; apply mod_inj; lia). rewrite (r_ents _ _ _ R) by lia.
                replace (x =? khead s) with false by (symmetry; apply N.eqb_neq; lia). replace (x =? h) with false by (symmetry; apply N.eqb_neq; lia). reflexivity.
          -- rewrite (r_ents _ _ _ R) by lia. replace (x =? khead s) with false by (symmetry; apply N.eqb_neq; lia). now destruct (x =? used).
      + unfold items. cbn [cur cq]. rewrite app_assoc. change (match cur s with Some w => _ | None => _ end ++ cq s) with (items s).
        assert (Fh : e_bid (ents s (khead s mod n)) = khead s mod n) by (apply (r_bids _ _ _ R); apply mod_n). rewrite Fh.
        apply (chain_snoc m (khead s) ko _ _ k (len bs) bm more bs h2 o2); auto; [apply (r_ko _ _ _ R)|].
        apply (chain_mem (mem s)); auto. intros p P1 P2. apply A2; [exact P2|].
        rewrite Ht, N.mul_add_distr_r. lia.
      + intros j. rewrite !received_app, St, app_assoc. reflexivity.
      + exact Sg.
    - destruct (armed s k && (negb (e =? ENOBUFS) || (khead s =? tail s))); auto. constructor; [|exact Rg]. exists H, ko, bss.
      split; [destruct R; constructor; auto|]. split; [exact Io|]. split; [|split; [exact St|exact Sg]].
      unfold items in *. cbn [cur cq put mem khead ioff]. rewrite app_assoc. apply chain_fin. exact Ch.
  Qed.

  Lemma reach_bi s : reachable (step n es inc) (init n es) s -> inv s.
  Proof. apply (reach_inv (step n es inc) inv (init n es)); [exact step_inv | apply init_inv]. Qed.
  Lemma bufring_safe_pf : safe (step n es inc) (init n es).
  Proof. apply (reach_inv (step n es inc) inv (init n es)); [exact step_inv | apply init_inv]. Qed.
  Lemma bufring_stream_pf s k : reachable (step n es inc) (init n es) s -> exists rest, received k (karr s) = given k (hist s) ++ rest.
  Proof. intros R. apply reach_bi in R as [(H & ko & bss & _ & _ & _ & St & _) _]. eauto. Qed.
  Lemma bufring_all_pf s k : reachable (step n es inc) (init n es) s -> cq s = [] -> cur s = None -> given k (hist s) = received k (karr s).
  Proof.
    intros R Q Cu. apply reach_bi in R as [(H & ko & bss & _ & _ & Ch & St & _) _]. unfold items in Ch. rewrite Q, Cu in Ch. destruct Ch as [-> _].
    rewrite St. cbn. now rewrite app_nil_r.
  Qed.

  Lemma bufring_returned_pf s : reachable (step n es inc) (init n es) s -> cq s = [] -> cur s = None ->
    khead s < tail s /\ tail s <= khead s + n /\ n <= (tail s - khead s) + 1.
  Proof.
    intros R Q Cu. apply reach_bi in R as [(H & ko & bss & R & _ & Ch & _) _]. unfold items in Ch. rewrite Q, Cu in Ch. destruct Ch as [_ L].
    pose proof (r_tail _ _ _ R). pose proof n_pos. destruct L as [[<- <-]|(-> & _ & _ & N1)]; lia.
  Qed.

  (** The proactor can always finish what it has started. *)
  Definition own (l : lab) : bool := match l with LTake | LGet | LDone => true | _ => false end.
  Lemma advance_same s : cq (advance n es s) = cq s /\ cur (advance n es s) = cur s /\ khead (advance n es s) = khead s /\ dead (advance n es s) = dead s.
  Proof. repeat split. Qed.
  Lemma get_same b l s a x s' : get_buf n es b l s = Some (a, x, s') -> cq s' = cq s /\ cur s' = cur s.
  Proof.
    unfold get_buf. destruct (e_bid (current n s) =? b).
    - destruct ((e_bid (current n s) =? b) && (b <? n)); [|discriminate]. destruct (_ <=? _); [|discriminate]. intros [= _ _ <-]. auto.
    - destruct ((e_bid (current n (advance n es s)) =? b) && (b <? n)); [|discriminate]. destruct (_ <=? _); [|discriminate]. intros [= _ _ <-]. auto.
  Qed.
  Lemma track_same z b i s b' s' : track n es inc z b i s = Some (b', s') -> cq s' = cq s /\ cur s' = cur s.
  Proof.
    unfold track. destruct (_ =? b); [|discriminate]. destruct (inc && i && _); intros [= <- <-]; auto.
  Qed.
  Lemma one_step s : inv s -> dead s = false -> cur s <> None -> exists l s', own l = true /\ step n es inc s l = Next s' /\ inv s' /\ dead s' = false /\ cq s' = cq s /\
    match cur s, cur s' with
    | Some w, Some w' => match seg s, seg s' with None, Some _ => w' = w | Some _, None => w_res w' < w_res w | _, _ => False end
    | _, _ => True end.
  Proof.
    intros I D Cu. destruct (cur s) as [w|] eqn:Ec; [clear Cu|congruence]. destruct (seg s) as [[a x]|] eqn:Es.
    - exists LDone. pose proof (step_inv s LDone I) as X. unfold step in *. rewrite D, Ec, Es in *.
      destruct (track n es inc x (w_bid w) (w_incr w) s) as [[b s1]|] eqn:T; [|contradiction]. apply track_same in T as [T1 T2].
      destruct I as [(H & ko & bss & R & Io & Ch & _ & Sg) _]. rewrite Es in Sg. destruct Sg as (w' & Ew & _ & _ & Ex). rewrite Ec in Ew. injection Ew as <-.
      unfold items in Ch. rewrite Ec in Ch. cbn [app chain] in Ch. destruct bss as [|[k' bs] bss]; [contradiction|].
      destruct Ch as (K & Lb & h1 & o1 & h2 & o2 & L & O1 & Bd & Hd & W & Ct). destruct (walk_le _ _ _ _ _ _ W O1) as (W1 & W2 & W3).
      destruct (w_res w - x =? 0) eqn:Z; eexists; (split; [reflexivity|]; split; [reflexivity|]; split; [exact X|]; cbn [dead cq cur seg put]; repeat split; auto). cbn [w_res]. lia.
    - exists LGet. pose proof (step_inv s LGet I) as X. unfold step in *. rewrite D, Ec, Es in *.
      destruct (get_buf n es (w_bid w) (w_res w) s) as [[[a l] s1]|] eqn:G; [|contradiction]. apply get_same in G as [G1 G2].
      eexists. split; [reflexivity|]. split; [reflexivity|]. split; [exact X|]. cbn [dead cq cur seg put]. rewrite G2, Ec. auto.
  Qed.
  Lemma finish_cur : forall k s, inv s -> dead s = false -> (match cur s with Some w => 2 * N.to_nat (w_res w) + (match seg s with None => 2 | Some _ => 1 end) | None => 0 end < k)%nat ->
    exists ls s', forallb own ls = true /\ exec (step n es inc) s ls = Next s' /\ inv s' /\ dead s' = false /\ cur s' = None /\ cq s' = cq s.
  Proof.
    induction k as [|k IH]; intros s I D M; [lia|]. destruct (cur s) as [w|] eqn:Ec.
    2:{ exists [], s. repeat split; auto; apply I. }
    destruct (one_step s I D) as (l & s' & O & E & I' & D' & Q & Z). { congruence. }
    rewrite Ec in Z. destruct (IH s' I' D') as (ls & s2 & A1 & A2 & A3 & A4 & A5 & A6).
    - destruct (cur s') as [w'|]; [|destruct (seg s); lia]. destruct (seg s), (seg s'); try contradiction; subst; lia.
    - exists (l :: ls), s2. cbn [forallb exec]. rewrite O, E. repeat split; auto; try apply A3. congruence.
  Qed.
  Definition fatal (c : cqe) : bool := match c with Fin _ e => e =? ENOBUFS | _ => false end.
  Lemma finish_all : forall k s, (length (cq s) <= k)%nat -> inv s -> dead s = false -> existsb fatal (cq s) = false ->
    exists ls s', forallb own ls = true /\ exec (step n es inc) s ls = Next s' /\ cq s' = [] /\ cur s' = None.
  Proof.
    induction k as [|k IH]; intros s Lk I D F; destruct (finish_cur _ s I D (Nat.lt_succ_diag_r _)) as (ls & s1 & A1 & A2 & A3 & A4 & A5 & A6).
    - exists ls, s1. repeat split; auto. rewrite A6. destruct (cq s); [auto|cbn in Lk; lia].
    - destruct (cq s) as [|c q] eqn:Q.
      { exists ls, s1. repeat split; auto. }
      cbn [existsb] in F. apply Bool.orb_false_elim in F as [F1 F2]. cbn [length] in Lk.
      pose proof (step_inv s1 LTake A3) as X.
      assert (T : exists s2, step n es inc s1 LTake = Next s2 /\ cq s2 = q /\ dead s2 = false).
      { unfold step. rewrite A4, A5, A6. destruct c as [a b r bm mo|a e]; [eexists; repeat split|]. cbn in F1. rewrite F1. eexists. repeat split. }
      destruct T as (s2 & T1 & T2 & T3). rewrite T1 in X. destruct (IH s2 ltac:(rewrite T2; lia) X T3 ltac:(rewrite T2; exact F2)) as (ls2 & s3 & B1 & B2 & B3 & B4).
      exists (ls ++ LTake :: ls2), s3. rewrite forallb_app, A1, exec_app, A2. cbn [forallb exec own]. rewrite T1. repeat split; auto.
  Qed.
  Lemma bufring_handled_pf s : reachable (step n es inc) (init n es) s -> dead s = false -> (forall k, ~ In (Fin k ENOBUFS) (cq s)) ->
    exists ls s', forallb own ls = true /\ exec (step n es inc) s ls = Next s' /\ cq s' = [] /\ cur s' = None.
  Proof.
    intros R D F. apply (finish_all (length (cq s)) s); auto; [now apply reach_bi|].
    destruct (existsb fatal (cq s)) eqn:E; auto. apply existsb_exists in E as (c & I & X). destruct c as [|k e]; [discriminate|]. cbn in X. apply N.eqb_eq in X. subst. now apply F in I.
  Qed.

  (** A burst that fills all buffers. *)
  Lemma kfill_full tl en : forall f m h bs, (forall x, h <= x -> x < tl -> en (x mod n) = entry x 0) -> h < tl -> len bs = (tl - h) * es -> (N.of_nat f >= tl - h) ->
    exists m', kfill n f m h en tl bs = Some (m', tl, 0).
  Proof.
    induction f as [|f IH]; intros m h bs He Ht Lb Hf; [lia|]. cbn [kfill]. pose proof es_pos.
    replace (h =? tl) with false by (symmetry; apply N.eqb_neq; lia). rewrite He by lia. unfold entry. cbn [e_len e_addr]. rewrite N.sub_0_r.
    assert (1 * es <= (tl - h) * es) by (apply N.mul_le_mono_r; lia). replace (len bs <? es) with false by (symmetry; apply N.ltb_ge; lia).
    pose proof (len_drop es bs) as Ld. destruct (drop es bs) as [|b r] eqn:D.
    - rewrite len_nil in Ld. assert (tl - h = 1). { destruct (N.le_gt_cases (tl - h) 1); [lia|]. assert (2 * es <= (tl - h) * es) by (apply N.mul_le_mono_r; lia). lia. }
      replace (h + 1) with tl by lia. eauto.
    - assert (h + 1 < tl). { destruct (N.lt_ge_cases (h + 1) tl); auto. assert (tl - h = 1) by lia. rewrite H2 in Lb. rewrite len_cons in Ld. lia. }
      apply IH; [intros; apply He; lia|lia| |lia]. rewrite Ld, Lb. replace (tl - h) with ((tl - (h + 1)) + 1) by lia. rewrite N.mul_add_distr_r. lia.
  Qed.
  Lemma krecv_full s k bs m h : dead s = false -> armed s k = true -> bs <> [] -> kfill n (length bs) (mem s) (khead s) (ents s) (tail s) bs = Some (m, h, 0) ->
    exists s', step n es inc s (KRecv k bs false false true) = Next s' /\ cq s' = cq s ++ [Data k (e_bid (ents s (khead s mod n))) (len bs) false true] /\ dead s' = false /\
      tail s' = tail s /\ khead s' = h /\ armed s' = armed s.
  Proof.
    intros D A Nb K. unfold step. rewrite D, A. destruct bs as [|b t]; [congruence|]. rewrite K. change (0 <? 0) with false. rewrite !Bool.andb_false_r. cbn [Bool.eqb negb].
    eexists. split; [reflexivity|]. cbn [cq dead tail khead armed]. auto.
  Qed.
  Lemma full_run : exists bm s, exec (step n es inc) (init n es)
    [LReg 0; KRecv 0 (repeat 0 (N.to_nat (n * es))) false bm true; KFin 0 ENOBUFS] = Next s /\ exists c, cq s = [c; Fin 0 ENOBUFS] /\ dead s = false /\ fatal c = false.
  Proof.
    pose proof n_pos. pose proof es_pos. pose proof C_pos. set (bs := repeat 0 (N.to_nat (n * es))).
    assert (Lb : len bs = n * es) by (unfold bs; rewrite len_repeat; lia).
    assert (Rg : ring 0 0 (init n es)).
    { destruct init_inv as [(H2 & ko & bss & R & _ & Ch & _) _]. cbn in Ch. destruct Ch as [_ L]. pose proof (r_tail _ _ _ R) as T. cbn in T. assert (H2 = 0) by lia. subst H2.
      destruct L as [[_ <-]|(X & _)]; [exact R|lia]. }
    destruct (kfill_full n (fill_ring n es (N.to_nat n)) (length bs) (fun _ => 0) 0 bs) as (m' & K).
    - intros x X1 X2. pose proof (r_ents _ _ _ Rg x X1 X2) as X. cbn [ents init] in X. rewrite X. now destruct (x =? _).
    - lia.
    - rewrite N.sub_0_r. exact Lb.
    - unfold len in Lb. rewrite Lb. nia.
    - exists false. set (s1 := put (init n es) (upd (armed (init n es)) 0 true) [] None None false []).
      assert (S1 : step n es inc (init n es) (LReg 0) = Next s1) by reflexivity.
      destruct (krecv_full s1 0 bs m' n) as (s2 & S2 & Q2 & D2 & T2 & K2 & A2); auto.
      { intros X. rewrite X, len_nil in Lb. lia. }
      assert (S3 : step n es inc s2 (KFin 0 ENOBUFS) = Next (put s2 (upd (armed s2) 0 false) (cq s2 ++ [Fin 0 ENOBUFS]) (cur s2) (seg s2) false (hist s2))).
      { unfold step. rewrite D2, A2, T2, K2. cbn [armed s1 put upd Nat.eqb tail init andb]. rewrite ?N.eqb_refl, ?Bool.orb_true_r. reflexivity. }
      eexists. split; [cbn [exec]; rewrite S1, S2, S3; reflexivity|]. eexists. cbn [cq put]. rewrite Q2. cbn [cq s1 put app dead]. repeat split.
  Qed.
  Lemma bufring_burst_pf : exists s, reachable (step n es inc) (init n es) s /\ In Fatal (hist s) /\ dead s = true.
  Proof.
    destruct full_run as (bm & s & E & c & Q & D & F). assert (R : reachable (step n es inc) (init n es) s) by (eexists; exact E).
    pose proof (reach_bi _ R) as I. destruct (finish_cur _ s I D (Nat.lt_succ_diag_r _)) as (ls & s1 & A1 & A2 & A3 & A4 & A5 & A6).
    rewrite Q in A6. assert (T : exists s2, step n es inc s1 LTake = Next s2 /\ cq s2 = [Fin 0 ENOBUFS] /\ dead s2 = false).
    { unfold step. rewrite A4, A5, A6. destruct c as [a b r bm' mo|a e]; [eexists; repeat split|]. cbn in F. rewrite F. eexists. repeat split. }
    destruct T as (s2 & T1 & T2 & T3). pose proof (step_inv s1 LTake A3) as I2. rewrite T1 in I2.
    destruct (finish_cur _ s2 I2 T3 (Nat.lt_succ_diag_r _)) as (ls2 & s3 & B1 & B2 & B3 & B4 & B5 & B6).
    exists (put s3 (armed s3) [] None None true (hist s3 ++ [Fatal])). split; [|split; [|reflexivity]].
    - apply (reachable_step (step n es inc) _ s3 LTake).
      + eapply reachable_trans; [exact R|]. eapply reachable_trans; [exists ls; exact A2|]. eapply reachable_trans; [exists [LTake]; cbn; rewrite T1; reflexivity|]. exists ls2. exact B2.
      + unfold step. rewrite B4, B5, B6, T2. reflexivity.
    - cbn [hist put]. apply in_app_iff. right. now left.
  Qed.

  (** A registered recv stays armed, or a completion that arms it again is on its way. *)
  Definition rearms (k : nat) (s : st) : Prop := armed s k = true \/ exists b r bm, In (Data k b r bm false) (items s).
  Lemma step_rearms k s l s' : rearms k s -> (forall e, l <> KFin k e) -> (forall j, regms s j = false) -> step n es inc s l = Next s' -> rearms k s'.
  Proof.
    intros P F Rg E. unfold step in E. destruct (dead s); [discriminate|]. destruct l as [j|j| | | |j bs keep bm more|j e].
    - destruct (regms s j); [discriminate|]. destruct (armed s j) eqn:A; [discriminate|]. injection E as <-. destruct P as [P|P]; [|right; exact P].
      left. cbn [armed put]. unfold upd. destruct (Nat.eqb k j); auto.
    - rewrite Rg in E. injection E as <-. exact P.
    - destruct (cur s) eqn:Cu; [discriminate|]. destruct (cq s) as [|[a b r bm mo|a e] q] eqn:Q; [discriminate| |].
      + injection E as <-. destruct P as [P|(b1 & r1 & bm1 & P)]; [left; exact P|right]. exists b1, r1, bm1. unfold items in *. rewrite Cu, Q in P. exact P.
      + assert (X : rearms k (put s (armed s) q None None false (hist s))).
        { destruct P as [P|(b1 & r1 & bm1 & P)]; [left; exact P|right]. exists b1, r1, bm1. unfold items in *. rewrite Cu, Q in P. cbn in P. destruct P as [P|P]; [discriminate|exact P]. }
        destruct (e =? ENOBUFS); injection E as <-; exact X.
    - destruct (cur s) as [w|] eqn:Cu; [|discriminate]. destruct (seg s); [discriminate|]. destruct (get_buf n es (w_bid w) (w_res w) s) as [[[a l] s1]|] eqn:G; [|discriminate].
      assert (Ar : armed s1 = armed s). { unfold get_buf in G. destruct (e_bid (current n s) =? w_bid w).
        - destruct ((e_bid (current n s) =? w_bid w) && (w_bid w <? n)); [|discriminate]. destruct (_ <=? _); [|discriminate]. now injection G as _ _ <-.
        - destruct ((e_bid (current n (advance n es s)) =? w_bid w) && (w_bid w <? n)); [|discriminate]. destruct (_ <=? _); [|discriminate]. now injection G as _ _ <-. }
      apply get_same in G as [G1 G2]. injection E as <-. unfold rearms, items in *. cbn [armed cur cq put]. rewrite Ar, G1, G2. exact P.
    - destruct (cur s) as [w|] eqn:Cu; [|discriminate]. destruct (seg s) as [[a l]|]; [|discriminate]. destruct (track n es inc l (w_bid w) (w_incr w) s) as [[b s1]|] eqn:T; [|discriminate].
      assert (Ar : armed s1 = armed s). { unfold track in T. destruct (_ =? w_bid w); [|discriminate]. destruct (inc && w_incr w && _); injection T as _ <-; reflexivity. }
      apply track_same in T as [T1 T2]. destruct (w_res w - l =? 0); injection E as <-; unfold rearms, items in *; cbn [armed cur cq put w_sock w_bid w_res w_incr w_more]; rewrite ?Ar, ?T1.
      + destruct P as [P|(b1 & r1 & bm1 & P)].
        * left. destruct (w_more w); auto. unfold upd. destruct (Nat.eqb k (w_sock w)); auto.
        * rewrite Cu in P. cbn [app In] in P. destruct P as [P|P].
          -- injection P as <- _ _ _ ->. left. apply upd_eq.
          -- right. exists b1, r1, bm1. exact P.
      + destruct P as [P|(b1 & r1 & bm1 & P)]; [left; exact P|right]. rewrite Cu in P. cbn [app In] in P. destruct P as [P|P].
        * injection P as -> _ _ _ ->. do 3 eexists. left. reflexivity.
        * exists b1, r1, bm1. right. exact P.
    - destruct (armed s j) eqn:A; [|discriminate]. destruct bs as [|b0 bs']; [discriminate|]. destruct (kfill n _ _ _ _ _ _) as [[[m h] part]|]; [|discriminate].
      destruct (_ && negb _); [discriminate|]. injection E as <-. unfold rearms, items in *. cbn [armed cur cq].
      destruct P as [P|(b1 & r1 & bm1 & P)].
      + destruct more; [left; exact P|]. unfold upd. destruct (Nat.eqb_spec k j) as [->|Nk]; [right|left; exact P]. do 3 eexists. rewrite !in_app_iff. right. right. left. reflexivity.
      + right. exists b1, r1, bm1. rewrite app_assoc, in_app_iff. left. exact P.
    - destruct (armed s j && _); [|discriminate]. injection E as <-. unfold rearms, items in *. cbn [armed cur cq put].
      destruct P as [P|(b1 & r1 & bm1 & P)].
      + left. rewrite upd_neq; auto. intros ->. now apply (F e).
      + right. exists b1, r1, bm1. rewrite app_assoc, in_app_iff. left. exact P.
  Qed.
  Lemma bufring_armed_pf ls s k : exec (step n es inc) (init n es) ls = Next s -> In (LReg k) ls -> (forall e, ~ In (KFin k e) ls) -> cq s = [] -> cur s = None -> armed s k = true.
  Proof.
    intros E I F Q Cu. assert (X : rearms k s).
    { clear Q Cu. revert s E. induction ls as [|l ls IH] using rev_ind; intros s E; [contradiction|]. rewrite exec_app in E.
      destruct (exec (step n es inc) (init n es) ls) as [| |s1] eqn:E1; try discriminate. cbn in E. destruct (step n es inc s1 l) as [| |s2] eqn:E2; try discriminate. injection E as <-.
      assert (I1 : inv s1) by (apply reach_bi; exists ls; exact E1). apply in_app_iff in I. destruct I as [I|[->|[]]].
      - apply (step_rearms k s1 l); auto.
        + apply IH; auto. intros e Ie. apply (F e). apply in_app_iff. auto.
        + intros e ->. apply (F e). apply in_app_iff. right. now left.
        + apply I1.
      - left. unfold step in E2. destruct (dead s1); [discriminate|]. destruct (regms s1 k); [discriminate|]. destruct (armed s1 k); [discriminate|]. injection E2 as <-. cbn [armed put]. apply upd_eq. }
    destruct X as [X|(b & r & bm & X)]; auto. unfold items in X. rewrite Q, Cu in X. contradiction.
  Qed.
End Ring.
