(** Proofs for PodProps.v. *)
From Verif Require Import Util Conc PodModel PodSpec.
From Coq Require Import Lia.

Lemma fn_app {A} (a b : list A) n : n = length a -> firstn n (a ++ b) = a.
Proof. intros ->. rewrite firstn_app, Nat.sub_diag, firstn_all. cbn. apply app_nil_r. Qed.
Lemma sn_app {A} (a b : list A) n : n = length a -> skipn n (a ++ b) = b.
Proof. intros ->. rewrite skipn_app, Nat.sub_diag, skipn_all. reflexivity. Qed.
Lemma sn_app2 {A} (a b : list A) n m : n = length a + m -> skipn n (a ++ b) = skipn m b.
Proof. intros ->. rewrite skipn_app. rewrite skipn_all2 by lia. cbn. f_equal. lia. Qed.

Section P.
  Variable j k : nat.
  Definition sz := 2 ^ j.
  Definition al := 2 ^ k.
  Lemma sz_pos : 0 < sz. Proof. unfold sz. assert (X := Nat.pow_nonzero 2 j). lia. Qed.
  Local Opaque sz.

  Definition sized (v : list (list cell)) : Prop := Forall (fun x => length x = sz) v.
  Lemma sized_len v : sized v -> length (concat v) = length v * sz.
  Proof. induction 1; cbn; auto. rewrite app_length. lia. Qed.
  Lemma sized_app v w : sized (v ++ w) <-> sized v /\ sized w.
  Proof. apply Forall_app. Qed.
  Lemma elems_sized xs : forallb (elem sz) xs = true -> sized xs.
  Proof. intros H. apply Forall_forall. intros x Hx. rewrite forallb_forall in H. apply H in Hx. now apply Nat.eqb_eq. Qed.
  Lemma repeat_sized x n : elem sz x = true -> sized (repeat x n).
  Proof. intros H. apply Forall_forall. intros y Hy. apply repeat_spec in Hy. subst. now apply Nat.eqb_eq. Qed.

  (** [a] has the elements [v], and room for [c] in all. *)
  Record G (a : arr) (v : list (list cell)) (c : nat) : Prop := {
    g_val : exists r, content a = concat v ++ r;
    g_sized : sized v;
    g_fin : fin a = length v * sz;
    g_room : stored a = c * sz;
    g_blk : bytes a <> None -> blk a = mr a /\ 0 < c
  }.
  Lemma stored_content a : stored a = length (content a).
  Proof. unfold stored, content. now destruct (bytes a). Qed.
  Lemma g_le a v c : G a v c -> length v <= c.
  Proof.
    intros [[r E] S F R _]. rewrite stored_content, E, app_length, sized_len in R by auto. assert (X := sz_pos). nia.
  Qed.
  Lemma g_size a v c : G a v c -> size sz a = length v.
  Proof. intros H. unfold size. rewrite (g_fin _ _ _ H). apply Nat.div_mul. assert (X := sz_pos). lia. Qed.
  Lemma g_cap a v c : G a v c -> capacity sz a = c.
  Proof. intros H. unfold capacity. rewrite (g_room _ _ _ H). apply Nat.div_mul. assert (X := sz_pos). lia. Qed.
  Lemma at_nth v : forall r i x, sized v -> nth_error v i = Some x -> firstn sz (skipn (i * sz) (concat v ++ r)) = x.
  Proof.
    induction v as [|y v IH]; intros r i x S H; [destruct i; discriminate|]. inversion S; subst. destruct i as [|i].
    - injection H as ->. cbn [concat Nat.mul skipn]. rewrite <- app_assoc. now apply fn_app.
    - cbn [concat]. rewrite <- app_assoc. rewrite (sn_app2 _ _ _ (i * sz)) by (cbn; lia). now apply IH.
  Qed.
  Lemma g_elems a v c : G a v c -> elems sz a = v.
  Proof.
    intros H. unfold elems. rewrite (g_size _ _ _ H). destruct H as [[r E] S _ _ _].
    apply (nth_ext _ _ [] []); [now rewrite map_length, seq_length|]. intros i Hi. rewrite map_length, seq_length in Hi.
    rewrite (nth_indep _ [] (at_ sz a 0)) by now rewrite map_length, seq_length. rewrite map_nth, seq_nth by auto. cbn. unfold at_. rewrite E.
    apply at_nth; auto. now apply nth_error_nth'.
  Qed.

  Lemma bc_le n : n <= bit_ceil n.
  Proof. unfold bit_ceil. destruct n as [|n]; [lia|]. apply Nat.log2_log2_up_spec. lia. Qed.
  Lemma bc_mul n : sz <= n -> exists c, bit_ceil n = c * sz /\ 0 < c.
  Proof.
    intros H. assert (X := bc_le n). unfold bit_ceil in *. assert (L : j <= Nat.log2_up n).
    { apply (Nat.pow_le_mono_r_iff 2); [lia|]. change (2 ^ j) with sz. lia. }
    exists (2 ^ (Nat.log2_up n - j)). split.
    - change sz with (2 ^ j). rewrite <- Nat.pow_add_r. f_equal. lia.
    - assert (Y := Nat.pow_nonzero 2 (Nat.log2_up n - j)). lia.
  Qed.
  Lemma min_mem_bc n : 0 < n -> exists c, bit_ceil (min_mem sz al n) = c * sz /\ n <= c.
  Proof.
    intros H. assert (X := sz_pos). destruct (bc_mul (min_mem sz al n)) as (c & E & P); [unfold min_mem; nia|]. exists c. split; auto.
    assert (Y := bc_le (min_mem sz al n)). rewrite E in Y. unfold min_mem in Y. nia.
  Qed.
  Lemma min_mem_al n : sz <= al -> exists c, bit_ceil (min_mem sz al n) = c * sz /\ n <= c /\ 0 < c.
  Proof.
    intros H. assert (X := sz_pos). destruct (bc_mul (min_mem sz al n)) as (c & E & P); [unfold min_mem; nia|]. exists c. split; auto.
    assert (Y := bc_le (min_mem sz al n)). rewrite E in Y. unfold min_mem in Y. nia.
  Qed.

  Lemma alloc_G n a c : bit_ceil n = c * sz -> 0 < c -> G (alloc n a) [] c.
  Proof.
    intros E P. split; unfold alloc; cbn [bytes fin blk mr content stored].
    - exists (repeat None (bit_ceil n)). reflexivity.
    - constructor.
    - reflexivity.
    - now rewrite repeat_length.
    - auto.
  Qed.
  Lemma realloc_G n a v c c' : G a v c -> bit_ceil n = c' * sz -> length v <= c' -> 0 < c' -> exists b, realloc n a = Next b /\ G b v c' /\ mr b = mr a.
  Proof.
    intros H E L P. assert (Hl := g_le _ _ _ H). destruct H as [[r Ec] S F R B]. unfold realloc, content in *. destruct (bytes a) as [m|] eqn:Em.
    - assert (X := sz_pos). unfold stored in R. rewrite Em in R. rewrite E, F. cbv zeta. rewrite (proj2 (Nat.leb_le _ _)) by nia. rewrite (proj2 (Nat.leb_le _ _)) by nia. cbn [andb].
      unfold dealloc. rewrite Em. destruct (B ltac:(discriminate)) as [Bb _]. rewrite Bb, Nat.eqb_refl. eexists. split; [reflexivity|]. split; [|reflexivity].
      split; cbn [bytes fin blk mr]; auto.
      + unfold content. cbn [bytes]. exists (repeat None (c' * sz - length v * sz)). f_equal. rewrite Ec. apply fn_app. now rewrite sized_len.
      + unfold stored. cbn [bytes]. rewrite app_length, firstn_length, repeat_length. nia.
    - destruct v as [|x v]; [|exfalso].
      + eexists. split; [reflexivity|]. split; [|reflexivity]. now apply alloc_G.
      + inversion S; subst. assert (X := sz_pos). destruct x; [cbn in *; lia|discriminate].
  Qed.
  Lemma reserve_G n a v c : G a v c -> exists b c', reserve sz al n a = Next b /\ G b v c' /\ n <= c' /\ mr b = mr a.
  Proof.
    intros H. unfold reserve. rewrite (g_cap _ _ _ H). destruct (Nat.ltb_spec c n) as [L|L].
    - destruct (min_mem_bc n) as (c' & E & P); [lia|]. assert (Hl := g_le _ _ _ H). destruct (realloc_G _ _ _ _ c' H E) as (b & Eb & Gb & M); [lia|lia|]. exists b, c'. auto.
    - exists a, c. auto.
  Qed.
  Lemma reserve1_G a v c : G a v c -> exists b c', reserve1 sz al a = Next b /\ G b v c' /\ S (length v) <= c' /\ mr b = mr a.
  Proof.
    intros H. unfold reserve1. destruct (bytes a) as [m|] eqn:Em.
    - rewrite (g_cap _ _ _ H). destruct (g_blk _ _ _ H) as [_ P]; [congruence|]. assert (Hl := g_le _ _ _ H).
      destruct (min_mem_bc (c * 2)) as (c' & E & L); [lia|]. destruct (realloc_G _ _ _ _ c' H E) as (b & Eb & Gb & M); [lia|lia|]. exists b, c'. split; auto. split; auto. split; auto. lia.
    - destruct v as [|x v].
      + destruct (min_mem_bc 1) as (c' & E & L); [lia|]. exists (alloc (Nat.max al (min_mem sz al 1)) a), c'. split; [reflexivity|]. split; [|split; [cbn; lia|reflexivity]].
        apply alloc_G; [|lia]. rewrite <- E. f_equal. unfold min_mem. lia.
      + exfalso. destruct H as [[r Ec] S _ _ _]. unfold content in Ec. rewrite Em in Ec. inversion S; subst. assert (X := sz_pos). destruct x; [cbn in *; lia|discriminate].
  Qed.
  Lemma write_ok off x a : off + length x <= stored a -> exists b, write off x a = Next b /\
    content b = firstn off (content a) ++ x ++ skipn (off + length x) (content a) /\ stored b = stored a /\ fin b = fin a /\ blk b = blk a /\ mr b = mr a /\
    (bytes b = None <-> bytes a = None).
  Proof.
    intros H. unfold write. rewrite (proj2 (Nat.leb_le _ _)) by auto. eexists. split; [reflexivity|]. unfold stored, content in *. cbn [bytes fin blk mr].
    destruct (bytes a) as [m|] eqn:Em; cbn [bytes].
    - split; [reflexivity|]. split; [|split; [auto|split; [auto|split; [auto|split; discriminate]]]]. rewrite !app_length, firstn_length, skipn_length. lia.
    - assert (off = 0) by lia. assert (x = []) by (destruct x; cbn in *; [auto|lia]). subst. cbn. repeat split; auto.
  Qed.
  (** Writing [x] at the end of the first elements [v1]. *)
  Lemma write_at off v1 xs a v c : G a v c -> (exists w, v = v1 ++ w) -> sized xs -> off = length v1 * sz -> length v1 + length xs <= c ->
    exists b, write off (concat xs) a = Next b /\ (forall n, n = (length v1 + length xs) * sz -> G (set_fin n b) (v1 ++ xs) c) /\ fin b = fin a /\ mr b = mr a.
  Proof.
    intros H [w ->] Sx -> L. destruct H as [[r E] S F R B]. apply sized_app in S as [S1 S2].
    destruct (write_ok (length v1 * sz) (concat xs) a) as (b & Eb & Ec & Es & Ef & Ebl & Em & En).
    { rewrite R, sized_len by auto. nia. }
    exists b. split; auto. split; [|auto]. intros n Hn. split; cbn [set_fin bytes fin blk mr].
    - change (content (set_fin n b)) with (content b). rewrite Ec, E, concat_app, <- app_assoc. rewrite fn_app by now rewrite sized_len.
      rewrite concat_app, app_assoc. eexists. reflexivity.
    - apply sized_app. auto.
    - rewrite app_length. exact Hn.
    - change (stored (set_fin n b)) with (stored b). now rewrite Es.
    - rewrite Ebl, Em, En. auto.
  Qed.
  Lemma G_fin n v w a c : G a (v ++ w) c -> n = length v * sz -> G (set_fin n a) v c.
  Proof.
    intros [[r E] S F R B] ->. apply sized_app in S as [S1 S2]. split; cbn [set_fin bytes fin blk mr]; auto.
    change (content (set_fin _ a)) with (content a). rewrite E, concat_app, <- app_assoc. eauto.
  Qed.
  Lemma G_same n a v c : G a v c -> n = length v * sz -> G (set_fin n a) v c.
  Proof. intros H. rewrite <- (app_nil_r v) in H. now apply (G_fin n v []). Qed.

  Lemma room a v c n : G a v c -> exists b c', (if capacity sz a <? n then reserve sz al (bit_ceil n) a else Next a) = Next b /\ G b v c' /\ n <= c' /\ mr b = mr a.
  Proof.
    intros H. rewrite (g_cap _ _ _ H). destruct (Nat.ltb_spec c n) as [L|L].
    - destruct (reserve_G (bit_ceil n) _ _ _ H) as (b & c' & E & Gb & Hl & M). exists b, c'. split; auto. split; auto. split; auto. assert (X := bc_le n). lia.
    - exists a, c. auto.
  Qed.

  Definition done (a : arr) (o : outcome arr) (P : list (list cell) -> Prop) : Prop :=
    exists b w c, o = Next b /\ G b w c /\ P w /\ mr b = mr a.

  Lemma push_ok x a v c : G a v c -> elem sz x = true -> done a (push sz al x a) (fun w => w = v ++ [x]).
  Proof.
    intros H Hx. unfold push. assert (R : exists b c', (if fin a =? stored a then reserve1 sz al a else Next a) = Next b /\ G b v c' /\ S (length v) <= c' /\ mr b = mr a).
    { destruct (Nat.eqb_spec (fin a) (stored a)) as [E|E].
      - now apply (reserve1_G a v c).
      - exists a, c. split; auto. split; auto. split; auto. rewrite (g_fin _ _ _ H), (g_room _ _ _ H) in E. assert (L := g_le _ _ _ H).
        destruct (Nat.eq_dec (length v) c); [congruence|lia]. }
    destruct R as (b & c' & -> & Gb & L & M). cbn [bind].
    destruct (write_at (fin b) v [x] b v c' Gb) as (b' & Ew & Gw & Ef & Em).
    - exists []. now rewrite app_nil_r.
    - constructor; [now apply Nat.eqb_eq|constructor].
    - apply (g_fin _ _ _ Gb).
    - cbn. lia.
    - cbn [concat] in Ew. rewrite app_nil_r in Ew. rewrite Ew. cbn [bind]. eexists _, (v ++ [x]), c'. split; [reflexivity|].
      split; [|split; [reflexivity|cbn; congruence]]. apply Gw. rewrite Ef, (g_fin _ _ _ Gb). cbn. lia.
  Qed.
  Lemma concat_repeat_len x n : elem sz x = true -> length (concat (repeat x n)) = n * sz.
  Proof. intros H. rewrite sized_len by now apply repeat_sized. now rewrite repeat_length. Qed.
  Lemma repeat_byte n : repeat (Some 0%N) n = concat (repeat [Some 0%N] n).
  Proof. induction n; cbn; congruence. Qed.
  Lemma fill_ok n x a v c : G a v c -> elem sz x = true ->
    done a (bind (if size sz a <? n then bind (reserve sz al n a) (fun b => write (fin b) (concat (repeat x (n - size sz a))) b) else Next a)
         (fun a => Next (set_fin (n * sz) a))) (fun w => w = firstn n v ++ repeat x (n - length v)).
  Proof.
    intros H Hx. rewrite (g_size _ _ _ H). destruct (Nat.ltb_spec (length v) n) as [L|L].
    - destruct (reserve_G n _ _ _ H) as (b & c' & -> & Gb & Hl & M). cbn [bind].
      destruct (write_at (fin b) v (repeat x (n - length v)) b v c' Gb) as (b' & -> & Gw & Ef & Em).
      + exists []. now rewrite app_nil_r.
      + now apply repeat_sized.
      + apply (g_fin _ _ _ Gb).
      + rewrite repeat_length. lia.
      + cbn [bind]. eexists _, (v ++ repeat x (n - length v)), c'. split; [reflexivity|]. split; [apply Gw|split; [|cbn; congruence]].
        * rewrite repeat_length. f_equal. lia.
        * now rewrite firstn_all2 by lia.
    - cbn [bind]. eexists _, (firstn n v), c. split; [reflexivity|]. split; [|split; [|reflexivity]].
      + apply (G_fin _ (firstn n v) (skipn n v)); [now rewrite firstn_skipn|]. rewrite firstn_length. f_equal. lia.
      + replace (n - length v) with 0 by lia. cbn. now rewrite app_nil_r.
  Qed.

  Lemma chop r : forall m, length r = m * sz -> exists v, sized v /\ length v = m /\ concat v = r.
  Proof.
    intros m. revert r. induction m as [|m IH]; intros r L.
    - exists []. destruct r; [|cbn in L; lia]. repeat split. constructor.
    - destruct (IH (skipn sz r)) as (v & S & Lv & E); [rewrite skipn_length; cbn in L; lia|]. exists (firstn sz r :: v). split; [|split; [cbn; lia|]].
      + constructor; auto. rewrite firstn_length. cbn in L. lia.
      + cbn. rewrite E. apply firstn_skipn.
  Qed.
  (** The bytes from the end on are elements too, of any value. *)
  Lemma G_all a v c : G a v c -> exists w, G (set_fin (c * sz) a) (v ++ w) c /\ length (v ++ w) = c.
  Proof.
    intros H. assert (L := g_le _ _ _ H). destruct H as [[r E] S F R B].
    destruct (chop r (c - length v)) as (w & Sw & Lw & Ew).
    { rewrite stored_content, E, app_length, sized_len in R by auto. nia. }
    exists w. split; [|rewrite app_length; lia]. split; cbn [set_fin bytes fin blk mr]; auto.
    - exists []. change (content (set_fin _ a)) with (content a). rewrite E, concat_app, Ew, app_nil_r. reflexivity.
    - apply sized_app. auto.
    - rewrite app_length. f_equal. lia.
  Qed.
  Lemma G_resize a v c n : G a v c -> n <= c -> exists w, G (set_fin (n * sz) a) w c /\ length w = n /\ forall i, i < n -> i < length v -> nth_error w i = nth_error v i.
  Proof.
    intros H L. destruct (G_all _ _ _ H) as (w & Gw & Lw). exists (firstn n (v ++ w)). split; [|split].
    - change (set_fin (n * sz) a) with (set_fin (n * sz) (set_fin (c * sz) a)). apply (G_fin _ _ (skipn n (v ++ w))); [now rewrite firstn_skipn|]. rewrite firstn_length. f_equal. lia.
    - rewrite firstn_length. lia.
    - intros i Hi Hv. assert (X := firstn_skipn n (v ++ w)). rewrite <- (nth_error_app1 _ (skipn n (v ++ w))) by (rewrite firstn_length; lia). rewrite X. now apply nth_error_app1.
  Qed.
  Lemma resize_ok n a v c : G a v c -> exists b w c', resize sz al n a = Next b /\ G b w c' /\ (length w = n /\ forall i, i < n -> i < length v -> nth_error w i = nth_error v i) /\ mr b = mr a.
  Proof.
    intros H. unfold resize. destruct (reserve_G n _ _ _ H) as (b & c' & -> & Gb & Hl & M). cbn [bind]. destruct (G_resize b v c' n Gb Hl) as (w & Gw & X).
    exists (set_fin (n * sz) b), w, c'. auto.
  Qed.
  Lemma assign_n_ok n x a v c : G a v c -> elem sz x = true -> done a (assign_n sz al n x a) (fun w => w = repeat x n).
  Proof.
    intros H Hx. unfold assign_n. destruct (resize_ok n a v c H) as (b & w & c' & -> & Gb & (Lw & _) & M). cbn [bind].
    destruct (write_at 0 [] (repeat x n) b w c' Gb) as (b' & -> & Gw & Ef & Em).
    - now exists w.
    - now apply repeat_sized.
    - reflexivity.
    - rewrite repeat_length. assert (L := g_le _ _ _ Gb). cbn. lia.
    - cbn [bind]. exists b', (repeat x n), c'. split; [reflexivity|]. split; [|split; [reflexivity|congruence]].
      specialize (Gw (n * sz)). cbn [length Nat.add app] in Gw. rewrite repeat_length in Gw. specialize (Gw eq_refl). destruct b' as [bb f bl m].
      unfold set_fin in Gw. cbn [bytes blk mr] in Gw. cbn [fin] in Ef. rewrite Ef, (g_fin _ _ _ Gb), Lw. exact Gw.
  Qed.
  Lemma insert_ok xs a v c : G a v c -> sized xs -> done a (insert sz al xs a) (fun w => w = v ++ xs).
  Proof.
    intros H Sx. unfold insert. destruct (room a v c (size sz a + length xs) H) as (b & c' & -> & Gb & Hl & M). rewrite (g_size _ _ _ H) in Hl. cbn [bind].
    unfold insert_assume_reserved. destruct (write_at (fin b) v xs b v c' Gb) as (b' & -> & Gw & Ef & Em); auto.
    - exists []. now rewrite app_nil_r.
    - apply (g_fin _ _ _ Gb).
    - cbn [bind]. eexists _, (v ++ xs), c'. split; [reflexivity|]. split; [apply Gw|split; [reflexivity|cbn; congruence]].
      rewrite Ef, (g_fin _ _ _ Gb), sized_len by auto. lia.
  Qed.
  Lemma assign_ok xs a v c : G a v c -> sized xs -> done a (assign sz al xs a) (fun w => w = xs).
  Proof.
    intros H Sx. unfold assign. destruct (room a v c (length xs) H) as (b & c' & -> & Gb & Hl & M). cbn [bind].
    destruct (write_at 0 [] xs b v c' Gb (ex_intro _ v eq_refl) Sx eq_refl) as (b' & -> & Gw & Ef & Em); auto.
    cbn [bind]. eexists _, xs, c'. split; [reflexivity|]. split; [now apply Gw|split; [reflexivity|cbn; congruence]].
  Qed.
  Lemma insert_at_ok n xs a v c : G a v c -> sized xs -> n <= length v -> done a (insert_at sz al n xs a) (fun w => w = firstn n v ++ xs ++ skipn n v).
  Proof.
    intros H Sx Hn. unfold insert_at. destruct (room a v c (size sz a + length xs) H) as (b & c' & -> & Gb & Hl & M). rewrite (g_size _ _ _ H) in *. cbn [bind].
    set (v1 := firstn n v). set (v2 := skipn n v). assert (Ev : v = v1 ++ v2) by (symmetry; apply firstn_skipn).
    assert (L1 : length v1 = n) by (unfold v1; rewrite firstn_length; lia). assert (L2 : length v2 = length v - n) by (unfold v2; now rewrite skipn_length).
    assert (Sv := g_sized _ _ _ Gb). rewrite Ev in Sv. apply sized_app in Sv as [S1 S2]. assert (P := sz_pos).
    assert (Fb := g_fin _ _ _ Gb). destruct (Nat.eqb_spec ((length v - n) * sz) 0) as [Z|Z].
    - assert (v2 = []) by (destruct v2; [auto|cbn in L2; nia]). assert (Hv : v = v1) by (rewrite Ev, H0; apply app_nil_r).
      cbn [bind]. rewrite Z, Nat.sub_0_r. destruct (write_at (fin b) v xs b v c' Gb) as (b' & -> & Gw & Ef & Em); auto.
      + exists []. now rewrite app_nil_r.
      + cbn [bind]. eexists _, (v ++ xs), c'. split; [reflexivity|]. split; [apply Gw; rewrite Ef; lia|split; [|cbn; congruence]]. rewrite H0, app_nil_r. congruence.
    - destruct (g_val _ _ _ Gb) as [r Er]. rewrite Ev, concat_app, <- app_assoc in Er.
      assert (Lc1 : length (concat v1) = n * sz) by (rewrite sized_len; congruence).
      assert (Lc2 : length (concat v2) = (length v - n) * sz) by (rewrite sized_len; congruence).
      assert (Lcx : length (concat xs) = length xs * sz) by (now rewrite sized_len).
      assert (D : fin b - (length v - n) * sz = n * sz) by (rewrite Fb; nia).
      assert (Mv : firstn ((length v - n) * sz) (skipn (fin b - (length v - n) * sz) (content b)) = concat v2).
      { rewrite Er, D, sn_app by auto. now apply fn_app. }
      rewrite Mv. assert (D2 : fin b + length xs * sz - (length v - n) * sz = n * sz + length xs * sz) by (rewrite Fb; nia). rewrite D2.
      assert (Rb := g_room _ _ _ Gb).
      destruct (write_ok (n * sz + length xs * sz) (concat v2) b) as (b1 & -> & Ec1 & Es1 & Ef1 & Eb1 & Em1 & En1); [rewrite Rb, Lc2; nia|]. cbn [bind].
      rewrite Ef1, D. destruct (write_ok (n * sz) (concat xs) b1) as (b2 & -> & Ec2 & Es2 & Ef2 & Eb2 & Em2 & En2); [rewrite Es1, Rb, Lcx; nia|]. cbn [bind].
      eexists _, (v1 ++ xs ++ v2), c'. split; [reflexivity|]. split; [|split; [reflexivity|cbn; congruence]].
      split; cbn [set_fin bytes fin blk mr].
      + change (content (set_fin _ b2)) with (content b2). rewrite Ec2, Ec1. rewrite !concat_app.
        assert (F1 : firstn (n * sz) (firstn (n * sz + length xs * sz) (content b) ++ concat v2 ++ skipn (n * sz + length xs * sz + length (concat v2)) (content b)) = concat v1).
        { rewrite firstn_app. rewrite firstn_firstn. rewrite Nat.min_l by lia. rewrite firstn_length.
          assert (Lb : n * sz + length xs * sz <= length (content b)) by (rewrite <- stored_content, Rb; nia).
          replace (n * sz - Nat.min (n * sz + length xs * sz) (length (content b))) with 0 by lia. cbn [firstn]. rewrite app_nil_r, Er. apply fn_app. auto. }
        rewrite F1. assert (F2 : skipn (n * sz + length (concat xs)) (firstn (n * sz + length xs * sz) (content b) ++ concat v2 ++
          skipn (n * sz + length xs * sz + length (concat v2)) (content b)) = concat v2 ++ skipn (n * sz + length xs * sz + length (concat v2)) (content b)).
        { apply sn_app. rewrite firstn_length, Lcx. assert (Lb : n * sz + length xs * sz <= length (content b)) by (rewrite <- stored_content, Rb; nia). lia. }
        rewrite F2. eexists. rewrite <- !app_assoc. reflexivity.
      + apply sized_app. split; auto. apply sized_app. auto.
      + rewrite Ef2, Ef1, Fb, !app_length. rewrite L1, L2. nia.
      + change (stored (set_fin _ b2)) with (stored b2). congruence.
      + intros Hb. rewrite Eb2, Em2, Eb1, Em1. apply (g_blk _ _ _ Gb). rewrite En2, En1 in Hb. exact Hb.
  Qed.

  Lemma run_ok o a v c : G a v c -> calm_op sz o a = true -> run sz al o a = Stuck \/ done a (run sz al o a) (act sz o v).
  Proof.
    intros H C. unfold run. destruct (pre sz o a) eqn:Hp; [right|now left]. destruct o as [|n|n|n|n x|x|i| |xs|n xs|n x|xs]; cbn [pre act calm_op] in *.
    - exists (set_fin 0 a), [], c. split; [reflexivity|]. split; [now apply (G_fin 0 [] v)|]. split; reflexivity.
    - destruct (reserve_G n _ _ _ H) as (b & c' & E & Gb & Hl & M). exists b, v, c'. split; [exact E|]. split; [exact Gb|]. split; [reflexivity|exact M].
    - destruct (resize_ok n a v c H) as (b & w & c' & E & Gb & X & M). exists b, w, c'. split; [exact E|]. split; [exact Gb|]. split; [exact X|exact M].
    - unfold resize_fill. destruct (Nat.eqb_spec sz 1) as [E1|E1].
      + assert (X := fill_ok n (repeat (Some 0%N) sz) a v c H). unfold elem in X. rewrite repeat_length, Nat.eqb_refl in X. specialize (X eq_refl).
        unfold zero. rewrite E1 in X |- *. cbn [repeat] in X |- *. rewrite repeat_byte. exact X.
      + cbn [orb] in C. apply Nat.leb_le in C. rewrite (proj2 (Nat.ltb_ge _ _)) by auto. cbn [bind]. rewrite (g_size _ _ _ H) in C.
        eexists _, (firstn n v), c. split; [reflexivity|]. split; [|split; [|reflexivity]].
        * apply (G_fin _ (firstn n v) (skipn n v)); [now rewrite firstn_skipn|]. rewrite firstn_length. f_equal. lia.
        * cbn [act]. replace (n - length v) with 0 by lia. cbn [repeat]. now rewrite app_nil_r.
    - now apply (fill_ok n x a v c).
    - now apply (push_ok x a v c).
    - apply Nat.ltb_lt in Hp. rewrite (g_size _ _ _ H) in Hp. unfold push_own. destruct (fin a =? stored a); [discriminate|].
      destruct (nth_error v i) as [x|] eqn:Ex; [|apply nth_error_None in Ex; lia].
      assert (Ea : at_ sz a i = x). { destruct H as [[r E] S _ _ _]. unfold at_. rewrite E. now apply at_nth. }
      rewrite Ea. assert (Hx : elem sz x = true).
      { destruct H as [_ S _ _ _]. unfold sized in S. rewrite Forall_forall in S. apply nth_error_In in Ex. apply S in Ex. now apply Nat.eqb_eq. }
      destruct (push_ok x a v c H Hx) as (b & w & c' & E & Gb & -> & M). exists b, (v ++ [x]), c'. split; [exact E|]. split; [exact Gb|]. split; [now exists x|exact M].
    - apply Nat.ltb_lt in Hp. rewrite (g_size _ _ _ H) in Hp. destruct (exists_last (l := v)) as (w & x & ->); [destruct v; [cbn in Hp; lia|discriminate]|].
      eexists _, w, c. split; [reflexivity|]. split; [|split; [now exists x|reflexivity]]. apply (G_fin _ w [x]); auto. rewrite (g_fin _ _ _ H), app_length. cbn. lia.
    - apply (insert_ok xs a v c); auto. now apply elems_sized.
    - apply andb_prop in Hp as [H1 H2]. apply Nat.leb_le in H1. rewrite (g_size _ _ _ H) in H1. apply (insert_at_ok n xs a v c); auto. now apply elems_sized.
    - now apply (assign_n_ok n x a v c).
    - apply (assign_ok xs a v c); auto. now apply elems_sized.
  Qed.

  Lemma G_empty r : G (empty r) [] 0.
  Proof. split; cbn; auto; try easy. exists []. reflexivity. constructor. Qed.
  Lemma dealloc_ok a v c : G a v c -> dealloc a = Next tt.
  Proof. intros H. unfold dealloc. destruct (bytes a) eqn:E; auto. destruct (g_blk _ _ _ H) as [-> _]; [congruence|]. now rewrite Nat.eqb_refl. Qed.
  Lemma construct_ok cc : (forall s, calm sz al s (Renew 0 cc) = true) -> construct sz al cc = Stuck \/ exists b w c, construct sz al cc = Next b /\ G b w c /\ made cc w.
  Proof.
    intros C. specialize (C []). assert (M : forall n, (sz <=? al) || negb (n =? 0) = true -> exists c, bit_ceil (min_mem sz al n) = c * sz /\ n <= c /\ 0 < c).
    { intros n H. apply orb_prop in H as [H|H]; [apply min_mem_al; now apply Nat.leb_le|]. apply Bool.negb_true_iff, Nat.eqb_neq in H.
      destruct (min_mem_bc n) as (c & E & L); [lia|]. exists c. split; auto. lia. }
    destruct cc as [r|n r|n x r|xs r]; cbn [construct made calm] in *.
    - right. exists (empty r), [], 0. split; auto. split; auto. apply G_empty.
    - right. destruct (M n C) as (c & E & L & P). destruct (G_resize _ _ _ n (alloc_G (min_mem sz al n) (empty r) c E P) L) as (w & Gw & Lw & _).
      eexists _, w, c. split; [reflexivity|]. split; auto.
    - destruct (elem sz x) eqn:Hx; [right|now left]. destruct (M n C) as (c & E & L & P).
      destruct (assign_n_ok n x _ _ _ (alloc_G (min_mem sz al n) (empty r) c E P) Hx) as (b & w & c' & Eb & Gb & -> & _). exists b, (repeat x n), c'. auto.
    - destruct (forallb (elem sz) xs) eqn:Hx; [right|now left]. destruct (M _ C) as (c & E & L & P).
      destruct (insert_ok xs _ _ _ (alloc_G (min_mem sz al (length xs)) (empty r) c E P) (elems_sized _ Hx)) as (b & w & c' & Eb & Gb & -> & _). exists b, xs, c'. auto.
  Qed.
  Lemma G_swap a b v c : G b v c -> mr a = mr b -> G (swap_in a b) v c.
  Proof. intros [[r E] S F R B] M. split; cbn [swap_in bytes fin blk mr]; auto. - exists r. exact E. - rewrite M. exact B. Qed.

  Definition Ok (s : list arr) : Prop := forall i a, nth_error s i = Some a -> exists v c, G a v c.
  Lemma ok_set s i b v c : Ok s -> G b v c -> Ok (set i b s).
  Proof.
    intros H Gb i' a E. destruct (Nat.eq_dec i i') as [->|D].
    - destruct (Nat.lt_ge_cases i' (length s)) as [L|L].
      + rewrite set_nth_error_eq in E by auto. injection E as <-. eauto.
      + assert (X : nth_error (set i' b s) i' <> None) by congruence. apply nth_error_Some in X. rewrite set_length in X. lia.
    - rewrite set_nth_error_neq in E by auto. eauto.
  Qed.
  Lemma step_ok s l : Ok s -> match cstep sz al s l with Next s' => Ok s' /\ acts sz s l s' | Ub => False | Stuck => True end.
  Proof.
    intros H. unfold cstep. destruct (calm sz al s l) eqn:C; [|exact I]. destruct l as [i o|i i'|i cc|i i']; cbn [step calm] in *.
    - destruct (nth_error s i) as [a|] eqn:Ei; [|exact I]. destruct (H i a Ei) as (v & c & Ga). assert (Li : i < length s) by (apply nth_error_Some; congruence).
      destruct (run_ok o a v c Ga C) as [-> |(b & w & c' & -> & Gb & A & M)]; cbn [bind]; [exact I|]. split; [eapply ok_set; eauto|].
      split; [apply set_length|]. exists a, b. split; auto. split; [now apply set_nth_error_eq|]. rewrite (g_elems _ _ _ Ga), (g_elems _ _ _ Gb). split; auto.
      intros k' D. rewrite set_nth_error_neq; auto.
    - destruct (nth_error s i) as [a|] eqn:Ei; [|exact I]. destruct (nth_error s i') as [b|] eqn:Ej; [|exact I]. apply Nat.eqb_eq in C.
      destruct (H i a Ei) as (v & c & Ga). destruct (H i' b Ej) as (w & d & Gb). assert (Li : i < length s) by (apply nth_error_Some; congruence).
      assert (Lj : i' < length s) by (apply nth_error_Some; congruence).
      destruct (Nat.eqb_spec i i') as [->|D].
      + split; auto. split; auto. assert (a = b) by congruence. subst b. exists a, a, a, a. auto 10.
      + assert (Gb' := G_swap b a v c Ga (eq_sym C)). assert (Ga' := G_swap a b w d Gb C). split; [eapply ok_set; eauto; eapply ok_set; eauto|].
        split; [now rewrite !set_length|]. exists a, b, (swap_in a b), (swap_in b a). split; auto. split; auto. split; [apply set_nth_error_eq; now rewrite set_length|].
        split; [rewrite set_nth_error_neq by auto; now apply set_nth_error_eq|].
        rewrite (g_elems _ _ _ Ga), (g_elems _ _ _ Gb), (g_elems _ _ _ Ga'), (g_elems _ _ _ Gb'). split; auto. split; auto. intros k' D1 D2.
        rewrite !set_nth_error_neq; auto.
    - destruct (nth_error s i) as [b|] eqn:Ei; [|exact I]. destruct (H i b Ei) as (v & c & Gb). rewrite (dealloc_ok _ _ _ Gb). cbn [bind].
      assert (Li : i < length s) by (apply nth_error_Some; congruence).
      destruct (construct_ok cc) as [-> |(b' & w & c' & -> & Gb' & Mw)]; cbn [bind]; [intros s'; destruct cc; exact C|exact I|].
      split; [eapply ok_set; eauto|]. split; [apply set_length|]. exists b'. split; [now apply set_nth_error_eq|]. rewrite (g_elems _ _ _ Gb'). split; auto.
      intros k' D. rewrite set_nth_error_neq; auto.
    - destruct (nth_error s i) as [a|] eqn:Ei; [|exact I]. destruct (nth_error s i') as [b|] eqn:Ej; [|exact I]. apply Nat.eqb_eq in C.
      destruct (H i a Ei) as (v & c & Ga). destruct (H i' b Ej) as (w & d & Gb). assert (Li : i < length s) by (apply nth_error_Some; congruence).
      assert (Lj : i' < length s) by (apply nth_error_Some; congruence).
      destruct (Nat.eqb_spec i i') as [->|D]; [exact I|]. rewrite (dealloc_ok _ _ _ Gb). cbn [bind].
      assert (Gb' := G_swap (empty 0) a v c Ga (eq_sym C)). assert (Ga' := G_swap a (empty 0) [] 0 (G_empty 0) C). cbv zeta.
      split; [eapply ok_set; eauto; eapply ok_set; eauto|].
      split; [now rewrite !set_length|]. exists a, (swap_in a (empty 0)), (swap_in (empty 0) a). split; auto. split; [apply set_nth_error_eq; now rewrite set_length|].
      split; [rewrite set_nth_error_neq by auto; now apply set_nth_error_eq|].
      rewrite (g_elems _ _ _ Ga), (g_elems _ _ _ Ga'), (g_elems _ _ _ Gb'). split; auto. split; auto. intros k' D1 D2.
      rewrite !set_nth_error_neq; auto.
  Qed.
  Lemma ok_init n : Ok (init n).
  Proof. intros i a E. apply nth_error_In, repeat_spec in E. subst. exists [], 0. apply G_empty. Qed.
  Lemma pod_partial_pf n : safe (cstep sz al) (init n) /\
    forall s l s', reachable (cstep sz al) (init n) s -> cstep sz al s l = Next s' -> acts sz s l s'.
  Proof.
    assert (X : safe (cstep sz al) (init n) /\ forall s, reachable (cstep sz al) (init n) s -> Ok s).
    { apply reach_inv; [|apply ok_init]. intros s l H. assert (Y := step_ok s l H). destruct (cstep sz al s l); auto. apply Y. }
    destruct X as [S R]. split; auto. intros s l s' Hr E. assert (Y := step_ok s l (R s Hr)). rewrite E in Y. apply Y.
  Qed.
End P.

(** ** Refutations *)
Definition lit (n : nat) (b : N) : list cell := repeat (Some b) n.
Lemma refute sz al n l : exec (step sz al) (init n) l = Ub -> ~ is_vector sz al.
Proof. intros E V. destruct (V n) as [S _]. exact (S l E). Qed.
Lemma pod_size_refuted_pf : ~ is_vector 24 16.
Proof. apply (refute 24 16 1 [On 0 (Push (lit 24 1)); On 0 (Push (lit 24 2))]). reflexivity. Qed.
Lemma pod_own_refuted_pf : ~ is_vector 8 16.
Proof. apply (refute 8 16 1 [On 0 (Push (lit 8 1)); On 0 (Push (lit 8 2)); On 0 (PushOwn 0)]). reflexivity. Qed.
Lemma pod_move_refuted_pf : ~ is_vector 8 16.
Proof. apply (refute 8 16 2 [Renew 0 (CRange [lit 8 1] 5); MoveNew 0 1; Renew 1 (CEmpty 0)]). reflexivity. Qed.
Lemma pod_zero_refuted_pf : ~ is_vector 32 16.
Proof. apply (refute 32 16 1 [Renew 0 (CSized 0 0); On 0 (Push (lit 32 1))]). reflexivity. Qed.
Lemma pod_fill_refuted_pf : exists s s', reachable (step 8 16) (init 1) s /\ step 8 16 s (On 0 (ResizeFill 2)) = Next s' /\ ~ acts 8 s (On 0 (ResizeFill 2)) s'.
Proof.
  eexists _, _. split; [exists []; reflexivity|]. split; [vm_compute; reflexivity|]. intros (_ & a & b & Ha & Hb & A & _). injection Ha as <-. injection Hb as <-.
  vm_compute in A. discriminate.
Qed.
