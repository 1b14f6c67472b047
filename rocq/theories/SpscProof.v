From Verif Require Import Util Conc SpscModel SpscSpec.

Section P.
Context {T : Type}.
Implicit Types (s : state T) (q : list T).

(** index of the i-th element from [r] in a ring of [n] *)
Definition at_ (n r i : nat) : nat := if Nat.ltb (r + i) n then r + i else r + i - n.

(** Which slots hold what: [q] from [rd], plus possibly the one being published; minus possibly the
    one being released. *)
Definition mem_ok n r (sl : nat -> option T) q (extra : option T) (gone : bool) : Prop :=
  forall i, i < n ->
    sl (at_ n r i) =
      (if andb gone (Nat.eqb i 0) then None
       else if Nat.ltb i (length q) then nth_error q i
       else if Nat.eqb i (length q) then extra else None).

Definition extra_of s : option T := match pp s with PStoreW v _ => Some v | _ => None end.
Definition gone_of s : bool := match cp s with CStoreR _ _ | OStoreR _ => true | _ => false end.

Definition p_ok s q : Prop :=
  match pp s with
  | PLoadR _ cw => cw = wr s
  | PCons _ cw nx => cw = wr s /\ nx = next (size s) (wr s) /\ length q < size s - 1
  | PStoreW _ nx => nx = next (size s) (wr s) /\ length q < size s - 1
  | PSizeR w => w = wr s
  | PFullR nx => nx = next (size s) (wr s)
  | _ => True
  end.
Definition c_ok s q : Prop :=
  match cp s with
  | CLoadW cr | FLoadW cr | CEmptyW cr => cr = rd s
  | CMove cr nx => cr = rd s /\ nx = next (size s) (rd s) /\ q <> []
  | CDestroy v cr nx => cr = rd s /\ nx = next (size s) (rd s) /\ hd_error q = Some v
  | CStoreR v nx => nx = next (size s) (rd s) /\ hd_error q = Some v
  | FDeref cr => cr = rd s /\ q <> []
  | OLoadR => q <> []
  | ODestroy cr nx => cr = rd s /\ nx = next (size s) (rd s) /\ q <> []
  | OStoreR nx => nx = next (size s) (rd s) /\ q <> []
  | _ => True
  end.
Definition p_tst s : tst (op T) (res T) :=
  match pp s with
  | PIdle => TIdle
  | PLoadW v | PLoadR v _ | PCons v _ _ | PStoreW v _ => TCalled (Write v)
  | PSizeW | PSizeR _ => TCalled SizeP
  | PFullW | PFullR _ => TCalled FullP
  | PRet o r => TDecided o r
  end.
(** The consumer's sizeGuess is decided at its first load. *)
Definition c_tst s (t : tst (op T) (res T)) : Prop :=
  match cp s with
  | CIdle => t = TIdle
  | CLoadR | CLoadW _ | CMove _ _ | CDestroy _ _ _ | CStoreR _ _ => t = TCalled Read
  | FLoadR | FLoadW _ | FDeref _ => t = TCalled Front
  | OLoadR | ODestroy _ _ | OStoreR _ => t = TCalled Pop
  | CSizeW => t = TCalled SizeC
  | CSizeR w => t = TDecided SizeC (RNat (guess (size s) w (rd s)))
  | CEmptyR | CEmptyW _ => t = TCalled EmptyC
  | CRet o r => t = TDecided o r
  end.

Definition inv (n : nat) s : Prop :=
  exists q m, 2 <= n /\ size s = n /\ rd s < n /\ length q <= n - 1 /\ wr s = at_ n (rd s) (length q) /\
    mem_ok n (rd s) (slots s) q (extra_of s) (gone_of s) /\ p_ok s q /\ c_ok s q /\
    wf (fun _ => TIdle) (tr s) m /\ m 0 = p_tst s /\ c_tst s (m 1) /\
    legal (fifo n) [] (effects (tr s)) q.

Lemma at_lt n r i : r < n -> i < n -> at_ n r i < n.
Proof. unfold at_. intros. destruct (Nat.ltb_spec (r + i) n); lia. Qed.
Lemma at_inj n r i j : r < n -> i < n -> j < n -> at_ n r i = at_ n r j -> i = j.
Proof. unfold at_. intros. destruct (Nat.ltb_spec (r + i) n), (Nat.ltb_spec (r + j) n); lia. Qed.
Lemma at_0 n r : r < n -> at_ n r 0 = r.
Proof. unfold at_. intros. destruct (Nat.ltb_spec (r + 0) n); lia. Qed.
Lemma next_at n r i : r < n -> i < n -> next n (at_ n r i) = at_ n r (i + 1) \/ (i = n - 1 /\ next n (at_ n r i) = r).
Proof.
  unfold next, at_. intros. destruct (Nat.ltb_spec (r + i) n), (Nat.ltb_spec (r + (i+1)) n);
  match goal with |- context [Nat.eqb ?a ?b] => destruct (Nat.eqb_spec a b) end; lia.
Qed.
Lemma next_full n r k : 2 <= n -> r < n -> k <= n - 1 ->
  Nat.eqb (next n (at_ n r k)) r = Nat.eqb k (n - 1).
Proof.
  intros. apply Bool.eq_iff_eq_true. rewrite !Nat.eqb_eq. unfold next, at_.
  destruct (Nat.ltb_spec (r + k) n);
  match goal with |- context [Nat.eqb ?a ?b] => destruct (Nat.eqb_spec a b) end; lia.
Qed.
Lemma at_empty n r k : r < n -> k <= n - 1 -> Nat.eqb r (at_ n r k) = Nat.eqb k 0.
Proof.
  intros. apply Bool.eq_iff_eq_true. rewrite !Nat.eqb_eq. unfold at_.
  destruct (Nat.ltb_spec (r + k) n); lia.
Qed.
Lemma at_shift n r k : r < n -> k < n - 1 -> at_ n (next n r) k = at_ n r (S k).
Proof.
  unfold at_, next. intros. destruct (Nat.eqb_spec (r + 1) n), (Nat.ltb_spec (r + S k) n);
  match goal with |- context [Nat.ltb ?a ?b] => destruct (Nat.ltb_spec a b) end; lia.
Qed.
Lemma next_lt n r : 2 <= n -> r < n -> next n r < n.
Proof. unfold next. intros. destruct (Nat.eqb_spec (r + 1) n); lia. Qed.
Lemma guess_at n r k : r < n -> k <= n - 1 -> guess n (at_ n r k) r = k.
Proof.
  unfold guess, at_. intros. destruct (Nat.ltb_spec (r + k) n);
  match goal with |- context [Nat.ltb ?a ?b] => destruct (Nat.ltb_spec a b) end; lia.
Qed.
Lemma at_next n r k : 2 <= n -> r < n -> k < n - 1 -> next n (at_ n r k) = at_ n r (k + 1).
Proof. intros. destruct (next_at n r k) as [|[? _]]; auto; lia. Qed.

Lemma mem_construct n r sl q v g : r < n -> length q < n - 1 -> mem_ok n r sl q None g ->
  (g = true -> q <> []) ->
  sl (at_ n r (length q)) = None /\ mem_ok n r (upd sl (at_ n r (length q)) (Some v)) q (Some v) g.
Proof.
  intros Hr Hq Hm Hg. split.
  - rewrite Hm by lia. rewrite Nat.ltb_irrefl, Nat.eqb_refl.
    destruct g; simpl; auto. destruct q; [destruct Hg; auto|]. reflexivity.
  - intros i Hi. destruct (Nat.eq_dec i (length q)) as [->|Hne].
    + rewrite upd_eq, Nat.ltb_irrefl, Nat.eqb_refl. destruct g; simpl; auto.
      destruct q; [destruct Hg; auto|]. reflexivity.
    + rewrite upd_neq by (intros E; apply at_inj in E; lia). rewrite Hm by auto.
      destruct (Nat.eqb_spec i (length q)); [lia|]. reflexivity.
Qed.
Lemma mem_publish n r sl q v g : length q < n - 1 -> (g = true -> q <> []) ->
  mem_ok n r sl q (Some v) g -> mem_ok n r sl (q ++ [v]) None g.
Proof.
  intros Hq Hg Hm i Hi. rewrite Hm by auto. rewrite app_length. simpl length.
  destruct (andb g (Nat.eqb i 0)); auto.
  destruct (Nat.ltb_spec i (length q)), (Nat.ltb_spec i (length q + 1)); try lia.
  - now rewrite nth_error_app1.
  - destruct (Nat.eqb_spec i (length q)); [|lia]. subst. rewrite nth_error_app2, Nat.sub_diag by lia. reflexivity.
  - destruct (Nat.eqb_spec i (length q)); [lia|]. destruct (Nat.eqb_spec i (length q + 1)); auto.
Qed.
Lemma mem_head n r sl x q e : r < n -> mem_ok n r sl (x :: q) e false -> sl r = Some x.
Proof. intros Hr Hm. specialize (Hm 0 ltac:(lia)). rewrite at_0 in Hm by auto. exact Hm. Qed.
Lemma mem_destroy n r sl q e : r < n -> q <> [] -> mem_ok n r sl q e false ->
  mem_ok n r (upd sl r None) q e true.
Proof.
  intros Hr Hq Hm i Hi. destruct (Nat.eq_dec i 0) as [->|Hn].
  - rewrite at_0, upd_eq by auto. reflexivity.
  - rewrite upd_neq. 2:{ intros E. rewrite <- (at_0 n r Hr) in E at 2. apply at_inj in E; lia. }
    rewrite Hm by auto. destruct (Nat.eqb_spec i 0); [lia|]. reflexivity.
Qed.
Lemma mem_release n r sl x q e : 2 <= n -> r < n -> length (x :: q) <= n - 1 ->
  (e <> None -> length (x :: q) < n - 1) ->
  mem_ok n r sl (x :: q) e true -> mem_ok n (next n r) sl q e false.
Proof.
  intros Hn Hr Hq He Hm i Hi. simpl length in *. simpl andb. cbv iota.
  destruct (Nat.eq_dec i (n - 1)) as [->|Hne].
  - replace (at_ n (next n r) (n - 1)) with (at_ n r 0).
    2:{ unfold at_, next. destruct (Nat.eqb_spec (r + 1) n), (Nat.ltb_spec (r + 0) n);
        match goal with |- context [Nat.ltb ?a ?b] => destruct (Nat.ltb_spec a b) end; lia. }
    rewrite Hm by lia. simpl. destruct (Nat.ltb_spec (n - 1) (length q)); [lia|].
    destruct (Nat.eqb_spec (n - 1) (length q)); [lia|]. reflexivity.
  - rewrite at_shift by lia. rewrite Hm by lia. simpl length. simpl (Nat.eqb (S i) 0). rewrite Bool.andb_false_r.
    change (Nat.ltb (S i) (S (length q))) with (Nat.ltb i (length q)). simpl. reflexivity.
Qed.


(** Components of the invariant that do not mention the trace. *)
Ltac split_inv H :=
  destruct H as (q & m & Hn & Hsz & Hrd & Hq & Hwr & Hm & Hp & Hc & Hwf & Hm0 & Hm1 & Hlg).
Ltac red_st := cbn [size rd wr slots pp cp tr upd_pp upd_cp] in *.

(** Re-establish the invariant after an event of thread [t]. *)
Ltac ev_wf Hwf st :=
  eapply (fun H => wf_snoc _ _ _ _ st Hwf H); cbn [ev_thread].

Lemma m_upd_0 (m : nat -> tst (op T) (res T)) x : upd m 0 x 0 = x /\ upd m 0 x 1 = m 1.
Proof. split; reflexivity. Qed.
Lemma m_upd_1 (m : nat -> tst (op T) (res T)) x : upd m 1 x 1 = x /\ upd m 1 x 0 = m 0.
Proof. split; reflexivity. Qed.

Lemma hd_ne q : q <> [] -> exists x t, q = x :: t.
Proof. destruct q; [tauto|eauto]. Qed.

Ltac noev q m := exists q, m; red_st; rewrite ?app_nil_r; repeat (split; [solve [eauto | lia]|]).
Ltac oneev q m t st := exists q, (upd m t st); red_st; rewrite ?effects_app; cbn [effects flat_map app];
  rewrite ?app_nil_r.

Lemma call_ok n s o : inv n s -> match call s o with Next s' => inv n s' | Ub => False | Stuck => True end.
Proof.
  intros H. split_inv H. unfold call.
  assert (HP : pp s = PIdle -> is_producer o = true -> forall pc,
     extra_of (upd_pp s pc []) = None -> p_ok (upd_pp s pc []) q -> p_tst (upd_pp s pc []) = TCalled o ->
     inv n (upd_pp s pc [Inv 0 o])).
  { intros Epp Ho pc H1 H2 H3.
    assert (Hx : extra_of s = None) by (unfold extra_of; now rewrite Epp).
    unfold extra_of, p_ok, p_tst in *. rewrite Epp in *. red_st.
    exists q, (upd m 0 (TCalled o)). red_st. rewrite effects_app. cbn [effects flat_map app]. rewrite app_nil_r.
    split; [exact Hn|]. split; [exact Hsz|]. split; [exact Hrd|]. split; [exact Hq|]. split; [exact Hwr|].
    split. { unfold extra_of, gone_of in *. red_st. rewrite H1. exact Hm. }
    split; [exact H2|]. split; [exact Hc|].
    split. { apply (wf_snoc _ _ _ (Inv 0 o) (TCalled o) Hwf). cbn. rewrite Hm0. constructor. }
    split; [cbn; unfold p_tst; red_st; now rewrite H3|]. split; [exact Hm1|exact Hlg]. }
  assert (HC : cp s = CIdle -> forall pc,
     gone_of (upd_cp s pc []) = false -> c_ok (upd_cp s pc []) q -> c_tst (upd_cp s pc []) (TCalled o) ->
     inv n (upd_cp s pc [Inv 1 o])).
  { intros Epp pc H1 H2 H3.
    unfold c_tst in Hm1. rewrite Epp in Hm1.
    exists q, (upd m 1 (TCalled o)). red_st. rewrite effects_app. cbn [effects flat_map app]. rewrite app_nil_r.
    split; [exact Hn|]. split; [exact Hsz|]. split; [exact Hrd|]. split; [exact Hq|]. split; [exact Hwr|].
    split. { unfold extra_of, gone_of in *. red_st. rewrite H1, Epp in *. exact Hm. }
    split; [exact Hp|]. split; [exact H2|].
    split. { apply (wf_snoc _ _ _ (Inv 1 o) (TCalled o) Hwf). cbn. rewrite Hm1. constructor. }
    split; [exact Hm0|]. split; [exact H3|exact Hlg]. }
  destruct o; cbv zeta.
  - destruct (pp s) eqn:Epp; try exact I; apply HP; try reflexivity; exact I.
  - destruct (pp s) eqn:Epp; try exact I; apply HP; try reflexivity; exact I.
  - destruct (pp s) eqn:Epp; try exact I; apply HP; try reflexivity; exact I.
  - destruct (cp s) eqn:Ecp; try exact I; apply HC; try reflexivity; exact I.
  - destruct (cp s) eqn:Ecp; try exact I; apply HC; try reflexivity; exact I.
  - destruct (Nat.eqb_spec (rd s) (wr s)) as [E|E]; [exact I|].
    destruct (cp s) eqn:Ecp; try exact I. apply HC; try reflexivity. unfold c_ok; red_st. intros ->. apply E. rewrite Hwr. simpl. now rewrite at_0.
  - destruct (cp s) eqn:Ecp; try exact I; apply HC; try reflexivity; exact I.
  - destruct (cp s) eqn:Ecp; try exact I; apply HC; try reflexivity; exact I.
Qed.

Lemma step_p_ok n s : inv n s -> match step_p s with Next s' => inv n s' | Ub => False | Stuck => True end.
Proof.
  intros H. split_inv H. unfold step_p.
  assert (Hg : gone_of s = true -> q <> []).
  { unfold gone_of, c_ok in *. destruct (cp s); try discriminate; intros _; [|tauto].
    destruct q; [|discriminate]. destruct Hc as [_ Hc]; discriminate. }
  destruct (pp s) eqn:Epp; unfold p_ok, p_tst in *; rewrite Epp in *.
  - exact I.
  - (* PLoadW *) exists q, m. red_st. rewrite app_nil_r. unfold extra_of, gone_of, p_ok, c_ok, p_tst, c_tst in *.
    rewrite Epp in *. red_st. repeat (split; [assumption||reflexivity|]). assumption.
  - (* PLoadR *) subst cw. rewrite Hsz, Hwr, next_full by (auto; lia).
    destruct (Nat.eqb_spec (length q) (n - 1)) as [E|E].
    + exists q, (upd m 0 (TDecided (Write v) (RBool false))). red_st. rewrite effects_app. cbn [effects flat_map app].
      unfold extra_of, gone_of, p_ok, c_ok, p_tst, c_tst in *. rewrite Epp in *. red_st.
      repeat (split; [assumption||exact I|]).
      split. { apply (wf_snoc _ _ _ (Lin 0 (Write v) (RBool false)) _ Hwf). cbn. rewrite Hm0. constructor. }
      split; [reflexivity|]. split; [exact Hm1|].
      eapply legal_snoc; eauto. unfold fifo. destruct (Nat.ltb_spec (length q) (n - 1)); [lia|auto].
    + exists q, m. red_st. rewrite app_nil_r. unfold extra_of, gone_of, p_ok, c_ok, p_tst, c_tst in *.
      rewrite Epp in *. red_st. repeat (split; [assumption|]). split; [rewrite Hwr, Hsz; repeat split; auto; lia|].
      repeat (split; [assumption|]). assumption.
  - (* PCons *) destruct Hp as (-> & -> & Hl). rewrite Hsz in Hl.
    unfold extra_of in Hm; rewrite Epp in Hm.
    destruct (mem_construct n (rd s) (slots s) q v (gone_of s)) as [E1 E2]; auto.
    rewrite Hwr, E1. exists q, m. red_st. unfold gone_of, p_ok, c_ok, p_tst, c_tst, extra_of in *. red_st.
    repeat (split; [assumption||reflexivity|]). split; [rewrite Hsz; split; [congruence|lia]|].
    repeat (split; [assumption||congruence|]). assumption.
  - (* PStoreW *) destruct Hp as (-> & Hl). rewrite Hsz in Hl. unfold extra_of in Hm; rewrite Epp in Hm.
    exists (q ++ [v]), (upd m 0 (TDecided (Write v) (RBool true))). red_st.
    rewrite effects_app. cbn [effects flat_map app].
    split; [exact Hn|]. split; [exact Hsz|]. split; [exact Hrd|].
    split; [rewrite app_length; simpl; lia|].
    split; [rewrite Hsz, Hwr, at_next, app_length by (auto; lia); reflexivity|].
    split; [unfold extra_of, gone_of in *; red_st; apply mem_publish; auto|].
    split; [exact I|].
    split. { unfold c_ok in *; red_st. destruct (cp s); auto;
      repeat match goal with H : _ /\ _ |- _ => destruct H end; repeat split; auto;
      destruct q; try discriminate; auto; try tauto. }
    split. { apply (wf_snoc _ _ _ (Lin 0 (Write v) (RBool true)) _ Hwf). cbn. rewrite Hm0. constructor. }
    split; [reflexivity|]. split; [exact Hm1|].
    eapply legal_snoc; eauto. unfold fifo. destruct (Nat.ltb_spec (length q) (n - 1)); [auto|lia].
  - (* PSizeW *) exists q, m. red_st. rewrite app_nil_r. unfold extra_of, gone_of, p_ok, c_ok, p_tst, c_tst in *.
    rewrite Epp in *. red_st. repeat (split; [assumption||reflexivity|]). assumption.
  - (* PSizeR *) subst w. rewrite Hsz, Hwr, guess_at by (auto; lia).
    exists q, (upd m 0 (TDecided SizeP (RNat (length q)))). red_st. rewrite effects_app. cbn [effects flat_map app].
    unfold extra_of, gone_of, p_ok, c_ok, p_tst, c_tst in *. rewrite Epp in *. red_st.
    repeat (split; [assumption||exact I|]).
    split. { apply (wf_snoc _ _ _ (Lin 0 SizeP _) _ Hwf). cbn. rewrite Hm0. constructor. }
    split; [reflexivity|]. split; [exact Hm1|]. eapply legal_snoc; eauto. split; reflexivity.
  - (* PFullW *) exists q, m. red_st. rewrite app_nil_r. unfold extra_of, gone_of, p_ok, c_ok, p_tst, c_tst in *.
    rewrite Epp in *. red_st. repeat (split; [assumption||reflexivity|]). assumption.
  - (* PFullR *) subst nx. rewrite Hsz, Hwr, next_full by (auto; lia).
    exists q, (upd m 0 (TDecided FullP (RBool (Nat.eqb (length q) (n - 1))))). red_st. rewrite effects_app. cbn [effects flat_map app].
    unfold extra_of, gone_of, p_ok, c_ok, p_tst, c_tst in *. rewrite Epp in *. red_st.
    repeat (split; [assumption||exact I|]).
    split. { apply (wf_snoc _ _ _ (Lin 0 FullP _) _ Hwf). cbn. rewrite Hm0. constructor. }
    split; [reflexivity|]. split; [exact Hm1|]. eapply legal_snoc; eauto. split; reflexivity.
  - (* PRet *) exists q, (upd m 0 TIdle). red_st. rewrite effects_app. cbn [effects flat_map app]. rewrite app_nil_r.
    unfold extra_of, gone_of, p_ok, c_ok, p_tst, c_tst in *. rewrite Epp in *. red_st.
    repeat (split; [assumption||exact I|]).
    split. { apply (wf_snoc _ _ _ (Ret 0 o r) _ Hwf). cbn. rewrite Hm0. constructor. }
    split; [reflexivity|]. split; [exact Hm1|exact Hlg].
Qed.

Lemma step_c_ok n s : inv n s -> match step_c s with Next s' => inv n s' | Ub => False | Stuck => True end.
Proof.
  intros H. split_inv H. unfold step_c.
  assert (He : extra_of s <> None -> length q < n - 1).
  { unfold extra_of, p_ok in *. destruct (pp s); try tauto. intros _. lia. }
  (* a step without event and without effect on the memory *)
  assert (Hquiet : forall pc, gone_of (upd_cp s pc []) = gone_of s -> c_ok (upd_cp s pc []) q ->
            c_tst (upd_cp s pc []) (m 1) -> inv n (upd_cp s pc [])).
  { intros pc H1 H2 H3. exists q, m. red_st. rewrite app_nil_r.
    repeat (split; [assumption|]). split; [|repeat (split; [assumption|]); assumption].
    unfold extra_of in *. red_st. rewrite H1. exact Hm. }
  (* a step that decides a call and leaves the queue alone *)
  assert (Hdec : forall pc o r, gone_of (upd_cp s pc []) = gone_of s -> c_ok (upd_cp s pc []) q ->
            m 1 = TCalled o -> c_tst (upd_cp s pc []) (TDecided o r) -> fifo n q o r q ->
            inv n (upd_cp s pc [Lin 1 o r])).
  { intros pc o r H1 H2 H3 H4 H5. exists q, (upd m 1 (TDecided o r)). red_st.
    rewrite effects_app. cbn [effects flat_map app].
    repeat (split; [assumption|]).
    split; [unfold extra_of, gone_of in *; red_st; rewrite H1; exact Hm|].
    repeat (split; [assumption|]).
    split. { apply (wf_snoc _ _ _ (Lin 1 o r) _ Hwf). cbn. rewrite H3. constructor. }
    split; [exact Hm0|]. split; [exact H4|]. eapply legal_snoc; eauto. }
  destruct (cp s) eqn:Ecp; unfold c_ok, c_tst in Hc, Hm1; rewrite Ecp in Hc, Hm1.
  - exact I.
  - (* CLoadR *) apply Hquiet; [unfold gone_of; red_st; now rewrite Ecp|reflexivity|exact Hm1].
  - (* CLoadW *) subst cr. rewrite Hwr, at_empty by auto.
    destruct (Nat.eqb_spec (length q) 0) as [E|E].
    + destruct q; [|discriminate]. apply Hdec; auto; try (unfold gone_of; red_st; now rewrite Ecp); try exact I; try reflexivity.
      split; reflexivity.
    + apply Hquiet; [unfold gone_of; red_st; now rewrite Ecp| |exact Hm1].
      unfold c_ok; red_st. repeat split; auto. destruct q; simpl in *; [lia|discriminate].
  - (* CMove *) destruct Hc as (-> & -> & Hne). destruct (hd_ne q Hne) as (x & t & ->).
    assert (Hx : slots s (rd s) = Some x) by (unfold gone_of in Hm; rewrite Ecp in Hm; eapply mem_head; eauto).
    rewrite Hx. apply Hquiet; [unfold gone_of; red_st; now rewrite Ecp| |exact Hm1].
    unfold c_ok; red_st. repeat split; auto.
  - (* CDestroy *) destruct Hc as (-> & -> & Hh).
    destruct q as [|x t]; [discriminate|]. injection Hh as ->.
    unfold gone_of in Hm. rewrite Ecp in Hm.
    rewrite (mem_head _ _ _ _ _ _ Hrd Hm). exists (v :: t), m. red_st.
    repeat (split; [assumption|]). split. { unfold extra_of, gone_of in *; red_st. apply mem_destroy; auto. discriminate. }
    split; [exact Hp|]. split; [split; [red_st; congruence|reflexivity]|].
    repeat (split; [assumption|]). assumption.
  - (* CStoreR *) destruct Hc as (-> & Hh). destruct q as [|x t]; [discriminate|]. injection Hh as ->.
    unfold gone_of in Hm. rewrite Ecp in Hm. simpl length in *.
    assert (En : next (size s) (rd s) = next n (rd s)) by congruence. rewrite En.
    exists t, (upd m 1 (TDecided Read (ROpt (Some v)))). red_st.
    rewrite effects_app. cbn [effects flat_map app].
    split; [exact Hn|]. split; [exact Hsz|]. split; [apply next_lt; auto|]. split; [lia|].
    split; [rewrite at_shift by lia; exact Hwr|].
    split; [unfold extra_of, gone_of in *; red_st; eapply mem_release; eauto|].
    split. { unfold p_ok in *; red_st. destruct (pp s); auto; simpl in Hp; repeat split; try tauto; try lia. }
    split; [exact I|].
    split. { apply (wf_snoc _ _ _ (Lin 1 Read _) _ Hwf). cbn. rewrite Hm1. constructor. }
    split; [exact Hm0|]. split; [reflexivity|]. eapply legal_snoc; eauto. split; reflexivity.
  - (* FLoadR *) apply Hquiet; [unfold gone_of; red_st; now rewrite Ecp|reflexivity|exact Hm1].
  - (* FLoadW *) subst cr. rewrite Hwr, at_empty by auto.
    destruct (Nat.eqb_spec (length q) 0) as [E|E].
    + destruct q; [|discriminate]. apply Hdec; auto; try (unfold gone_of; red_st; now rewrite Ecp); try exact I; try reflexivity.
      split; reflexivity.
    + apply Hquiet; [unfold gone_of; red_st; now rewrite Ecp| |exact Hm1].
      unfold c_ok; red_st. repeat split; auto. destruct q; simpl in *; [lia|discriminate].
  - (* FDeref *) destruct Hc as (-> & Hne). destruct (hd_ne q Hne) as (x & t & ->).
    assert (Hx : slots s (rd s) = Some x) by (unfold gone_of in Hm; rewrite Ecp in Hm; eapply mem_head; eauto).
    rewrite Hx. apply Hdec; auto; try (unfold gone_of; red_st; now rewrite Ecp); try exact I; try reflexivity.
    split; reflexivity.
  - (* OLoadR *) apply Hquiet; [unfold gone_of; red_st; now rewrite Ecp| |exact Hm1].
    unfold c_ok; red_st. auto.
  - (* ODestroy *) destruct Hc as (-> & -> & Hne). destruct (hd_ne q Hne) as (x & t & ->).
    unfold gone_of in Hm. rewrite Ecp in Hm.
    rewrite (mem_head _ _ _ _ _ _ Hrd Hm). exists (x :: t), m. red_st.
    repeat (split; [assumption|]). split. { unfold extra_of, gone_of in *; red_st. apply mem_destroy; auto. }
    split; [exact Hp|]. split; [split; [red_st; congruence|exact Hne]|].
    repeat (split; [assumption|]). assumption.
  - (* OStoreR *) destruct Hc as (-> & Hne). destruct (hd_ne q Hne) as (x & t & ->).
    unfold gone_of in Hm. rewrite Ecp in Hm. simpl length in *.
    assert (En : next (size s) (rd s) = next n (rd s)) by congruence. rewrite En.
    exists t, (upd m 1 (TDecided Pop RUnit)). red_st.
    rewrite effects_app. cbn [effects flat_map app].
    split; [exact Hn|]. split; [exact Hsz|]. split; [apply next_lt; auto|]. split; [lia|].
    split; [rewrite at_shift by lia; exact Hwr|].
    split; [unfold extra_of, gone_of in *; red_st; eapply mem_release; eauto|].
    split. { unfold p_ok in *; red_st. destruct (pp s); auto; simpl in Hp; repeat split; try tauto; try lia. }
    split; [exact I|].
    split. { apply (wf_snoc _ _ _ (Lin 1 Pop _) _ Hwf). cbn. rewrite Hm1. constructor. }
    split; [exact Hm0|]. split; [reflexivity|]. eapply legal_snoc; eauto. split; eauto.
  - (* CSizeW *) apply Hdec; auto; try (unfold gone_of; red_st; now rewrite Ecp); try exact I; try reflexivity.
    rewrite Hsz, Hwr, guess_at by auto. split; reflexivity.
  - (* CSizeR *) apply Hquiet; [unfold gone_of; red_st; now rewrite Ecp|exact I|exact Hm1].
  - (* CEmptyR *) apply Hquiet; [unfold gone_of; red_st; now rewrite Ecp|reflexivity|exact Hm1].
  - (* CEmptyW *) subst r. apply Hdec; auto; try (unfold gone_of; red_st; now rewrite Ecp); try exact I; try reflexivity.
    rewrite Hwr, at_empty by auto. split; reflexivity.
  - (* CRet *) exists q, (upd m 1 TIdle). red_st. rewrite effects_app. cbn [effects flat_map app]. rewrite app_nil_r.
    unfold extra_of, gone_of, p_ok, c_ok, p_tst, c_tst in *. rewrite Ecp in *. red_st.
    repeat (split; [assumption||exact I|]).
    split. { apply (wf_snoc _ _ _ (Ret 1 o r) _ Hwf). cbn. rewrite Hm1. constructor. }
    split; [exact Hm0|]. split; [reflexivity|exact Hlg].
Qed.

Lemma init_inv n : 2 <= n -> inv n (init n).
Proof.
  intros Hn. exists [], (fun _ => TIdle). cbn. repeat (split; [try reflexivity; try lia|]).
  - unfold at_. simpl. destruct (Nat.ltb_spec 0 n); lia.
  - intros i Hi. simpl. destruct (i =? 0)%nat; reflexivity.
  - constructor. reflexivity.
  - constructor.
Qed.

Lemma spsc_inv n : 2 <= n -> safe step (@init T n) /\ forall s, reachable step (init n) s -> inv n s.
Proof.
  intros Hn. apply reach_inv; [|now apply init_inv].
  intros s [o| |] H; simpl; [now apply call_ok|now apply step_p_ok|now apply step_c_ok].
Qed.

Lemma spsc_linearizable_pf : forall n s, 2 <= n -> reachable step (@init T n) s ->
  linearizable (fifo n) [] (erase (tr s)).
Proof.
  intros n s Hn Hr. destruct (spsc_inv n Hn) as [_ H]. specialize (H s Hr). clear Hn. split_inv H.
  exists (tr s), m, q. auto.
Qed.

(** Destruction: exactly the objects still in the queue are destroyed. *)
Lemma destroy_ok n q : forall k r sl, 2 <= n -> r < n -> length q <= n - 1 -> length q <= k ->
  mem_ok n r sl q None false ->
  exists sl', destroy_loop k n r (at_ n r (length q)) sl = Some sl' /\ forall i, i < n -> sl' i = None.
Proof.
  induction q as [|x q IH]; intros k r sl Hn Hr Hq Hk Hm.
  - exists sl. assert (E : destroy_loop k n r (at_ n r (length (@nil T))) sl = Some sl).
    { destruct k; simpl; rewrite at_0, Nat.eqb_refl by auto; reflexivity. }
    split; auto. intros i Hi.
    set (j := if Nat.ltb i r then i + n - r else i - r).
    assert (Hj : j < n /\ at_ n r j = i).
    { subst j. unfold at_. destruct (Nat.ltb_spec i r);
      match goal with |- context [Nat.ltb ?a ?b] => destruct (Nat.ltb_spec a b) end; lia. }
    clearbody j. destruct Hj as [Hj Ei]. rewrite <- Ei. rewrite Hm by auto. simpl. destruct (Nat.eqb j 0); reflexivity.
  - simpl length in *. destruct k as [|k]; [lia|]. cbn [destroy_loop].
    rewrite at_empty by (auto; lia). simpl Nat.eqb. cbv iota.
    rewrite (mem_head _ _ _ _ _ _ Hr Hm).
    rewrite <- at_shift by lia. apply IH; auto; try lia. apply next_lt; auto.
    apply (mem_release n r _ x q None); auto. tauto. apply mem_destroy; auto. discriminate.
Qed.
Lemma spsc_destroy_pf : forall n s, 2 <= n -> reachable step (@init T n) s -> pp s = PIdle -> cp s = CIdle ->
  exists sl, destroy s = Some sl /\ forall i, i < n -> sl i = None.
Proof.
  intros n s Hn Hr Hp0 Hc0. destruct (spsc_inv n Hn) as [_ H]. specialize (H s Hr). clear Hn. split_inv H.
  unfold destroy. rewrite Hsz, Hwr. unfold extra_of, gone_of in Hm. rewrite Hp0, Hc0 in Hm.
  apply destroy_ok; auto. lia.
Qed.

(** No two conflicting accesses to one slot are enabled at the same time. *)
Lemma spsc_no_race_pf : forall n s, 2 <= n -> reachable step (@init T n) s ->
  forall v cw nx i, pp s = PCons v cw nx ->
   (exists nx', cp s = CMove i nx') \/ (exists v' nx', cp s = CDestroy v' i nx') \/
   cp s = FDeref i \/ (exists nx', cp s = ODestroy i nx') -> cw <> i.
Proof.
  intros n s Hn Hr v cw nx i Ep Ec. destruct (spsc_inv n Hn) as [_ H]. specialize (H s Hr). clear Hn. split_inv H.
  unfold p_ok, c_ok in *. rewrite Ep in Hp. destruct Hp as (-> & _ & Hl).
  assert (i = rd s /\ q <> []) as [-> Hne].
  { destruct Ec as [(nx' & Ec)|[(v' & nx' & Ec)|[Ec|(nx' & Ec)]]]; rewrite Ec in Hc; try tauto.
    destruct Hc as (? & _ & Hh). split; auto. destruct q; [discriminate|discriminate]. }
  rewrite Hwr. intros E. symmetry in E. apply Nat.eqb_eq in E. rewrite at_empty in E by auto.
  apply Nat.eqb_eq in E. destruct q; simpl in *; [tauto|discriminate].
Qed.
End P.
