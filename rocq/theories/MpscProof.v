From Verif Require Import Util Conc MpscModel MpscSpec.

(** ** Adjacent elements of a list *)
Definition adj (l : list nat) (a b : nat) : Prop := exists l1 l2, l = l1 ++ a :: b :: l2.
Lemma adj_in l a b : adj l a b -> In a l /\ In b l.
Proof. intros (l1 & l2 & ->). split; apply in_or_app; right; simpl; auto. Qed.
Lemma adj_cons_inv h l a b : adj (h :: l) a b -> (a = h /\ exists l', l = b :: l') \/ adj l a b.
Proof.
  intros (l1 & l2 & E). destruct l1 as [|x l1]; simpl in E; injection E as -> ->.
  - left. split; auto. eauto.
  - right. exists l1, l2. auto.
Qed.
Lemma adj_cons h l a b : adj l a b -> adj (h :: l) a b.
Proof. intros (l1 & l2 & ->). now exists (h :: l1), l2. Qed.
Lemma adj_app l x a b : adj l a b -> adj (l ++ [x]) a b.
Proof. intros (l1 & l2 & ->). exists l1, (l2 ++ [x]). now rewrite <- app_assoc. Qed.
Lemma adj_snoc l y x : l <> [] -> last l y = y -> adj (l ++ [x]) y x \/ l = [].
Proof. intros N L. left. destruct (exists_last N) as (l' & z & ->). rewrite last_last in L. subst z.
  exists l', []. now rewrite <- app_assoc. Qed.
Lemma adj_snoc_inv l x a b d : adj (l ++ [x]) a b -> l <> [] -> adj l a b \/ (a = last l d /\ b = x).
Proof.
  intros (l1 & l2 & E) N. destruct l2 as [|y l2 _] using rev_ind.
  - right. replace (l1 ++ [a; b]) with ((l1 ++ [a]) ++ [b]) in E by now rewrite <- app_assoc.
    apply app_inj_tail in E. destruct E as [-> ->]. now rewrite last_last.
  - left. replace (l1 ++ a :: b :: l2 ++ [y]) with ((l1 ++ a :: b :: l2) ++ [y]) in E by now rewrite <- app_assoc.
    apply app_inj_tail in E. destruct E as [-> ->]. now exists l1, l2.
Qed.
Lemma adj_func l a b b' : NoDup l -> adj l a b -> adj l a b' -> b = b'.
Proof.
  induction l as [|h l IH]; intros Nd A B.
  - destruct A as ([|] & ? & ?); discriminate.
  - inversion_clear Nd. apply adj_cons_inv in A, B.
    destruct A as [[-> [l1 ->]]|A], B as [[E [l2 E2]]|B]; subst.
    + congruence.
    + destruct (adj_in _ _ _ B) as [X _]. contradiction.
    + destruct (adj_in _ _ _ A) as [X _]. contradiction.
    + auto.
Qed.
Lemma adj_not_last l a b d : NoDup l -> adj l a b -> a <> last l d.
Proof.
  intros Nd (l1 & l2 & ->) E.
  assert (X : last (l1 ++ a :: b :: l2) d = last (b :: l2) d :> nat).
  { clear. induction l1; simpl; auto. destruct (l1 ++ a :: b :: l2) eqn:Q; auto. destruct l1; discriminate. }
  rewrite X in E. apply NoDup_remove_2 in Nd. apply Nd. rewrite E. apply in_or_app. right.
  assert (L : forall (z : nat) zs, In (last (z :: zs) d) (z :: zs)).
  { clear. intros z zs. revert z. induction zs as [|y zs IH]; intros; [simpl; auto|].
    right. apply IH. }
  apply L.
Qed.
Lemma last_in (l : list nat) d : l <> [] -> In (last l d) l.
Proof. intros N. destruct (exists_last N) as (l' & z & ->). rewrite last_last. apply in_or_app. simpl; auto. Qed.
Lemma last_d (l : list nat) d d' : l <> [] -> last l d = last l d'.
Proof. intros N. destruct (exists_last N) as (l' & z & ->). now rewrite !last_last. Qed.
Lemma hd_last (h : nat) l d : NoDup (h :: l) -> last (h :: l) d = h -> l = [].
Proof.
  intros Nd E. destruct l as [|x l]; auto. exfalso. inversion_clear Nd. apply H.
  assert (X : last (h :: x :: l) d = last (x :: l) d) by reflexivity. rewrite X in E.
  rewrite <- E. apply last_in. discriminate.
Qed.

Definition item (p : ppc) : option nat := match p with PInit n | PXchg n | PLink _ n => Some n | _ => None end.
Definition pre (p : ppc) : option nat := match p with PInit n | PXchg n => Some n | _ => None end.
Definition lk s (w : option nat) : option (nat * nat) :=
  match w with
  | Some t => match pp s t with PLink p n => Some (p, n) | _ => None end
  | None => match cp s with CLink p _ => Some (p, stub) | _ => None end
  end.
Definition content (ch : list nat) : list nat := filter (fun n => negb (Nat.eqb n stub)) ch.

Definition cinv s (ch : list nat) : Prop :=
  match cp s with
  | CTail0 => head s = stub
  | CNext2 h | CTail h | CLink _ h | CNext3 h => head s = h /\ h <> stub
  | CInit h => head s = h /\ h <> stub /\ ~ In stub ch
  | CXchg h => head s = h /\ h <> stub /\ ~ In stub ch /\ nx s stub = None
  | _ => True
  end.
Definition ptst (p : ppc) : tst op res :=
  match p with
  | PIdle => TIdle
  | PInit n | PXchg n => TCalled (Push n)
  | PLink _ n | PRet n => TDecided (Push n) RUnit
  end.
Definition ctst (c : cpc) : tst op res :=
  match c with CIdle => TIdle | CEmpty => TCalled Empty | CRet o r => TDecided o r | _ => TCalled PopWeak end.

Record inv s (ch : list nat) : Prop := {
  i_hd : exists r, ch = head s :: r;
  i_last : last ch stub = tail s;
  i_nd : NoDup ch;
  i_own : forall n, In n ch -> own s n = true;
  i_stub : own s stub = true;
  i_adj : forall a b, adj ch a b -> nx s a = Some b \/ (nx s a = None /\ exists w, lk s w = Some (a, b));
  i_end : nx s (tail s) = None;
  i_lk : forall w p n, lk s w = Some (p, n) -> adj ch p n /\ nx s p = None;
  i_lku : forall w w' p p' n, lk s w = Some (p, n) -> lk s w' = Some (p', n) -> w = w';
  i_item : forall t n, item (pp s t) = Some n -> own s n = true /\ n <> stub;
  i_itu : forall t t' n, item (pp s t) = Some n -> item (pp s t') = Some n -> t = t';
  i_pre : forall t n, pre (pp s t) = Some n -> ~ In n ch;
  i_x : forall t n, pp s t = PXchg n -> nx s n = None;
  i_c : cinv s ch;
  i_m : exists m, wf (fun _ => TIdle) (tr s) m /\ m 0 = ctst (cp s) /\ (forall t, m (S t) = ptst (pp s t));
  i_legal : legal nfifo [] (effects (tr s)) (content ch)
}.

Lemma inv_init nx0 : inv (init nx0) [stub].
Proof.
  constructor; simpl; auto; try discriminate.
  - eauto.
  - repeat constructor. simpl. tauto.
  - intros n [<-|[]]. reflexivity.
  - intros a b A. apply adj_cons_inv in A. destruct A as [[_ [l X]]|(l1 & l2 & X)]; [discriminate|].
    destruct l1; discriminate.
  - intros [t|]; discriminate.
  - intros [t|]; discriminate.
  - exact Logic.I.
  - exists (fun _ => TIdle). split; [constructor; auto|]. auto.
  - constructor.
Qed.

(** Consumer-side changes of [cp] only, with trace. *)
Definition wf_now s (e : list (ev op res)) (pp' : nat -> ppc) (cp' : cpc) : Prop :=
  forall m, m 0 = ctst (cp s) -> (forall t, m (S t) = ptst (pp s t)) ->
    exists m', (e = [] /\ m' = m \/ exists v y, e = [v] /\ tnext (m (ev_thread v)) v y /\ m' = upd m (ev_thread v) y) /\
      m' 0 = ctst cp' /\ forall t, m' (S t) = ptst (pp' t).

Lemma i_m_next s s' ch e : inv s ch -> tr s' = tr s ++ e -> wf_now s e (pp s') (cp s') ->
  exists m, wf (fun _ => TIdle) (tr s') m /\ m 0 = ctst (cp s') /\ (forall t, m (S t) = ptst (pp s' t)).
Proof.
  intros I Et W. destruct (i_m s ch I) as (m & Hw & H0 & H1). destruct (W m H0 H1) as (m' & Hm & H2 & H3).
  exists m'. split; auto. rewrite Et. destruct Hm as [[-> ->]|(v & y & -> & T & ->)].
  - now rewrite app_nil_r.
  - now apply wf_snoc.
Qed.

Ltac wfc := intros m H0 H1; first
  [ exists m; split; [left; split; reflexivity|]; simpl; split; [rewrite H0; assumption || reflexivity|assumption]
  | eexists; split; [right; eexists _, _; split; [reflexivity|]; split; [|reflexivity]|] ].

(** Change of the consumer's pc (not to or from CLink) that touches no memory. *)
Lemma inv_setc s ch c e :
  inv s ch -> (forall p h, cp s <> CLink p h) -> (forall p h, c <> CLink p h) ->
  cinv (setc s c e) ch -> wf_now s e (pp s) c -> legal nfifo (content ch) (effects e) (content ch) ->
  inv (setc s c e) ch.
Proof.
  intros I N1 N2 Hc W L.
  assert (Hlk : forall w, lk (setc s c e) w = lk s w).
  { intros [t|]; simpl; auto. destruct c eqn:?, (cp s) eqn:?; simpl; auto;
    try (edestruct N1; eauto; fail); try (edestruct N2; eauto; fail). }
  assert (Hm := i_m_next s (setc s c e) ch e I eq_refl W).
  destruct I. constructor; auto.
  - intros a b A. destruct (i_adj0 a b A) as [X|[X [w Y]]]; auto. right. split; auto. exists w. now rewrite Hlk.
  - intros w p n. rewrite Hlk. apply i_lk0.
  - intros w w' p p' n. rewrite !Hlk. apply i_lku0.
  - cbn [tr setc]. rewrite effects_app. eapply legal_app; eauto.
Qed.

(** Handing back the head. *)
Lemma next_of_head s ch n : inv s ch -> nx s (head s) = Some n -> exists r, ch = head s :: n :: r.
Proof.
  intros I E. destruct (i_hd s ch I) as [r Er]. destruct r as [|b r].
  - exfalso. pose proof (i_last s ch I) as L. rewrite Er in L. simpl in L. pose proof (i_end s ch I). congruence.
  - assert (A : adj ch (head s) b) by (exists [], r; auto).
    destruct (i_adj s ch I _ _ A) as [X|[X _]]; [|congruence]. exists r. congruence.
Qed.

Lemma inv_pop_head s ch n b o e c :
  inv s ch -> (forall p h, cp s <> CLink p h) -> (forall p h, c <> CLink p h) ->
  nx s (head s) = Some n -> (own s (head s) = true) ->
  (o = own s \/ (o = upd (own s) (head s) false /\ head s <> stub)) ->
  let s' := setc (St n (tail s) (nx s) o (pp s) (cp s) (tr s)) c e in
  cinv s' (tl ch) -> wf_now s e (pp s) c ->
  legal nfifo (content ch) (effects e) (content (tl ch)) ->
  b = tl ch ->
  inv s' b.
Proof.
  intros I N1 N2 En Ho Eo s' Hc W L ->.
  destruct (next_of_head s ch n I En) as [r Er].
  assert (Hlk : forall w, lk s' w = lk s w).
  { intros [t|]; simpl; auto. destruct c eqn:?, (cp s) eqn:?; simpl; auto;
    try (edestruct N1; eauto; fail); try (edestruct N2; eauto; fail). }
  assert (Hm := i_m_next s s' ch e I eq_refl W).
  assert (Hch : tl ch = n :: r) by (rewrite Er; reflexivity).
  assert (Hnd := i_nd s ch I). rewrite Er in Hnd. inversion_clear Hnd as [|? ? Hni Hnd'].
  assert (Hoo : forall x, x <> head s -> o x = own s x).
  { intros x Hx. destruct Eo as [->|[-> _]]; auto. now rewrite upd_neq. }
  assert (Hin : forall x, In x (tl ch) -> In x ch /\ x <> head s).
  { rewrite Hch, Er. intros x Hx. split; [right; auto|]. intros ->. auto. }
  assert (Hadj : forall x y, adj (tl ch) x y -> adj ch x y).
  { rewrite Hch, Er. intros. now apply adj_cons. }
  destruct I. constructor; cbn [head tail nx own pp cp tr setc s'].
  - rewrite Hch. eauto.
  - rewrite <- i_last0, Er. reflexivity.
  - rewrite Hch. auto.
  - intros x Hx. apply Hin in Hx. rewrite Hoo; tauto || auto. apply i_own0. tauto.
  - destruct Eo as [->|[-> X]]; auto. rewrite upd_neq; auto.
  - intros x y A. destruct (i_adj0 x y (Hadj x y A)) as [X|[X [w Y]]]; auto. right. split; auto. exists w. now rewrite Hlk.
  - auto.
  - intros w p k. rewrite Hlk. intros H. destruct (i_lk0 w p k H) as [A B]. split; auto.
    rewrite Er in A. apply adj_cons_inv in A. destruct A as [[-> _]|A]; [congruence|]. now rewrite Hch.
  - intros w w' p p' k. rewrite !Hlk. apply i_lku0.
  - intros t k H. destruct (i_item0 t k H) as [A B]. split; auto.
    destruct Eo as [->|[-> X]]; auto. destruct (Nat.eq_dec k (head s)) as [->|]; [|now rewrite upd_neq].
    exfalso. destruct (pp s t) eqn:Ep; simpl in H; try discriminate; injection H as ->.
    + apply (i_pre0 t (head s)). now rewrite Ep. rewrite Er. simpl; auto.
    + apply (i_pre0 t (head s)). now rewrite Ep. rewrite Er. simpl; auto.
    + destruct (i_lk0 (Some t) prev (head s)) as [Ad _]. simpl. now rewrite Ep.
      rewrite Er in Ad. apply adj_cons_inv in Ad. destruct Ad as [[_ [l' Q]]|Ad].
      * injection Q as -> ->. apply Hni. simpl; auto.
      * apply adj_in in Ad. apply Hni. tauto.
  - auto.
  - intros t k H X. apply (i_pre0 t k H). apply Hin in X. tauto.
  - auto.
  - exact Hc.
  - exact Hm.
  - rewrite effects_app. eapply legal_app; eauto.
Qed.

Lemma content_cons h l : h <> stub -> content (h :: l) = h :: content l.
Proof. intros. unfold content. simpl. destruct (Nat.eqb_spec h stub); [contradiction|reflexivity]. Qed.
Lemma content_stub l : content (stub :: l) = content l. Proof. reflexivity. Qed.
Lemma content_app a b : content (a ++ b) = content a ++ content b.
Proof. apply filter_app. Qed.
Lemma content_in n ch : In n ch -> n <> stub -> In n (content ch).
Proof. intros. apply filter_In. split; auto. destruct (Nat.eqb_spec n stub); auto. Qed.

Lemma inv_give s ch h n : inv s ch -> (forall p h, cp s <> CLink p h) -> ctst (cp s) = TCalled PopWeak ->
  head s = h -> h <> stub -> nx s h = Some n -> inv (give s h n) (tl ch).
Proof.
  intros I N1 Hc Eh Hh En. subst h.
  destruct (next_of_head s ch n I En) as [r Er].
  unfold give. apply (inv_pop_head s ch n (tl ch) (upd (own s) (head s) false)); auto.
  - discriminate.
  - apply (i_own s ch I). rewrite Er. simpl; auto.
  - exact Logic.I.
  - intros m H0 H1. exists (upd m 0 (TDecided PopWeak (RPop (Some (head s)) false))).
    split; [right; eexists _, _; split; [reflexivity|]; split; [|reflexivity]|].
    + simpl. rewrite H0, Hc. constructor.
    + split; [reflexivity|]. intros t. rewrite upd_neq by lia. auto.
  - simpl. rewrite Er. rewrite content_cons by auto. econstructor; [simpl; reflexivity|constructor].
Qed.

Lemma inv_none s ch b : inv s ch -> (forall p h, cp s <> CLink p h) -> ctst (cp s) = TCalled PopWeak ->
  (b = true -> content ch = []) -> (b = false -> content ch <> []) -> inv (none s b) ch.
Proof.
  intros I N1 Hc H1 H2. unfold none. apply inv_setc; auto.
  - discriminate.
  - exact Logic.I.
  - intros m H0 Hp. exists (upd m 0 (TDecided PopWeak (RPop None b))).
    split; [right; eexists _, _; split; [reflexivity|]; split; [|reflexivity]|].
    + simpl. rewrite H0, Hc. constructor.
    + split; [reflexivity|]. intros t. rewrite upd_neq by lia. auto.
  - simpl. econstructor; [|constructor]. destruct b; simpl; auto.
Qed.

(** The exchange: node [x] becomes the last one; its link is pending with [w]. *)
Lemma inv_exchange s s' ch x w e :
  inv s ch -> ~ In x ch -> nx s x = None -> own s x = true ->
  lk s w = None -> lk s' w = Some (tail s, x) -> (forall w', w' <> w -> lk s' w' = lk s w') ->
  head s' = head s -> tail s' = x -> nx s' = nx s -> own s' = own s -> tr s' = tr s ++ e ->
  (forall t n, item (pp s' t) = Some n -> item (pp s t) = Some n) ->
  (forall t n, pre (pp s' t) = Some n -> pre (pp s t) = Some n /\ n <> x) ->
  (forall t n, pp s' t = PXchg n -> pp s t = PXchg n) ->
  (forall w' p, lk s w' = Some (p, x) -> False) ->
  cinv s' (ch ++ [x]) -> wf_now s e (pp s') (cp s') ->
  legal nfifo (content ch) (effects e) (content (ch ++ [x])) ->
  inv s' (ch ++ [x]).
Proof.
  intros I Hx Hn Ho Hw Hw' Hoth E1 E2 E3 E4 E5 It Pr Px Hlx Hc W L.
  assert (Hm := i_m_next s s' ch e I E5 W).
  destruct I. destruct i_hd0 as [r Er]. assert (Hne : ch <> []) by (rewrite Er; discriminate).
  assert (Hlast : forall d, last ch d = tail s) by (intros; rewrite (last_d ch d stub Hne); auto).
  constructor.
  - rewrite E1, Er. simpl. eauto.
  - rewrite last_last. auto.
  - clear - i_nd0 Hx. induction ch as [|a l IH]; simpl; [repeat constructor; simpl; tauto|].
    inversion_clear i_nd0. simpl in Hx. constructor.
    + intros X. apply in_app_or in X. destruct X as [X|[X|[]]]; auto.
    + apply IH; tauto.
  - rewrite E4. intros n X. apply in_app_or in X. destruct X as [X|[X|[]]]; subst; auto.
  - rewrite E4. auto.
  - intros a b A. rewrite E3. apply (adj_snoc_inv ch x a b stub) in A; auto. destruct A as [A|[-> ->]].
    + destruct (i_adj0 a b A) as [Q|[Q [w' R]]]; auto. right. split; auto. exists w'.
      rewrite Hoth; auto. congruence.
    + right. rewrite i_last0. split; auto. exists w. auto.
  - rewrite E2, E3. auto.
  - intros w' p n H. rewrite E3.
    assert (X : w' = w \/ w' <> w) by (destruct w as [t|], w' as [t'|]; try (right; congruence); auto;
       destruct (Nat.eq_dec t' t); [left|right]; congruence).
    destruct X as [->|X].
    + rewrite Hw' in H. injection H as <- <-. split; auto.
      destruct (adj_snoc ch (tail s) x Hne (Hlast _)) as [Q|Q]; [auto|contradiction].
    + rewrite Hoth in H by auto. destruct (i_lk0 w' p n H). split; auto. now apply adj_app.
  - intros w1 w2 p p' n H H'.
    assert (D : forall a b : option nat, a = b \/ a <> b).
    { intros [a|] [b|]; try (right; congruence); auto. destruct (Nat.eq_dec a b); [left|right]; congruence. }
    destruct (D w1 w) as [->|X1], (D w2 w) as [->|X2]; auto.
    + rewrite Hw' in H. injection H as <- <-. rewrite Hoth in H' by auto. exfalso. eapply Hlx; eauto.
    + rewrite Hw' in H'. injection H' as <- <-. rewrite Hoth in H by auto. exfalso. eapply Hlx; eauto.
    + rewrite Hoth in H, H' by auto. eapply i_lku0; eauto.
  - rewrite E4. intros t n H. apply (i_item0 t n). auto.
  - intros t t' n H H'. eapply i_itu0; eauto.
  - intros t n H X. destruct (Pr t n H) as [A B]. apply in_app_or in X. destruct X as [X|[X|[]]]; [|congruence].
    apply (i_pre0 t n A X).
  - rewrite E3. intros t n H. apply (i_x0 t n). auto.
  - auto.
  - auto.
  - rewrite E5, effects_app. eapply legal_app; eauto.
Qed.

(** The link store by [w]. *)
Lemma inv_link s s' ch p x w e :
  inv s ch -> lk s w = Some (p, x) -> lk s' w = None -> (forall w', w' <> w -> lk s' w' = lk s w') ->
  head s' = head s -> tail s' = tail s -> nx s' = upd (nx s) p (Some x) -> own s' = own s -> tr s' = tr s ++ e ->
  (forall t n, item (pp s' t) = Some n -> item (pp s t) = Some n) ->
  (forall t n, pre (pp s' t) = Some n -> pre (pp s t) = Some n) ->
  (forall t n, pp s' t = PXchg n -> pp s t = PXchg n) ->
  cinv s' ch -> wf_now s e (pp s') (cp s') -> effects e = [] ->
  inv s' ch.
Proof.
  intros I Hw Hw' Hoth E1 E2 E3 E4 E5 It Pr Px Hc W L.
  assert (Hm := i_m_next s s' ch e I E5 W).
  destruct I. destruct (i_lk0 w p x Hw) as [Ap Np].
  assert (D : forall a b : option nat, a = b \/ a <> b).
  { intros [a|] [b|]; try (right; congruence); auto. destruct (Nat.eq_dec a b); [left|right]; congruence. }
  assert (Hoth2 : forall w' q n, lk s' w' = Some (q, n) -> lk s w' = Some (q, n) /\ q <> p).
  { intros w' q n H. destruct (D w' w) as [->|X]; [congruence|]. rewrite Hoth in H by auto. split; auto.
    intros ->. apply X. destruct (i_lk0 w' p n H) as [A _]. assert (n = x) by (eapply adj_func; eauto). subst.
    eapply i_lku0; eauto. }
  constructor.
  - rewrite E1; auto.
  - rewrite E2; auto.
  - auto.
  - rewrite E4; auto.
  - rewrite E4; auto.
  - intros a b A. rewrite E3. unfold upd. destruct (Nat.eqb_spec a p) as [->|N].
    + left. f_equal. eapply adj_func; eauto.
    + destruct (i_adj0 a b A) as [Q|[Q [w' R]]]; auto. right. split; auto. exists w'. rewrite Hoth; auto.
      intros ->. congruence.
  - rewrite E2, E3. rewrite upd_neq; auto. rewrite <- i_last0. apply not_eq_sym. eapply adj_not_last; eauto.
  - intros w' q n H. destruct (Hoth2 w' q n H) as [A B]. rewrite E3, upd_neq by auto. now apply i_lk0 with w'.
  - intros w1 w2 q q' n H H'. apply Hoth2 in H, H'. destruct H, H'. eapply i_lku0; eauto.
  - rewrite E4. intros t n H. apply (i_item0 t n). auto.
  - intros t t' n H H'. eapply i_itu0; eauto.
  - intros t n H. apply (i_pre0 t n). auto.
  - rewrite E3. intros t n H. apply Px in H. rewrite upd_neq; eauto.
    intros ->. apply (i_pre0 t p). now rewrite H. apply adj_in in Ap. tauto.
  - auto.
  - auto.
  - rewrite E5, effects_app, L, app_nil_r. auto.
Qed.

Lemma inv_ch_ne s ch : inv s ch -> In (head s) ch.
Proof. intros I. destruct (i_hd s ch I) as [r ->]. simpl; auto. Qed.

Lemma inv_step s ch l : inv s ch ->
  match step s l with Next s' => exists ch', inv s' ch' | Ub => False | Stuck => True end.
Proof.
  intros I. pose proof (i_c s ch I) as Hc. unfold cinv in Hc. destruct l as [t n|t| | |]; simpl.
  - (* CallPush *)
    unfold call_push. destruct (pp s t) eqn:Ep; auto. destruct (own s n) eqn:Eo; auto.
    exists ch.
    assert (Hns : n <> stub) by (intros ->; pose proof (i_stub s ch I); congruence).
    assert (Hni : ~ In n ch) by (intros X; apply (i_own s ch I) in X; congruence).
    assert (Hm := i_m_next s (setp (set_own s n true) t (PInit n) [Inv (S t) (Push n)]) ch _ I eq_refl).
    assert (Hlk : forall w, lk (setp (set_own s n true) t (PInit n) [Inv (S t) (Push n)]) w = lk s w).
    { intros [t'|]; simpl; auto. unfold upd. destruct (Nat.eqb_spec t' t); subst; rewrite ?Ep; auto. }
    assert (Hit : forall t' k, item (upd (pp s) t (PInit n) t') = Some k -> (t' = t /\ k = n) \/ (t' <> t /\ item (pp s t') = Some k)).
    { intros t' k. unfold upd. destruct (Nat.eqb_spec t' t); auto. simpl. intros [= ->]. auto. }
    assert (Hno : forall t', item (pp s t') <> Some n).
    { intros t' X. apply (i_item s ch I) in X. destruct X. congruence. }
    destruct I. constructor; cbn [head tail nx own pp cp tr setp set_own]; auto.
    + intros k Hk. unfold upd. destruct (Nat.eqb_spec k n); auto.
    + unfold upd. destruct (Nat.eqb_spec stub n); auto.
    + intros a b A. destruct (i_adj0 a b A) as [X|[X [w Y]]]; auto. right. split; auto. exists w. now rewrite Hlk.
    + intros w p k. rewrite Hlk. apply i_lk0.
    + intros w w' p p' k. rewrite !Hlk. apply i_lku0.
    + intros t' k H. apply Hit in H. destruct H as [[-> ->]|[_ H]].
      * rewrite upd_eq. auto.
      * apply i_item0 in H. destruct H. split; auto. unfold upd. destruct (Nat.eqb_spec k n); auto.
    + intros t1 t2 k H H'. apply Hit in H, H'. destruct H as [[-> ->]|[X H]], H' as [[-> E]|[X' H']]; auto.
      * destruct (Hno _ H').
      * subst. destruct (Hno _ H).
      * eapply i_itu0; eauto.
    + intros t' k. unfold upd. destruct (Nat.eqb_spec t' t); [|apply i_pre0]. simpl. intros [= ->]. auto.
    + intros t' k. unfold upd. destruct (Nat.eqb_spec t' t); [discriminate|apply i_x0].
    + apply Hm. intros m H0 H1. exists (upd m (S t) (TCalled (Push n))).
      split; [right; eexists _, _; split; [reflexivity|]; split; [|reflexivity]|].
      * simpl. rewrite H1, Ep. constructor.
      * split; [rewrite upd_neq by lia; auto|]. intros t'. simpl. unfold upd.
        destruct (Nat.eqb_spec (S t') (S t)), (Nat.eqb_spec t' t); auto; lia.
    + rewrite effects_app. simpl. now rewrite app_nil_r.
  - (* StepP *)
    unfold step_p. destruct (pp s t) eqn:Ep; auto.
    + (* PInit *)
      destruct (i_item s ch I t n) as [Ho Hns]; [now rewrite Ep|]. rewrite Ho.
      assert (Hni : ~ In n ch) by (apply (i_pre s ch I t n); now rewrite Ep).
      exists ch.
      set (s' := setp (store_next s n None) t (PXchg n) []).
      assert (Hm := i_m_next s s' ch _ I eq_refl).
      assert (Hlk : forall w, lk s' w = lk s w).
      { intros [t'|]; simpl; auto. unfold upd. destruct (Nat.eqb_spec t' t); subst; rewrite ?Ep; auto. }
      assert (Hit : forall t', item (pp s' t') = item (pp s t')).
      { intros t'. simpl. unfold upd. destruct (Nat.eqb_spec t' t); subst; rewrite ?Ep; auto. }
      assert (Hpr : forall t', pre (pp s' t') = pre (pp s t')).
      { intros t'. simpl. unfold upd. destruct (Nat.eqb_spec t' t); subst; rewrite ?Ep; auto. }
      assert (Hnx : forall a, In a ch -> nx s' a = nx s a).
      { intros a Ha. simpl. rewrite upd_neq; auto. congruence. }
      assert (Hmm : exists m, wf (fun _ => TIdle) (tr s') m /\ m 0 = ctst (cp s') /\ (forall t, m (S t) = ptst (pp s' t))).
      { apply Hm. intros m H0 H1. exists m. split; [left; auto|]. split; auto. intros t'. rewrite H1. simpl. unfold upd.
        destruct (Nat.eqb_spec t' t); subst; rewrite ?Ep; auto. }
      destruct I. destruct i_hd0 as [r Er]. assert (Hne : ch <> []) by (rewrite Er; discriminate).
      constructor; auto.
      * exists r; auto.
      * intros a b A. rewrite Hnx by (apply adj_in in A; tauto).
        destruct (i_adj0 a b A) as [X|[X [w Y]]]; auto. right. split; auto. exists w. now rewrite Hlk.
      * cbn [tail s' setp store_next]. change (nx s' (tail s) = None). rewrite Hnx; auto. rewrite <- i_last0. now apply last_in.
      * intros w p k. rewrite Hlk. intros H. destruct (i_lk0 w p k H) as [A B]. split; auto. rewrite Hnx; auto.
        apply adj_in in A; tauto.
      * intros w w' p p' k. rewrite !Hlk. apply i_lku0.
      * intros t' k. rewrite Hit. apply i_item0.
      * intros t1 t2 k. rewrite !Hit. apply i_itu0.
      * intros t' k. rewrite Hpr. apply i_pre0.
      * intros t' k H. simpl. unfold upd. destruct (Nat.eqb_spec k n); auto. apply (i_x0 t').
        simpl in H. unfold upd in H. destruct (Nat.eqb_spec t' t); auto. congruence.
      * unfold cinv. cbn [cp head s' setp store_next]. destruct (cp s); auto.
        destruct Hc as (A & B & C & D). split; auto. split; auto. split; auto.
        change (nx s' stub = None). simpl. rewrite upd_neq; auto.
      * cbn [tr s' setp]. simpl. rewrite app_nil_r. auto.
    + (* PXchg *)
      destruct (i_item s ch I t n) as [Ho Hns]; [now rewrite Ep|].
      assert (Hni : ~ In n ch) by (apply (i_pre s ch I t n); now rewrite Ep).
      exists (ch ++ [n]). eapply (inv_exchange s _ ch n (Some t)); try reflexivity; auto.
      * apply (i_x s ch I t n Ep).
      * simpl. now rewrite Ep.
      * simpl. now rewrite upd_eq.
      * intros [t'|] N; simpl; auto. rewrite upd_neq; auto; congruence.
      * intros t' k. simpl. unfold upd. destruct (Nat.eqb_spec t' t); auto. subst. rewrite Ep. auto.
      * intros t' k. simpl. unfold upd. destruct (Nat.eqb_spec t' t); [discriminate|]. intros H. split; auto. intros ->.
        apply n0. apply (i_itu s ch I t' t n); [|now rewrite Ep]. destruct (pp s t'); simpl in *; congruence.
      * intros t' k. simpl. unfold upd. destruct (Nat.eqb_spec t' t); [discriminate|]. auto.
      * intros w' p H. apply (i_lk s ch I) in H. destruct H as [A _]. apply adj_in in A. tauto.
      * unfold cinv. simpl. destruct (cp s); auto.
        -- destruct Hc as (A & B & C). split; auto. split; auto. intros X. apply in_app_or in X. destruct X as [X|[X|[]]]; auto.
        -- destruct Hc as (A & B & C & D). split; auto. split; auto. split; auto. intros X. apply in_app_or in X. destruct X as [X|[X|[]]]; auto.
      * intros m H0 H1. exists (upd m (S t) (TDecided (Push n) RUnit)).
        split; [right; eexists _, _; split; [reflexivity|]; split; [|reflexivity]|].
        -- simpl. rewrite H1, Ep. constructor.
        -- split; [rewrite upd_neq by lia; auto|]. intros t'. simpl. unfold upd.
           destruct (Nat.eqb_spec (S t') (S t)), (Nat.eqb_spec t' t); auto; lia.
      * simpl. rewrite content_app, content_cons by auto. econstructor; [|constructor]. simpl. split; auto.
        intros X. apply filter_In in X. tauto.
    + (* PLink *)
      assert (Hl : lk s (Some t) = Some (prev, n)) by (simpl; now rewrite Ep).
      destruct (i_lk s ch I _ _ _ Hl) as [A B].
      assert (Ho : own s prev = true) by (apply (i_own s ch I); apply adj_in in A; tauto). rewrite Ho.
      exists ch. eapply (inv_link s _ ch prev n (Some t)); try reflexivity; auto.
      * simpl. now rewrite upd_eq.
      * intros [t'|] N; simpl; auto. rewrite upd_neq; auto; congruence.
      * intros t' k. simpl. unfold upd. destruct (Nat.eqb_spec t' t); auto. discriminate.
      * intros t' k. simpl. unfold upd. destruct (Nat.eqb_spec t' t); auto. discriminate.
      * intros t' k. simpl. unfold upd. destruct (Nat.eqb_spec t' t); auto. discriminate.
      * unfold cinv. simpl. destruct (cp s); auto.
        destruct Hc as (X & Y & Z & W). split; auto. split; auto. split; auto. rewrite upd_neq; auto.
        intros <-. apply Z. apply adj_in in A. tauto.
      * intros m H0 H1. exists m. split; [left; auto|]. split; auto. intros t'. rewrite H1. simpl. unfold upd.
        destruct (Nat.eqb_spec t' t); subst; rewrite ?Ep; auto.
    + (* PRet *)
      exists ch. set (s' := setp s t PIdle [Ret (S t) (Push n) RUnit]).
      assert (Hm := i_m_next s s' ch _ I eq_refl).
      assert (Hlk : forall w, lk s' w = lk s w).
      { intros [t'|]; simpl; auto. unfold upd. destruct (Nat.eqb_spec t' t); subst; rewrite ?Ep; auto. }
      assert (Hpp : forall t', t' = t \/ pp s' t' = pp s t').
      { intros t'. simpl. unfold upd. destruct (Nat.eqb_spec t' t); subst; auto. }
      destruct I. constructor; auto.
      * intros a b A. destruct (i_adj0 a b A) as [X|[X [w Y]]]; auto. right. split; auto. exists w. now rewrite Hlk.
      * intros w p k. rewrite Hlk. apply i_lk0.
      * intros w w' p p' k. rewrite !Hlk. apply i_lku0.
      * intros t' k. simpl. unfold upd. destruct (Nat.eqb_spec t' t); [discriminate|]. apply i_item0.
      * intros t1 t2 k. simpl. unfold upd. destruct (Nat.eqb_spec t1 t); [discriminate|].
        destruct (Nat.eqb_spec t2 t); [discriminate|]. apply i_itu0.
      * intros t' k. simpl. unfold upd. destruct (Nat.eqb_spec t' t); [discriminate|]. apply i_pre0.
      * intros t' k. simpl. unfold upd. destruct (Nat.eqb_spec t' t); [discriminate|]. apply i_x0.
      * apply Hm. intros m H0 H1. exists (upd m (S t) TIdle).
        split; [right; eexists _, _; split; [reflexivity|]; split; [|reflexivity]|].
        -- simpl. rewrite H1, Ep. constructor.
        -- split; [rewrite upd_neq by lia; auto|]. intros t'. simpl. unfold upd.
           destruct (Nat.eqb_spec (S t') (S t)), (Nat.eqb_spec t' t); auto; lia.
      * cbn [tr s' setp]. rewrite effects_app. simpl. now rewrite app_nil_r.
  - (* CallPop *)
    destruct (cp s) eqn:Ec; auto. exists ch. apply inv_setc; auto; try (intros; congruence).
    + intros m H0 H1. exists (upd m 0 (TCalled PopWeak)).
      split; [right; eexists _, _; split; [reflexivity|]; split; [|reflexivity]|].
      * simpl. rewrite H0, Ec. constructor.
      * split; [reflexivity|]. intros t. rewrite upd_neq by lia. auto.
    + constructor.
  - (* CallEmpty *)
    destruct (cp s) eqn:Ec; auto. exists ch. apply inv_setc; auto; try (intros; congruence).
    + intros m H0 H1. exists (upd m 0 (TCalled Empty)).
      split; [right; eexists _, _; split; [reflexivity|]; split; [|reflexivity]|].
      * simpl. rewrite H0, Ec. constructor.
      * split; [reflexivity|]. intros t. rewrite upd_neq by lia. auto.
    + constructor.
  - (* StepC *)
    unfold step_c. destruct (cp s) eqn:Ec; auto; cbv zeta.
    + (* CNext *)
      rewrite (i_own s ch I (head s)) by (now apply inv_ch_ne).
      destruct (Nat.eqb_spec stub (head s)) as [Es|Es].
      * destruct (nx s (head s)) as [n|] eqn:En.
        -- exists (tl ch). unfold set_head.
           destruct (next_of_head s ch n I En) as [r Er].
           apply (inv_pop_head s ch n (tl ch) (own s)); auto; try (intros; congruence).
           ++ rewrite <- Es. apply (i_stub s ch I).
           ++ unfold cinv; simpl. split; auto. intros ->. pose proof (i_nd s ch I) as Nd. rewrite Er in Nd.
              inversion_clear Nd. apply H. rewrite <- Es. simpl; auto.
           ++ intros m H0 H1. exists m. split; [left; auto|]. split; auto. rewrite H0, Ec. reflexivity.
           ++ rewrite Er, <- Es. simpl. constructor.
        -- exists ch. apply inv_setc; auto; try (intros; congruence).
           ++ unfold cinv; simpl. auto.
           ++ intros m H0 H1. exists m. split; [left; auto|]. split; auto. rewrite H0, Ec. reflexivity.
           ++ constructor.
      * destruct (nx s (head s)) as [n|] eqn:En.
        -- exists (tl ch). apply inv_give; auto; try (intros; congruence). now rewrite Ec.
        -- exists ch. apply inv_setc; auto; try (intros; congruence).
           ++ unfold cinv; simpl. auto.
           ++ intros m H0 H1. exists m. split; [left; auto|]. split; auto. rewrite H0, Ec. reflexivity.
           ++ constructor.
    + (* CTail0 *)
      exists ch. destruct (i_hd s ch I) as [r Er]. apply inv_none; auto; try (intros; congruence); [now rewrite Ec| |].
      * intros B. apply Nat.eqb_eq in B. pose proof (i_last s ch I) as L. rewrite B in L.
        pose proof (i_nd s ch I) as Nd. rewrite Er in L, Nd. rewrite (hd_last _ _ _ Nd L) in Er. rewrite Er, Hc. reflexivity.
      * intros B. apply Nat.eqb_neq in B. assert (Hne : ch <> []) by (rewrite Er; discriminate).
        assert (X : In (tail s) (content ch)).
        { apply content_in; [|congruence]. rewrite <- (i_last s ch I). now apply last_in. }
        intros Q. rewrite Q in X. destruct X.
    + (* CNext2 *)
      destruct Hc as [Eh Hh]. subst h. rewrite (i_own s ch I (head s)) by (now apply inv_ch_ne).
      destruct (nx s (head s)) as [n|] eqn:En.
      * exists (tl ch). apply inv_give; auto; try (intros; congruence). now rewrite Ec.
      * exists ch. apply inv_setc; auto; try (intros; congruence).
        -- unfold cinv; simpl. auto.
        -- intros m H0 H1. exists m. split; [left; auto|]. split; auto. rewrite H0, Ec. reflexivity.
        -- constructor.
    + (* CTail *)
      destruct Hc as [Eh Hh]. subst h. destruct (i_hd s ch I) as [r Er].
      destruct (Nat.eqb_spec (tail s) (head s)) as [B|B]; exists ch.
      * apply inv_setc; auto; try (intros; congruence).
        -- unfold cinv; simpl. split; auto. split; auto.
           pose proof (i_last s ch I) as L. rewrite B in L. pose proof (i_nd s ch I) as Nd.
           rewrite Er in L, Nd. rewrite (hd_last _ _ _ Nd L) in Er. rewrite Er. intros [X|[]]. auto.
        -- intros m H0 H1. exists m. split; [left; auto|]. split; auto. rewrite H0, Ec. reflexivity.
        -- constructor.
      * apply inv_none; auto; try (intros; congruence). now rewrite Ec.
        intros _. rewrite Er, content_cons by auto. discriminate.
    + (* CInit *)
      destruct Hc as (Eh & Hh & Hs). subst h. exists ch.
      set (s' := setc (store_next s stub None) (CXchg (head s)) []).
      assert (Hm := i_m_next s s' ch _ I eq_refl).
      assert (Hlk : forall w, lk s' w = lk s w) by (intros [t'|]; simpl; auto; now rewrite Ec).
      assert (Hnx : forall a, In a ch -> nx s' a = nx s a).
      { intros a Ha. simpl. rewrite upd_neq; auto. congruence. }
      assert (Hmm : exists m, wf (fun _ => TIdle) (tr s') m /\ m 0 = ctst (cp s') /\ (forall t, m (S t) = ptst (pp s' t))).
      { apply Hm. intros m H0 H1. exists m. split; [left; auto|]. split; auto. rewrite H0, Ec. reflexivity. }
      destruct I. destruct i_hd0 as [r Er]. assert (Hne : ch <> []) by (rewrite Er; discriminate).
      constructor; auto.
      * exists r; auto.
      * intros a b A. rewrite Hnx by (apply adj_in in A; tauto).
        destruct (i_adj0 a b A) as [X|[X [w Y]]]; auto. right. split; auto. exists w. now rewrite Hlk.
      * change (nx s' (tail s) = None). rewrite Hnx; auto. rewrite <- i_last0. now apply last_in.
      * intros w p k. rewrite Hlk. intros H. destruct (i_lk0 w p k H) as [A B]. split; auto. rewrite Hnx; auto.
        apply adj_in in A; tauto.
      * intros w w' p p' k. rewrite !Hlk. apply i_lku0.
      * intros t' k H. simpl in H |- *. unfold upd. destruct (Nat.eqb_spec k stub); eauto.
      * unfold cinv; simpl. auto.
      * cbn [tr s' setc]. simpl. rewrite app_nil_r. auto.
    + (* CXchg *)
      destruct Hc as (Eh & Hh & Hs & Hn). subst h. exists (ch ++ [stub]).
      eapply (inv_exchange s _ ch stub None); try reflexivity; auto.
      * apply (i_stub s ch I).
      * simpl. now rewrite Ec.
      * intros [t'|] N; simpl; auto. congruence.
      * intros t' k. simpl. intros H. split; auto. apply (i_item s ch I t').
        destruct (pp s t'); simpl in *; congruence.
      * intros w' p H. apply (i_lk s ch I) in H. destruct H as [A _]. apply adj_in in A. tauto.
      * unfold cinv; simpl. auto.
      * intros m H0 H1. exists m. split; [left; auto|]. split; auto. rewrite H0, Ec. reflexivity.
      * simpl. rewrite content_app. simpl. rewrite app_nil_r. constructor.
    + (* CLink *)
      destruct Hc as (Eh & Hh). subst h.
      assert (Hl : lk s None = Some (prev, stub)) by (simpl; now rewrite Ec).
      destruct (i_lk s ch I _ _ _ Hl) as [A B].
      assert (Ho : own s prev = true) by (apply (i_own s ch I); apply adj_in in A; tauto). rewrite Ho.
      exists ch. eapply (inv_link s _ ch prev stub None); try reflexivity; auto.
      * intros [t'|] N; simpl; auto. congruence.
      * unfold cinv; simpl. auto.
      * intros m H0 H1. exists m. split; [left; auto|]. split; auto. rewrite H0, Ec. reflexivity.
    + (* CNext3 *)
      destruct Hc as [Eh Hh]. subst h. rewrite (i_own s ch I (head s)) by (now apply inv_ch_ne).
      destruct (nx s (head s)) as [n|] eqn:En.
      * exists (tl ch). apply inv_give; auto; try (intros; congruence). now rewrite Ec.
      * exists ch. apply inv_none; auto; try (intros; congruence). now rewrite Ec.
        intros _. destruct (i_hd s ch I) as [r ->]. rewrite content_cons by auto. discriminate.
    + (* CEmpty *)
      rewrite (i_own s ch I (head s)) by (now apply inv_ch_ne). exists ch.
      destruct (i_hd s ch I) as [r Er]. apply inv_setc; auto; try (intros; congruence).
      * intros m H0 H1. eexists (upd m 0 (TDecided Empty _)).
        split; [right; eexists _, _; split; [reflexivity|]; split; [|reflexivity]|].
        -- simpl. rewrite H0, Ec. constructor.
        -- split; [reflexivity|]. intros t. rewrite upd_neq by lia. auto.
      * cbn -[Nat.eqb]. econstructor; [|constructor]. cbn -[Nat.eqb]. split; auto. intros Hb.
        destruct (Nat.eqb_spec stub (head s)) as [Es|Es].
        -- destruct (nx s (head s)) as [n|] eqn:En; [|discriminate].
           destruct (next_of_head s ch n I En) as [r' Er']. rewrite Er', <- Es, content_stub.
           pose proof (i_nd s ch I) as Nd. rewrite Er' in Nd. inversion_clear Nd.
           rewrite content_cons; [discriminate|]. intros ->. apply H. rewrite <- Es. simpl; auto.
        -- rewrite Er, content_cons; auto. discriminate.
    + (* CRet *)
      exists ch. apply inv_setc; auto; try (intros; congruence).
      * intros m H0 H1. exists (upd m 0 TIdle).
        split; [right; eexists _, _; split; [reflexivity|]; split; [|reflexivity]|].
        -- simpl. rewrite H0, Ec. constructor.
        -- split; [reflexivity|]. intros t. rewrite upd_neq by lia. auto.
      * constructor.
Qed.

Lemma reach nx0 : safe step (init nx0) /\ forall s, reachable step (init nx0) s -> exists ch, inv s ch.
Proof.
  apply (reach_inv step (fun s => exists ch, inv s ch)).
  - intros s l [ch I]. now apply inv_step with (l := l) in I.
  - eexists. apply inv_init.
Qed.
Lemma mpsc_safe_pf nx0 : safe step (init nx0).
Proof. apply reach. Qed.
Lemma mpsc_linearizable_pf nx0 s : reachable step (init nx0) s -> linearizable nfifo [] (erase (tr s)).
Proof.
  intros R. destruct (proj2 (reach nx0) s R) as [ch I]. destruct (i_m s ch I) as (m & W & _).
  exists (tr s), m, (content ch). split; auto. split; auto. apply (i_legal s ch I).
Qed.

Lemma nfifo_det q o r q1 q2 : nfifo q o r q1 -> nfifo q o r q2 -> q1 = q2.
Proof.
  destruct o, r as [|[e|] []|b]; simpl; try tauto.
  - intros [_ ->] [_ ->]. auto.
  - congruence.
  - intros [_ ->] [_ ->]. auto.
  - intros [_ ->] [_ ->]. auto.
  - intros [-> _] [-> _]. auto.
Qed.
Lemma legal_det q l q1 : legal nfifo q l q1 -> forall q2, legal nfifo q l q2 -> q1 = q2.
Proof.
  induction 1 as [|s o r s1 l s2 H H' IH]; intros q2 L; inversion L; subst; auto.
  apply IH. match goal with X : nfifo s o r _ |- _ => now rewrite (nfifo_det _ _ _ _ _ H X) end.
Qed.

Lemma mpsc_empty_true_pf nx0 s l s' q : reachable step (init nx0) s -> step s l = Next s' ->
  tr s' = tr s ++ [Lin 0 Empty (RBool true)] -> legal nfifo [] (effects (tr s)) q ->
  q = [] \/ push_in_progress s.
Proof.
  intros R Hs Ht L. destruct (proj2 (reach nx0) s R) as [ch I].
  pose proof (legal_det _ _ _ L _ (i_legal s ch I)) as ->. clear L.
  assert (Hnil : forall A (l : list A) a, l <> l ++ [a]).
  { intros A k a X. apply (f_equal (@length A)) in X. rewrite app_length in X. simpl in X. lia. }
  destruct l as [t n|t| | |]; simpl in Hs.
  - unfold call_push in Hs. destruct (pp s t), (own s n); try discriminate. injection Hs as <-.
    apply app_inv_head in Ht. discriminate.
  - unfold step_p in Hs. destruct (pp s t); try discriminate;
      repeat match type of Hs with context [if ?b then _ else _] => destruct b end; try discriminate;
      injection Hs as <-; apply app_inv_head in Ht; discriminate.
  - destruct (cp s); try discriminate. injection Hs as <-. apply app_inv_head in Ht. discriminate.
  - destruct (cp s); try discriminate. injection Hs as <-. apply app_inv_head in Ht. discriminate.
  - unfold step_c in Hs. cbv zeta in Hs. destruct (cp s) eqn:Ec; try discriminate;
      repeat match type of Hs with context [if ?b then _ else _] => destruct b eqn:?B end;
      repeat match type of Hs with context [match nx s ?b with None => _ | Some _ => _ end] => destruct (nx s b) eqn:?D end; try discriminate;
      injection Hs as <-; apply app_inv_head in Ht; try discriminate.
    { rewrite andb_false_r in Ht. discriminate. }
    rewrite andb_true_r in Ht. injection Ht as Hb.
    assert (Hb' : stub = head s) by (destruct (head s); congruence || reflexivity). clear Hb. rename Hb' into Hb.
    destruct (i_hd s ch I) as [r Er]. destruct r as [|b r].
    + left. rewrite Er, <- Hb. reflexivity.
    + right. assert (A : adj ch (head s) b) by (exists [], r; auto).
      destruct (i_adj s ch I _ _ A) as [X|[X [[t|] Y]]]; [congruence| |].
      * simpl in Y. destruct (pp s t) eqn:Ep; try discriminate. exists t, n. right. eauto.
      * simpl in Y. rewrite Ec in Y. discriminate.
Qed.

Definition mid (c : cpc) : bool := match c with CIdle | CRet _ _ => false | _ => true end.
Lemma pa_call f s : cp s = CIdle -> pop_alone (S f) s = pop_alone f (setc s CNext [Inv 0 PopWeak]).
Proof. intros E. simpl. now rewrite E. Qed.
Lemma pa_step f s s' : mid (cp s) = true -> step_c s = Next s' -> pop_alone (S f) s = pop_alone f s'.
Proof. intros E H. cbn [pop_alone step]. destruct (cp s); try discriminate; now rewrite H. Qed.
Lemma pa_ret f s e b : cp s = CRet PopWeak (RPop e b) -> (e <> None \/ b = true) ->
  pop_alone (S f) s = Some (setc s CIdle [Ret 0 PopWeak (RPop e b)], e).
Proof. intros E H. cbn [pop_alone step]. unfold step_c. rewrite E. destruct e, b; auto. destruct H; congruence. Qed.

Ltac rw := repeat match goal with
  | |- context [Nat.eqb ?x ?x] => rewrite Nat.eqb_refl
  | |- context [upd _ ?x _ ?x] => rewrite upd_eq
  | H : ?e = _ |- context [?e] => match e with _ => rewrite H end
  end.
Ltac nxt := erewrite pa_step; [|reflexivity|
  unfold step_c; cbn [cp setc head own nx tail set_head store_next exchange]; rw; reflexivity].
Ltac fin L := split; [|reflexivity]; cbn [tr setc give none set_own set_head store_next exchange]; rewrite !effects_app;
  cbn [effects flat_map app]; fold (effects (Op := op) (Res := res)); rewrite ?app_nil_r; eapply legal_app; [exact L|]; econstructor; [|constructor].
Lemma mpsc_pop_quiet_pf nx0 s q : reachable step (init nx0) s -> cp s = CIdle ->
  (forall t prev n, pp s t <> PLink prev n) -> legal nfifo [] (effects (tr s)) q ->
  exists s', pop_alone 10 s = Some (s', hd_error q) /\ legal nfifo [] (effects (tr s')) (tl q) /\ cp s' = CIdle.
Proof.
  intros R Ec Hp L. destruct (proj2 (reach nx0) s R) as [ch I].
  pose proof (legal_det _ _ _ L _ (i_legal s ch I)) as ->.
  destruct (i_hd s ch I) as [r Er].
  assert (Hlink : forall a b, adj ch a b -> nx s a = Some b).
  { intros a b A. destruct (i_adj s ch I a b A) as [|[_ [[t|] X]]]; auto; simpl in X.
    - destruct (pp s t) eqn:E; try discriminate. edestruct Hp; eauto.
    - rewrite Ec in X. discriminate. }
  pose proof (i_own s ch I) as Ho. pose proof (i_last s ch I) as Hl. pose proof (i_end s ch I) as He.
  pose proof (i_nd s ch I) as Nd. pose proof (i_stub s ch I) as Hst. rewrite Er in Ho, Hl, Nd, Hlink, L |- *.
  assert (Hh : own s (head s) = true) by (apply Ho; simpl; auto).
  clear I R Hp Er ch. destruct s as [hd tl_ nx_ ow pp_ cp_ tr_]. cbn [head tail nx own pp cp tr] in *. subst cp_.
  destruct (Nat.eqb_spec stub hd) as [Es|Es].
  - subst hd. destruct r as [|b r].
    + simpl in Hl. subst tl_. eexists.
      rewrite pa_call by reflexivity.
      nxt. nxt.
      rewrite (pa_ret _ _ None true) by (reflexivity || auto).
      split; [reflexivity|]. fin L. split; reflexivity.
    + assert (Hb : nx_ stub = Some b) by (apply Hlink; exists [], r; auto).
      assert (Hob : ow b = true) by (apply Ho; simpl; auto).
      inversion_clear Nd as [|? ? Ni Nd']. assert (Hbs : b <> stub) by (intros ->; apply Ni; simpl; auto).
      rewrite content_stub, content_cons in L |- * by auto.
      destruct r as [|c r].
      * simpl in Hl. subst tl_. eexists.
        rewrite pa_call by reflexivity. do 7 nxt.
        rewrite (pa_ret _ _ (Some b) false) by (reflexivity || (left; discriminate)).
        split; [reflexivity|]. fin L. reflexivity.
      * assert (Hc : nx_ b = Some c) by (apply Hlink; exists [stub], r; auto).
        eexists. rewrite pa_call by reflexivity. do 2 nxt.
        rewrite (pa_ret _ _ (Some b) false) by (reflexivity || (left; discriminate)).
        split; [reflexivity|]. fin L. reflexivity.
  - rewrite content_cons in L |- * by auto. apply Nat.eqb_neq in Es. destruct r as [|b r].
    + simpl in Hl. subst tl_. eexists. rewrite pa_call by reflexivity. do 6 nxt.
      rewrite (pa_ret _ _ (Some hd) false) by (reflexivity || (left; discriminate)).
      split; [reflexivity|]. fin L. reflexivity.
    + assert (Hb : nx_ hd = Some b) by (apply Hlink; exists [], r; auto).
      eexists. rewrite pa_call by reflexivity. nxt.
      rewrite (pa_ret _ _ (Some hd) false) by (reflexivity || (left; discriminate)).
      split; [reflexivity|]. fin L. reflexivity.
Qed.
