From Verif Require Import Util UrlModel UrlSpec.
Open Scope N_scope.

Lemma digit_ok i : i < 16 -> hexval (digit i) = Some i /\ upper_hex (digit i).
Proof.
  intros H. unfold digit, hexval, upper_hex. destruct (N.ltb_spec i 10).
  - destruct (N.leb_spec 48 (48 + i)), (N.leb_spec (48 + i) 57); try lia. cbn [andb]. split; [f_equal|]; lia.
  - destruct (N.leb_spec 48 (55 + i)), (N.leb_spec (55 + i) 57); try lia. cbn [andb].
    destruct (N.leb_spec 65 (55 + i)), (N.leb_spec (55 + i) 70); try lia. cbn [andb]. split; [f_equal|]; lia.
Qed.

Lemma nibbles ch : ch < 256 ->
  let a := N.land (N.shiftr ch 4) 15 in let b := N.land ch 15 in
  a < 16 /\ b < 16 /\ 16 * a + b = ch.
Proof.
  intros H. cbv zeta. change 15 with (N.ones 4). rewrite !N.land_ones, N.shiftr_div_pow2.
  change (2 ^ 4) with 16. lia.
Qed.

Lemma encode_decodes valid src : (valid 37 = false) -> bytes src -> decodes (encode_with valid src) src.
Proof.
  intros Hv. induction 1 as [|c s Hc Hs IH]; cbn [encode_with]; [constructor|].
  destruct (valid c) eqn:E.
  - cbn [app]. apply dec_char; auto. intros ->. congruence.
  - destruct (nibbles c Hc) as (A & B & S). cbn [app]. rewrite <- S at 3.
    apply dec_pct; auto; apply digit_ok; auto.
Qed.

Lemma encode_len valid src : len (encode_with valid src) <= 3 * len src.
Proof.
  induction src as [|c s IH]; cbn [encode_with]; [rewrite len_nil; lia|].
  rewrite len_app, len_cons. destruct (valid c); rewrite ?len_cons, ?len_nil; lia.
Qed.

Lemma encode_text valid p src : (forall c, valid c = true -> literal p c) -> bytes src ->
  url_text p (encode_with valid src).
Proof.
  intros Hv. induction 1 as [|c s Hc Hs IH]; cbn [encode_with]; [constructor|].
  destruct (valid c) eqn:E; cbn [app].
  - constructor; auto.
  - destruct (nibbles c Hc) as (A & B & _). constructor; auto; now apply digit_ok.
Qed.

Lemma alnum_literal p c : isalnum c = true -> literal p c.
Proof.
  unfold isalnum, between, literal. intros H.
  apply orb_prop in H as [H|H]; [apply orb_prop in H as [H|H]|];
    apply andb_prop in H as [A B]; apply N.leb_le in A; apply N.leb_le in B; auto.
Qed.
Lemma exists_literal p c : existsb (N.eqb c) p = true -> literal p c.
Proof.
  intros H. apply existsb_exists in H as (x & Hx & E). apply N.eqb_eq in E as ->.
  unfold literal. auto.
Qed.

Lemma isx_hexval c : isxdigit c = true -> c < 256 -> hexval c = Some (hex_digit_to_int c) /\ hex_digit_to_int c < 16.
Proof.
  intros H Hc.
  assert (F : forallb (fun i => let c := N.of_nat i in
     implb (isxdigit c) ((match hexval c with Some v => v =? hex_digit_to_int c | None => false end) && (hex_digit_to_int c <? 16))) (seq 0 256) = true)
    by (vm_compute; reflexivity).
  rewrite forallb_forall in F. specialize (F (N.to_nat c)). cbv zeta in F. rewrite N2Nat.id in F.
  specialize (F ltac:(apply in_seq; lia)). rewrite H in F. cbn [implb] in F.
  apply andb_prop in F as [F1 F2]. destruct (hexval c); [|discriminate].
  apply N.eqb_eq in F1 as ->. now apply N.ltb_lt in F2.
Qed.
Lemma isx_none c : isxdigit c = false -> hexval c = None.
Proof.
  unfold isxdigit, hexval, between. intros H.
  apply orb_false_elim in H as [H H3]. apply orb_false_elim in H as [H1 H2].
  now rewrite H1, H2, H3.
Qed.

Lemma hex_join a b : a < 16 -> b < 16 -> N.lor (N.shiftl a 4) b mod 256 = 16 * a + b.
Proof.
  intros Ha Hb.
  assert (F : forallb (fun i => forallb (fun j => let a := N.of_nat i in let b := N.of_nat j in
     N.lor (N.shiftl a 4) b mod 256 =? 16 * a + b) (seq 0 16)) (seq 0 16) = true) by (vm_compute; reflexivity).
  rewrite forallb_forall in F. specialize (F (N.to_nat a) ltac:(apply in_seq; lia)).
  rewrite forallb_forall in F. specialize (F (N.to_nat b) ltac:(apply in_seq; lia)).
  cbv zeta in F. rewrite !N2Nat.id in F. now apply N.eqb_eq in F.
Qed.

Lemma decode_spec n : forall src, (length src <= n)%nat -> bytes src ->
  let (o, ok) := InternalUrlDecode src in
  len o <= len src /\ if ok then decodes src o else forall d, ~ decodes src d.
Proof.
  induction n as [|n IH]; intros src Hl Hb.
  - destruct src; [|simpl in Hl; lia]. simpl. split; [rewrite len_nil; lia|constructor].
  - destruct src as [|ch t]; [simpl; split; [rewrite len_nil; lia|constructor]|].
    inversion Hb as [|? ? Hch Ht]; subst. cbn [InternalUrlDecode].
    destruct (N.eqb_spec ch 37) as [->|Hne]; cbn [negb].
    + destruct t as [|a [|b t']].
      * split; [rewrite len_nil; lia|]. intros d Hd. inversion Hd; congruence.
      * split; [rewrite len_nil; lia|]. intros d Hd. inversion Hd; congruence.
      * inversion Ht as [|? ? Ha Ht1]; subst. inversion Ht1 as [|? ? Hbb Ht2]; subst.
        destruct (isxdigit a) eqn:Ea; cbn [negb orb].
        2:{ split; [rewrite len_nil; lia|]. intros d Hd. inversion Hd; subst; [congruence|].
            rewrite (isx_none _ Ea) in *. discriminate. }
        destruct (isxdigit b) eqn:Eb; cbn [negb].
        2:{ split; [rewrite len_nil; lia|]. intros d Hd. inversion Hd; subst; [congruence|].
            rewrite (isx_none _ Eb) in *. discriminate. }
        destruct (isx_hexval a Ea Ha) as [Va La]. destruct (isx_hexval b Eb Hbb) as [Vb Lb].
        specialize (IH t' ltac:(simpl in Hl; lia) Ht2).
        destruct (InternalUrlDecode t') as [o ok]. destruct IH as [IL IH].
        split; [rewrite !len_cons; lia|]. destruct ok.
        -- rewrite hex_join by auto. now constructor.
        -- intros d Hd. inversion Hd; subst; [congruence|]. eapply IH; eauto.
    + specialize (IH t ltac:(simpl in Hl; lia) Ht).
      destruct (InternalUrlDecode t) as [o ok]. destruct IH as [IL IH].
      split; [rewrite !len_cons; lia|]. destruct ok.
      * now constructor.
      * intros d Hd. inversion Hd; subst; [|congruence]. eapply IH; eauto.
Qed.

Lemma decodes_det s d1 d2 : decodes s d1 -> decodes s d2 -> d1 = d2.
Proof.
  intros H; revert d2. induction H; intros d2 H2; inversion H2; subst; try congruence.
  - f_equal; auto.
  - replace a0 with a by congruence. replace b0 with b by congruence. f_equal; auto.
Qed.

Lemma url_decode_spec_pf : forall src dest, bytes src -> len src + 3 < two32 -> len src + len dest <> 0 ->
  (exists d, decodes src d /\ AppendUrlDecoded src dest = Some (true, dest ++ d)) \/
  ((forall d, ~ decodes src d) /\ AppendUrlDecoded src dest = Some (false, dest)).
Proof.
  intros src dest Hb Hl Hne. unfold AppendUrlDecoded.
  destruct (N.leb_spec two32 (len src + 3)); [lia|].
  destruct (N.eqb_spec (len dest + len src) 0); [lia|].
  pose proof (decode_spec _ src (le_n _) Hb) as D.
  destruct (InternalUrlDecode src) as [o ok]. destruct D as [DL D].
  destruct ok.
  - destruct (N.leb_spec (len o + 1) (len src + 1)); [|lia]. left. eauto.
  - destruct (N.leb_spec (len o + 0) (len src + 1)); [|lia]. right. auto.
Qed.

Lemma valid_literal : (forall c, IsValidUrlChar c = true -> literal [45; 95; 46; 33; 126; 42; 40; 41] c) /\
  (forall c, IsValidUrlCharHttp c = true -> literal [45; 95; 46; 33; 39; 40; 41] c).
Proof.
  split; intros c H; apply orb_prop in H as [H|H]; auto using alnum_literal, exists_literal.
Qed.

Lemma url_encode_spec_pf : forall src dest, bytes src ->
  exists out, AppendUrlEncoded src dest = Some (dest ++ out) /\
    url_text [45; 95; 46; 33; 126; 42; 40; 41] out /\ len out <= 3 * len src /\ decodes out src.
Proof.
  intros src dest Hb. exists (encode_with IsValidUrlChar src).
  pose proof (encode_len IsValidUrlChar src). unfold AppendUrlEncoded. cbv zeta.
  destruct (N.leb_spec (len (encode_with IsValidUrlChar src) + 1) (3 * len src + 1)); [|lia].
  split; auto. split; [apply encode_text; auto; apply valid_literal|]. split; auto.
  now apply encode_decodes.
Qed.

Lemma bytes_encode valid src : bytes src -> bytes (encode_with valid src).
Proof.
  induction 1 as [|c s Hc Hs IH]; cbn [encode_with]; [constructor|].
  apply Forall_app. split; auto. destruct (valid c); repeat constructor; auto; try lia.
  all: unfold digit; match goal with |- context [if ?b then _ else _] => destruct b eqn:E end.
  all: change 15 with (N.ones 4) in *; rewrite ?N.land_ones in *; change (2 ^ 4) with 16 in *; lia.
Qed.

Lemma decode_of (e src dest : list N) : bytes e -> decodes e src -> len e + 3 < two32 -> len e + len dest <> 0 ->
  AppendUrlDecoded e dest = Some (true, dest ++ src).
Proof.
  intros Hb Hd Hl Hne. destruct (url_decode_spec_pf e dest Hb Hl Hne) as [(d & D & ->)|[N _]].
  - now rewrite (decodes_det _ _ _ Hd D).
  - exfalso. eapply N; eauto.
Qed.

Lemma url_roundtrip_pf : forall src dest, bytes src -> 3 * len src + 3 < two32 ->
  exists e, AppendUrlEncoded src [] = Some e /\
    (len e + len dest <> 0 -> AppendUrlDecoded e dest = Some (true, dest ++ src)).
Proof.
  intros src dest Hb Hl. destruct (url_encode_spec_pf src [] Hb) as (e & -> & _ & L & D).
  exists e. split; auto. intros Hne. apply decode_of; auto; [|lia].
  assert (E : e = encode_with IsValidUrlChar src \/ True) by auto.
  (* bytes of e: from url_text *)
  clear E. revert D. clear -Hb. intros D. induction D.
  - constructor.
  - inversion Hb; subst. constructor; auto. now apply IHD.
  - inversion Hb; subst. repeat constructor; try lia; try (now apply IHD).
    + unfold hexval in H. repeat (match type of H with context [if ?b then _ else _] => destruct b eqn:? end); try discriminate; lia.
    + unfold hexval in H0. repeat (match type of H0 with context [if ?b then _ else _] => destruct b eqn:? end); try discriminate; lia.
Qed.

Lemma http_url_roundtrip_pf : forall src dest, bytes src -> 3 * len src + 3 < two32 -> src <> [] ->
  AppendUrlDecoded (UrlEncode src) dest = Some (true, dest ++ src) /\
  url_text [45; 95; 46; 33; 39; 40; 41] (UrlEncode src) /\ len (UrlEncode src) <= 3 * len src.
Proof.
  intros src dest Hb Hl Hne. pose proof (encode_len IsValidUrlCharHttp src) as L.
  split; [|split; auto].
  - apply decode_of; auto.
    + now apply bytes_encode.
    + now apply encode_decodes.
    + unfold UrlEncode. lia.
    + destruct src; [congruence|]. unfold UrlEncode. cbn [encode_with]. rewrite len_app.
      destruct (IsValidUrlCharHttp n); rewrite !len_cons; lia.
  - apply encode_text; auto. apply valid_literal.
Qed.

(** ** Queries *)
Lemma cut_spec c s : let (a, b) := cut c s in ~ In c a /\
  match b with Some r => s = a ++ c :: r | None => s = a end.
Proof.
  induction s as [|x t IH]; simpl; [tauto|].
  destruct (N.eqb_spec x c) as [->|Hne]; [simpl; tauto|].
  destruct (cut c t) as [a b]. destruct IH as [IH1 IH2]. split.
  - simpl. intros [?|?]; auto.
  - destruct b; subst; auto.
Qed.
Lemma split_spec c s : StrSplit c s <> [] /\ join c (StrSplit c s) = s /\
  Forall (fun p => ~ In c p) (StrSplit c s).
Proof.
  induction s as [|x t (IH0 & IH1 & IH2)]; simpl.
  - split; [discriminate|]. split; auto.
  - destruct (N.eqb_spec x c) as [->|Hne].
    + split; [discriminate|]. split; [|constructor; auto].
      rewrite <- IH1 at 2. destruct (StrSplit c t) eqn:E; [congruence|]. reflexivity.
    + destruct (StrSplit c t) as [|p ps] eqn:E; [congruence|].
      split; [discriminate|]. split.
      * destruct ps; simpl in *; now rewrite <- IH1.
      * inversion IH2; subst. constructor; auto. simpl. intros [?|?]; auto.
Qed.
Lemma parse_query_pf : forall s, let (path, q) := ParseQuery s in
  ~ In 63 path /\ match q with Some r => s = path ++ 63 :: r | None => s = path end.
Proof. intros s. exact (cut_spec 63 s). Qed.
Lemma split_query_pf : SplitQuery None = [] /\ forall q, exists pieces,
  pieces <> [] /\ join 38 pieces = q /\ Forall (fun p => ~ In 38 p) pieces /\
  Forall2 pair_of pieces (SplitQuery (Some q)).
Proof.
  split; [reflexivity|]. intros q. exists (StrSplit 38 q). destruct (split_spec 38 q) as (H1 & H2 & H3). repeat split; auto.
  unfold SplitQuery. clear. induction (StrSplit 38 q) as [|p ps IH]; simpl; constructor; auto.
  pose proof (cut_spec 61 p) as H. destruct (cut 61 p) as [a [r|]]; unfold pair_of; simpl; tauto.
Qed.
