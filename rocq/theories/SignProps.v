(** C81: signatures of S3 requests. *)
From Coq Require Import String.
From Verif Require Import Util UrlModel UrlSpec UrlProof SignModel SignSpec SignProof.
Local Open Scope N_scope.
Local Open Scope list_scope.

(** A request that was signed is accepted by the service, whatever SHA-256 and HMAC compute, if its
    header names are distinct, it has a host, no value that is signed has two blanks in a row, its path
    has none of the characters % ! * ( ) and its query is encoded as S3 encodes. *)
Theorem sign_accepted_partial : forall sha hmac c region datetime r,
  signable (c_token c) datetime (rq_target r) (rq_headers r) ->
  accepted sha hmac (c_id c) (c_secret c) region (rq_method r) (rq_target r)
    (rq_headers (Sign sha hmac c region datetime r)).
Proof. exact sign_accepted_pf. Qed.

(** Header names are distinct if the headers were set with SetHeader. *)
Theorem sign_built : forall fs, NoDup (names (fold_right (fun f hs => set_header (fst f) (snd f) hs) [] fs)).
Proof. exact sign_built_pf. Qed.

(** Signing leaves the rest of the request alone, and a session token is sent along. *)
Theorem sign_frame : forall sha hmac c region datetime r h,
  ~ In (lower_case (fst h)) [text "x-amz-date"; text "x-amz-content-sha256"; text "x-amz-security-token"; text "authorization"] ->
  (In h (rq_headers (Sign sha hmac c region datetime r)) <-> In h (rq_headers r)) /\
  rq_method (Sign sha hmac c region datetime r) = rq_method r /\
  rq_target (Sign sha hmac c region datetime r) = rq_target r.
Proof. exact sign_frame_pf. Qed.
Theorem sign_token : forall sha hmac c region datetime r, c_token c <> [] ->
  In (text "x-amz-security-token", c_token c) (rq_headers (Sign sha hmac c region datetime r)).
Proof. exact sign_token_pf. Qed.

(** What the service computes is determined by the request. *)
Theorem sign_canon_unique : forall w hs,
  (forall o1 o2, canon_path w o1 -> canon_path w o2 -> o1 = o2) /\
  (forall o1 o2, canon_query w o1 -> canon_query w o2 -> o1 = o2) /\
  (forall c1 c2, canon_headers hs c1 -> canon_headers hs c2 -> c1 = c2).
Proof. exact sign_canon_unique_pf. Qed.

(** Other paths are signed wrongly: one with any of ! * ( ), and one that is encoded. *)
Theorem sign_path_refuted :
  (forall c o, In c (text "!*()") -> canon_path [47; c] o -> canonical_uri [47; c] <> o) /\
  (forall o, canon_path (text "/a%20b") o -> canonical_uri (text "/a%20b") <> o).
Proof.
  split.
  - intros c o H C E. subst o.
    assert (P : canon_path [47; c] (uri_encode true [47; c])).
    { exists [47; c]. split; auto. apply decodes_self. simpl in H. simpl.
      intros [K|[K|[]]]; [discriminate|]. subst c. vm_compute in H. intuition discriminate. }
    pose proof (canon_path_unique _ _ _ C P) as E. simpl in H.
    destruct H as [<-|[<-|[<-|[<-|[]]]]]; vm_compute in E; discriminate.
  - intros o C E. subst o.
    assert (P : canon_path (text "/a%20b") (uri_encode true (text "/a b"))).
    { exists (text "/a b"). split; [|reflexivity].
      apply (uri_decodes true (text "/a b")). repeat constructor; vm_compute; reflexivity. }
    pose proof (canon_path_unique _ _ _ C P) as E. vm_compute in E. discriminate.
Qed.

(** So is a query with a value that AppendUrlEncoded has encoded: listing with the prefix "a(b". *)
Theorem sign_query_refuted : exists v e, AppendUrlEncoded v [] = Some e /\
  forall o, canon_query (text "prefix=" ++ e) o -> canonical_query (text "prefix=" ++ e) <> o.
Proof.
  exists (text "a(b"), (text "a(b"). split; [vm_compute; reflexivity|]. intros o C E. subst o.
  assert (P : canon_query (text "prefix=" ++ text "a(b") (text "prefix=a%28b")).
  { right. split; [discriminate|].
    exists [text "prefix=a(b"], [(text "prefix", text "a(b")], [(text "prefix", text "a(b")], [(text "prefix", text "a%28b")].
    split; [reflexivity|]. split. { constructor; auto. vm_compute. intuition discriminate. }
    split. { constructor; auto. split; [vm_compute; intuition discriminate|]. left. reflexivity. }
    split. { constructor; auto. split; apply decodes_self; vm_compute; intuition discriminate. }
    split; [apply Permutation.Permutation_refl|]. split; [repeat constructor|reflexivity]. }
  pose proof (canon_query_unique _ _ _ C P) as E. vm_compute in E. discriminate.
Qed.

(** A request that is signed again, with credentials without a session token, keeps the old token. *)
Theorem sign_old_token_refuted : forall sha hmac c region datetime r h, c_token c = [] ->
  In h (rq_headers r) -> lower_case (fst h) = text "x-amz-security-token" ->
  In h (rq_headers (Sign sha hmac c region datetime r)).
Proof. exact sign_old_token_refuted_pf. Qed.

(** The target of a request for an object names that object, if the key has no % and no ?. *)
Theorem s3_key_partial : forall bucket key, ~ In 37 key -> ~ In 63 key ->
  asks_for (object_path true bucket key) key /\
  (~ In 37 bucket -> ~ In 63 bucket -> asks_for (object_path false bucket key) (bucket ++ 47 :: key)).
Proof. exact s3_key_partial_pf. Qed.

(** Otherwise it may name another one: "a%41" asks for "aA", "a?b" for "a". *)
Theorem s3_key_refuted : forall bucket,
  (forall k, asks_for (object_path true bucket (text "a%41")) k <-> k = text "aA") /\
  (forall k, asks_for (object_path true bucket (text "a?b")) k <-> k = text "a").
Proof.
  intros bucket.
  assert (A : asks_for (object_path true bucket (text "a%41")) (text "aA")).
  { exists (text "/a%41"), []. split; [split; [vm_compute; intuition discriminate|right; auto]|].
    change (decodes (47 :: 97 :: 37 :: 52 :: 49 :: []) (47 :: 97 :: 16 * 4 + 1 :: [])).
    repeat first [apply dec_nil | apply dec_char; [discriminate|] | apply dec_pct; [reflexivity|reflexivity|]]. }
  assert (B : asks_for (object_path true bucket (text "a?b")) (text "a")).
  { exists (text "/a"), (text "b"). split; [split; [vm_compute; intuition discriminate|left; reflexivity]|].
    apply decodes_self. vm_compute. intuition discriminate. }
  split; intros k; split; intros H; try (subst; assumption); eapply asks_unique; eauto.
Qed.

(** A request for a part of an upload, as the library makes it; the hash functions are stand-ins. *)
Definition sample : request :=
  {| rq_method := text "PUT"; rq_target := text "/bucket/dir/file-1.txt?partNumber=7&uploadId=x%2By~z";
     rq_headers := [(text "Host", text "s3.eu-west-1.amazonaws.com");
                    (text "x-amz-content-sha256", text "UNSIGNED-PAYLOAD"); (text "Content-Length", text "5")] |}.
Definition sample_creds : creds := {| c_id := text "AKID"; c_secret := text "secret"; c_token := text "tok" |}.
Lemma no_white_dec v : forallb (fun c => negb (white c)) v = true -> no_white v.
Proof. intros H c Hc. rewrite forallb_forall in H. apply H in Hc. now apply negb_true_iff. Qed.
Example sign_met : signable (c_token sample_creds) (text "20260115T101112Z") (rq_target sample) (rq_headers sample).
Proof.
  assert (T : forall path query, target_parts (rq_target sample) path query ->
              (path, query) = (text "/bucket/dir/file-1.txt", text "partNumber=7&uploadId=x%2By~z")).
  { intros path query H. apply target_cut in H. rewrite <- H. vm_compute. reflexivity. }
  split.
  - simpl. repeat constructor; vm_compute; intuition discriminate.
  - exists (text "Host", text "s3.eu-west-1.amazonaws.com"). split; [now left|reflexivity].
  - intros h H _. apply clean_single, no_white_dec. simpl in H. destruct H as [<-|[<-|[<-|[]]]]; vm_compute; reflexivity.
  - intros h H _. apply no_white_dec. simpl in H. destruct H as [<-|[<-|[<-|[]]]]; vm_compute; reflexivity.
  - apply no_white_dec. vm_compute. reflexivity.
  - apply no_white_dec. vm_compute. reflexivity.
  - intros path query H. apply T in H. injection H as -> ->. split.
    + repeat constructor; vm_compute; reflexivity.
    + intros x Hx.
      assert (F : forallb (fun x => negb (existsb (N.eqb x) [37; 33; 42; 40; 41])) (text "/bucket/dir/file-1.txt") = true)
        by (vm_compute; reflexivity).
      rewrite forallb_forall in F. apply F in Hx. simpl in Hx.
      destruct (N.eqb_spec x 37), (N.eqb_spec x 33), (N.eqb_spec x 42), (N.eqb_spec x 40), (N.eqb_spec x 41);
        try discriminate; auto.
  - intros path query H. apply T in H. injection H as -> ->.
    exists [(text "partNumber", Some (text "7")); (text "uploadId", Some (text "x+y~z"))]. split.
    + repeat constructor; vm_compute; reflexivity.
    + vm_compute. reflexivity.
Qed.
Example sign_met_names : signed_names (signed_fields (rq_headers (Sign (fun x => x) (fun k m => m) sample_creds (text "eu-west-1")
    (text "20260115T101112Z") sample))) = text "host;x-amz-content-sha256;x-amz-date;x-amz-security-token".
Proof. vm_compute. reflexivity. Qed.

Print Assumptions sign_accepted_partial.
Print Assumptions sign_built.
Print Assumptions sign_frame.
Print Assumptions sign_token.
Print Assumptions sign_canon_unique.
Print Assumptions sign_path_refuted.
Print Assumptions sign_query_refuted.
Print Assumptions sign_old_token_refuted.
Print Assumptions s3_key_partial.
Print Assumptions s3_key_refuted.
