(** The properties of the Azure credentials (C86). *)
From Coq Require Import String.
From Verif Require Import Util UrlSpec UrlModel UrlProof SignModel SignProof.
From Verif Require CfgSpec CfgProof.
From Verif Require Import SignSpec AzSpec AzModel AzProof.
Import ListNotations.
Local Open Scope N_scope.

(** A request signed with the account key carries exactly the Authorization field the service computes from the request as it is sent (for the requests of [signable]). *)
Theorem az_sign : forall hmac b64 unb64 st date r key k, z_auth st = SharedKey key -> unb64 key = Some k ->
  signable (rq_method r) (rq_target r) (rq_headers r) -> rev (drop_white (rev (drop_white date))) = date ->
  exists hs s, Sign hmac b64 unb64 st date r = Signed (Build_request (rq_method r) (rq_target r) hs) /\
    to_be_signed (i_account (z_info st)) (rq_method r) (rq_target r) hs s /\
    authorization hs = text "SharedKey " ++ i_account (z_info st) ++ 58 :: b64 (hmac k s) /\
    field_value hs (text "x-ms-date") = date /\ field_value hs (text "x-ms-version") = text "2025-01-05".
Proof. exact az_sign_pf. Qed.
Print Assumptions az_sign.

(** The text the service signs is determined by the request, so there is no other signature it accepts. *)
Theorem az_text_unique : forall account meth target hs s1 s2,
  to_be_signed account meth target hs s1 -> to_be_signed account meth target hs s2 -> s1 = s2.
Proof. exact az_text_unique_pf. Qed.
Print Assumptions az_text_unique.

(** REFUTED: every request is signed as the service expects. A Range field (as any standard field but Content-Length) is left out of the signed text. *)
Theorem az_range_refuted : forall hmac b64 unb64 st date key k, z_auth st = SharedKey key -> unb64 key = Some k ->
  exists hs s, Sign hmac b64 unb64 st date (Build_request (text "GET") (text "/c/k") [(text "Range", text "bytes=0-9")]) =
      Signed (Build_request (text "GET") (text "/c/k") hs) /\
    authorization hs = text "SharedKey " ++ i_account (z_info st) ++ 58 :: b64 (hmac k s) /\
    ~ to_be_signed (i_account (z_info st)) (text "GET") (text "/c/k") hs s.
Proof. exact az_range_refuted_pf. Qed.
Print Assumptions az_range_refuted.

(** REFUTED: the same for a parameter that is given twice. *)
Theorem az_twice_refuted : forall account, exists s,
  to_sign account (text "GET") (text "/c?a=1&a=2") [] = Some s /\ ~ to_be_signed account (text "GET") (text "/c?a=1&a=2") [] s.
Proof. exact az_twice_refuted_pf. Qed.
Print Assumptions az_twice_refuted.

(** REFUTED: signing has defined behaviour. A parameter without a value makes it take front() of an empty string. *)
Theorem az_empty_refuted : forall hmac b64 unb64 st date key k, z_auth st = SharedKey key -> unb64 key = Some k ->
  Sign hmac b64 unb64 st date (Build_request (text "GET") (text "/c?comp=list&prefix=") []) = SignUb.
Proof. exact az_empty_refuted_pf. Qed.
Print Assumptions az_empty_refuted.

(** REFUTED: credentials that were loaded can be used. A key that is not Base64 is accepted by Init and ends the process when a request is signed. *)
Theorem az_key_refuted : forall hmac b64 unb64, unb64 (text "no base64") = None ->
  exists w st, Init w [] = Some (true, st) /\ forall date r, Sign hmac b64 unb64 st date r = Abort.
Proof. exact az_key_refuted_pf. Qed.
Print Assumptions az_key_refuted.

(** With a SAS token the parameters of the token come behind those of the request, the path stays, and a request that has a signature is left alone. *)
Theorem az_sas : forall hmac b64 unb64 st date r q b path args, z_auth st = Sas q -> q <> [] -> query_args q b ->
  args_of (rq_target r) path args ->
  exists t hs, Sign hmac b64 unb64 st date r = Signed (Build_request (rq_method r) t hs) /\
    (has_sig args -> t = rq_target r) /\ (~ has_sig args -> args_of t path (args ++ b)) /\
    authorization hs = authorization (rq_headers r).
Proof. exact az_sas_pf. Qed.
Print Assumptions az_sas.

(** Signing a request again, as a retry does, adds the token no second time. *)
Theorem az_sas_again : forall hmac b64 unb64 st d1 d2 r r1 r2 q b, z_auth st = Sas q -> query_args q b -> has_sig b ->
  Sign hmac b64 unb64 st d1 r = Signed r1 -> Sign hmac b64 unb64 st d2 r1 = Signed r2 -> rq_target r2 = rq_target r1.
Proof. exact az_sas_again_pf. Qed.
Print Assumptions az_sas_again.

(** With a bearer token the request is sent to the same target with the token in the Authorization field. *)
Theorem az_bearer : forall hmac b64 unb64 st date r t, z_auth st = Bearer t ->
  exists hs, Sign hmac b64 unb64 st date r = Signed (Build_request (rq_method r) (rq_target r) hs) /\ authorization hs = text "Bearer " ++ t.
Proof. exact az_bearer_pf. Qed.
Print Assumptions az_bearer.

(** A setting of a connection string is that of the first part with its name, in any case, without the white space around it. *)
Theorem az_setting : forall s k, k <> [] -> setting s k (MapGet (ParseConnectionStringKV s) k).
Proof. exact az_setting_pf. Qed.
Print Assumptions az_setting.

(** And there is only one such value. *)
Theorem az_setting_unique : forall s k v1 v2, setting s k v1 -> setting s k v2 -> v1 = v2.
Proof. exact az_setting_unique_pf. Qed.
Print Assumptions az_setting_unique.

(** An endpoint given as a URL yields host (and port, unless it is that of the scheme), whether TLS is used, and the path as the prefix of all targets. *)
Theorem az_endpoint : forall given s e u old, trims given s -> CfgSpec.url_text s e u -> (e = true \/ ~ In 58 (CfgSpec.u_host u)) ->
  CfgSpec.u_host u <> [] -> i_prefix old = [] ->
  exists p, prefix_is (CfgSpec.u_path u) p /\
    ParseEndpointHost given old = Some (Info
      (if list_eq_dec N.eq_dec (CfgSpec.u_port u) (CfgSpec.default_port (CfgSpec.u_tls u)) then CfgSpec.u_host u
       else CfgSpec.u_host u ++ 58 :: CfgSpec.u_port u) (i_account old) p (CfgSpec.u_tls u)).
Proof. exact az_endpoint_pf. Qed.
Print Assumptions az_endpoint.

(** Credentials that are loaded are those of the source named: its key, or its SAS token if it has no key, or the token the identity service returned, with the account and endpoint of that source. *)
Theorem az_loaded : forall w req st, Init w req = Some (true, st) ->
  match z_source st with
  | NoSource => False
  | FromString => from_string w req st
  | FromEnv => from_env w req st
  | FromIdentity => from_identity w req st
  end.
Proof. exact az_loaded_pf. Qed.
Print Assumptions az_loaded.

(** If an account was asked for, the credentials are for this account, and its endpoint is the public one unless the environment gives another. *)
Theorem az_requested : forall w req st, Init w req = Some (true, st) -> req <> [] ->
  i_account (z_info st) = req /\
  (z_source st = FromString \/ env_value w "AZURE_STORAGE_BLOB_ENDPOINT" [] /\ env_value w "AZURE_STORAGE_ACCOUNT_URL" [] ->
     z_info st = public req /\ ServiceEndpoint st = public_endpoint req (text "core.windows.net")).
Proof. exact az_requested_pf. Qed.
Print Assumptions az_requested.

(** REFUTED: the endpoint of a connection string is used. It is ignored, and requests go to the public endpoint, if an account was asked for. *)
Theorem az_endpoint_refuted : exists w raw st, env_value w "AZURE_STORAGE_CONNECTION_STRING" raw /\
  setting raw (text "AccountName") (text "acct") /\ setting raw (text "BlobEndpoint") (text "http://127.0.0.1:10000/acct") /\
  Init w (text "acct") = Some (true, st) /\ ServiceEndpoint st = text "acct.blob.core.windows.net" /\ i_tls (z_info st) = true /\
  exists st0, Init w [] = Some (true, st0) /\ ServiceEndpoint st0 = text "127.0.0.1:10000" /\ i_tls (z_info st0) = false /\
    i_account (z_info st0) = text "acct" /\ i_prefix (z_info st0) = text "/acct".
Proof. exact az_endpoint_refuted_pf. Qed.
Print Assumptions az_endpoint_refuted.

(** A connection string with account and key is used before everything else. *)
Theorem az_string_first : forall w req raw a k d x, env_value w "AZURE_STORAGE_CONNECTION_STRING" raw ->
  setting raw (text "AccountName") a -> a <> [] -> setting raw (text "AccountKey") k -> k <> [] ->
  setting raw (text "UseDevelopmentStorage") d -> lower_case d <> text "true" ->
  setting raw (text "BlobEndpoint") [] -> setting raw (text "EndpointSuffix") x -> (req = [] \/ lower_case a = lower_case req) ->
  Init w req = Some (true, State FromString (if list_eq_dec N.eq_dec req [] then
       Info (public_endpoint a (if list_eq_dec N.eq_dec x [] then text "core.windows.net" else x)) a [] true else public req) (SharedKey k)).
Proof. exact az_string_first_pf. Qed.
Print Assumptions az_string_first.

(** Without a connection string, the account and key of the environment are used. *)
Theorem az_env_next : forall w req a k, env_value w "AZURE_STORAGE_CONNECTION_STRING" [] -> env_value w "AZURE_STORAGE_KEY" k -> k <> [] ->
  env_value w "AZURE_STORAGE_BLOB_ENDPOINT" [] -> env_value w "AZURE_STORAGE_ACCOUNT_URL" [] ->
  (req <> [] /\ a = req \/ req = [] /\ env_value w "AZURE_STORAGE_ACCOUNT" a /\ a <> []) ->
  Init w req = Some (true, State FromEnv (public a) (SharedKey k)).
Proof. exact az_env_next_pf. Qed.
Print Assumptions az_env_next.

(** Without any of these the identity service is asked, and its answer alone decides. *)
Theorem az_identity_last : forall w req a, env_value w "AZURE_STORAGE_CONNECTION_STRING" [] -> env_value w "AZURE_STORAGE_KEY" [] ->
  env_value w "AZURE_STORAGE_SAS_TOKEN" [] -> env_value w "AZURE_STORAGE_BLOB_ENDPOINT" [] -> env_value w "AZURE_STORAGE_ACCOUNT_URL" [] ->
  (req <> [] /\ a = req \/ req = [] /\ env_value w "AZURE_STORAGE_ACCOUNT" a /\ a <> []) ->
  exists target, Init w req = match w_identity w target with
    | Body (ZObj (Some t) (Some (Some _))) => Some (true, State FromIdentity (public a) (Bearer t))
    | Body ZEmpty | Body ZOther => None
    | _ => Some (false, State NoSource (Info [] [] [] true) NoAuth)
    end /\ forall c, env_value w "AZURE_CLIENT_ID" c -> bytes c -> asks_identity c target.
Proof. exact az_identity_last_pf. Qed.
Print Assumptions az_identity_last.

(** Init has a defined outcome unless the identity service returns nothing or something that is not an object. *)
Theorem az_defined : forall w req, sane w -> Init w req <> None.
Proof. exact az_defined_pf. Qed.
Print Assumptions az_defined.

(** REFUTED: the same for every answer of the identity service. *)
Theorem az_imds_refuted : exists w, w_identity w = (fun _ => Body ZOther) /\ Init w (text "acct") = None.
Proof. exact az_imds_refuted_pf. Qed.
Print Assumptions az_imds_refuted.

(** After Init failed, requests carry no credentials. *)
Theorem az_fail : forall w req st, Init w req = Some (false, st) -> forall hmac b64 unb64 date r,
  exists hs, Sign hmac b64 unb64 st date r = Signed (Build_request (rq_method r) (rq_target r) hs) /\
    authorization hs = authorization (rq_headers r).
Proof. exact az_fail_pf. Qed.
Print Assumptions az_fail.

(** Refreshing changes nothing but the token, and this only if the identity service returns one. *)
Theorem az_refresh : forall w0 w req st ok st', Init w0 req = Some (true, st) -> w_env w = w_env w0 -> RefreshToken w req st = Some (ok, st') ->
  z_info st' = z_info st /\ z_source st' = z_source st /\
  (z_source st <> FromIdentity -> ok = true /\ st' = st) /\
  (z_source st = FromIdentity -> if ok then from_identity w req st' else st' = st).
Proof. exact az_refresh_pf. Qed.
Print Assumptions az_refresh.

(** The target of an object is made of the prefix, the container and the parts of the key, each encoded on its own. *)
Theorem az_object : forall prefix container key, bytes container -> bytes key ->
  exists ec es ks, BuildObjectUrl prefix container key = Some (prefix ++ 47 :: ec ++ 47 :: join 47 es) /\
    decodes ec container /\ ~ In 47 ec /\ ~ In 63 ec /\
    key = join 47 ks /\ Forall (fun k => ~ In 47 k) ks /\ Forall2 decodes es ks /\ Forall (fun e => ~ In 47 e /\ ~ In 63 e) es.
Proof. exact az_object_pf. Qed.
Print Assumptions az_object.

(** * Cases *)
Definition put_block : request := Build_request (text "PUT") (text "/c/k?comp=block&blockid=0001%3d") [(text "Host", text "h"); (text "Content-Length", text "5"); (text "x-ms-blob-type", text "BlockBlob")].
Definition keyed : state := State FromEnv (public (text "acct")) (SharedKey (text "a2V5")).
Definition now : list N := text "Tue, 17 Nov 2026 04:30:00 GMT".
Example az_sign_met : signable (rq_method put_block) (rq_target put_block) (rq_headers put_block) /\ rev (drop_white (rev (drop_white now))) = now /\
  to_sign (text "acct") (rq_method put_block) (rq_target put_block) (rq_headers put_block) =
    Some (text "PUT" ++ [10; 10; 10] ++ text "5" ++ [10; 10; 10; 10; 10; 10; 10; 10; 10] ++ text "x-ms-blob-type:BlockBlob" ++ 10 :: text "/acct/c/k" ++ 10 :: text "blockid:0001=" ++ 10 :: text "comp:block").
Proof.
  split; [|split; vm_compute; reflexivity]. constructor.
  - vm_compute. repeat constructor; simpl; intuition discriminate.
  - intros h [<-|[<-|[<-|[]]]]; vm_compute; intuition discriminate.
  - intros h [<-|[<-|[<-|[]]]] [t H]; try discriminate H. split; reflexivity.
  - intros path query T. apply target_cut in T. vm_compute in T. injection T as <- <-. split; [discriminate|].
    exists [(text "comp", text "block"); (text "blockid", text "0001%3d")]. split; [right; split; [discriminate|reflexivity]|].
    split; [vm_compute; repeat constructor; simpl; intuition discriminate|].
    constructor; [|constructor; [|constructor]]; (split; [vm_compute; intuition discriminate|]); (split; [vm_compute; intuition discriminate|]);
      (split; [reflexivity|]); (split; [vm_compute; intuition discriminate|]); (split; [discriminate|]); (split; [vm_compute; repeat constructor|]); (split; [reflexivity|]).
    + eexists. apply decodes_self. vm_compute. intuition discriminate.
    + exists (text "0001="). vm_compute. do 4 (apply dec_char; [discriminate|]). eapply (dec_pct 51 100 3 13); try reflexivity. constructor.
Qed.
Example az_range_refuted_met : z_auth keyed = SharedKey (text "a2V5").
Proof. reflexivity. Qed.
Example az_sas_met : let sas := text "sv=1&sig=ab%3D" in
  query_args sas [(text "sv", text "1"); (text "sig", text "ab%3D")] /\ has_sig [(text "sv", text "1"); (text "sig", text "ab%3D")] /\
  args_of (text "/c/k") (text "/c/k") [] /\ AddSasToTarget (text "/c/k") sas = text "/c/k?sv=1&sig=ab%3D" /\
  AddSasToTarget (text "/c/k?comp=list") sas = text "/c/k?comp=list&sv=1&sig=ab%3D" /\
  AddSasToTarget (text "/c/k?Sig=x") sas = text "/c/k?Sig=x" /\ AddSasToTarget (text "/c/k?sig=") sas = text "/c/k?sig=&sv=1&sig=ab%3D".
Proof.
  cbv zeta. split. { pose proof (split_args (text "sv=1&sig=ab%3D")) as H. vm_compute in H |- *. exact H. }
  split. { exists (text "sig"), (text "ab%3D"). split; [simpl; auto|]. split; [reflexivity|discriminate]. }
  split. { split; [vm_compute; intuition discriminate|]. left. auto. }
  vm_compute. auto.
Qed.
Example az_setting_met :
  MapGet (ParseConnectionStringKV (text "; =x; AccountNAME = a ;ACCOUNTKEY=k==;accountkey=other;Flag")) (text "AccountKey") = text "k==" /\
  MapGet (ParseConnectionStringKV (text "; =x; AccountNAME = a ;ACCOUNTKEY=k==;accountkey=other;Flag")) (text "AccountName") = text "a" /\
  MapGet (ParseConnectionStringKV (text "; =x; AccountNAME = a ;ACCOUNTKEY=k==;accountkey=other;Flag")) (text "Flag") = [].
Proof. vm_compute. auto. Qed.
Example az_endpoint_met :
  ParseEndpointHost (text " http://127.0.0.1:10000/dev/ ") (Info [] (text "dev") [] true) = Some (Info (text "127.0.0.1:10000") (text "dev") (text "/dev") false) /\
  ParseEndpointHost (text "https://a.blob.x:443/") (Info [] [] [] true) = Some (Info (text "a.blob.x") [] [] true) /\
  InferAccountNameFromHost (text "a.blob.x") = text "a" /\
  CfgSpec.url_text (text "http://127.0.0.1:10000/dev/") true (CfgSpec.Url (text "127.0.0.1") (text "10000") (text "/dev/") false) /\
  trims (text " http://127.0.0.1:10000/dev/ ") (text "http://127.0.0.1:10000/dev/").
Proof.
  split; [vm_compute; reflexivity|]. split; [vm_compute; reflexivity|]. split; [vm_compute; reflexivity|]. split.
  - apply (CfgSpec.ut (text "http://") false (text "127.0.0.1:10000") true (text "127.0.0.1") (text "10000") (text "/dev/") (text "/dev/")); [constructor| |constructor|discriminate].
    apply (CfgSpec.au_port false (text "127.0.0.1") (text "10000")); try (vm_compute; intuition discriminate).
  - assert (text "http://127.0.0.1:10000/dev/" = strip (text " http://127.0.0.1:10000/dev/ ")) as -> by (vm_compute; reflexivity). apply CfgProof.trims_strip.
Qed.
Definition here (l : list (string * string)) (r : reply) : world := World (vars l) (fun _ => r).
Example az_string_first_met :
  Init (here [("AZURE_STORAGE_CONNECTION_STRING", "AccountName=A;AccountKey=k;EndpointSuffix=x.y"); ("AZURE_STORAGE_KEY", "z")]%string NoReply) [] =
    Some (true, State FromString (Info (text "A.blob.x.y") (text "A") [] true) (SharedKey (text "k"))) /\
  Init (here [("AZURE_STORAGE_CONNECTION_STRING", "AccountName=A;AccountKey=k;EndpointSuffix=x.y"); ("AZURE_STORAGE_KEY", "z")]%string NoReply) (text "a") =
    Some (true, State FromString (public (text "a")) (SharedKey (text "k"))) /\
  Init (here [("AZURE_STORAGE_CONNECTION_STRING", "AccountName=A;AccountKey=k;EndpointSuffix=x.y"); ("AZURE_STORAGE_KEY", "z")]%string NoReply) (text "b") =
    Some (true, State FromEnv (public (text "b")) (SharedKey (text "z"))).
Proof. vm_compute. auto. Qed.
Example az_env_next_met :
  Init (here [("AZURE_STORAGE_ACCOUNT", "a"); ("AZURE_STORAGE_KEY", "z"); ("AZURE_STORAGE_SAS_TOKEN", "?sig=1")]%string NoReply) [] =
    Some (true, State FromEnv (public (text "a")) (SharedKey (text "z"))) /\
  Init (here [("AZURE_STORAGE_BLOB_ENDPOINT", "https://q.blob.x"); ("AZURE_STORAGE_SAS_TOKEN", " ?sig=1 ")]%string NoReply) [] =
    Some (true, State FromEnv (Info (text "q.blob.x") (text "q") [] true) (Sas (text "sig=1"))).
Proof. vm_compute. auto. Qed.
Example az_identity_last_met :
  Init (here [("AZURE_STORAGE_ACCOUNT", "a")]%string (Body (ZObj (Some (text "tok")) (Some (Some 3600))))) [] =
    Some (true, State FromIdentity (public (text "a")) (Bearer (text "tok"))) /\
  Init (here [("AZURE_STORAGE_ACCOUNT", "a")]%string (Body (ZObj (Some (text "tok")) None))) [] = Some (false, cleared) /\
  imds_target (here [("AZURE_CLIENT_ID", "x y")]%string NoReply) =
    Some (text "/metadata/identity/oauth2/token?api-version=2018-02-01&resource=https%3A%2F%2Fstorage.azure.com%2F&client_id=x%20y").
Proof. vm_compute. auto. Qed.
Example az_refresh_met :
  let st := State FromIdentity (public (text "a")) (Bearer (text "tok")) in
  RefreshToken (here [("AZURE_STORAGE_ACCOUNT", "a")]%string (Body (ZObj (Some (text "new")) (Some (Some 9))))) [] st =
    Some (true, State FromIdentity (public (text "a")) (Bearer (text "new"))) /\
  RefreshToken (here [("AZURE_STORAGE_ACCOUNT", "a")]%string Status) [] st = Some (false, st).
Proof. vm_compute. auto. Qed.
Example az_object_met : BuildObjectUrl [] (text "c") (text "a b/d?") = Some (text "/c/a%20b/d%3F") /\
  BuildObjectUrl (text "/dev") (text "c/x") [] = Some (text "/dev/c%2Fx/").
Proof. vm_compute. auto. Qed.
