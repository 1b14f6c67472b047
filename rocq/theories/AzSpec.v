(** Azure Blob storage: the shared-key signature the service expects, and where credentials come from (C86). *)
From Coq Require Import String Ascii Permutation Sorting.Sorted.
From Verif Require Import Util UrlSpec SignSpec.
From Verif Require CfgSpec.
Import ListNotations.
Local Open Scope N_scope.

Definition fields := list (list N * list N).

(** ** The string to sign ("Authorize with Shared Key", Blob service) *)
(** The value of a header field, empty if it is missing. *)
Fixpoint field_value (hs : fields) (n : list N) : list N :=
  match hs with
  | [] => []
  | h :: hs' => if list_eq_dec N.eq_dec (lower_case (fst h)) n then snd h else field_value hs' n
  end.
(** Content-Length, empty if zero. *)
Definition length_value (hs : fields) : list N :=
  let v := field_value hs (text "content-length") in if list_eq_dec N.eq_dec v (text "0") then [] else v.
(** The fields in front of it and behind it, in the order in which they are signed. *)
Definition std_before : list (list N) := [text "content-encoding"; text "content-language"].
Definition std_after : list (list N) :=
  [text "content-md5"; text "content-type"; text "date"; text "if-modified-since"; text "if-match"; text "if-none-match";
   text "if-unmodified-since"; text "range"].
Definition line (v : list N) : list N := v ++ [10].
Definition ms_name (n : list N) : Prop := exists t, n = text "x-ms-" ++ t.
(** The x-ms-* fields: names in lower case, white space around the values dropped, by name, each once. *)
Definition canon_ms (hs cs : fields) : Prop :=
  StronglySorted (fun p q => lex_lt (fst p) (fst q)) cs /\
  forall n v, In (n, v) cs <-> ms_name n /\ exists h, In h hs /\ lower_case (fst h) = n /\ rev (drop_white (rev (drop_white (snd h)))) = v.
(** The parameters: names in lower case and values decoded; by name, each name once with its values,
    sorted and separated by commas. *)
Definition no_gt (a b : list N) : Prop := a = b \/ lex_lt a b.
Definition canon_params (query out : list N) : Prop :=
  exists pieces raw ds groups,
    (query = [] /\ pieces = [] \/ query <> [] /\ join 38 pieces = query) /\ Forall (fun p => ~ In 38 p) pieces /\ Forall2 pair_of pieces raw /\
    Forall2 (fun r d => lower_case (fst r) = fst d /\ decodes (snd r) (snd d)) raw ds /\
    StronglySorted (fun p q => lex_lt (fst p) (fst q)) groups /\ Forall (fun g => snd g <> [] /\ StronglySorted no_gt (snd g)) groups /\
    Permutation (flat_map (fun g => map (fun v => (fst g, v)) (snd g)) groups) ds /\
    out = flat_map (fun g => 10 :: fst g ++ 58 :: join 44 (snd g)) groups.
Definition to_be_signed (account meth target : list N) (hs : fields) (s : list N) : Prop :=
  exists path query cs ps, target_parts target path query /\ canon_ms hs cs /\ canon_params query ps /\
    s = line meth ++ flat_map (fun n => line (field_value hs n)) std_before ++ line (length_value hs)
        ++ flat_map (fun n => line (field_value hs n)) std_after
        ++ flat_map (fun h => line (fst h ++ 58 :: snd h)) cs ++ 47 :: account ++ path ++ ps.

(** Requests for which the signature is right: no field but Content-Length among the standard ones, distinct
    names, x-ms-* names in lower case and their values without white space around them; parameters with
    distinct names in lower case and values that are not empty and decode. *)
Record signable (meth target : list N) (hs : fields) : Prop := {
  s_names : NoDup (names hs);
  s_std : forall h, In h hs -> ~ In (lower_case (fst h)) (std_before ++ std_after);
  s_ms : forall h, In h hs -> ms_name (lower_case (fst h)) -> fst h = lower_case (fst h) /\
     rev (drop_white (rev (drop_white (snd h)))) = snd h;
  s_query : forall path query, target_parts target path query ->
     (query = [] -> target = path) /\
     exists raw, (query = [] /\ raw = [] \/ query <> [] /\ join 38 (map (fun p => fst p ++ 61 :: snd p) raw) = query) /\
       NoDup (map fst raw) /\
       Forall (fun p => ~ In 38 (fst p) /\ ~ In 61 (fst p) /\ fst p = lower_case (fst p) /\ ~ In 38 (snd p) /\
          snd p <> [] /\ bytes (snd p) /\ len (snd p) + 3 < two32 /\ exists d, decodes (snd p) d) raw }.

(** ** Credentials *)
Record info := Info { i_endpoint : list N; i_account : list N; i_prefix : list N; i_tls : bool }.
Inductive source := NoSource | FromString | FromEnv | FromIdentity.
Inductive auth := NoAuth | SharedKey (key : list N) | Sas (query : list N) | Bearer (token : list N).
Record state := State { z_source : source; z_info : info; z_auth : auth }.

(** The answer of the identity service: a failure of the connection or the request, another status than
    200, or a body. In the body: nothing, not JSON, JSON that is not an object, or an object with its access_token
    (if it is a string) and its expires_in ([Some None]: not a number). *)
Inductive zjson := ZEmpty | ZBad | ZOther | ZObj (token : option (list N)) (ttl : option (option N)).
Inductive reply := NoReply | Status | Body (j : zjson).
Record world := World { w_env : list N -> option (list N); w_identity : list N -> reply }.

Definition trims : list N -> list N -> Prop := CfgSpec.trims.
(** A part "key = value" of a connection string; [v] is empty if there is no "=". *)
Definition part_is (p k v : list N) : Prop :=
  exists a b, (p = a ++ 61 :: b \/ p = a /\ b = []) /\ ~ In 61 a /\ trims a k /\ trims b v.
(** The setting named [k]: that of the first part with this name, in any case; empty if there is none. *)
Definition setting (s k v : list N) : Prop :=
  exists ps, ps <> [] /\ join 59 ps = s /\ Forall (fun p => ~ In 59 p) ps /\
  ((exists a p b n, ps = a ++ p :: b /\ part_is p n v /\ lower_case n = lower_case k /\
      forall q m w, In q a -> part_is q m w -> lower_case m <> lower_case k) \/
   (v = [] /\ forall q m w, In q ps -> part_is q m w -> lower_case m <> lower_case k)).

Definition env_value (w : world) (n : string) (v : list N) : Prop :=
  w_env w (text n) = Some v \/ w_env w (text n) = None /\ v = [].

(** ** Targets *)
Definition query_args (query : list N) (args : fields) : Prop :=
  exists pieces, pieces <> [] /\ join 38 pieces = query /\ Forall (fun p => ~ In 38 p) pieces /\ Forall2 pair_of pieces args.
(** The path and the parameters; without a question mark there are none. *)
Definition args_of (target path : list N) (args : fields) : Prop :=
  ~ In 63 path /\ (target = path /\ args = [] \/ exists q, target = path ++ 63 :: q /\ query_args q args).
(** A parameter sig with a value. *)
Definition has_sig (args : fields) : Prop := exists n v, In (n, v) args /\ lower_case n = text "sig" /\ v <> [].
(** The prefix of a path-style endpoint: no slash at the end. *)
Definition prefix_is (path p : list N) : Prop :=
  path = [47] /\ p = [] \/ path <> [47] /\ (path = p ++ [47] \/ path = p /\ forall t, p <> t ++ [47]).
(** What a SAS token is given as: white space around it and one question mark in front are dropped. *)
Definition sas_is (given q : list N) : Prop :=
  exists c, trims given c /\ (c = 63 :: q \/ c = q /\ forall t, c <> 63 :: t).
Definition public_endpoint (account suffix : list N) : list N := account ++ text ".blob." ++ suffix.
Definition public (account : list N) : info := Info (public_endpoint account (text "core.windows.net")) account [] true.
Definition authorization (hs : fields) : list N := field_value hs (text "authorization").
Definition identity_path : list N := text "/metadata/identity/oauth2/token".
Definition identity_args (client : list N) : fields :=
  [(text "api-version", text "2018-02-01"); (text "resource", text "https://storage.azure.com/")] ++
  (if list_eq_dec N.eq_dec client [] then [] else [(text "client_id", client)]).
Definition decode_args (args ds : fields) : Prop := Forall2 (fun a d => fst a = fst d /\ decodes (snd a) (snd d)) args ds.
Definition asks_identity (client target : list N) : Prop :=
  exists args, args_of target identity_path args /\ decode_args args (identity_args client).

(** ** What is loaded *)
Definition endpoint_is (given : list N) (i : info) : Prop :=
  forall s e u, trims given s -> CfgSpec.url_text s e u -> (e = true \/ ~ In 58 (CfgSpec.u_host u)) ->
    i_endpoint i = (if list_eq_dec N.eq_dec (CfgSpec.u_port u) (CfgSpec.default_port (CfgSpec.u_tls u)) then CfgSpec.u_host u
                    else CfgSpec.u_host u ++ 58 :: CfgSpec.u_port u) /\
    i_tls i = CfgSpec.u_tls u /\ prefix_is (CfgSpec.u_path u) (i_prefix i).
(** The account that was asked for, or that of the connection string; its endpoint. *)
Definition from_string (w : world) (req : list N) (st : state) : Prop :=
  exists raw a k s b x, env_value w "AZURE_STORAGE_CONNECTION_STRING" raw /\ raw <> [] /\ setting raw (text "AccountName") a /\
    setting raw (text "AccountKey") k /\ setting raw (text "SharedAccessSignature") s /\
    setting raw (text "BlobEndpoint") b /\ setting raw (text "EndpointSuffix") x /\
    (k <> [] -> z_auth st = SharedKey k) /\ (k = [] -> exists q, sas_is s q /\ q <> [] /\ z_auth st = Sas q) /\
    (req = [] -> (a <> [] -> i_account (z_info st) = a) /\ i_account (z_info st) <> [] /\
       (b <> [] -> endpoint_is b (z_info st)) /\
       (b = [] -> z_info st = Info (public_endpoint a (if list_eq_dec N.eq_dec x [] then text "core.windows.net" else x)) a [] true)) /\
    (req <> [] -> z_info st = public req /\ (a <> [] -> lower_case a = lower_case req)).
(** The account that was asked for, or that of the environment; its endpoint. *)
Definition located (w : world) (req : list N) (i : info) : Prop :=
  exists a e u, env_value w "AZURE_STORAGE_ACCOUNT" a /\ env_value w "AZURE_STORAGE_BLOB_ENDPOINT" e /\ env_value w "AZURE_STORAGE_ACCOUNT_URL" u /\
    (req <> [] -> i_account i = req) /\ (req = [] -> a <> [] -> i_account i = a) /\
    (e <> [] -> endpoint_is e i) /\ (e = [] -> u <> [] -> endpoint_is u i) /\
    (e = [] -> u = [] -> i = public (i_account i) /\ i_account i <> []).
Definition from_env (w : world) (req : list N) (st : state) : Prop :=
  located w req (z_info st) /\
  exists k s, env_value w "AZURE_STORAGE_KEY" k /\ env_value w "AZURE_STORAGE_SAS_TOKEN" s /\
    (k <> [] -> z_auth st = SharedKey k /\ i_account (z_info st) <> []) /\
    (k = [] -> exists q, sas_is s q /\ q <> [] /\ z_auth st = Sas q).
Definition from_identity (w : world) (req : list N) (st : state) : Prop :=
  located w req (z_info st) /\
  exists c target t ttl, env_value w "AZURE_CLIENT_ID" c /\ (bytes c -> asks_identity c target) /\
    w_identity w target = Body (ZObj (Some t) (Some (Some ttl))) /\ z_auth st = Bearer t.
(** The answers of the identity service for which the outcome is defined. *)
Definition sane (w : world) : Prop := forall t, w_identity w t <> Body ZEmpty /\ w_identity w t <> Body ZOther.
