(** Model of util/cloud/azure/azure.cc: the credentials of Azure Blob storage and how requests are signed.
    Not modelled: the clock (the date is an argument), logging, the connection to the identity service
    (an oracle), expire_time_ (stored and never read), the lock around access_token_. HMAC-SHA256 and
    Base64 are functions of the theorems. *)
From Coq Require Import String.
From Verif Require Import Util UrlModel SignModel.
From Verif Require CfgSpec CfgModel.
From Verif Require Import AzSpec.
Import ListNotations.
Local Open Scope N_scope.

(** ** Signing *)
(** azure.cc:71-77: the fields whose names begin with "x-ms-", as they are written, sorted. *)
Definition x_head (hs : list field) : list field := sort (filter (fun h => starts_with (fst h) (str "x-ms-")) hs).
(** cc:80-86, content_length. *)
Definition content_length (hs : list field) : list N :=
  match find_header (str "Content-Length") hs with
  | Some v => if str_eq v (str "0") then [10] else v ++ [10]
  | None => [10]
  end.
(** cc:105-112. [None]: front() of an empty string in AppendUrlDecoded. *)
Fixpoint query_canon (args : list (list N * list N)) : option (list N) :=
  match args with
  | [] => Some []
  | (k, v) :: args' =>
      match AppendUrlDecoded v [], query_canon args' with
      | Some (ok, d), Some rest => Some (10 :: k ++ 58 :: (if ok : bool then d else v) ++ rest)
      | _, _ => None
      end
  end.
(** cc:66-118, the text that ComputeSignature signs. *)
Definition to_sign (account meth target : list N) (hs : list field) : option (list N) :=
  let (path, query) := ParseQuery target in
  match query_canon (sort (SplitQuery query)) with
  | None => None
  | Some qc =>
      Some (meth ++ [10; 10; 10] ++ content_length hs ++ [10; 10; 10; 10; 10; 10; 10; 10]
            ++ flat_map (fun p => fst p ++ 58 :: snd p ++ [10]) (x_head hs)
            ++ 47 :: account ++ path ++ qc)
  end.

(** cc:194-203, TargetHasSasSignature. *)
Definition TargetHasSasSignature (target : list N) : bool :=
  existsb (fun a => same_name (fst a) (str "sig") && negb (str_eq (snd a) [])) (SplitQuery (snd (ParseQuery target))).
(** cc:205-213, AddSasToTarget. *)
Definition AddSasToTarget (target sas : list N) : list N :=
  if str_eq sas [] || TargetHasSasSignature target then target
  else match snd (cut 63 target) with
       | None => target ++ 63 :: sas
       | Some _ => target ++ 38 :: sas
       end.

Inductive signed := Signed (r : request) | Abort | SignUb.
Section Crypto.
  Variable hmac : list N -> list N -> list N.
  Variable b64 : list N -> list N.
  Variable unb64 : list N -> option (list N).
  (** cc:66-125, ComputeSignature. [Abort]: CHECK of line 69. *)
  Definition ComputeSignature (account meth target : list N) (hs : list field) (key : list N) : signed + list N :=
    match unb64 key with
    | None => inl Abort
    | Some k => match to_sign account meth target hs with
                | None => inl SignUb
                | Some t => inr (b64 (hmac k t))
                end
    end.
  (** cc:527-558, Sign. *)
  Definition Sign (st : state) (date : list N) (r : request) : signed :=
    let hs := set_header (str "x-ms-version") (str "2025-01-05") (set_header (str "x-ms-date") date (rq_headers r)) in
    let with_headers hs := Build_request (rq_method r) (rq_target r) hs in
    match z_auth st with
    | SharedKey key =>
        match ComputeSignature (i_account (z_info st)) (rq_method r) (rq_target r) hs key with
        | inl e => e
        | inr sg => Signed (with_headers (set_header (str "Authorization")
                      (str "SharedKey " ++ i_account (z_info st) ++ 58 :: sg) hs))
        end
    | Bearer token => Signed (with_headers (set_header (str "Authorization") (str "Bearer " ++ token) hs))
    | Sas q => Signed (Build_request (rq_method r) (AddSasToTarget (rq_target r) q) hs)
    | NoAuth => Signed (with_headers hs)
    end.
End Crypto.

(** ** Connection strings *)
(** cc:135-151, ParseConnectionStringKV; emplace keeps the first of equal keys, so the lookup takes the
    first of the list. *)
Fixpoint conn_parts (ps : list (list N)) : list (list N * list N) :=
  match ps with
  | [] => []
  | p :: ps' =>
      match strip p with
      | [] => conn_parts ps'
      | _ :: _ =>
          let (k, v) := cut 61 (strip p) in
          match strip k with
          | [] => conn_parts ps'
          | _ :: _ => (to_lower (strip k), strip (or_empty v)) :: conn_parts ps'
          end
      end
  end.
Definition ParseConnectionStringKV (s : list N) : list (list N * list N) := conn_parts (StrSplit 59 s).
(** cc:153-159, MapGet. *)
Fixpoint map_get (m : list (list N * list N)) (k : list N) : list N :=
  match m with
  | [] => []
  | (a, v) :: m' => if str_eq a k then v else map_get m' k
  end.
Definition MapGet (m : list (list N * list N)) (k : list N) : list N := map_get m (to_lower k).

(** ** Endpoints *)
(** cc:161-184, ParseEndpointHost; [None]: false. *)
Definition ParseEndpointHost (endpoint : list N) (out : info) : option info :=
  match strip endpoint with
  | [] => None
  | ep =>
      let u := CfgModel.ParseHttpUrl ep in
      match CfgSpec.u_host u with
      | [] => None
      | _ =>
          let dflt := str_eq (CfgSpec.u_port u) (if CfgSpec.u_tls u then str "443" else str "80") in
          let path := CfgSpec.u_path u in
          Some (Info (if dflt then CfgSpec.u_host u else CfgSpec.u_host u ++ 58 :: CfgSpec.u_port u)
                     (i_account out)
                     (if str_eq path [47] then i_prefix out
                      else match rev path with 47 :: (_ :: _) as t => rev t | _ => path end)
                     (CfgSpec.u_tls u))
      end
  end.
(** cc:186-192, InferAccountNameFromHost: what is before the first ".blob.". *)
Fixpoint before_blob (h : list N) : option (list N) :=
  if starts_with h (str ".blob.") then Some []
  else match h with
       | [] => None
       | c :: h' => option_map (cons c) (before_blob h')
       end.
Definition InferAccountNameFromHost (h : list N) : list N := or_empty (before_blob h).

(** A new AccountInfo (creds_provider.h). *)
Definition no_info : info := Info [] [] [] true.
Definition default_endpoint (account : list N) : list N := account ++ str ".blob." ++ str "core.windows.net".
(** cc:44-47, GetEnvOrEmpty. *)
Definition env (w : world) (n : string) : list N := match w_env w (str n) with Some v => v | None => [] end.
(** cc:249-268, ResolveServiceEndpointFromEnv; [None]: an error. *)
Definition ResolveEndpoint (w : world) (out : info) : option info :=
  let got := match env w "AZURE_STORAGE_BLOB_ENDPOINT" with
             | (_ :: _) as ep => ParseEndpointHost ep out
             | [] => match env w "AZURE_STORAGE_ACCOUNT_URL" with
                     | (_ :: _) as ep => ParseEndpointHost ep out
                     | [] => match i_account out with
                             | (_ :: _) as a => Some (Info (default_endpoint a) a (i_prefix out) (i_tls out))
                             | [] => None
                             end
                     end
             end in
  match got with
  | None => None
  | Some o => Some (match i_account o with
                    | [] => Info (i_endpoint o) (InferAccountNameFromHost (i_endpoint o)) (i_prefix o) (i_tls o)
                    | _ => o
                    end)
  end.
(** cc:506-512, AccountInfoFromUri. *)
Definition AccountInfoFromUri (req : list N) : info := Info (default_endpoint req) req [] true.
(** cc:514-517, HasMatchingAccount. *)
Definition HasMatchingAccount (req a : list N) : bool := str_eq req [] || str_eq a [] || same_name a req.
(** cc:519-525, NormalizeSasQuery. *)
Definition NormalizeSasQuery (q : list N) : list N := match strip q with 63 :: t => t | t => t end.

(** ** The sources. [Fails]: an error code; the state is then as it was. *)
Inductive tried := Loads (st : state) | Fails | TryUb.
(** cc:324-384, TryConnectionString. *)
Definition TryConnectionString (w : world) (req : list N) : tried :=
  match env w "AZURE_STORAGE_CONNECTION_STRING" with
  | [] => Fails
  | raw =>
      let m := ParseConnectionStringKV raw in
      match m with
      | [] => Fails
      | _ =>
          if same_name (MapGet m (str "UseDevelopmentStorage")) (str "true") then Fails
          else
            let account := MapGet m (str "AccountName") in
            let key := MapGet m (str "AccountKey") in
            let sas := NormalizeSasQuery (MapGet m (str "SharedAccessSignature")) in
            let got :=
              match MapGet m (str "BlobEndpoint") with
              | (_ :: _) as ep => ParseEndpointHost ep (Info [] account [] true)
              | [] =>
                  let suffix := match MapGet m (str "EndpointSuffix") with [] => str "core.windows.net" | s => s end in
                  match account with
                  | [] => None
                  | _ => Some (Info (account ++ str ".blob." ++ suffix) account [] true)
                  end
              end in
            match got with
            | None => Fails
            | Some i =>
                let i := match i_account i with
                         | [] => Info (i_endpoint i) (InferAccountNameFromHost (i_endpoint i)) (i_prefix i) (i_tls i)
                         | _ => i
                         end in
                match i_account i with
                | [] => Fails
                | _ =>
                    if negb (HasMatchingAccount req (i_account i)) then Fails
                    else
                      let i := match req with [] => i | _ => AccountInfoFromUri req end in
                      match key, sas with
                      | _ :: _, _ => Loads (State FromString i (SharedKey key))
                      | [], _ :: _ => Loads (State FromString i (Sas sas))
                      | [], [] => Fails
                      end
                end
            end
      end
  end.
(** cc:390-396 and 421-426: the account of the request or of the environment. *)
Definition env_account (w : world) (req : list N) : info :=
  match req with
  | [] => Info [] (env w "AZURE_STORAGE_ACCOUNT") [] true
  | _ => AccountInfoFromUri req
  end.
(** cc:386-417, TryEnvSharedKey. *)
Definition TryEnvSharedKey (w : world) (req : list N) : tried :=
  let key := env w "AZURE_STORAGE_KEY" in
  let sas := NormalizeSasQuery (env w "AZURE_STORAGE_SAS_TOKEN") in
  match key, sas with
  | _ :: _, _ =>
      match ResolveEndpoint w (env_account w req) with
      | Some i => match i_account i with [] => Fails | _ => Loads (State FromEnv i (SharedKey key)) end
      | None => Fails
      end
  | [], _ :: _ =>
      match ResolveEndpoint w (env_account w req) with
      | Some i => Loads (State FromEnv i (Sas sas))
      | None => Fails
      end
  | [], [] => Fails
  end.
(** cc:436-441: the target of the request to the identity service. *)
Definition imds_target (w : world) : option (list N) :=
  match AppendUrlEncoded (str "https://storage.azure.com/")
          (str "/metadata/identity/oauth2/token" ++ str "?api-version=" ++ str "2018-02-01" ++ str "&resource=") with
  | None => None
  | Some p => match env w "AZURE_CLIENT_ID" with
              | [] => Some p
              | id => AppendUrlEncoded id (p ++ str "&client_id=")
              end
  end.
(** cc:215-245, ParseImdsTokenResponse, and 449-461, the end of TryManagedIdentity. FindMember of a value
    that is not an object and front() of an empty body are undefined. *)
Definition imds_loads (i : info) (r : reply) : tried :=
  match r with
  | NoReply | Status => Fails
  | Body ZEmpty | Body ZOther => TryUb
  | Body ZBad => Fails
  | Body (ZObj (Some t) (Some (Some _))) => Loads (State FromIdentity i (Bearer t))
  | Body (ZObj _ _) => Fails
  end.
(** cc:419-461, TryManagedIdentity. *)
Definition TryManagedIdentity (w : world) (req : list N) : tried :=
  match ResolveEndpoint w (env_account w req) with
  | None => Fails
  | Some i => match imds_target w with
              | None => TryUb
              | Some t => imds_loads i (w_identity w t)
              end
  end.
Definition cleared : state := State NoSource no_info NoAuth.
(** cc:272-315, Init. The result and the state; [None]: undefined. *)
Definition Init (w : world) (req : list N) : option (bool * state) :=
  match TryConnectionString w req with
  | Loads st => Some (true, st)
  | TryUb => None
  | Fails =>
      match TryEnvSharedKey w req with
      | Loads st => Some (true, st)
      | TryUb => None
      | Fails => match TryManagedIdentity w req with
                 | Loads st => Some (true, st)
                 | TryUb => None
                 | Fails => Some (false, cleared)
                 end
      end
  end.
(** cc:560-565, RefreshToken. *)
Definition RefreshToken (w : world) (req : list N) (st : state) : option (bool * state) :=
  match z_source st with
  | FromIdentity => match TryManagedIdentity w req with
                    | Loads st' => Some (true, st')
                    | Fails => Some (false, st)
                    | TryUb => None
                    end
  | _ => Some (true, st)
  end.
(** cc:317-322, ServiceEndpoint. *)
Definition ServiceEndpoint (st : state) : list N :=
  match i_endpoint (z_info st) with [] => default_endpoint (i_account (z_info st)) | e => e end.

(** storage.cc:165-176, AppendUrlEncodedPath: the parts between slashes are encoded one by one. *)
Fixpoint encode_parts (ps : list (list N)) (dest : list N) : option (list N) :=
  match ps with
  | [] => Some dest
  | [p] => AppendUrlEncoded p dest
  | p :: ps' => match AppendUrlEncoded p dest with Some d => encode_parts ps' (d ++ [47]) | None => None end
  end.
(** storage.cc:178-185, BuildObjectUrl. *)
Definition BuildObjectUrl (prefix container key : list N) : option (list N) :=
  match AppendUrlEncoded container (prefix ++ [47]) with
  | Some d => encode_parts (StrSplit 47 key) (d ++ [47])
  | None => None
  end.
