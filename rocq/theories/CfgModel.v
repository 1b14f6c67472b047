(** Model of the configuration of the S3 client: ParseIniSection and ParseHttpUrl
    (util/cloud/utils.cc), the region, the endpoint and the chain of credential sources of
    AwsCredsProvider (util/cloud/aws/aws_creds_provider.cc).

    getenv, ReadFileToString, FetchUrl, RapidJSON, pugixml and absl::ParseTime are functions of the
    [world]; the world does not change during Init. FetchUrl's connection, status check and errors
    are [None]. Strings from getenv hold no zero bytes; nothing depends on it. *)
From Coq Require Import String Ascii.
From Verif Require Import Util UrlModel SignModel CfgSpec.
Local Open Scope N_scope.
Local Open Scope list_scope.

(** ** utils.cc:280-300, ParseIniSection: the calls of the callback *)
Fixpoint ini_lines (sec header : list N) (on : bool) (ls : list (list N)) : list (list N * list N) :=
  match ls with
  | [] => []
  | l :: ls' =>
      let l := strip l in
      match l with
      | [] => ini_lines sec header on ls'
      | c :: _ =>
          if (c =? 35) || (c =? 59) then ini_lines sec header on ls'
          else if c =? 91 then
            ini_lines sec header (match sec with [] => on | _ => str_eq l header end) ls'
          else if negb on then ini_lines sec header on ls'
          else let (k, v) := cut 61 l in (strip k, strip (or_empty v)) :: ini_lines sec header on ls'
      end
  end.
Definition ParseIniSection (content sec : list N) : list (list N * list N) :=
  ini_lines sec (match sec with [] => [] | _ => 91 :: sec ++ [93] end) (match sec with [] => true | _ => false end)
    (StrSplit 10 content).

(** ** utils.cc:159-176, ParseHttpUrl *)
(** absl::ConsumePrefix. *)
Definition consume (p s : list N) : option (list N) := if starts_with s p then Some (skipn (length p) s) else None.
(** string_view::rfind: what is before and behind the last [c]. *)
Fixpoint rcut (c : N) (s : list N) : option (list N * list N) :=
  match s with
  | [] => None
  | x :: t => match rcut c t with
              | Some (a, b) => Some (x :: a, b)
              | None => if x =? c then Some ([], t) else None
              end
  end.
Definition ParseHttpUrl (uri : list N) : url :=
  let (tls, uri) := match consume (str "https://") uri with
                    | Some u => (true, u)
                    | None => (false, match consume (str "http://") uri with Some u => u | None => uri end)
                    end in
  let (host_port, rest) := cut 47 uri in
  let path := match rest with None => [47] | Some t => 47 :: t end in
  match rcut 58 host_port with
  | None => Url host_port (if tls then str "443" else str "80") path tls
  | Some (h, p) => Url h p path tls
  end.

(** ** The endpoint *)
(** aws_creds_provider.cc:240-244, PartitionDnsSuffix. *)
Definition dns_suffix (region : list N) : list N :=
  if starts_with region (str "cn-") then str "amazonaws.com.cn" else str "amazonaws.com".
(** cc:246-253, StsEndpoint. *)
Definition sts_endpoint (region : list N) : list N :=
  if starts_with region (str "cn-") then str "sts." ++ region ++ str "." ++ dns_suffix region else str "sts.amazonaws.com".
(** cc:575-578, the lambda format. *)
Definition endpoint_of (ep : list N) : list N :=
  let u := ParseHttpUrl ep in
  if str_eq (u_port u) (if u_tls u then str "443" else str "80") then u_host u else u_host u ++ 58 :: u_port u.
(** getenv, with the test for a variable that is empty. *)
Definition getenv (w : world) (n : string) : option (list N) := w_env w (str n).
Definition getenv_full (w : world) (n : string) : option (list N) :=
  match getenv w n with Some [] => None | o => o end.
(** cc:574-586, ServiceEndpoint. *)
Definition service_endpoint (w : world) (over region : list N) : list N :=
  match over with
  | _ :: _ => endpoint_of over
  | [] => match getenv_full w "AWS_S3_ENDPOINT" with
          | Some ep => endpoint_of ep
          | None => str "s3." ++ region ++ str "." ++ dns_suffix region
          end
  end.

(** ** The region: cc:285-316 *)
(** cc:306-310: the callback keeps the first value that is not empty. *)
Fixpoint first_full (key : list N) (es : list (list N * list N)) (acc : list N) : list N :=
  match es with
  | [] => acc
  | (k, v) :: es' =>
      first_full key es' (if str_eq k key then match acc with [] => v | _ => acc end else acc)
  end.
Definition home_path (w : world) (n : string) : list N :=
  match getenv w "HOME" with Some h => h ++ str n | None => str n end.
Definition region_of (w : world) (given : list N) : list N :=
  match given with
  | _ :: _ => given
  | [] =>
      match getenv w "AWS_DEFAULT_REGION" with
      | Some r => r
      | None =>
          match getenv w "AWS_REGION" with
          | Some r => r
          | None =>
              let path := match getenv w "AWS_CONFIG_FILE" with Some p => p | None => home_path w "/.aws/config" end in
              let prof := match getenv w "AWS_PROFILE" with Some p => p | None => str "default" end in
              let sec := if str_eq prof (str "default") then str "default" else str "profile " ++ prof in
              let r := match w_file w path with
                       | Some f => first_full (str "region") (ParseIniSection f sec) []
                       | None => []
                       end in
              match r with [] => str "us-east-1" | _ => r end
          end
      end
  end.

(** ** The sources *)
Inductive tried := Fails | Undefined | Gets (c : creds).
(** cc:339-360, TryEnvironment. *)
Definition try_environment (w : world) : tried :=
  match getenv_full w "AWS_ACCESS_KEY_ID", getenv_full w "AWS_SECRET_ACCESS_KEY" with
  | Some id, Some secret =>
      Gets (Creds id secret (match getenv w "AWS_SESSION_TOKEN" with Some t => t | None => [] end) 0)
  | _, _ => Fails
  end.
(** cc:381-390: the callback sets the members. *)
Fixpoint profile_creds (es : list (list N * list N)) (c : creds) : creds :=
  match es with
  | [] => c
  | (k, v) :: es' =>
      profile_creds es'
        (if str_eq k (str "aws_access_key_id") then Creds v (k_secret c) (k_token c) (k_expiry c)
         else if str_eq k (str "aws_secret_access_key") then Creds (k_id c) v (k_token c) (k_expiry c)
         else if str_eq k (str "aws_session_token") then Creds (k_id c) (k_secret c) v (k_expiry c)
         else c)
  end.
(** cc:362-404, TryProfileFile. *)
Definition try_profile (w : world) : tried :=
  let path := match getenv w "AWS_SHARED_CREDENTIALS_FILE" with Some p => p | None => home_path w "/.aws/credentials" end in
  match w_file w path with
  | None => Fails
  | Some f =>
      let prof := match getenv w "AWS_PROFILE" with Some p => p | None => str "default" end in
      let c := profile_creds (ParseIniSection f prof) (Creds [] [] [] 0) in
      match k_id c, k_secret c with
      | [], _ => Fails
      | _, [] => Fails
      | _, _ => Gets c
      end
  end.
(** cc:134-143 and 173-182: a time that cannot be read leaves the expiry at 0. *)
Definition expiry_of (w : world) (s : option (list N)) : Z :=
  match s with None => 0%Z | Some s => match w_time w s with Some t => t | None => 0%Z end end.
(** cc:106-145, ParseJsonCredentials. front() of an empty string, and FindMember of something that
    is not an object, are undefined. *)
Definition parse_json (w : world) (body : list N) : tried :=
  match body with
  | [] => Undefined
  | _ => match w_json w body with
         | JBad => Fails
         | JOther => Undefined
         | JObj f =>
             match f (str "AccessKeyId"), f (str "SecretAccessKey") with
             | Some id, Some secret =>
                 Gets (Creds id secret (match f (str "Token") with Some t => t | None => [] end)
                   (expiry_of w (f (str "Expiration"))))
             | _, _ => Fails
             end
         end
  end.
(** cc:148-184, ParseStsXml. *)
Definition parse_sts (w : world) (body : list N) : tried :=
  match w_xml w body with
  | None => Fails
  | Some child =>
      match child (str "AccessKeyId"), child (str "SecretAccessKey") with
      | [], _ => Fails
      | _, [] => Fails
      | id, secret => Gets (Creds id secret (child (str "SessionToken"))
          (match child (str "Expiration") with [] => 0%Z | s => expiry_of w (Some s) end))
      end
  end.
(** cc:406-442, TryWebIdentity. *)
Definition try_web (w : world) (region : list N) : tried :=
  match getenv_full w "AWS_ROLE_ARN", getenv_full w "AWS_WEB_IDENTITY_TOKEN_FILE" with
  | Some role, Some path =>
      match w_file w path with
      | None => Fails
      | Some f =>
          let body := str "Action=AssumeRoleWithWebIdentity&RoleArn=" ++ w_enc w role ++ str "&WebIdentityToken="
            ++ w_enc w (strip f) ++ str "&RoleSessionName=helio&Version=2011-06-15" in
          match w_net w (Http (sts_endpoint region) (str "443") (str "/") (str "POST")
                  [(str "content-type", str "application/x-www-form-urlencoded")] body true) with
          | None => Fails
          | Some b => parse_sts w b
          end
      end
  | _, _ => Fails
  end.
(** cc:457-466: the bearer token of the container. *)
Definition container_token (w : world) : list N :=
  match getenv w "AWS_CONTAINER_AUTHORIZATION_TOKEN" with
  | Some t => t
  | None => match getenv w "AWS_CONTAINER_AUTHORIZATION_TOKEN_FILE" with
            | Some p => match w_file w p with Some f => strip f | None => [] end
            | None => []
            end
  end.
(** cc:255-264, ContainerCredsHeaders. *)
Definition container_headers (t : list N) : list (list N * list N) :=
  match t with [] => [] | _ => [(str "Authorization", t)] end.
(** cc:444-486, TryContainerCreds. *)
Definition try_container (w : world) : tried :=
  let uri := match getenv_full w "AWS_CONTAINER_CREDENTIALS_RELATIVE_URI" with
             | Some r => Some (str "http://169.254.170.2" ++ r)
             | None => getenv_full w "AWS_CONTAINER_CREDENTIALS_FULL_URI"
             end in
  match uri with
  | None => Fails
  | Some uri =>
      let u := ParseHttpUrl uri in
      match w_net w (Http (u_host u) (u_port u) (u_path u) (str "GET") (container_headers (container_token w)) [] (u_tls u)) with
      | None => Fails
      | Some b => parse_json w b
      end
  end.
(** cc:488-529, TryIMDS. *)
Definition try_imds (w : world) : tried :=
  let host := str "169.254.169.254" in
  let port := str "80" in
  match w_net w (Http host port (str "/latest/api/token") (str "PUT")
          [(str "X-aws-ec2-metadata-token-ttl-seconds", str "21600")] [] false) with
  | None => Fails
  | Some tok =>
      let hdr := [(str "X-aws-ec2-metadata-token", strip tok)] in
      let dir := str "/latest/meta-data/iam/security-credentials/" in
      match w_net w (Http host port dir (str "GET") hdr [] false) with
      | None => Fails
      | Some r =>
          match strip r with
          | [] => Fails
          | role => match w_net w (Http host port (dir ++ role) (str "GET") hdr [] false) with
                    | None => Fails
                    | Some b => parse_json w b
                    end
          end
      end
  end.
(** cc:318-337, the chain in Init. *)
Inductive init_result := NoCreds | InitUb | Ready (s : src) (c : creds).
Definition orelse (t : tried) (s : src) (next : init_result) : init_result :=
  match t with Gets c => Ready s c | Undefined => InitUb | Fails => next end.
Definition Init (w : world) (region : list N) : init_result :=
  orelse (try_environment w) EnvSrc
  (orelse (try_profile w) ProfSrc
  (orelse (try_web w region) WebSrc
  (orelse (try_container w) ContSrc
  (match getenv w "AWS_EC2_METADATA_DISABLED" with
   | Some d => if str_eq (to_lower d) (str "true") then NoCreds else orelse (try_imds w) ImdsSrc NoCreds
   | None => orelse (try_imds w) ImdsSrc NoCreds
   end)))).
