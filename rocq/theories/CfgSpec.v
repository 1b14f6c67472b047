(** What the configuration of the S3 client means: INI files, URLs, and where credentials and the
    region come from. Strings are lists of bytes. *)
From Coq Require Import String Ascii.
From Verif Require Import Util.
Local Open Scope N_scope.
Local Open Scope list_scope.

Definition text (s : string) : list N := map N_of_ascii (list_ascii_of_string s).
Arguments text : simpl never.

(** ** INI files *)
Definition white (c : N) : Prop := 9 <= c <= 13 \/ c = 32.
(** [c] is [s] without the white space around it. *)
Definition trims (s c : list N) : Prop :=
  exists a b, s = a ++ c ++ b /\ Forall white a /\ Forall white b
    /\ (forall x t, c = x :: t -> ~ white x) /\ (forall x t, c = t ++ [x] -> ~ white x).
Inductive item := Nothing | Header (name : list N) | BadHeader | Entry (k v : list N).
(** Neither a comment nor a header. *)
Definition plain (s : list N) : Prop := forall x t, s = x :: t -> x <> 35 /\ x <> 59 /\ x <> 91.
(** What a line says. *)
Inductive ini_line (l : list N) : item -> Prop :=
| il_blank : trims l [] -> ini_line l Nothing
| il_comment c t : trims l (c :: t) -> c = 35 \/ c = 59 -> ini_line l Nothing
| il_header n : trims l (91 :: n ++ [93]) -> ini_line l (Header n)
| il_bad t : trims l (91 :: t) -> (forall n, t <> n ++ [93]) -> ini_line l BadHeader
| il_entry a b k v : l = a ++ 61 :: b -> ~ List.In 61 a -> trims a k -> trims b v -> plain k -> ini_line l (Entry k v)
| il_alone k : trims l k -> k <> [] -> plain k -> ~ List.In 61 l -> ini_line l (Entry k []).
(** A file: its lines, each ended by a line feed but for the last. *)
Fixpoint lines (ls : list (list N)) : list N :=
  match ls with [] => [] | [l] => l | l :: ls' => l ++ 10 :: lines ls' end.
Definition ini_file (s : list N) (is : list item) : Prop :=
  exists ls, ls <> [] /\ s = lines ls /\ Forall (fun l => ~ List.In 10 l) ls /\ Forall2 ini_line ls is.
(** The entries below the headers [name]; [on]: the last header was one. *)
Fixpoint section_from (name : list N) (on : bool) (is : list item) : list (list N * list N) :=
  match is with
  | [] => []
  | Nothing :: is' => section_from name on is'
  | BadHeader :: is' => section_from name false is'
  | Header n :: is' => section_from name (if list_eq_dec N.eq_dec n name then true else false) is'
  | Entry k v :: is' => (if on then [(k, v)] else []) ++ section_from name on is'
  end.
(** All entries, for the empty name. *)
Fixpoint entries (is : list item) : list (list N * list N) :=
  match is with [] => [] | Entry k v :: is' => (k, v) :: entries is' | _ :: is' => entries is' end.
Definition section (name : list N) (is : list item) : list (list N * list N) :=
  match name with [] => entries is | _ => section_from name false is end.
(** What [k] is set to: its last value, or nothing. *)
Definition setting (k : list N) (es : list (list N * list N)) (v : list N) : Prop :=
  (exists e1 e2, es = e1 ++ (k, v) :: e2 /\ forall w, ~ List.In (k, w) e2) \/ (v = [] /\ forall w, ~ List.In (k, w) es).

(** ** URLs: [scheme://]host[:port][/path] *)
Record url := Url { u_host : list N; u_port : list N; u_path : list N; u_tls : bool }.
Inductive scheme : list N -> bool -> Prop :=
| sc_https : scheme (text "https://") true
| sc_http : scheme (text "http://") false
| sc_none : scheme [] false.
Definition default_port (tls : bool) : list N := if tls then text "443" else text "80".
(** A name or an address; addresses with colons stand in brackets. *)
Definition host_ok (h : list N) : Prop :=
  ~ List.In 47 h /\ (~ List.In 58 h \/ exists t, h = 91 :: t ++ [93] /\ ~ List.In 93 t).
(** Host and port; [e]: the port is given. *)
Inductive authority (tls : bool) : list N -> bool -> list N -> list N -> Prop :=
| au_port h p : host_ok h -> ~ List.In 58 p -> ~ List.In 47 p -> ~ List.In 93 p -> authority tls (h ++ 58 :: p) true h p
| au_default h : host_ok h -> authority tls h false h (default_port tls).
Inductive path_part : list N -> list N -> Prop :=
| pa_none : path_part [] [47]
| pa_path t : path_part (47 :: t) (47 :: t).
(** Without a scheme the text does not begin with one. *)
Definition bare_ok (s : list N) : Prop := forall t, s <> text "https://" ++ t /\ s <> text "http://" ++ t.
Inductive url_text : list N -> bool -> url -> Prop :=
| ut s tls a e h p w path : scheme s tls -> authority tls a e h p -> path_part w path ->
    (s = [] -> bare_ok (a ++ w)) -> url_text (s ++ a ++ w) e (Url h p path tls).

(** ** Credentials *)
Record creds := Creds { k_id : list N; k_secret : list N; k_token : list N; k_expiry : Z }.
Inductive src := EnvSrc | ProfSrc | WebSrc | ContSrc | ImdsSrc.
(** A request over HTTP. *)
Record http := Http { q_host : list N; q_port : list N; q_path : list N; q_method : list N;
  q_headers : list (list N * list N); q_body : list N; q_tls : bool }.
(** JSON texts: not JSON at all, not an object, or an object with members that are strings. *)
Inductive json := JBad | JOther | JObj (member : list N -> option (list N)).
(** The world: environment variables, files, servers; and the parsers of other libraries. [w_xml]:
    the children of the node Credentials, if there is one; [w_enc]: the encoding of form values. *)
Record world := World { w_env : list N -> option (list N); w_file : list N -> option (list N);
  w_net : http -> option (list N); w_json : list N -> json; w_xml : list N -> option (list N -> list N);
  w_time : list N -> option Z; w_enc : list N -> list N }.

Definition var (w : world) (n : string) : option (list N) := w_env w (text n).
(** The value of a variable that is set and not empty. *)
Definition has (w : world) (n : string) (v : list N) : Prop := var w n = Some v /\ v <> [].
Definition unset (w : world) (n : string) : Prop := forall v, ~ has w n v.
Definition or_else (o : option (list N)) (d : list N) : list N := match o with Some v => v | None => d end.
(** Expiry times that cannot be read are taken as none. *)
Definition expires (w : world) (s : option (list N)) (e : Z) : Prop :=
  match s with Some s => match w_time w s with Some t => e = t | None => e = 0%Z end | None => e = 0%Z end.
Definition home_file (w : world) (n : string) : list N :=
  or_else (var w "HOME") [] ++ text n.
Definition profile (w : world) : list N := or_else (var w "AWS_PROFILE") (text "default").
(** An object with the credentials, as container and metadata services give. *)
Definition json_creds (w : world) (body : list N) (c : creds) : Prop :=
  exists f, w_json w body = JObj f /\ f (text "AccessKeyId") = Some (k_id c) /\ f (text "SecretAccessKey") = Some (k_secret c)
    /\ k_token c = or_else (f (text "Token")) [] /\ expires w (f (text "Expiration")) (k_expiry c).
Definition metadata (path method : string) (rest : list N) (hs : list (list N * list N)) : http :=
  Http (text "169.254.169.254") (text "80") (text path ++ rest) (text method) hs [] false.
Definition china (region : list N) : Prop := exists t, region = text "cn-" ++ t.
(** Where temporary credentials of a region are got. *)
Definition sts_host (region h : list N) : Prop :=
  (china region /\ h = text "sts." ++ region ++ text ".amazonaws.com.cn") \/ (~ china region /\ h = text "sts.amazonaws.com").

(** [s] offers the credentials [c]. *)
Definition offers (w : world) (region : list N) (s : src) (c : creds) : Prop :=
  match s with
  | EnvSrc => has w "AWS_ACCESS_KEY_ID" (k_id c) /\ has w "AWS_SECRET_ACCESS_KEY" (k_secret c)
      /\ k_token c = or_else (var w "AWS_SESSION_TOKEN") [] /\ k_expiry c = 0%Z
  | ProfSrc => exists file is, w_file w (or_else (var w "AWS_SHARED_CREDENTIALS_FILE") (home_file w "/.aws/credentials")) = Some file
      /\ ini_file file is
      /\ (let es := section (profile w) is in
          setting (text "aws_access_key_id") es (k_id c) /\ setting (text "aws_secret_access_key") es (k_secret c)
          /\ setting (text "aws_session_token") es (k_token c))
      /\ k_id c <> [] /\ k_secret c <> [] /\ k_expiry c = 0%Z
  | WebSrc => exists role path file token body child host,
      has w "AWS_ROLE_ARN" role /\ has w "AWS_WEB_IDENTITY_TOKEN_FILE" path /\ w_file w path = Some file /\ trims file token
      /\ sts_host region host
      /\ w_net w (Http host (text "443") (text "/") (text "POST") [(text "content-type", text "application/x-www-form-urlencoded")]
           (text "Action=AssumeRoleWithWebIdentity&RoleArn=" ++ w_enc w role ++ text "&WebIdentityToken=" ++ w_enc w token
             ++ text "&RoleSessionName=helio&Version=2011-06-15") true) = Some body
      /\ w_xml w body = Some child
      /\ k_id c = child (text "AccessKeyId") /\ k_secret c = child (text "SecretAccessKey") /\ k_token c = child (text "SessionToken")
      /\ k_id c <> [] /\ k_secret c <> []
      /\ expires w (match child (text "Expiration") with [] => None | s => Some s end) (k_expiry c)
  | ContSrc => exists uri token e u body,
      ((exists r, has w "AWS_CONTAINER_CREDENTIALS_RELATIVE_URI" r /\ uri = text "http://169.254.170.2" ++ r)
        \/ (unset w "AWS_CONTAINER_CREDENTIALS_RELATIVE_URI" /\ has w "AWS_CONTAINER_CREDENTIALS_FULL_URI" uri))
      /\ match var w "AWS_CONTAINER_AUTHORIZATION_TOKEN" with
         | Some t => token = t
         | None => match var w "AWS_CONTAINER_AUTHORIZATION_TOKEN_FILE" with
                   | Some p => match w_file w p with Some f => trims f token | None => token = [] end
                   | None => token = []
                   end
         end
      /\ url_text uri e u
      /\ w_net w (Http (u_host u) (u_port u) (u_path u) (text "GET")
           (match token with [] => [] | t => [(text "Authorization", t)] end) [] (u_tls u)) = Some body
      /\ json_creds w body c
  | ImdsSrc => (forall d, var w "AWS_EC2_METADATA_DISABLED" = Some d ->
                  map (fun x => if (65 <=? x) && (x <=? 90) then x + 32 else x) d <> text "true")
      /\ exists tok token role name body,
         w_net w (metadata "/latest/api/token" "PUT" [] [(text "X-aws-ec2-metadata-token-ttl-seconds", text "21600")]) = Some tok
         /\ trims tok token
         /\ w_net w (metadata "/latest/meta-data/iam/security-credentials/" "GET" [] [(text "X-aws-ec2-metadata-token", token)]) = Some role
         /\ trims role name /\ name <> []
         /\ w_net w (metadata "/latest/meta-data/iam/security-credentials/" "GET" name [(text "X-aws-ec2-metadata-token", token)]) = Some body
         /\ json_creds w body c
  end.
(** The documented order. *)
Definition order : list src := [EnvSrc; ProfSrc; WebSrc; ContSrc; ImdsSrc].
(** The first in the order that offers any. *)
Definition first_offer (w : world) (region : list N) (s : src) (c : creds) : Prop :=
  exists before after, order = before ++ s :: after /\ offers w region s c
    /\ forall s' c', List.In s' before -> ~ offers w region s' c'.
(** Every server that answers answers with an object or something that is not JSON. *)
Definition proper (w : world) : Prop := forall q b, w_net w q = Some b -> b <> [] /\ w_json w b <> JOther.
(** A URL, and not one with an address in brackets and no port. *)
Definition url_ok (s : list N) : Prop :=
  (exists e u, url_text s e u) /\ forall e u, url_text s e u -> e = true \/ ~ List.In 58 (u_host u).
(** A container endpoint, if one is given, is such a URL. *)
Definition uri_ok (w : world) : Prop :=
  (forall r, has w "AWS_CONTAINER_CREDENTIALS_RELATIVE_URI" r -> url_ok (text "http://169.254.170.2" ++ r))
  /\ (forall r, has w "AWS_CONTAINER_CREDENTIALS_FULL_URI" r -> url_ok r).

(** ** Region and endpoint *)
Definition config_region (w : world) (r : list N) : Prop :=
  exists file is e1 e2,
    w_file w (or_else (var w "AWS_CONFIG_FILE") (home_file w "/.aws/config")) = Some file /\ ini_file file is
    /\ section (if list_eq_dec N.eq_dec (profile w) (text "default") then text "default" else text "profile " ++ profile w) is
       = e1 ++ (text "region", r) :: e2
    /\ r <> [] /\ forall v, List.In (text "region", v) e1 -> v = [].
(** The documented order, with the configuration file before the default. *)
Inductive region_rule (w : world) (given : list N) : list N -> Prop :=
| rr_given : given <> [] -> region_rule w given given
| rr_env r : given = [] -> has w "AWS_REGION" r -> region_rule w given r
| rr_env2 r : given = [] -> unset w "AWS_REGION" -> has w "AWS_DEFAULT_REGION" r -> region_rule w given r
| rr_file r : given = [] -> unset w "AWS_REGION" -> unset w "AWS_DEFAULT_REGION" -> config_region w r -> region_rule w given r
| rr_default : given = [] -> unset w "AWS_REGION" -> unset w "AWS_DEFAULT_REGION" -> (forall r, ~ config_region w r) ->
    region_rule w given (text "us-east-1").
(** host, with the port unless it is the usual one. *)
Definition endpoint_text (u : url) (s : list N) : Prop :=
  (u_port u = default_port (u_tls u) /\ s = u_host u) \/ (u_port u <> default_port (u_tls u) /\ s = u_host u ++ 58 :: u_port u).
Inductive endpoint_rule (w : world) (over region : list N) : list N -> Prop :=
| er_over e u s : over <> [] -> url_text over e u -> endpoint_text u s -> endpoint_rule w over region s
| er_env v e u s : over = [] -> has w "AWS_S3_ENDPOINT" v -> url_text v e u -> endpoint_text u s -> endpoint_rule w over region s
| er_china : over = [] -> unset w "AWS_S3_ENDPOINT" -> china region ->
    endpoint_rule w over region (text "s3." ++ region ++ text ".amazonaws.com.cn")
| er_world : over = [] -> unset w "AWS_S3_ENDPOINT" -> ~ china region ->
    endpoint_rule w over region (text "s3." ++ region ++ text ".amazonaws.com").
